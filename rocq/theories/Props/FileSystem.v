(* C50, C51: making folders and copying files. *)
From Verif Require Import Model.Base Model.StdString Model.Strings Model.Number Model.Path Model.FileSystem.
From Verif Require Import Spec.Strings Spec.FileSystem Proofs.FileSystemProofs.
From Coq Require Import String.
Local Open Scope list_scope.
Local Open Scope Z_scope.

(* a file system with the folders /w and /w/run, and a file /w/a.txt *)
Definition k_ (l : list string) : list str := map lit l.
Definition disk : fs := fun k =>
  if name_dec k [] then Some Dir else if name_dec k (k_ ["w"]%string) then Some Dir else if name_dec k (k_ ["w"; "run"]%string) then Some Dir
  else if name_dec k (k_ ["w"; "a.txt"]%string) then Some (File (lit "hello")) else None.
Definition home : list str := k_ ["w"]%string.
Lemma disk_tree : Tree disk.
Proof.
  split; [reflexivity|]. intros k c n H. unfold disk in H. 
  assert (X : k ++ [c] = [] \/ k ++ [c] = k_ ["w"]%string \/ k ++ [c] = k_ ["w"; "run"]%string \/ k ++ [c] = k_ ["w"; "a.txt"]%string).
  { destruct (name_dec (k ++ [c]) []); [auto|]. destruct (name_dec (k ++ [c]) (k_ ["w"]%string)); [auto|]. destruct (name_dec (k ++ [c]) (k_ ["w"; "run"]%string)); [auto|].
    destruct (name_dec (k ++ [c]) (k_ ["w"; "a.txt"]%string)); [auto|discriminate]. }
  clear H. destruct X as [X|[X|[X|X]]].
  - destruct k; discriminate.
  - apply (app_inj_tail k [] c (lit "w")) in X as [-> _]. reflexivity.
  - apply (app_inj_tail k (k_ ["w"]%string) c (lit "run")) in X as [-> _]. reflexivity.
  - apply (app_inj_tail k (k_ ["w"]%string) c (lit "a.txt")) in X as [-> _]. reflexivity.
Qed.
Lemma clean_lit s : forallb (fun c => negb (Ascii.eqb c "/") && negb (Ascii.eqb c "\") && negb (Ascii.eqb c NUL))%char s = true ->
  s <> [] -> s <> lit "." -> s <> lit ".." -> Clean s.
Proof.
  intros F A B C. rewrite forallb_forall in F. assert (X : forall x, In x s -> x <> "/"%char /\ x <> "\"%char /\ x <> NUL).
  { intros x I. apply F in I. apply andb_prop in I as [I I3]. apply andb_prop in I as [I1 I2]. apply negb_true_iff, Ascii.eqb_neq in I1, I2, I3. auto. }
  split; [exact A|]. split; [exact B|]. split; [exact C|]. split; [|split]; intros I; destruct (X _ I) as (Y1 & Y2 & Y3); auto.
Qed.
Ltac clean := apply clean_lit; [reflexivity|discriminate|discriminate|discriminate].

(* C50: whatever the path, the call throws, or it returns one of the first
   max_attempts names: nothing had this name before, it is a folder now, all
   that was there still is, and only folders came with it. *)
Theorem C50_create_unique_folder : forall cwd s folder max,
  Z.of_nat (List.length folder) + 24 < 2 ^ 63 ->
  create_unique_folder cwd s folder max = Throw \/
  exists i t, create_unique_folder cwd s folder max = Ok (folder ++ mark i, t) /\ 0 <= i < max /\
    stat cwd s (folder ++ mark i) = None /\ stat cwd t (folder ++ mark i) = Some Dir /\
    Only_more_folders s t /\ (Tree s -> Tree t).
Proof. intros cwd s folder max L. unfold create_unique_folder. apply unique_any; [exact L|lia|lia|lia]. Qed.

(* C50: for a plain name that no file stands in the way of, it is the first
   free one of "name", "name (1)", "name (2)", ..., and exactly the missing
   folders on the way to it are made; the call throws exactly if none is free. *)
Theorem C50_first_free_name : forall cwd s folder k max,
  Z.of_nat (List.length folder) + 24 < 2 ^ 63 -> max <= 2 ^ 31 -> Tree s -> s cwd = Some Dir ->
  Names cwd folder k -> Unblocked s k ->
  (create_unique_folder cwd s folder max = Throw /\ forall i k', 0 <= i < max -> Numbered k i k' -> s k' <> None) \/
  exists i k' t, create_unique_folder cwd s folder max = Ok (folder ++ mark i, t) /\ 0 <= i < max /\ Numbered k i k' /\
    Names cwd (folder ++ mark i) k' /\ s k' = None /\ (forall j kj, 0 <= j < i -> Numbered k j kj -> s kj <> None) /\ With_folders k' s t.
Proof.
  intros cwd s folder k max L X T W N U. destruct (names_key _ _ _ N) as (a & c & ->). unfold create_unique_folder.
  destruct (unique_plain cwd folder a c max L X N (S (Z.to_nat max)) s 0 ltac:(lia) ltac:(lia) ltac:(lia) T W U) as [(E & H)|(i & t & E & I & K & H & V)].
  - left. split; [exact E|]. intros i k' I (a' & c' & E1 & ->). apply app_inj_tail in E1 as [<- <-]. apply H. exact I.
  - right. exists i, (a ++ [c ++ mark i]), t. split; [exact E|]. split; [exact I|]. split; [exists a, c; auto|].
    split. { destruct (names_mark cwd folder (a ++ [c]) i ltac:(lia) N) as (a' & c' & E1 & N1). apply app_inj_tail in E1 as [<- <-]. exact N1. }
    split; [exact K|]. split; [|exact V]. intros j kj J (a' & c' & E1 & ->). apply app_inj_tail in E1 as [<- <-]. apply H. exact J.
Qed.

(* C50: with a file in the way it throws. *)
Theorem C50_blocked_throws : forall cwd s folder k max,
  Z.of_nat (List.length folder) + 24 < 2 ^ 63 -> max <= 2 ^ 31 -> Tree s -> s cwd = Some Dir ->
  Names cwd folder k -> (exists a c r f, k = a ++ c :: r /\ s a = Some (File f)) -> create_unique_folder cwd s folder max = Throw.
Proof.
  intros cwd s folder k max L X T W N (a & c & r & f & E & A). destruct (@exists_last _ (c :: r)) as (r' & y & E'); [discriminate|].
  rewrite E', app_assoc in E. subst k. unfold create_unique_folder. apply (unique_blocked cwd folder (a ++ r') y max L X N); try lia; [exact T|exact W|].
  exists a, r', f. auto.
Qed.

(* C50: create_directories makes exactly the missing folders, and tells if the
   last of them was missing. *)
Theorem C50_create_directories : forall cwd s p k, fits p -> Tree s -> s cwd = Some Dir -> Names cwd p k -> Unblocked s k ->
  exists b t, create_directories (S (List.length p)) cwd s p = Ok (b, t) /\ (b = true <-> s k = None) /\ With_folders k s t.
Proof.
  intros cwd s p k F T W N U. destruct (create_plain cwd s p k F T W N U (S (List.length p)) ltac:(lia)) as (t & E & V).
  eexists _, t. split; [exact E|]. split; [|exact V]. destruct (s k); split; congruence.
Qed.

(* C50, concretely: "run" exists, so "run (1)" is made; a nested path is made as
   a whole; "a.txt" is a file *)
Example C50_case : exists t,
  create_unique_folder home disk (lit "run") 9999 = Ok (lit "run (1)", t) /\
  t (k_ ["w"; "run (1)"]%string) = Some Dir /\ t (k_ ["w"; "run"]%string) = Some Dir.
Proof. eexists. split; [vm_compute; reflexivity|split; vm_compute; reflexivity]. Qed.
Example C50_nested : exists t,
  create_unique_folder home disk (lit "/w/x/y") 9999 = Ok (lit "/w/x/y", t) /\
  t (k_ ["w"; "x"]%string) = Some Dir /\ t (k_ ["w"; "x"; "y"]%string) = Some Dir /\ t (k_ ["w"; "a.txt"]%string) = Some (File (lit "hello")).
Proof. eexists. split; [vm_compute; reflexivity|split; [|split]; vm_compute; reflexivity]. Qed.
Example C50_blocked : create_unique_folder home disk (lit "a.txt/x") 50 = Throw.
Proof. vm_compute. reflexivity. Qed.
Example C50_names : Names home (lit "run/x") (k_ ["w"; "run"; "x"]%string) /\ Tree disk.
Proof.
  split; [|exact disk_tree]. apply (N_in home (lit "run") (k_ ["w"; "run"]%string) (lit "x")); [|clean]. apply (N_here home (lit "run")). clean.
Qed.

(* C50: a name with a separator at its end is not free the first time, because
   making its parent makes it: create_directories denies having made the folder,
   and the unique folder ends up inside the wanted one. *)
Theorem C50_trailing_separator_refuted :
  ~ (forall cwd s folder, Tree s -> s cwd = Some Dir -> stat cwd s folder = None -> forall u t, create_unique_folder cwd s folder 9999 = Ok (u, t) -> u = folder).
Proof.
  intros H. assert (X : exists t, create_unique_folder home disk (lit "x/") 9999 = Ok (lit "x/ (1)", t)) by (eexists; vm_compute; reflexivity).
  destruct X as (t & X). specialize (H home disk (lit "x/") disk_tree eq_refl ltac:(vm_compute; reflexivity) _ _ X). discriminate.
Qed.
Example C50_trailing_case : exists t, create_directories 9 home disk (lit "x/y/") = Ok (false, t) /\ t (k_ ["w"; "x"; "y"]%string) = Some Dir.
Proof. eexists. split; vm_compute; reflexivity. Qed.

(* C51: where a file can be written *)
Definition Writable (s : fs) (k : list str) : Prop := s k <> Some Dir /\ exists a c, k = a ++ [c] /\ s a = Some Dir.
(* t is s but for what is at k *)
Definition Only_at (k : list str) (n : option node) (s t : fs) : Prop := t k = n /\ forall k', k' <> k -> t k' = s k'.

Lemma only_put s k n m : Only_at k (Some m) s (put (put s k n) k m).
Proof. split; [apply put_same|]. intros k' N. rewrite !put_other by exact N. reflexivity. Qed.

(* C51: an existing file copied to another name that can be written, and is
   free or allowed to be overwritten: the copy loads as the original, and
   nothing else changes. *)
Theorem C51_copy : forall cwd s from to kf kt x overwrite,
  Tree s -> s cwd = Some Dir -> Names cwd from kf -> Names cwd to kt ->
  s kf = Some (File x) -> kf <> kt -> Writable s kt -> (overwrite = true \/ s kt = None) ->
  exists t, copy_file cwd s from to overwrite = (true, t) /\ Only_at kt (Some (File x)) s t /\
    load_string cwd t to = Ok x /\ load_string cwd t from = Ok x.
Proof.
  intros cwd s from to kf kt x overwrite T W Nf Nt F D (ND & a & c & -> & A) O.
  assert (E : exists t, copy_file cwd s from to overwrite = (true, t) /\ Only_at (a ++ [c]) (Some (File x)) s t).
  { exists (put (put s (a ++ [c]) (File [])) (a ++ [c]) (File x)). split; [|apply only_put]. rewrite (copy_plain cwd s from to kf a c overwrite T W Nf Nt).
    cbv zeta. rewrite (put_other s (a ++ [c]) (File []) kf) by exact D. rewrite F, A.
    destruct (s (a ++ [c])) as [[|f]|]; [congruence| |reflexivity]. destruct O as [->|O]; [reflexivity|discriminate]. }
  destruct E as (t & E & O1 & O2). exists t. split; [exact E|]. split; [split; assumption|].
  assert (Tt : Tree t).
  { apply (same_tree (put s (a ++ [c]) (File x))); [|apply tree_put; assumption]. intros k. unfold put. destruct (name_dec k (a ++ [c])) as [->|N]; [exact O1|apply O2; exact N]. }
  assert (Wt : t cwd = Some Dir) by (rewrite O2; [exact W|intros E1; rewrite E1 in W; contradiction]).
  unfold load_string, open_read, read_all. rewrite (names_stat cwd t to _ Tt Wt Nt), (names_stat cwd t from _ Tt Wt Nf), O1, (O2 kf D), F. split; reflexivity.
Qed.

(* C51: what exists is kept unless overwriting was asked for *)
Theorem C51_keeps_existing : forall cwd s from to kf kt,
  Tree s -> s cwd = Some Dir -> Names cwd from kf -> Names cwd to kt -> s kt <> None -> copy_file cwd s from to false = (false, s).
Proof.
  intros cwd s from to kf kt T W Nf Nt K. destruct (names_key _ _ _ Nt) as (a & c & ->). rewrite (copy_plain cwd s from to kf a c false T W Nf Nt).
  destruct (s (a ++ [c])) as [[|f]|]; [reflexivity|reflexivity|contradiction].
Qed.
(* C51: a folder is never overwritten, and no folder is made for the copy *)
Theorem C51_no_place : forall cwd s from to kf kt overwrite,
  Tree s -> s cwd = Some Dir -> Names cwd from kf -> Names cwd to kt -> ~ Writable s kt -> copy_file cwd s from to overwrite = (false, s).
Proof.
  intros cwd s from to kf kt overwrite T W Nf Nt K. destruct (names_key _ _ _ Nt) as (a & c & ->). rewrite (copy_plain cwd s from to kf a c overwrite T W Nf Nt).
  destruct (s (a ++ [c])) as [[|f]|] eqn:E; [reflexivity| |].
  - exfalso. apply K. split; [congruence|]. exists a, c. split; [reflexivity|]. destruct T as [_ T]. exact (T _ _ _ E).
  - destruct (s a) as [[|f]|] eqn:A; [|reflexivity|reflexivity]. exfalso. apply K. split; [congruence|]. exists a, c. auto.
Qed.
(* C51: a missing source leaves an empty file, in place of the old one if it
   may be overwritten, and false is returned *)
Theorem C51_missing_source : forall cwd s from to kf kt overwrite,
  Tree s -> s cwd = Some Dir -> Names cwd from kf -> Names cwd to kt -> s kf = None -> Writable s kt -> (overwrite = true \/ s kt = None) ->
  exists t, copy_file cwd s from to overwrite = (false, t) /\ Only_at kt (Some (File [])) s t.
Proof.
  intros cwd s from to kf kt overwrite T W Nf Nt F (ND & a & c & -> & A) O. exists (put s (a ++ [c]) (File [])).
  split; [|split; [apply put_same|intros k N; apply put_other; exact N]]. rewrite (copy_plain cwd s from to kf a c overwrite T W Nf Nt).
  rewrite F, A. destruct (s (a ++ [c])) as [[|f]|]; [congruence| |reflexivity]. destruct O as [->|O]; [reflexivity|discriminate].
Qed.
(* C51: a file copied onto itself is emptied, and true is returned; so is the
   target when the source is a folder *)
Theorem C51_onto_itself : forall cwd s from to k x,
  Tree s -> s cwd = Some Dir -> Names cwd from k -> Names cwd to k -> s k = Some (File x) ->
  exists t, copy_file cwd s from to true = (true, t) /\ Only_at k (Some (File [])) s t.
Proof.
  intros cwd s from to k x T W Nf Nt F. destruct (names_key _ _ _ Nt) as (a & c & ->). eexists. rewrite (copy_plain cwd s from to _ a c true T W Nf Nt).
  cbv zeta. rewrite F, put_same. split; [reflexivity|apply only_put].
Qed.
Theorem C51_folder_source : forall cwd s from to kf kt overwrite,
  Tree s -> s cwd = Some Dir -> Names cwd from kf -> Names cwd to kt -> s kf = Some Dir -> Writable s kt -> (overwrite = true \/ s kt = None) ->
  exists t, copy_file cwd s from to overwrite = (true, t) /\ Only_at kt (Some (File [])) s t.
Proof.
  intros cwd s from to kf kt overwrite T W Nf Nt F (ND & a & c & -> & A) O. exists (put (put s (a ++ [c]) (File [])) (a ++ [c]) (File [])).
  split; [|apply only_put]. rewrite (copy_plain cwd s from to kf a c overwrite T W Nf Nt).
  assert (D : kf <> a ++ [c]) by (intros E; rewrite E in F; contradiction).
  cbv zeta. rewrite (put_other s (a ++ [c]) (File []) kf) by exact D. rewrite F, A. destruct (s (a ++ [c])) as [[|f]|]; [congruence| |reflexivity]. destruct O as [->|O]; [reflexivity|discriminate].
Qed.
(* so a call that returns false can have destroyed its target *)
Theorem C51_failure_keeps_target_refuted :
  ~ (forall cwd s from to t, Tree s -> s cwd = Some Dir -> copy_file cwd s from to true = (false, t) -> Same s t).
Proof.
  intros H. assert (X : exists t, copy_file home disk (lit "none") (lit "a.txt") true = (false, t) /\ t (k_ ["w"; "a.txt"]%string) = Some (File [])).
  { eexists. split; vm_compute; reflexivity. }
  destruct X as (t & E & V). specialize (H home disk _ _ t disk_tree eq_refl E (k_ ["w"; "a.txt"]%string)). rewrite V in H. vm_compute in H. discriminate.
Qed.
(* C51: on MSVC the flag means the opposite: true fails if the target exists *)
Theorem C51_msvc_flag_inverted : forall cwd s from to kf kt x y,
  Tree s -> s cwd = Some Dir -> Names cwd from kf -> Names cwd to kt -> kf <> kt -> s kf = Some (File x) -> s kt = Some (File y) ->
  copy_file_msvc cwd s from to true = (false, s) /\
  exists t, copy_file_msvc cwd s from to false = (true, t) /\ Only_at kt (Some (File x)) s t.
Proof.
  intros cwd s from to kf kt x y T W Nf Nt D F K. destruct (names_key _ _ _ Nt) as (a & c & ->). destruct (names_key _ _ _ Nf) as (b & d & Ef). unfold copy_file_msvc, CopyFile.
  rewrite (names_stat cwd s from _ T W Nf), (names_stat cwd s to _ T W Nt), F, K. split; [reflexivity|].
  rewrite (names_write cwd s to a c T W Nt), K. pose proof T as [_ T1]. rewrite (T1 _ _ _ K). rewrite (names_cstr _ _ _ Nf), (names_lookup cwd s from kf T W Nf b d Ef).
  rewrite Ef in F. rewrite (T1 _ _ _ F). destruct (name_dec (a ++ [c]) kf); [congruence|]. eexists. split; [reflexivity|]. split; [apply put_same|]. intros k N. apply put_other. exact N.
Qed.

Example C51_case : exists t, copy_file home disk (lit "a.txt") (lit "/w/run/b.txt") false = (true, t) /\
  load_string home t (lit "run/b.txt") = Ok (lit "hello") /\ load_string home t (lit "../w/a.txt") = Ok (lit "hello").
Proof. eexists. split; [vm_compute; reflexivity|split; vm_compute; reflexivity]. Qed.
Example C51_self_case : exists t, copy_file home disk (lit "a.txt") (lit "a.txt") true = (true, t) /\ load_string home t (lit "a.txt") = Ok [].
Proof. eexists. split; vm_compute; reflexivity. Qed.
Example C51_writable : Writable disk (k_ ["w"; "a.txt"]%string).
Proof. split; [vm_compute; discriminate|]. exists (k_ ["w"]%string), (lit "a.txt"). split; reflexivity. Qed.

Print Assumptions C50_create_unique_folder.
Print Assumptions C50_first_free_name.
Print Assumptions C50_blocked_throws.
Print Assumptions C51_copy.
Print Assumptions C51_msvc_flag_inverted.
