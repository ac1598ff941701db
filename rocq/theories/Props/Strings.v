(* C17, C18, C21 - C24: string helpers *)
From Coq Require Import String.
From Verif Require Import Model.Base Model.StdString Model.Strings Spec.Strings Proofs.StringFacts Proofs.StringsProofs.
Local Open Scope Z_scope.
Local Open Scope list_scope.

(* C17 *)
Theorem C17_trim : forall s set m, fits s -> (trim_str s set = Ok m <-> IsTrim set s m).
Proof. exact trim_iff. Qed.
Print Assumptions C17_trim.

Theorem C17_trim_total : forall s set, fits s -> exists m, trim_str s set = Ok m /\ trim_str m set = Ok m.
Proof.
  intros s set Hf. destruct (trim_spec s set Hf) as (m & E & H). exists m. split; [exact E|].
  apply trim_iff; [eapply IsTrim_fits; eauto|eapply IsTrim_idem; eauto].
Qed.
Print Assumptions C17_trim_total.

Theorem C17_trim_unique : forall set s m1 m2, IsTrim set s m1 -> IsTrim set s m2 -> m1 = m2.
Proof. exact IsTrim_unique. Qed.
Print Assumptions C17_trim_unique.

Theorem C17_trim_right : forall s set m, fits s -> (trim_right_str s set = Ok m <-> IsTrimRight set s m).
Proof. exact trim_right_iff. Qed.
Print Assumptions C17_trim_right.

Example C17_nonvacuous :
  trim_str (lit "  a b ") default_delimiters = Ok (lit "a b") /\
  trim_str (lit "   ") default_delimiters = Ok [] /\
  trim_right_str (lit "  a b ") default_delimiters = Ok (lit "  a b").
Proof. repeat split; vm_compute; reflexivity. Qed.

(* C18 *)
Theorem C18_split : forall s seps ws, fits s -> (split_str s seps = Ok ws <-> Split (cstr seps) s ws).
Proof. exact split_iff. Qed.
Print Assumptions C18_split.

Theorem C18_split_total : forall s seps, fits s -> exists ws, split_str s seps = Ok ws.
Proof. intros s seps Hf. destruct (split_main s seps Hf) as (ws & E & _). eauto. Qed.
Print Assumptions C18_split_total.

Theorem C18_split_unique : forall seps s ws1 ws2, Split seps s ws1 -> Split seps s ws2 -> ws1 = ws2.
Proof. intros seps s ws1 ws2 H1 H2. eapply Split_unique; eauto. Qed.
Print Assumptions C18_split_unique.

(* words joined by separators come back, whatever surrounds them *)
Theorem C18_split_join : forall seps w rest lead trail,
  only (cstr seps) lead -> only (cstr seps) trail -> w <> [] -> free (cstr seps) w ->
  Forall (fun sw => fst sw <> [] /\ only (cstr seps) (fst sw) /\ snd sw <> [] /\ free (cstr seps) (snd sw)) rest ->
  fits (lead ++ join w rest ++ trail) ->
  split_str (lead ++ join w rest ++ trail) seps = Ok (w :: map snd rest).
Proof. intros seps w rest lead trail Hl Ht Hn Hw Hr Hf. apply split_iff; [exact Hf|]. apply Split_join; assumption. Qed.
Print Assumptions C18_split_join.

Example C18_nonvacuous :
  split_str (lit ";;a,b;c") (lit ",;") = Ok [lit "a"; lit "b"; lit "c"] /\
  join (lit "a") [(lit ",", lit "b"); (lit ";;", lit "c")] = lit "a,b;;c".
Proof. split; vm_compute; reflexivity. Qed.

(* C21 *)
Theorem C21_begins_with : forall s t, fits s -> (str_begins_with s t = true <-> Prefix t s).
Proof. exact begins_iff. Qed.
Print Assumptions C21_begins_with.

Theorem C21_ends_with : forall s t, fits s ->
  (str_ends_with s t = true <-> Suffix t s /\ forall n, OccursAt t s n -> (n + length t = length s)%nat).
Proof. exact ends_iff. Qed.
Print Assumptions C21_ends_with.

(* "str_ends_with( s, t ) holds for every suffix t" is false *)
Theorem C21_ends_with_refuted :
  exists s t, fits s /\ Suffix t s /\ str_ends_with s t = false.
Proof.
  exists (lit "abab"), (lit "ab"). split; [vm_compute; reflexivity|]. split; [exists (lit "ab"); reflexivity|vm_compute; reflexivity].
Qed.
Print Assumptions C21_ends_with_refuted.

Example C21_nonvacuous :
  str_begins_with (lit "file.txt") (lit "fi") = true /\ str_begins_with (lit "file.txt") (lit "le") = false /\
  str_ends_with (lit "file.txt") (lit ".txt") = true /\ str_ends_with (lit "file.txt") (lit "file") = false.
Proof. repeat split; vm_compute; reflexivity. Qed.

(* C22: n is an int; sizes are assumed below 2^31 where the code converts them *)
Theorem C22_left_str : forall s n,
  (0 <= n -> left_str s n = Ok (firstn (Z.to_nat n) s)) /\
  (n < 0 -> left_str s n = Ok (firstn (length s - Z.to_nat (- n)) s)).
Proof. intros s n. split; [apply left_str_nonneg|apply left_str_neg]. Qed.
Print Assumptions C22_left_str.

Theorem C22_right_str : forall s n, fits s -> - 2 ^ 31 < n < 2 ^ 31 ->
  (0 <= n <= Z.of_nat (length s) -> right_str s n = Ok (skipn (length s - Z.to_nat n) s)) /\
  (n < 0 -> - n <= Z.of_nat (length s) -> right_str s n = Ok (skipn (Z.to_nat (- n)) s)) /\
  (right_str s n = Throw <-> Z.of_nat (length s) < Z.abs n).
Proof.
  intros s n Hf Hn. fold (size_ s). pose proof (size_nonneg s). destruct (Z.le_gt_cases 0 n) as [H0|H0].
  - destruct (right_str_nonneg s n ltac:(lia) Hf) as [A B]. split; [intros; apply A; lia|]. split; [lia|]. split.
    + intros E. destruct (Z.le_gt_cases n (size_ s)) as [L|L]; [rewrite A in E by lia; discriminate|lia].
    + intros L. apply B. lia.
  - destruct (right_str_neg s n ltac:(lia) Hf) as [A B]. split; [lia|]. split; [intros; apply A; lia|]. split.
    + intros E. destruct (Z.le_gt_cases (- n) (size_ s)) as [L|L]; [rewrite A in E by lia; discriminate|lia].
    + intros L. apply B. lia.
Qed.
Print Assumptions C22_right_str.

(* the most negative int overflows on negation *)
Theorem C22_right_str_min : forall s, right_str s (- 2 ^ 31) = UB.
Proof. exact right_str_min. Qed.
Print Assumptions C22_right_str_min.

Theorem C22_mid_str : forall s pos n, 0 <= pos -> 0 <= n ->
  (pos <= Z.of_nat (length s) -> mid_str s pos n = Ok (firstn (Z.to_nat n) (skipn (Z.to_nat pos) s))) /\
  (Z.of_nat (length s) < pos -> mid_str s pos n = Throw).
Proof. exact mid_str_iff. Qed.
Print Assumptions C22_mid_str.

Theorem C22_left_of_str : forall s seps, fits s ->
  (free (cstr seps) s -> left_of_str s seps = Ok s) /\
  (forall a c b, s = a ++ c :: b -> free (cstr seps) a -> In c (cstr seps) -> left_of_str s seps = Ok a).
Proof. exact left_of_spec. Qed.
Print Assumptions C22_left_of_str.

Theorem C22_right_of_str : forall s seps, fits s ->
  (free (cstr seps) s -> right_of_str s seps = Ok s) /\
  (forall a c b, s = a ++ c :: b -> In c (cstr seps) -> free (cstr seps) b -> right_of_str s seps = Ok b).
Proof. exact right_of_spec. Qed.
Print Assumptions C22_right_of_str.

Example C22_nonvacuous :
  left_str (lit "hello") 2 = Ok (lit "he") /\ left_str (lit "hello") (-2) = Ok (lit "hel") /\
  right_str (lit "hello") 2 = Ok (lit "lo") /\ right_str (lit "hello") 6 = Throw /\
  left_of_str (lit "a.b.c") (lit ".") = Ok (lit "a") /\ right_of_str (lit "a.b.c") (lit ".") = Ok (lit "c").
Proof. repeat split; vm_compute; reflexivity. Qed.

(* C23 *)
Theorem C23_key_value : forall s seps, fits s ->
  (free (cstr seps) s -> make_key_value_str s seps = Ok (s, [])) /\
  (forall a c b, s = a ++ c :: b -> free (cstr seps) a -> In c (cstr seps) ->
     exists k v, make_key_value_str s seps = Ok (k, v) /\ IsTrim default_delimiters a k /\ IsTrim default_delimiters b v).
Proof. exact key_value_spec. Qed.
Print Assumptions C23_key_value.

(* composing a line from a key and a value and splitting it again *)
Theorem C23_key_value_roundtrip : forall k c v seps l1 r1 l2 r2,
  In c (cstr seps) -> free (cstr seps) (l1 ++ k ++ r1) ->
  only default_delimiters l1 -> only default_delimiters r1 -> only default_delimiters l2 -> only default_delimiters r2 ->
  IsTrim default_delimiters k k -> IsTrim default_delimiters v v ->
  fits ((l1 ++ k ++ r1) ++ c :: l2 ++ v ++ r2) ->
  make_key_value_str ((l1 ++ k ++ r1) ++ c :: l2 ++ v ++ r2) seps = Ok (k, v).
Proof.
  intros k c v seps l1 r1 l2 r2 Hc Hfree A1 A2 A3 A4 Hk Hv Hf.
  destruct (key_value_spec _ seps Hf) as [_ H]. destruct (H _ _ _ eq_refl Hfree Hc) as (k' & v' & E & Tk & Tv).
  rewrite E. f_equal. f_equal.
  - eapply IsTrim_unique; [exact Tk|]. destruct Hk as (l & r & Ek & _ & _ & F & B). exists l1, r1. auto.
  - eapply IsTrim_unique; [exact Tv|]. destruct Hv as (l & r & Ek & _ & _ & F & B). exists l2, r2. auto.
Qed.
Print Assumptions C23_key_value_roundtrip.

Example C23_nonvacuous :
  make_key_value_str (lit " key = a=b ") (lit "=") = Ok (lit "key", lit "a=b") /\
  make_key_value_str (lit " key ") (lit "=") = Ok (lit " key ", []).
Proof. split; vm_compute; reflexivity. Qed.

(* C24 *)
Theorem C24_extension : forall s, fits s -> exists e, get_filename_ext s = Ok e /\ free SEPS e /\ free ["."%char] e /\
  (e <> [] -> exists b, s = b ++ "."%char :: e /\ get_filename_without_ext s = Ok b) /\
  (e = [] -> get_filename_without_ext s = Ok s) /\
  (forall b e', s = b ++ "."%char :: e' -> free SEPS e' -> free ["."%char] e' -> e = e').
Proof. exact ext_spec. Qed.
Print Assumptions C24_extension.

Theorem C24_folder : forall s, fits s ->
  (free SEPS s -> get_filename_folder s = Ok s /\ get_filename_without_folder s = Ok s) /\
  (forall a c b, s = a ++ c :: b -> In c SEPS -> free SEPS b ->
     get_filename_folder s = Ok (a ++ [c]) /\ get_filename_without_folder s = Ok b).
Proof. exact folder_spec. Qed.
Print Assumptions C24_folder.

(* "folder + name = s" holds exactly when s contains a separator or is empty *)
Theorem C24_folder_recompose : forall s, fits s -> exists f n,
  get_filename_folder s = Ok f /\ get_filename_without_folder s = Ok n /\ (f ++ n = s <-> (s = [] \/ ~ free SEPS s)).
Proof.
  intros s Hf. destruct (folder_spec s Hf) as [A B].
  destruct (split_last (mem SEPS) s) as [H|(a & c & b & -> & Hc & Hb)].
  - apply Forall_mem_free in H. destruct (A H) as [E1 E2]. exists s, s. split; [exact E1|]. split; [exact E2|]. split.
    + intros E. left. rewrite <- (app_nil_r s) in E at 3. apply app_inv_head in E. exact E.
    + intros [->|N]; [reflexivity|contradiction].
  - apply mem_In in Hc. apply Forall_mem_free in Hb. destruct (B a c b eq_refl Hc Hb) as [E1 E2]. exists (a ++ [c]), b. split; [exact E1|]. split; [exact E2|]. split.
    + intros _. right. intros F. apply Forall_app in F. destruct F as [_ F]. inversion F; subst. contradiction.
    + intros _. rewrite <- app_assoc. reflexivity.
Qed.
Print Assumptions C24_folder_recompose.

Example C24_nonvacuous :
  get_filename_ext (lit "/a.b/c.tar.gz") = Ok (lit "gz") /\ get_filename_ext (lit "/a.b/c") = Ok [] /\
  get_filename_without_ext (lit "/a.b/c.tar.gz") = Ok (lit "/a.b/c.tar") /\
  get_filename_folder (lit "/a.b/c") = Ok (lit "/a.b/") /\ get_filename_without_folder (lit "/a.b/c") = Ok (lit "c").
Proof. repeat split; vm_compute; reflexivity. Qed.
