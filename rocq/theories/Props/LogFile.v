(* C89: log files contain exactly the messages meant for them *)
From Coq Require Import String.
From Verif Require Import Model.Base Model.StdString Model.Strings Model.Log Model.FileSystem Model.LogFile Spec.Log Spec.FileSystem
  Proofs.LogProofs Proofs.FileSystemProofs Props.FileSystem Spec.LogFile Proofs.LogFileProofs.
Local Open Scope list_scope.
Local Open Scope Z_scope.

(* Whatever happened before and since, the file of a sink that nobody else
   writes to holds the messages for this sink, one per line and in order, at
   every moment. *)
Theorem C89_file : forall cwd s0 h st s k, Tree s0 -> s0 cwd = Some Dir -> Plain cwd h -> lf_run cwd (lf_init s0) (rev h) = Ok st ->
  Sole cwd s0 h s k ->
  exists ts, Inbox h s ts /\ (forall us, Inbox h s us -> us = ts) /\ lf_fs st k = Some (File (lines ts)).
Proof.
  intros cwd s0 h st s k T W P E S. destruct (track_start cwd s0 h st T W P E) as [TR _]. destruct (tr_sole _ _ _ _ TR s k S) as (ts & I & K & _). exists ts.
  split; [exact I|]. split; [|exact K]. intros us U. exact (inbox_fun h s us ts U I).
Qed.
(* The messages can be told from the file when none has a line end in it. *)
Theorem C89_readable : forall ts us, (forall t, In t ts -> ~ In LF t) -> (forall t, In t us -> ~ In LF t) -> lines ts = lines us -> ts = us.
Proof. intros ts us. exact (lines_inj ts us). Qed.
(* Nothing written is changed later. *)
Theorem C89_append : forall cwd s0 h o st st' s k, Tree s0 -> s0 cwd = Some Dir -> Plain cwd (o :: h) ->
  lf_run cwd (lf_init s0) (rev h) = Ok st -> lf_run cwd (lf_init s0) (rev (o :: h)) = Ok st' -> Sole cwd s0 h s k -> Sole cwd s0 (o :: h) s k ->
  (forall l p, o <> NewFile s l p) ->
  exists c t, lf_fs st k = Some (File c) /\ lf_fs st' k = Some (File (c ++ t)).
Proof.
  intros cwd s0 h o st st' s k T W P E E' S S' N. destruct (C89_file cwd s0 h st s k T W (plain_tail cwd [o] h P) E S) as (ts & I & U & K).
  destruct (C89_file cwd s0 (o :: h) st' s k T W P E' S') as (us & J & _ & K'). rewrite K, K'. exists (lines ts).
  assert (X : us = ts \/ exists t, us = ts ++ [t]).
  { inversion J; subst; try (left; apply U; assumption); try (right; eexists; f_equal; apply U; eassumption). exfalso. eapply N. reflexivity. }
  destruct X as [->|[t ->]]; [exists []; rewrite app_nil_r; auto|]. exists (t ++ [LF]). rewrite lines_snoc. auto.
Qed.
(* Everything else on the disk stays as it was, also what could not be opened. *)
Theorem C89_frame : forall cwd s0 h st k, Tree s0 -> s0 cwd = Some Dir -> Plain cwd h -> lf_run cwd (lf_init s0) (rev h) = Ok st ->
  (forall s l p, In (NewFile s l p) h -> ~ Names cwd p k) \/ ~ Writable s0 k -> lf_fs st k = s0 k.
Proof. intros cwd s0 h st k T W P E H. destruct (track_start cwd s0 h st T W P E) as [TR _]. exact (tr_frame _ _ _ _ TR k H). Qed.
(* good() tells whether the file was opened. *)
Theorem C89_good : forall cwd s0 h st s l p k, Tree s0 -> s0 cwd = Some Dir -> Plain cwd (NewFile s l p :: h) -> Names cwd p k ->
  lf_run cwd (lf_init s0) (rev (NewFile s l p :: h)) = Ok st -> (good st s = true <-> Writable s0 k).
Proof.
  intros cwd s0 h st s l p k T W P N E. cbn [rev] in E.
  assert (X : exists st1, lf_run cwd (lf_init s0) (rev h) = Ok st1 /\ lf_step cwd st1 (NewFile s l p) = Ok st).
  { clear - E. revert E. generalize (lf_init s0). induction (rev h) as [|o ops IH]; intros st0 E; cbn [app lf_run] in E.
    - destruct (lf_step cwd st0 (NewFile s l p)) as [x| | |] eqn:S; try discriminate; [injection E as <-; exists st0; auto|]. apply step_throw in S. discriminate.
    - cbn [lf_run]. destruct (lf_step cwd st0 o); try discriminate; apply IH; exact E. }
  destruct X as (st1 & E1 & S). destruct (track_start cwd s0 h st1 T W (plain_tail cwd [_] h P) E1) as [TR _]. cbn [lf_step] in S.
  destruct (log_step (lf_log st1) (New s l)) as [g| | |]; try discriminate. cbn [bind] in S. destruct (disk_open cwd s0 (lf_fs st1) p k (tr_disk _ _ _ _ TR) N) as [[X WR]|[X NW]]; rewrite X in S; injection S as <-; unfold good; cbn [lf_file]; rewrite update_eq; split; auto; try discriminate; contradiction.
Qed.
(* Files have no influence on who receives a message. *)
Theorem C89_log : forall cwd s0 h st, lf_run cwd (lf_init s0) (rev h) = Ok st -> log_run log_init (rev (calls h)) = Ok (lf_log st).
Proof. intros cwd s0 h st E. apply run_log in E. rewrite rev_involutive in E. exact E. Qed.
(* Exactly the lawful histories are defined. *)
Theorem C89_defined : forall cwd s0 h, Tree s0 -> s0 cwd = Some Dir -> Plain cwd h -> (Lawful h <-> exists st, lf_run cwd (lf_init s0) (rev h) = Ok st).
Proof.
  intros cwd s0 h T W P. split.
  - intros L. apply (lawful_run cwd s0 (rev h) [] (lf_init s0) (track_init cwd s0 T W) Fair_start); rewrite rev_involutive, app_nil_r; assumption.
  - intros [st E]. assert (L0 : Lawful []) by (split; [constructor|intros [|] ? ? ? C; discriminate]).
    pose proof (run_lawful cwd s0 (rev h) [] (lf_init s0) st (track_init cwd s0 T W) Fair_start) as X. rewrite rev_involutive, app_nil_r in X. exact (X P L0 E).
Qed.

Lemma names_log n : Clean (lit n) -> Names home (lit n) (home ++ [lit n]).
Proof. apply N_here. Qed.
Definition at_ (n : string) : list str := home ++ [lit n].
(* C89: a message with a line end in it cannot be told from two messages *)
Theorem C89_line_end_refuted : exists h1 h2 st1 st2 ts1 ts2,
  lf_run home (lf_init disk) (rev h1) = Ok st1 /\ lf_run home (lf_init disk) (rev h2) = Ok st2 /\
  Sole home disk h1 0%nat (at_ "x.log") /\ Sole home disk h2 0%nat (at_ "x.log") /\ Inbox h1 0%nat ts1 /\ Inbox h2 0%nat ts2 /\ ts1 <> ts2 /\
  lf_fs st1 (at_ "x.log") = lf_fs st2 (at_ "x.log").
Proof.
  exists [Message 3 (lit "a" ++ [LF] ++ lit "b"); NewFile 0%nat 0 (lit "x.log")], [Message 3 (lit "b"); Message 3 (lit "a"); NewFile 0%nat 0 (lit "x.log")].
  eexists. eexists. exists [lit "a" ++ [LF] ++ lit "b"], [lit "a"; lit "b"].
  assert (N : Names home (lit "x.log") (at_ "x.log")) by (apply N_here; clean).
  assert (S : Sole home disk [NewFile 0%nat 0 (lit "x.log")] 0%nat (at_ "x.log")).
  { apply Sole_new; [exact N| |intros s' _ []]. split; [discriminate|]. exists home, (lit "x.log"). split; reflexivity. }
  assert (M : Meant [NewFile 0%nat 0 (lit "x.log")] 0%nat 3).
  { exists [0%nat], 0. split; [apply (Reg_new [] []); constructor|]. split; [left; reflexivity|]. split; [apply Lev_new|lia]. }
  split; [vm_compute; reflexivity|]. split; [vm_compute; reflexivity|]. split; [apply Sole_keep; try discriminate; exact S|]. split; [apply Sole_keep; try discriminate; apply Sole_keep; try discriminate; exact S|].
  split; [apply (Inbox_get _ _ []); [apply Inbox_new|exact M]|]. split; [apply (Inbox_get _ _ [lit "a"]); [apply (Inbox_get _ _ []); [apply Inbox_new|exact M]|exact M]|]. split; [discriminate|vm_compute; reflexivity].
Qed.
(* C89: opening a log file loses what an earlier run wrote to it *)
Theorem C89_earlier_runs_refuted : exists st c,
  disk (at_ "a.txt") = Some (File c) /\ c <> [] /\ lf_run home (lf_init disk) [NewFile 0%nat 0 (lit "a.txt")] = Ok st /\ lf_fs st (at_ "a.txt") = Some (File []).
Proof. eexists. exists (lit "hello"). split; [vm_compute; reflexivity|]. split; [discriminate|]. split; [reflexivity|vm_compute; reflexivity]. Qed.
(* C89: of two sinks for one file, one overwrites what the other wrote *)
Theorem C89_shared_refuted : exists st,
  lf_run home (lf_init disk) [NewFile 0%nat 5 (lit "x.log"); NewFile 1%nat 0 (lit "x.log"); Message 3 (lit "first"); Message 5 (lit "second")] = Ok st /\
  lf_fs st (at_ "x.log") = Some (File (lit "secondsecond" ++ [LF])).
Proof. eexists. split; [reflexivity|vm_compute; reflexivity]. Qed.
(* C89: messages to a file that cannot be opened are lost without a word *)
Theorem C89_no_place_refuted : exists st,
  lf_run home (lf_init disk) [NewFile 0%nat 0 (lit "none/x.log"); Message 6 (lit "lost")] = Ok st /\
  message (lf_log st) 6 = [0%nat] /\ good st 0%nat = false /\ forall k, lf_fs st k = disk k.
Proof. eexists. split; [vm_compute; reflexivity|]. split; [reflexivity|]. split; [reflexivity|]. intros k. reflexivity. Qed.

Example C89_nonvacuous :
  let h := [Message 3 (lit "late"); Call (Delete 0%nat); Messagef 5 (lit "two"); Message 2 (lit "quiet"); Call (SetLevel 0%nat 4); NewFile 1%nat 0 (lit "run/b.log"); Message 3 (lit "one"); NewFile 0%nat 3 (lit "x.log")] in
  Lawful h /\ Plain home h /\ Sole home disk h 0%nat (at_ "x.log") /\ exists st, lf_run home (lf_init disk) (rev h) = Ok st /\
  lf_fs st (at_ "x.log") = Some (File (lit "one" ++ [LF] ++ lit "two" ++ [LF])) /\
  lf_fs st (k_ ["w"; "run"; "b.log"]%string) = Some (File (lit "quiet" ++ [LF] ++ lit "two" ++ [LF] ++ lit "late" ++ [LF])) /\
  lf_fs st (at_ "a.txt") = Some (File (lit "hello")).
Proof.
  cbv zeta. assert (N : Names home (lit "x.log") (at_ "x.log")) by (apply N_here; clean).
  assert (N2 : Names home (lit "run/b.log") (k_ ["w"; "run"; "b.log"]%string)) by (apply (N_in home (lit "run") (k_ ["w"; "run"]%string) (lit "b.log")); [apply (N_here home (lit "run")); clean|clean]).
  assert (P : Plain home [Message 3 (lit "late"); Call (Delete 0%nat); Messagef 5 (lit "two"); Message 2 (lit "quiet"); Call (SetLevel 0%nat 4); NewFile 1%nat 0 (lit "run/b.log"); Message 3 (lit "one"); NewFile 0%nat 3 (lit "x.log")]).
  { intros s l p I. repeat (destruct I as [I|I]; [try discriminate; injection I as <- <- <-; eauto|]). destruct I. }
  split; [apply (C89_defined home disk _ disk_tree eq_refl P); eexists; vm_compute; reflexivity|]. split; [exact P|]. split.
  - do 5 (apply Sole_keep; try discriminate). apply Sole_keep; try discriminate.
    + apply Sole_keep; try discriminate. apply Sole_new; [exact N| |intros s' _ []]. split; [discriminate|]. exists home, (lit "x.log"). split; reflexivity.
    + intros s' l p X. injection X as <- <- <-. split; [discriminate|]. intros X.
      pose proof (names_stat home disk (lit "run/b.log") _ disk_tree eq_refl X) as Y. pose proof (disk_open home disk disk _ _ (Build_Disk home disk disk disk_tree eq_refl (fun k => iff_refl _)) X) as Z. clear Y.
      destruct Z as [[Z _]|[_ Z]]; [vm_compute in Z; congruence|]. apply Z. split; [discriminate|]. exists home, (lit "x.log"). split; reflexivity.
  - eexists. split; [vm_compute; reflexivity|]. split; [vm_compute; reflexivity|]. split; vm_compute; reflexivity.
Qed.
