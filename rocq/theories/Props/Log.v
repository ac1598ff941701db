(* C44: log messages reach exactly the registered sinks whose level allows them *)
From Verif Require Import Model.Base Model.StdString Model.Log Spec.Log Proofs.LogProofs.
Local Open Scope Z_scope.

(* After any history of calls that uses existing sinks only, the receivers of a
   message are, in order of registration, the registered sinks whose level is
   at most that of the message. *)
Theorem C44_delivery : forall h, Fair h -> exists st ss lv,
  log_run log_init (rev h) = Ok st /\
  Registered h ss /\ NoDup ss /\ (forall s, In s ss -> exists_after h s /\ Level h s (lv s)) /\
  forall l, message st l = filter (fun s => lv s <=? l) ss.
Proof.
  intros h F. destruct (run_fair (rev h) [] log_init sim_init) as [st E]; [rewrite rev_involutive, app_nil_r; exact F|].
  pose proof (run_sim _ _ _ _ sim_init E) as S. rewrite rev_involutive, app_nil_r in S. exists st, (sinks st), (log_level st). split; [exact E|]. split; [apply S|]. split; [apply S|]. split.
  - intros s I. apply (sim_sinks _ _ S) in I. split; [apply S; exact I|apply (sim_level _ _ S); exact I].
  - intros l. apply message_all, S.
Qed.

(* The history fixes who is registered and at which level. *)
Theorem C44_history_decides : forall h, Fair h ->
  (forall ss ss', Registered h ss -> Registered h ss' -> ss = ss') /\
  (forall s l l', Level h s l -> Level h s l' -> l = l').
Proof.
  intros h F. split.
  - intros ss ss' R R'. destruct (Registered_fun h ss R F) as (_ & _ & U). symmetry. apply U. exact R'.
  - intros s l l' L L'. symmetry. eapply Level_fun; eassumption.
Qed.

(* A message is received once by each sink that should have it and by no other,
   however the history goes on. *)
Theorem C44_receivers : forall h st, log_run log_init (rev h) = Ok st ->
  Fair h /\ forall l, NoDup (message st l) /\
  forall s, In s (message st l) <-> (exists ss lv, Registered h ss /\ In s ss /\ Level h s lv /\ lv <= l).
Proof.
  intros h st E. assert (F : Fair h). { pose proof (run_unfair _ [] log_init _ sim_init Fair_start E) as F. rewrite rev_involutive, app_nil_r in F. exact F. }
  split; [exact F|]. intros l. pose proof (run_sim _ _ _ _ sim_init E) as S. rewrite rev_involutive, app_nil_r in S. rewrite message_all by apply S. split; [apply NoDup_filter, S|].
  intros s. rewrite filter_In, Z.leb_le. split.
  - intros [I L]. exists (sinks st), (log_level st s). split; [apply S|]. split; [exact I|]. split; [apply (sim_level _ _ S), (sim_sinks _ _ S); exact I|exact L].
  - intros (ss & lv & R & I & L & LE). destruct (Registered_fun h ss R F) as (_ & _ & U). rewrite (U _ (sim_reg _ _ S)). split; [exact I|].
    replace (log_level st s) with lv; [exact LE|]. symmetry. eapply Level_fun; [exact L|exact F|]. apply (sim_level _ _ S), (sim_sinks _ _ S). rewrite (U _ (sim_reg _ _ S)). exact I.
Qed.

(* Exactly the histories that use only existing sinks are free of undefined
   behaviour. *)
Theorem C44_defined : forall h, Fair h <-> exists st, log_run log_init (rev h) = Ok st.
Proof.
  intros h. split.
  - intros F. destruct (C44_delivery h F) as (st & ss & lv & E & _). eauto.
  - intros [st E]. apply (C44_receivers h st E).
Qed.

(* A deleted sink gets nothing. *)
Theorem C44_deleted : forall h s st l, log_run log_init (rev (Delete s :: h)) = Ok st -> ~ In s (message st l).
Proof.
  intros h s st l E. destruct (C44_receivers _ _ E) as [F R]. destruct (R l) as [_ X]. rewrite X. intros (ss & lv & RS & I & _).
  destruct (Registered_fun _ _ RS F) as (_ & EX & _). specialize (EX s I). destruct EX as [C _]. congruence.
Qed.

(* Formatted messages are cut at 1023 characters. *)
Theorem C44_formatted_short : forall st l text, (length text <= 1023)%nat -> ~ In NUL text -> messagef st l text = map (fun s => (s, text)) (message st l).
Proof.
  intros st l text L N. unfold messagef. rewrite firstn_all2 by exact L. replace (cstr text) with text; [reflexivity|]. clear L. induction text as [|c t IH]; [reflexivity|].
  cbn [cstr]. destruct (ascii_dec c NUL) as [->|NE]; [exfalso; apply N; left; reflexivity|]. destruct (Ascii.eqb_spec c NUL); [contradiction|]. f_equal. apply IH. intros I. apply N. right. exact I.
Qed.
Theorem C44_formatted_refuted : exists h st text, log_run log_init (rev h) = Ok st /\ ~ In NUL text /\ forall s t, In (s, t) (messagef st 3 text) -> t <> text.
Proof.
  exists [New 0%nat 0]. eexists. exists (repeat "x"%char 2000). split; [reflexivity|]. split; [intros I; apply repeat_spec in I; discriminate|].
  intros s t I. unfold messagef in I. apply in_map_iff in I as (x & E & _). injection E as _ <-. intros C. apply (f_equal (@length ascii)) in C. vm_compute in C. discriminate.
Qed.

(* A copy of a registered sink is not registered. *)
Theorem C44_copy_refuted : exists h st s t l, log_run log_init (rev (Copy s t :: h)) = Ok st /\ In t (message st l) /\ ~ In s (message st l).
Proof. exists [New 0%nat 0]. eexists. exists 1%nat, 0%nat, 3. split; [reflexivity|]. split; [left; reflexivity|intros [C|[]]; discriminate]. Qed.
(* get_global after set_global: with every level at never_log_level, the
   lowest level reported is still critical. *)
Theorem C44_lowest_refuted : exists h st, log_run log_init (rev (GetGlobal :: h)) = Ok st /\ sinks st <> [] /\ forall s, In s (sinks st) -> lowest st < log_level st s.
Proof. exists [New 0%nat never_log_level]. eexists. split; [reflexivity|]. split; [discriminate|]. intros s [<-|[]]. reflexivity. Qed.

Example C44_nonvacuous :
  let h := [SetLevel 2%nat 4; Remove 0%nat; New 2%nat 1; SetGlobal 2; New 1%nat 5; New 0%nat 0] in
  Fair h /\ exists st, log_run log_init (rev h) = Ok st /\ message st 1 = [] /\ message st 3 = [1%nat] /\ message st 4 = [1%nat; 2%nat] /\
  Registered h [1%nat; 2%nat] /\ Level h 1 2 /\ Level h 2 4.
Proof.
  cbv zeta. split; [repeat constructor; cbn; auto; intuition discriminate|]. eexists. split; [reflexivity|]. split; [reflexivity|]. split; [reflexivity|]. split; [reflexivity|]. split; [|split].
  - apply Reg_other; [|right; right; left; eauto]. apply (Reg_remove _ [] 0%nat [1%nat; 2%nat]). apply (Reg_new _ [0%nat; 1%nat]). apply Reg_other; [|right; right; right; left; eauto]. apply (Reg_new _ [0%nat]). apply (Reg_new _ []). constructor.
  - apply Lev_keep; [|intros l; repeat split; discriminate|discriminate]. apply Lev_keep; [|intros l; repeat split; discriminate|discriminate]. apply Lev_keep; [|intros l; repeat split; discriminate|discriminate].
    apply (Lev_global _ [0%nat; 1%nat]); [|cbn; auto]. apply (Reg_new _ [0%nat]). apply (Reg_new _ []). constructor.
  - apply Lev_set.
Qed.
