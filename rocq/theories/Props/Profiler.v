(* C45: profiler accounting *)
From Verif Require Import Model.Base Model.Profiler Spec.Profiler Proofs.ProfilerProofs.
Local Open Scope Z_scope.

(* After any history in which no section is ended that was not started, there
   is one section for every path entered since the last reset, below the
   section of the enclosing path and created after it, and it holds the time
   spent and the overhead of that path. *)
Theorem C45_sections : forall t0 h, Balanced t0 h -> exists p paths,
  prof_run (reset t0) (rev h) = Ok p /\ Agrees t0 h (sections p) paths /\
  exists q s fs, frames t0 h = (q, s) :: fs /\ nth_error paths (current p) = Some q.
Proof.
  intros t0 h B. destruct (run_sim t0 (rev h) [] (reset t0) [[]]) as (p & paths & E & S).
  - rewrite rev_involutive, app_nil_r. exact B.
  - apply (sim_reset t0 [] t0); auto.
  - rewrite rev_involutive, app_nil_r in S. exists p, paths. split; [exact E|]. split; [apply S|apply (sim_current _ _ _ _ S)].
Qed.
(* Exactly these histories are free of undefined behaviour. *)
Theorem C45_defined : forall t0 h, Balanced t0 h <-> exists p, prof_run (reset t0) (rev h) = Ok p.
Proof.
  intros t0 h. split.
  - intros B. destruct (C45_sections t0 h B) as (p & paths & E & _). eauto.
  - intros [p E]. pose proof (run_balanced t0 (rev h) [] (reset t0) [[]] p I (sim_reset t0 [] t0 _ eq_refl (or_introl (conj eq_refl eq_refl))) E) as B. rewrite rev_involutive, app_nil_r in B. exact B.
Qed.
Theorem C45_unmatched_end_refuted : exists t0 h, prof_run (reset t0) (rev h) = UB.
Proof. exists 0, [OpEnd 5]. reflexivity. Qed.

Lemma agrees_of t0 h p : prof_run (reset t0) (rev h) = Ok p -> Balanced t0 h /\ exists paths, Agrees t0 h (sections p) paths.
Proof.
  intros E. assert (B : Balanced t0 h) by (apply C45_defined; eauto). split; [exact B|]. destruct (C45_sections t0 h B) as (p' & paths & E' & A & _). rewrite E in E'. injection E' as <-. eauto.
Qed.

(* All exclusive times add up to the time the report covers, whatever sections
   are open. *)
Theorem C45_exclusive_sum : forall t0 h t p, prof_run (reset t0) (rev (OpReport t :: h)) = Ok p ->
  (forall i, (i < length (sections p))%nat -> exists e, exclusive_time (sections p) i = Ok e) /\
  sumz (fun i => match exclusive_time (sections p) i with Ok e => e | _ => 0 end) (seq 0 (length (sections p))) = t - since t0 h.
Proof.
  intros t0 h t p E. destruct (agrees_of _ _ _ E) as (B & paths & A). split.
  - intros i L. destruct (nth_error (sections p) i) as [s|] eqn:S; [|apply nth_error_None in S; lia]. unfold exclusive_time. rewrite S. eauto.
  - exact (exclusive_sum _ _ _ _ B A).
Qed.
(* With a clock that does not run backwards, the exclusive time of a section
   that is not open, and that of the root, is not negative. *)
Theorem C45_exclusive_nonneg : forall t0 h t p, prof_run (reset t0) (rev (OpReport t :: h)) = Ok p -> Clock t0 (OpReport t :: h) t ->
  exists paths, Agrees t0 (OpReport t :: h) (sections p) paths /\
  forall i q, nth_error paths i = Some q -> q = [] \/ ~ In q (map fst (frames t0 h)) -> exists e, exclusive_time (sections p) i = Ok e /\ 0 <= e.
Proof.
  intros t0 h t p E C. destruct (agrees_of _ _ _ E) as (B & paths & A). exists paths. split; [exact A|]. intros i q Q O. eexists. split; [exact (exclusive_spec _ _ _ _ _ _ B A Q)|].
  destruct (monotone t0 _ t C B) as [R N]. assert (RR : inner t0 (OpReport t :: h) [] <= t - since t0 h).
  { pose proof (room_root t0 (OpReport t :: h) (frames t0 (OpReport t :: h)) t _ (frames_chain t0 (OpReport t :: h) B) R) as X. rewrite (spent_root t0 (OpReport t :: h) B) in X. exact X. }
  destruct O as [->|O].
  - assert (i = 0%nat) as -> by (eapply unique_index; [apply A|exact Q|apply A]). cbn [reported]. lia.
  - specialize (N q O). destruct i as [|i]; [|lia]. rewrite (agrees_root _ _ _ _ A) in Q. injection Q as <-. cbn [reported]. lia.
Qed.
(* While a section is open its exclusive time can be negative. *)
Theorem C45_exclusive_open_refuted : exists t0 h t p i e, prof_run (reset t0) (rev (OpReport t :: h)) = Ok p /\ Clock t0 (OpReport t :: h) t /\ exclusive_time (sections p) i = Ok e /\ e < 0.
Proof.
  exists 0, [OpEnd 10; OpStart 2%nat 1 1; OpStart 1%nat 0 0], 11. eexists. exists 1%nat. eexists. split; [vm_compute; reflexivity|]. split; [|split; [vm_compute; reflexivity|reflexivity]].
  apply (Clock_report 0 _ 10); [|lia]. apply (Clock_end 0 _ 1); [|lia]. apply (Clock_section 0 _ 0); [|lia|lia]. apply (Clock_section 0 _ 0); [|lia|lia]. constructor.
Qed.
(* total_overhead of a section is what was lost in starting sections within
   it; it always terminates. *)
Theorem C45_overhead : forall t0 h p, prof_run (reset t0) (rev h) = Ok p -> exists paths, Agrees t0 h (sections p) paths /\
  forall i q, nth_error paths i = Some q -> forall fuel, (length (sections p) < fuel)%nat -> total_overhead fuel (sections p) i = Ok (lost_within t0 h q).
Proof.
  intros t0 h p E. destruct (agrees_of _ _ _ E) as (B & paths & A). exists paths. split; [exact A|]. intros i q Q fuel F. destruct fuel as [|fuel]; [lia|]. apply (overhead_spec t0 h _ paths B A); [exact Q|lia].
Qed.

Example C45_nonvacuous :
  let h := [OpEnd 20; OpEnd 18; OpStart 2%nat 14 15; OpEnd 13; OpStart 2%nat 9 10; OpStart 1%nat 6 8; OpEnd 5; OpStart 1%nat 1 2] in
  Balanced 0 h /\ Clock 0 h 20 /\ spent 0 h [1%nat] = 18 /\ spent 0 h [2%nat; 1%nat] = 8 /\ lost_within 0 h [1%nat] = 5 /\
  exists p, prof_run (reset 0) (rev (OpReport 25 :: h)) = Ok p /\ map stotal (sections p) = [25; 18; 8] /\ map (exclusive_time (sections p)) [0; 1; 2]%nat = [Ok 7; Ok 10; Ok 8] /\ total_overhead 4 (sections p) 1 = Ok 5.
Proof.
  cbv zeta. split; [cbn; repeat split; lia|]. split.
  - apply (Clock_end 0 _ 18); [|lia]. apply (Clock_end 0 _ 15); [|lia]. apply (Clock_section 0 _ 13); [|lia|lia]. apply (Clock_end 0 _ 10); [|lia]. apply (Clock_section 0 _ 8); [|lia|lia]. apply (Clock_section 0 _ 5); [|lia|lia].
    apply (Clock_end 0 _ 2); [|lia]. apply (Clock_section 0 _ 0); [|lia|lia]. constructor.
  - split; [vm_compute; reflexivity|]. split; [vm_compute; reflexivity|]. split; [vm_compute; reflexivity|]. eexists. split; [vm_compute; reflexivity|]. split; [vm_compute; reflexivity|]. split; vm_compute; reflexivity.
Qed.
