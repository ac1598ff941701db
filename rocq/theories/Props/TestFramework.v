(* C48: the counters of the test framework *)
From Verif Require Import Model.Base Model.TestFramework Spec.TestFramework Proofs.TestFrameworkProofs.
Local Open Scope Z_scope.

(* Between resets the counters grow with the checks made, but a reset leaves
   them at the failures so far, and the failures are never forgotten. *)
Theorem C48_counts : forall h c, test_run no_tests (rev h) = Ok c ->
  let carried := ever false h - count false h in
  num_tests c = carried + count true h + count false h /\ num_passed c = carried + count true h /\ num_failed c = carried + count false h /\
  (report_value c = -1 <-> 0 < ever false h) /\ (report_value c = 0 <-> ever false h = 0).
Proof.
  intros h c E. rewrite (run_expected h c E). cbv zeta. unfold expected, before, report_value. cbn [num_tests num_passed num_failed]. pose proof (ever_count false h). pose proof (count_nonneg false h).
  split; [lia|]. split; [lia|]. split; [lia|]. destruct (Z.ltb_spec 0 (ever false h)); (split; [split; intros; lia|split; intros; lia]).
Qed.
(* As long as nothing is reset, tests = passed + failed. *)
Theorem C48_sum : forall h c, test_run no_tests (rev h) = Ok c -> ~ In Again h ->
  num_tests c = Z.of_nat (length h) /\ num_passed c = count true h /\ num_failed c = count false h /\ num_tests c = num_passed c + num_failed c.
Proof.
  intros h c E N. destruct (C48_counts h c E) as (A & B & C & _). assert (X : ever false h = count false h /\ count true h + count false h = Z.of_nat (length h)).
  { clear - N. induction h as [|[r|] h IH]; [auto| |exfalso; apply N; left; reflexivity]. destruct IH as [I1 I2]; [intros X; apply N; right; exact X|]. cbn [ever count length]. destruct r; cbn [Bool.bool_dec bool_rec bool_rect]; lia. }
  lia.
Qed.
(* In general tests = passed + failed does not survive a reset after a failure,
   and the report of a fresh round without failures still says -1. *)
Theorem C48_reset_refuted : exists h c, test_run no_tests (rev h) = Ok c /\ count false h = 0 /\ count true h = 0 /\ num_tests c <> num_passed c + num_failed c /\ num_tests c <> 0 /\ report_value c = -1.
Proof. exists [Again; Check false]. eexists. split; [reflexivity|]. repeat split; cbn; discriminate. Qed.
(* up to 2^31 - 1 calls never overflow an int *)
Theorem C48_defined : forall h, Z.of_nat (length h) <= 2 ^ 31 - 1 -> exists c, test_run no_tests (rev h) = Ok c.
Proof. intros h L. apply run_short. exact L. Qed.

Example C48_nonvacuous :
  let h := [Check true; Check false; Again; Check true; Check true; Check false] in
  exists c, test_run no_tests (rev h) = Ok c /\ c = mkCounters 3 2 2 /\ count true h = 1 /\ ever false h = 2 /\ report_value c = -1.
Proof. cbv zeta. eexists. split; [reflexivity|]. vm_compute. auto. Qed.
