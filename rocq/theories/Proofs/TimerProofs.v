From Coq Require Import ZArith Reals List Lia Lra.
From Verif Require Import Model.Base Model.Range Model.Timer Spec.Timer.
Import ListNotations.
Local Open Scope Z_scope.

Lemma i64_ok z : - 2 ^ 63 <= z < 2 ^ 63 -> arith i64 z = Ok z.
Proof.
  intros H. unfold arith, i64, fits, type_min, type_max. cbn [Z.sub Z.pow] in *.
  replace ((- 2 ^ (64 - 1) <=? z) && (z <=? 2 ^ (64 - 1) - 1))%bool with true; [reflexivity|].
  symmetry. apply andb_true_intro. split; apply Z.leb_le; [apply H|]. change (2 ^ (64 - 1)) with (2 ^ 63). lia.
Qed.
Lemma i64_ub z : ~ - 2 ^ 63 <= z < 2 ^ 63 -> arith i64 z = UB.
Proof.
  intros H. unfold arith, i64, fits, type_min, type_max.
  replace ((- 2 ^ (64 - 1) <=? z) && (z <=? 2 ^ (64 - 1) - 1))%bool with false; [reflexivity|].
  symmetry. apply Bool.andb_false_iff. rewrite !Z.leb_gt. change (2 ^ (64 - 1)) with (2 ^ 63). lia.
Qed.
Lemma i64_inv z w : arith i64 z = Ok w -> w = z /\ - 2 ^ 63 <= z < 2 ^ 63.
Proof.
  intros H. destruct (Z_le_dec (- 2 ^ 63) z) as [A|A]; [destruct (Z_lt_dec z (2 ^ 63)) as [B|B]|].
  - rewrite i64_ok in H by lia. inversion H. split; [reflexivity|lia].
  - rewrite i64_ub in H by lia. discriminate.
  - rewrite i64_ub in H by lia. discriminate.
Qed.
Lemma quot_Whole u d : 0 < u -> Whole u d (Z.quot d u).
Proof.
  intros U. unfold Whole. pose proof (Z.quot_rem' d u) as E. destruct (Z_le_dec 0 d) as [D|D].
  - left. split; [exact D|]. pose proof (Z.rem_bound_pos d u D U). set (q := Z.quot d u) in *. set (r := Z.rem d u) in *. clearbody q r. subst d. lia.
  - right. split; [lia|]. assert (D' : d <= 0) by lia. pose proof (Z.rem_bound_pos_neg d u U D'). set (q := Z.quot d u) in *. set (r := Z.rem d u) in *. clearbody q r. subst d. lia.
Qed.
Lemma Whole_mono u d e p q : 0 < u -> Whole u d p -> Whole u e q -> d <= e -> p <= q.
Proof.
  intros U W1 W2 L. destruct (Z_le_gt_dec p q) as [X|X]; [exact X|exfalso].
  assert (Y : (q + 1) * u <= p * u) by (apply Z.mul_le_mono_nonneg_r; lia).
  destruct W1 as [[D A]|[D A]], W2 as [[D' B]|[D' B]]; try lia.
  destruct (Z_le_gt_dec p 0) as [P|P].
  - assert ((q + 1) * u <= 0) by (apply Z.mul_nonpos_nonneg; lia). lia.
  - assert (0 <= (p - 1) * u) by (apply Z.mul_nonneg_nonneg; lia). lia.
Qed.
Lemma Whole_unique u d p q : 0 < u -> Whole u d p -> Whole u d q -> p = q.
Proof. intros U A B. apply Z.le_antisymm; eapply Whole_mono; eauto; lia. Qed.
Lemma Whole_sum u : 0 < u -> forall ds qs, Forall2 (Whole u) ds qs -> Forall (fun d => 0 <= d) ds ->
  sum qs * u <= sum ds /\ (ds <> [] -> sum ds <= (sum qs + Z.of_nat (length ds)) * u - Z.of_nat (length ds)).
Proof.
  intros U ds qs H. induction H as [|d q ds qs W H IH]; intros P; [cbn; split; [lia|congruence]|].
  inversion P as [|? ? P1 P2]; subst. destruct (IH P2) as [L1 L2]. destruct W as [[_ W]|[W _]]; [|lia].
  cbn [sum fold_right] in *. change (fold_right Z.add 0 qs) with (sum qs) in *. change (fold_right Z.add 0 ds) with (sum ds) in *.
  split; [nia|]. intros _. cbn [length]. rewrite Nat2Z.inj_succ. destruct ds as [|d' ds].
  - inversion H; subst. cbn in *. nia.
  - assert (X : d' :: ds <> []) by discriminate. specialize (L2 X). nia.
Qed.
Lemma run_app ops2 : forall ops1 epoch,
  timer_run epoch (ops1 ++ ops2) =
  let* l1 := timer_run epoch ops1 in
  let* l2 := timer_run (fold_left (fun e o => match fst o with OpReset => timer_reset e (snd o) | OpMillis => e end) ops1 epoch) ops2 in
  Ok (l1 ++ l2).
Proof.
  induction ops1 as [|[[|] t] ops1 IH]; intros epoch.
  - cbn. destruct (timer_run epoch ops2); reflexivity.
  - cbn [app timer_run fold_left fst snd]. rewrite IH. reflexivity.
  - cbn [app timer_run fold_left fst snd]. destruct (milliseconds epoch t); cbn [bind]; [|reflexivity..]. rewrite IH.
    destruct (timer_run epoch ops1); cbn [bind]; [|reflexivity..].
    destruct (timer_run _ ops2); reflexivity.
Qed.
