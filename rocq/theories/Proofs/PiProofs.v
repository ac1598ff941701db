(* The constant pi of flut lies below the number pi. *)
From Coq Require Import Reals Lra Lia QArith Qreals.
From Verif Require Import Model.Math.
Local Open Scope R_scope.
Fixpoint qterm (a : Q) (i : nat) : Q :=
  match i with O => a | S j => Qred (qterm a j * (- (a * a) / (inject_Z (2 * Z.of_nat j + 2) * inject_Z (2 * Z.of_nat j + 3))))%Q end.
Fixpoint qsum (a : Q) (n : nat) : Q := match n with O => qterm a 0 | S m => Qred (qsum a m + qterm a n)%Q end.
Lemma qterm_ok a i : sin_term (Q2R a) i = Q2R (qterm a i).
Proof.
  induction i as [|j IH].
  - unfold sin_term. cbn. field.
  - cbn [qterm]. rewrite (Qeq_eqR _ _ (Qred_correct _)), Q2R_mult, <- IH.
    assert (P : forall z, (0 < z)%Z -> ~ (inject_Z z == 0)%Q). { intros z Hz H. unfold Qeq, inject_Z in H. cbn in H. rewrite Z.mul_1_r in H. subst. inversion Hz. }
    rewrite Q2R_div. 2:{ intros H. apply Qmult_integral in H as [H|H]; revert H; apply P; lia. }
    rewrite Q2R_opp, !Q2R_mult. assert (I : forall z, Q2R (inject_Z z) = IZR z). { intros z. unfold Q2R, inject_Z. cbn. field. }
    rewrite !I. unfold sin_term. replace (2 * S j + 1)%nat with (S (S (2 * j + 1))) by lia.
    rewrite !fact_simpl, !mult_INR. change ((-1) ^ S j) with (-1 * (-1) ^ j). 
    change (Q2R a ^ S (S (2 * j + 1))) with (Q2R a * (Q2R a * Q2R a ^ (2 * j + 1))).
    replace (INR (S (S (2 * j + 1)))) with (IZR (2 * Z.of_nat j + 3)) by (rewrite INR_IZR_INZ; f_equal; lia).
    replace (INR (S (2 * j + 1))) with (IZR (2 * Z.of_nat j + 2)) by (rewrite INR_IZR_INZ; f_equal; lia).
    field. repeat split; first [apply INR_fact_neq_0|apply not_0_IZR; lia].
Qed.
Lemma qsum_ok a n : sin_approx (Q2R a) n = Q2R (qsum a n).
Proof.
  unfold sin_approx. induction n as [|m IH].
  - cbn [sum_f_R0 qsum]. apply qterm_ok.
  - cbn [sum_f_R0 qsum]. rewrite (Qeq_eqR _ _ (Qred_correct _)), Q2R_plus, IH, qterm_ok. reflexivity.
Qed.
Definition pi_q : Q := (314159265358979 # 100000000000000)%Q.
Lemma sin_flut_pi : 0 < sin flut_pi.
Proof.
  assert (E : flut_pi = Q2R pi_q) by (unfold flut_pi, pi_q, Q2R; cbn; field). rewrite E.
  destruct (pre_sin_bound (Q2R pi_q) 8) as [L _]; [rewrite <- E; unfold flut_pi; lra..|].
  apply Rlt_le_trans with (2 := L). rewrite qsum_ok. replace 0 with (Q2R 0) by (unfold Q2R; cbn; field). apply Qlt_Rlt. vm_compute. reflexivity.
Qed.
Lemma flut_pi_below : flut_pi < PI.
Proof.
  destruct (Rlt_le_dec flut_pi PI) as [H|H]; [exact H|]. exfalso. pose proof sin_flut_pi. pose proof PI_4. pose proof PI2_3_2.
  assert (sin flut_pi <= 0). { apply sin_le_0; [exact H|]. unfold flut_pi, PI2 in *. lra. } lra.
Qed.
