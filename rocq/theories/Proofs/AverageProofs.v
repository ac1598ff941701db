(* Proofs about running averages. *)
From Coq Require Import Reals List Lra Lia Permutation.
From Verif Require Import Model.Math Model.Average Spec.Average Proofs.InterpProofs.
Import ListNotations.
Local Open Scope R_scope.

Lemma total_app a b : total (a ++ b) = total a + total b.
Proof. unfold total. induction a as [|x a IH]; cbn [app fold_right]; [lra|]. rewrite IH. lra. Qed.
Lemma total_perm a b : Permutation a b -> total a = total b.
Proof. unfold total. induction 1; cbn [fold_right]; lra. Qed.
Lemma moment_app a b : moment (a ++ b) = moment a + moment b.
Proof. unfold moment. rewrite map_app. apply total_app. Qed.
Lemma weight_app a b : weight (a ++ b) = weight a + weight b.
Proof. unfold weight. rewrite map_app. apply total_app. Qed.
Lemma samples_total ops : exists l, Samples ops l.
Proof.
  induction ops as [|o ops [l IH]] using rev_ind; [exists []; constructor|]. destruct o as [v w|v|]; eexists; econstructor; exact IH.
Qed.
Lemma run_samples ops l : Samples ops l -> average_run ops = mkAverage (moment l) (weight l).
Proof.
  unfold average_run. induction 1 as [|ops l v w S IH|ops l v S IH|ops l S IH]; [reflexivity| | |]; rewrite fold_left_app, IH; cbn [fold_left average_step]; unfold average_add1, average_add, average_reset; cbn [tot_v tot_w];
    rewrite ?moment_app, ?weight_app; unfold moment, weight; cbn; f_equal; lra.
Qed.
Lemma bounded_moment l lo hi : (forall p, In p l -> 0 <= snd p /\ lo <= fst p <= hi) -> lo * weight l <= moment l <= hi * weight l.
Proof.
  unfold moment, weight. induction l as [|[v w] l IH]; intros H; cbn; [lra|]. destruct (H (v, w) (or_introl eq_refl)) as [W B]. cbn [fst snd] in W, B.
  specialize (IH (fun p I => H p (or_intror I))). unfold total in IH. split; nra.
Qed.
Lemma weight_nonneg l : (forall p, In p l -> 0 <= snd p) -> 0 <= weight l.
Proof. unfold weight. induction l as [|[v w] l IH]; intros H; cbn; [lra|]. pose proof (H (v, w) (or_introl eq_refl)) as W. cbn in W. specialize (IH (fun p I => H p (or_intror I))). unfold total in IH. lra. Qed.
Lemma weight_zero l : (forall p, In p l -> 0 < snd p) -> weight l = 0 -> l = [].
Proof.
  destruct l as [|[v w] l]; [reflexivity|]. intros H E. exfalso. pose proof (H (v, w) (or_introl eq_refl)) as W. cbn in W.
  assert (N : 0 <= weight l) by (apply weight_nonneg; intros p I; left; apply H; right; exact I). unfold weight in *. cbn in E. unfold total in N. lra.
Qed.
