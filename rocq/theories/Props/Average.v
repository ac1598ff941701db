(* C69: running averages and differences *)
From Coq Require Import Reals List Lra Lia Permutation.
From Verif Require Import Model.Math Model.Average Spec.Average Proofs.InterpProofs Proofs.AverageProofs.
Import ListNotations.
Local Open Scope R_scope.

(* whatever the client did, get is the weighted mean of the samples since the
   last reset if their total weight is positive and 0 otherwise *)
Theorem C69_average : forall ops, exists l, Samples ops l /\
  (0 < weight l -> average_get (average_run ops) = wmean l) /\ (weight l <= 0 -> average_get (average_run ops) = 0) /\
  (average_empty (average_run ops) = true <-> weight l = 0).
Proof.
  intros ops. destruct (samples_total ops) as (l & S). exists l. split; [exact S|]. rewrite (run_samples ops l S). unfold average_get, average_empty. cbn [tot_v tot_w]. repeat split.
  - intros P. rewrite (proj2 (Rltb_true _ _) P). reflexivity.
  - intros P. rewrite (proj2 (Rltb_false _ _)); [reflexivity|lra].
  - destruct (Req_EM_T (weight l) 0); [intros _; assumption|discriminate].
  - intros E. destruct (Req_EM_T (weight l) 0); [reflexivity|contradiction].
Qed.
Print Assumptions C69_average.

Theorem C69_samples_unique : forall ops l m, Samples ops l -> Samples ops m -> l = m.
Proof.
  intros ops l m L. revert m. induction L as [|ops l v w L IH|ops l v L IH|ops l L IH]; intros m M; inversion M as [E|o k v' w' M' E|o k v' M' E|o k M' E]; subst;
    try (apply (f_equal (@length _)) in E; rewrite app_length in E; cbn in E; lia);
    try (apply (f_equal (@length _)) in H0; rewrite app_length in H0; cbn in H0; lia); try reflexivity;
    match goal with E : _ ++ [_] = _ ++ [_] |- _ => apply app_inj_tail in E; destruct E as [-> E]; inversion E; subst end;
    rewrite (IH _ M'); reflexivity.
Qed.
Print Assumptions C69_samples_unique.

(* with weights that are not negative the average is between any bounds of the
   samples that carry weight; the order of the samples and a common factor of
   the weights do not matter *)
Theorem C69_bounded : forall ops l lo hi, Samples ops l -> (forall p, In p l -> 0 <= snd p /\ lo <= fst p <= hi) -> 0 < weight l ->
  lo <= average_get (average_run ops) <= hi.
Proof.
  intros ops l lo hi S B P. rewrite (run_samples ops l S). unfold average_get. cbn [tot_v tot_w]. rewrite (proj2 (Rltb_true _ _) P). destruct (bounded_moment l lo hi B) as [L H].
  split; apply Rmult_le_reg_r with (weight l); try exact P; unfold Rdiv; rewrite Rmult_assoc, Rinv_l, Rmult_1_r by lra; assumption.
Qed.
Print Assumptions C69_bounded.

Theorem C69_order : forall ops1 ops2 l1 l2, Samples ops1 l1 -> Samples ops2 l2 -> Permutation l1 l2 -> average_run ops1 = average_run ops2.
Proof.
  intros ops1 ops2 l1 l2 S1 S2 P. rewrite (run_samples _ _ S1), (run_samples _ _ S2). unfold moment, weight. f_equal; apply total_perm, Permutation_map; exact P.
Qed.
Print Assumptions C69_order.

Theorem C69_scale : forall ops1 ops2 l k, 0 < k -> Samples ops1 l -> Samples ops2 (map (fun p => (fst p, k * snd p)) l) ->
  average_get (average_run ops1) = average_get (average_run ops2).
Proof.
  intros ops1 ops2 l k K S1 S2. rewrite (run_samples _ _ S1), (run_samples _ _ S2). unfold average_get. cbn [tot_v tot_w].
  assert (W : weight (map (fun p => (fst p, k * snd p)) l) = k * weight l). { clear S1 S2. unfold weight. induction l as [|[v w] l IH]; cbn; [lra|]. unfold total in IH. rewrite IH. lra. }
  assert (M : moment (map (fun p => (fst p, k * snd p)) l) = k * moment l). { clear S1 S2 W. unfold moment. induction l as [|[v w] l IH]; cbn; [lra|]. unfold total in IH. rewrite IH. lra. }
  rewrite W, M. destruct (Rlt_dec 0 (weight l)) as [P|P].
  - rewrite (proj2 (Rltb_true _ _) P), (proj2 (Rltb_true _ _)) by (apply Rmult_lt_0_compat; assumption). field. lra.
  - rewrite (proj2 (Rltb_false 0 (weight l))) by lra. rewrite (proj2 (Rltb_false 0 (k * weight l))); [reflexivity|nra].
Qed.
Print Assumptions C69_scale.

(* positive weights: empty means that nothing was added; in general it does not *)
Theorem C69_empty : forall ops l, Samples ops l -> (forall p, In p l -> 0 < snd p) -> (average_empty (average_run ops) = true <-> l = []).
Proof.
  intros ops l S P. rewrite (run_samples ops l S). unfold average_empty. cbn [tot_w]. destruct (Req_EM_T (weight l) 0) as [E|E]; split; try discriminate; try reflexivity.
  - intros _. apply weight_zero; assumption.
  - intros ->. exfalso. apply E. reflexivity.
Qed.
Print Assumptions C69_empty.

Theorem C69_weights_refuted :
  (exists ops v w, Samples ops [(v, 1); (w, -1)] /\ average_empty (average_run ops) = true) /\
  (forall v w, v <> 0 -> w < 0 -> average_get (average_run [OpAdd v w]) = 0 /\ wmean [(v, w)] = v).
Proof.
  split.
  - exists [OpAdd 5 1; OpAdd 7 (-1)], 5, 7. assert (S : Samples [OpAdd 5 1; OpAdd 7 (-1)] [(5, 1); (7, -1)]).
    { apply (SAdd [OpAdd 5 1] [(5, 1)] 7 (-1)), (SAdd [] [] 5 1). constructor. }
    split; [exact S|]. rewrite (run_samples _ _ S). unfold average_empty, weight. cbn. destruct (Req_EM_T (1 + (-1 + 0)) 0) as [|N]; [reflexivity|exfalso; apply N; lra].
  - intros v w V W. unfold average_get, average_run, wmean, moment, weight. cbn. rewrite (proj2 (Rltb_false _ _)) by lra. split; [reflexivity|]. field. lra.
Qed.
Print Assumptions C69_weights_refuted.

(* each delta is the difference from the value before; they add up to the last
   value minus the initial one *)
Theorem C69_delta : forall v0 l i v w, nth_error (v0 :: l) i = Some v -> nth_error l i = Some w -> nth_error (fst (delta_run (delta_new v0) l)) i = Some (w - v).
Proof.
  intros v0 l. revert v0. induction l as [|x l IH]; intros v0 i v w V W; [destruct i; discriminate|]. cbn [delta_run delta_call delta_new previous].
  specialize (IH x). unfold delta_new in IH. destruct (delta_run (mkDelta x) l) as [rs d]. cbn [fst] in *. destruct i as [|i]; cbn in *; [congruence|]. apply IH; assumption.
Qed.
Print Assumptions C69_delta.

Theorem C69_telescope : forall v0 l, length (fst (delta_run (delta_new v0) l)) = length l /\ total (fst (delta_run (delta_new v0) l)) = last l v0 - v0.
Proof.
  intros v0 l. revert v0. induction l as [|x l IH]; intros v0; [cbn; split; [reflexivity|lra]|]. cbn [delta_run delta_call delta_new previous].
  specialize (IH x). unfold delta_new in IH. destruct (delta_run (mkDelta x) l) as [rs d]. cbn [fst] in *. destruct IH as [L T]. split; [cbn; rewrite L; reflexivity|].
  change (total (x - v0 :: rs)) with (x - v0 + total rs). rewrite T. assert (E : last (x :: l) v0 = last l x).
  { clear. destruct l as [|y l]; [reflexivity|]. change (last (x :: y :: l) v0) with (last (y :: l) v0). revert y. induction l as [|z l IH]; intros y; [reflexivity|]. exact (IH z). }
  rewrite E. lra.
Qed.
Print Assumptions C69_telescope.

Example C69_nonvacuous : average_get (average_run [OpAdd1 9; OpClear; OpAdd1 2; OpAdd 5 3]) = 17 / 4 /\ fst (delta_run (delta_new 1) [4; 2; 2]) = [4 - 1; 2 - 4; 2 - 2].
Proof.
  split; [|reflexivity]. unfold average_get, average_run. cbn. rewrite (proj2 (Rltb_true _ _)) by lra. field.
Qed.
