(* C61: polynomials and linear regression (exact reals) *)
From Coq Require Import Reals List Lra Lia.
From Verif Require Import Model.Base Model.Regression Spec.Regression Proofs.RegressionProofs.
Import ListNotations.
Local Open Scope R_scope.

Theorem C61_polynomial : forall cs v, cs <> [] -> poly_eval cs v = Ok (polynomial cs v).
Proof. intros [|c cs] v N; [contradiction|]. apply poly_eval_ok. Qed.
Print Assumptions C61_polynomial.

Example C61_polynomial_nonvacuous : poly_eval [1; 2; 3] 2 = Ok 17.
Proof. rewrite C61_polynomial by discriminate. f_equal. unfold polynomial. cbn. lra. Qed.

(* intersect_y inverts a linear function, and is undefined for a constant one *)
Theorem C61_intersect_y : forall f y, (slope f <> 0 -> exists x, intersect_y f y = Ok x /\ linear_eval f x = Ok y /\
    forall x', linear_eval f x' = Ok y -> x' = x) /\
  (slope f = 0 -> intersect_y f y = UB).
Proof.
  intros [o s] y. cbn [slope]. split; intros H.
  - exists ((y - o) / s). unfold intersect_y. cbn [offset slope]. split; [apply rdiv_ok; exact H|].
    split; [rewrite linear_eval_ok; cbn [offset slope]; f_equal; field; exact H|].
    intros x' E. rewrite linear_eval_ok in E. cbn [offset slope] in E. inversion E. field. exact H.
  - apply rdiv_zero. exact H.
Qed.
Print Assumptions C61_intersect_y.

(* regression fails with unequal sizes, and is defined just when two of the
   x values differ *)
Theorem C61_regression_defined : forall xs ys,
  (length xs <> length ys -> linear_regression xs ys = Throw) /\
  (length xs = length ys -> ((exists f, linear_regression xs ys = Ok f) <-> exists a b, In a xs /\ In b xs /\ a <> b) /\
                            ((exists f, linear_regression xs ys = Ok f) \/ linear_regression xs ys = UB)).
Proof.
  intros xs ys. split; intros E.
  - unfold linear_regression, assert_. apply Nat.eqb_neq in E. rewrite E. reflexivity.
  - destruct xs as [|x0 xs].
    + destruct ys; [|discriminate]. unfold linear_regression. cbn [length Nat.eqb assert_ bind]. rewrite average_nil. cbn [bind].
      split; [|right; reflexivity]. split; [intros [f F]; discriminate|intros (a & b & A & _); destruct A].
    + rewrite (regression_value _ ys E) by discriminate. set (pts := combine (x0 :: xs) ys).
      destruct (Req_EM_T (sxx pts) 0) as [Z|Z].
      * rewrite rdiv_zero by exact Z. cbn [bind]. split; [|right; reflexivity].
        split; [intros [f F]; discriminate|]. intros (a & b & A & B & D). exfalso. apply D.
        destruct (combine_in_fst _ ys a E A) as [y Y]. destruct (combine_in_fst _ ys b E B) as [w W].
        apply (sxx_zero pts Z (a, y) (b, w) Y W).
      * rewrite rdiv_ok by exact Z. cbn [bind]. split; [|left; eexists; reflexivity].
        split; [|intros _; eexists; reflexivity]. intros _.
        destruct (in_dec Req_EM_T x0 (filter (fun a => if Req_EM_T a x0 then false else true) (x0 :: xs))) as [K|_].
        { apply filter_In in K. destruct K as [_ K]. destruct (Req_EM_T x0 x0); [discriminate|contradiction]. }
        destruct (filter (fun a => if Req_EM_T a x0 then false else true) (x0 :: xs)) as [|b l] eqn:F.
        -- exfalso. apply Z. apply sxx_zero_conv; [unfold pts; destruct ys; discriminate|].
           assert (S : forall p, In p pts -> fst p = x0).
           { intros [a y] P. apply in_combine_l in P. cbn [fst]. destruct (Req_EM_T a x0) as [->|D]; [reflexivity|].
             assert (K : In a (filter (fun a => if Req_EM_T a x0 then false else true) (x0 :: xs))).
             { apply filter_In. split; [exact P|]. destruct (Req_EM_T a x0); [contradiction|reflexivity]. }
             rewrite F in K. destruct K. }
           intros p q P Q. rewrite (S p P), (S q Q). reflexivity.
        -- assert (K : In b (filter (fun a => if Req_EM_T a x0 then false else true) (x0 :: xs))) by (rewrite F; left; reflexivity).
           apply filter_In in K. destruct K as [K1 K2]. exists x0, b. split; [left; reflexivity|]. split; [exact K1|].
           intros <-. destruct (Req_EM_T x0 x0); [discriminate|contradiction].
Qed.
Print Assumptions C61_regression_defined.

(* ... and is then the line of least squares, which goes through the mean *)
Theorem C61_least_squares : forall xs ys f, linear_regression xs ys = Ok f ->
  BestLine (combine xs ys) (offset f) (slope f) /\
  exists mx my, average xs = Ok mx /\ average ys = Ok my /\ linear_eval f mx = Ok my.
Proof.
  intros xs ys f H. assert (E : length xs = length ys).
  { destruct (Nat.eq_dec (length xs) (length ys)) as [E|E]; [exact E|]. apply C61_regression_defined in E. congruence. }
  assert (N : xs <> []). { intros ->. unfold linear_regression in H. rewrite average_nil in H. destruct ys; discriminate. }
  rewrite (regression_value xs ys E N) in H. set (pts := combine xs ys) in *.
  destruct (rdiv (sxy pts) (sxx pts)) as [s| | |] eqn:D; try discriminate. cbn [bind] in H. inversion H; subst. cbn [offset slope]. clear H.
  apply rdiv_inv in D. destruct D as [D ->].
  assert (NP : pts <> []) by (unfold pts; destruct xs, ys; try discriminate; contradiction).
  assert (LP : (0 < length pts)%nat) by (destruct pts; [contradiction|cbn; lia]).
  pose proof (sxx_nonneg pts) as P. apply lt_0_INR in LP. split.
  - intros a b. rewrite (residuals_best pts a b NP D). set (s := sxy pts / sxx pts). set (o := mean snd pts - s * mean fst pts).
    assert (Q1 : 0 <= sxx pts * ((b - s) * (b - s))) by (apply Rmult_le_pos; [exact P|apply Rle_0_sqr]).
    assert (Q2 : 0 <= INR (length pts) * ((a + b * mean fst pts - mean snd pts) * (a + b * mean fst pts - mean snd pts)))
      by (apply Rmult_le_pos; [lra|apply Rle_0_sqr]).
    split; [lra|]. intros X. assert (X1 : sxx pts * ((b - s) * (b - s)) = 0) by lra.
    assert (X2 : INR (length pts) * ((a + b * mean fst pts - mean snd pts) * (a + b * mean fst pts - mean snd pts)) = 0) by lra.
    apply Rmult_integral in X1. destruct X1 as [X1|X1]; [contradiction|]. apply Rsqr_0_uniq in X1.
    apply Rmult_integral in X2. destruct X2 as [X2|X2]; [lra|]. apply Rsqr_0_uniq in X2.
    assert (B : b = s) by lra. split; [|exact B]. subst b. unfold o. lra.
  - exists (mean (fun x => x) xs), (mean (fun x => x) ys). split; [apply average_ok; exact N|].
    split; [apply average_ok; destruct xs, ys; try discriminate; contradiction|].
    rewrite linear_eval_ok. cbn [offset slope]. f_equal.
    assert (L : length pts = length ys) by (unfold pts; rewrite combine_length; lia).
    assert (M1 : mean fst pts = mean (fun x => x) xs) by (unfold mean; rewrite L; unfold pts; rewrite total_combine_fst, E by exact E; reflexivity).
    assert (M2 : mean snd pts = mean (fun x => x) ys) by (unfold mean; rewrite L; unfold pts; rewrite total_combine_snd by exact E; reflexivity).
    rewrite M1, M2. ring.
Qed.
Print Assumptions C61_least_squares.

(* points on a line give back that line *)
Theorem C61_exact_line : forall xs a b, (exists x y, In x xs /\ In y xs /\ x <> y) ->
  linear_regression xs (map (fun x => a + b * x) xs) = Ok (mkLinear a b).
Proof.
  intros xs a b D. set (ys := map (fun x => a + b * x) xs). assert (E : length xs = length ys) by (unfold ys; rewrite map_length; reflexivity).
  apply (C61_regression_defined xs ys) in D; [|exact E]. destruct D as [f F]. rewrite F.
  destruct (C61_least_squares xs ys f F) as [B _]. destruct (B a b) as [L U].
  assert (Z : residuals (combine xs ys) a b = 0).
  { unfold residuals, ys. clear. induction xs as [|x xs IH]; cbn [map combine total fst snd]; [reflexivity|]. rewrite IH. unfold Rsqr. ring. }
  assert (P : 0 <= residuals (combine xs ys) (offset f) (slope f)) by (apply total_nonneg; intros p _; apply Rle_0_sqr).
  destruct U as [-> ->]; [lra|]. destruct f. reflexivity.
Qed.
Print Assumptions C61_exact_line.

(* the variant with fixed steps is the general one on the grid *)
Theorem C61_fixed_steps : forall x h ys, (2 <= length ys)%nat -> h <> 0 ->
  linear_regression_step x h ys = linear_regression (grid x h (length ys)) ys /\
  exists f, linear_regression_step x h ys = Ok f.
Proof.
  intros x h ys N H. rewrite (step_is_general x h ys N H). split; [reflexivity|].
  assert (E : length (grid x h (length ys)) = length ys) by apply grid_length.
  rewrite (regression_value _ ys E) by (intros X; rewrite X in E; cbn in E; lia).
  rewrite rdiv_ok by (apply grid_sxx; assumption). eexists. reflexivity.
Qed.
Print Assumptions C61_fixed_steps.

Theorem C61_fixed_steps_undefined : forall x h ys, (length ys < 2)%nat \/ h = 0 -> linear_regression_step x h ys = UB.
Proof.
  intros x h ys C. unfold linear_regression_step. destruct ys as [|y ys]; [rewrite average_nil; reflexivity|].
  rewrite (average_ok (y :: ys)) by discriminate. cbn [bind].
  match goal with |- context [fold_left ?f ?l ?a] => destruct (fold_left f l a) as [num xv] end.
  destruct (Req_EM_T h 0) as [->|H].
  - rewrite rdiv_zero by ring. reflexivity.
  - destruct C as [C|C]; [|contradiction]. destruct ys; [|cbn in C; lia]. cbn [length Nat.sub INR].
    rewrite rdiv_ok by lra. cbn [bind]. rewrite rdiv_zero; [reflexivity|]. field. exact H.
Qed.
Print Assumptions C61_fixed_steps_undefined.

(* three points not on a line: the best line is 5/6 + x/2 *)
Example C61_nonvacuous : linear_regression [0; 1; 2] [1; 1; 2] = Ok (mkLinear (5 / 6) (1 / 2)) /\
  linear_regression_step 0 1 [1; 1; 2] = Ok (mkLinear (5 / 6) (1 / 2)).
Proof.
  assert (G : linear_regression [0; 1; 2] [1; 1; 2] = Ok (mkLinear (5 / 6) (1 / 2))).
  { rewrite regression_value by (reflexivity || discriminate).
    assert (M1 : mean fst (combine [0; 1; 2] [1; 1; 2]) = 1) by (unfold mean; cbn; lra).
    assert (M2 : mean snd (combine [0; 1; 2] [1; 1; 2]) = 4 / 3) by (unfold mean; cbn; lra).
    unfold sxx, sxy. rewrite M1, M2. cbn [combine total fst snd]. rewrite rdiv_ok by lra. cbn [bind]. f_equal. f_equal; lra. }
  split; [exact G|]. destruct (C61_fixed_steps 0 1 [1; 1; 2]) as [-> _]; [cbn; lia|lra|].
  rewrite <- G. f_equal. unfold grid. cbn. repeat f_equal; ring.
Qed.
