(* C84: output_function *)
From Coq Require Import ZArith Reals List Lia Lra.
From Verif Require Import Model.Base Model.Range Model.Regression Model.Sample.
Import ListNotations.

(* point k of n >= 2 points spread evenly from a to b *)
Definition Even (a b : R) (n : nat) (k : nat) (x : R) : Prop := ((x - a) * INR (n - 1) = INR k * (b - a))%R.

Lemma sample_loop_ok min max func n : (2 <= n)%nat -> forall m i, exists l, sample_loop min max func (Z.of_nat n) (Z.of_nat i) m = Ok l /\ length l = m /\
  forall k p, nth_error l k = Some p -> Even min max n (i + k) (fst p) /\ snd p = func (fst p).
Proof.
  intros N. induction m as [|m IH]; intros i.
  - exists []. split; [reflexivity|]. split; [reflexivity|]. intros [|k] p E; discriminate.
  - cbn [sample_loop]. unfold rdiv at 1. replace (Z.of_nat n - 1)%Z with (Z.of_nat (n - 1)) by lia. rewrite <- !INR_IZR_INZ.
    assert (Z : INR (n - 1) <> 0%R) by (apply not_0_INR; lia). destruct (Req_EM_T (INR (n - 1)) 0); [contradiction|]. cbn [bind].
    destruct (IH (S i)) as (l & E & L & H). replace (Z.of_nat i + 1)%Z with (Z.of_nat (S i)) by lia. rewrite E. cbn [bind]. eexists. split; [reflexivity|].
    split; [cbn; congruence|]. intros [|k] p P; cbn [nth_error] in P.
    + inversion P; subst. cbn [fst snd]. rewrite Nat.add_0_r. split; [|reflexivity]. unfold Even. field. exact Z.
    + destruct (H k p P) as [H1 H2]. replace (i + S k)%nat with (S i + k)%nat by lia. auto.
Qed.
Theorem C84_samples : forall min max func n, (2 <= n)%nat -> exists l, output_function min max func (Z.of_nat n) = Ok l /\ length l = n /\
  (forall k p, nth_error l k = Some p -> Even min max n k (fst p) /\ snd p = func (fst p)) /\
  option_map fst (nth_error l 0) = Some min /\ option_map fst (nth_error l (n - 1)) = Some max.
Proof.
  intros min max func n N. destruct (sample_loop_ok min max func n N n 0) as (l & E & L & H). exists l.
  unfold output_function. rewrite Nat2Z.id. split; [exact E|]. split; [exact L|]. split; [exact H|].
  assert (Z : INR (n - 1) <> 0%R) by (apply not_0_INR; lia). split.
  - destruct (nth_error l 0) as [p|] eqn:P; [|apply nth_error_None in P; lia]. destruct (H 0%nat p P) as [X _]. unfold Even in X. cbn [Nat.add] in X. cbn [option_map]. f_equal.
    cbn [Nat.add] in X. change (INR 0) with 0%R in X. apply (Rmult_eq_reg_r (INR (n - 1))); [|exact Z]. set (r := INR (n - 1)) in *. clearbody r. clear - X. nra.
  - destruct (nth_error l (n - 1)) as [p|] eqn:P; [|apply nth_error_None in P; lia]. destruct (H _ p P) as [X _]. unfold Even in X. cbn [Nat.add] in X. cbn [option_map]. f_equal.
    apply (Rmult_eq_reg_r (INR (n - 1))); [|exact Z]. set (r := INR (n - 1)) in *. clearbody r. clear - X. nra.
Qed.
Print Assumptions C84_samples.
(* fewer samples: none, or a division of zero by zero *)
Theorem C84_one_sample_refuted : forall min max func,
  output_function min max func 1 = UB /\ forall samples, (samples <= 0)%Z -> output_function min max func samples = Ok [].
Proof.
  intros min max func. split.
  - unfold output_function. change (Z.to_nat 1) with 1%nat. cbn [sample_loop]. unfold rdiv. change (1 - 1)%Z with 0%Z. destruct (Req_EM_T 0 0); [reflexivity|congruence].
  - intros samples SP. unfold output_function. replace (Z.to_nat samples) with 0%nat by lia. reflexivity.
Qed.
Print Assumptions C84_one_sample_refuted.

Lemma i32_ok z : (- 2 ^ 31 <= z < 2 ^ 31)%Z -> arith i32 z = Ok z.
Proof.
  intros H. unfold arith, i32, fits, type_min, type_max. change (2 ^ (32 - 1))%Z with (2 ^ 31)%Z.
  replace ((- 2 ^ 31 <=? z) && (z <=? 2 ^ 31 - 1))%Z%bool with true; [reflexivity|]. symmetry. apply andb_true_intro. split; apply Z.leb_le; lia.
Qed.
(* integers: the points are rounded towards min *)
Theorem C84_samples_int : forall min max func n, (2 <= n)%nat -> (- 2 ^ 31 <= min <= max)%Z -> (max < 2 ^ 31)%Z ->
  (Z.of_nat (n - 1) * (max - min) < 2 ^ 31)%Z ->
  exists l, output_function_int min max func (Z.of_nat n) = Ok l /\ length l = n /\
  (forall k p, nth_error l k = Some p -> (fst p - min = Z.of_nat k * (max - min) / Z.of_nat (n - 1))%Z /\ snd p = func (fst p)) /\
  option_map fst (nth_error l 0) = Some min /\ option_map fst (nth_error l (n - 1)) = Some max.
Proof.
  intros min max func n N B1 B2 B3.
  assert (K : forall m i, (i + m = n)%nat -> exists l, sample_loop_int min max func (Z.of_nat n) (Z.of_nat i) m = Ok l /\ length l = m /\
    forall k p, nth_error l k = Some p -> (fst p - min = Z.of_nat (i + k) * (max - min) / Z.of_nat (n - 1))%Z /\ snd p = func (fst p)).
  { induction m as [|m IH]; intros i SM.
    - exists []. split; [reflexivity|]. split; [reflexivity|]. intros [|k] p E; discriminate.
    - cbn [sample_loop_int]. assert (D : (0 <= max - min < 2 ^ 31)%Z) by nia. rewrite i32_ok by lia. cbn [bind].
      assert (P : (0 <= Z.of_nat i * (max - min) <= Z.of_nat (n - 1) * (max - min))%Z).
      { split; [apply Z.mul_nonneg_nonneg; lia|]. apply Z.mul_le_mono_nonneg_r; lia. }
      rewrite i32_ok by lia. cbn [bind]. replace (Z.of_nat n - 1)%Z with (Z.of_nat (n - 1)) by lia.
      destruct (Z.of_nat (n - 1) =? 0)%Z eqn:Z; [apply Z.eqb_eq in Z; lia|]. rewrite Z.quot_div_nonneg by lia.
      set (q := (Z.of_nat i * (max - min) / Z.of_nat (n - 1))%Z).
      assert (Q : (0 <= q <= max - min)%Z).
      { unfold q. split; [apply Z.div_pos; lia|]. apply Z.div_le_upper_bound; lia. }
      rewrite i32_ok by lia. cbn [bind]. rewrite i32_ok by lia. cbn [bind].
      destruct (IH (S i)) as (l & E & L & H); [lia|]. replace (Z.of_nat i + 1)%Z with (Z.of_nat (S i)) by lia. rewrite E. cbn [bind].
      eexists. split; [reflexivity|]. split; [cbn; congruence|]. intros [|k] p X; cbn [nth_error] in X.
      + inversion X; subst. cbn [fst snd]. rewrite Nat.add_0_r. split; [|reflexivity]. fold q. lia.
      + destruct (H k p X) as [H1 H2]. replace (i + S k)%nat with (S i + k)%nat by lia. auto. }
  destruct (K n 0%nat) as (l & E & L & H); [lia|]. exists l. unfold output_function_int. rewrite Nat2Z.id. split; [exact E|]. split; [exact L|]. split; [exact H|]. split.
  - destruct (nth_error l 0) as [p|] eqn:P; [|apply nth_error_None in P; lia]. destruct (H 0%nat p P) as [X _]. cbn [option_map]. f_equal.
    cbn [Nat.add] in X. change (Z.of_nat 0) with 0%Z in X. rewrite Z.mul_0_l, Z.div_0_l in X by lia. lia.
  - destruct (nth_error l (n - 1)) as [p|] eqn:P; [|apply nth_error_None in P; lia]. destruct (H _ p P) as [X _]. cbn [option_map]. f_equal.
    cbn [Nat.add] in X. rewrite Z.mul_comm, Z.div_mul in X by lia. lia.
Qed.
Print Assumptions C84_samples_int.
(* the product of an index and the range overflows long before the points do *)
Theorem C84_one_sample_int_refuted : forall min max func,
  output_function_int min max func 1 = UB /\ forall samples, (samples <= 0)%Z -> output_function_int min max func samples = Ok [].
Proof.
  intros min max func. split.
  - unfold output_function_int. change (Z.to_nat 1) with 1%nat. cbn [sample_loop_int]. unfold arith, i32. destruct (Model.Range.fits (Signed 32) (max - min)); [|reflexivity]. cbn [bind]. rewrite Z.mul_0_l. reflexivity.
  - intros samples SP. unfold output_function_int. replace (Z.to_nat samples) with 0%nat by lia. reflexivity.
Qed.
Print Assumptions C84_one_sample_int_refuted.
Theorem C84_int_overflow_refuted : forall func, output_function_int 0 (2 ^ 30) func 4 = UB.
Proof. intros func. reflexivity. Qed.
Print Assumptions C84_int_overflow_refuted.
Example C84_nonvacuous : output_function_int (-3) 4 (fun x => (x * x)%Z) 4 = Ok [(-3, 9); (-1, 1); (1, 1); (4, 16)]%Z.
Proof. reflexivity. Qed.
