(* C65 C66: filters (exact reals) *)
From Coq Require Import Reals ZArith List Lra Lia.
From Verif Require Import Model.Base Model.Math Model.Regression Model.Filter Spec.Stats Spec.Filter Proofs.BaseFacts Proofs.StorageRealProofs
  Proofs.MathProofs Proofs.PiProofs Proofs.FilterProofs.
Local Open Scope R_scope.

(* a filter with coefficients b0, b, a and nothing in its registers *)
Definition designed (N : nat) (b0 : R) (b a : list R) : filter := mkFilter b0 (repeat 0 N) b (repeat 0 N) a.
(* the signal x, sample by sample, into f: the signal y comes out *)
Definition Response (N : nat) (f : filter) (x y : nat -> R) : Prop :=
  forall n, exists f', feed_all N f (map x (seq 0 n)) = Ok (f', map y (seq 0 n)).

Lemma designed_wf N b0 b a : length b = N -> length a = N -> wf N (designed N b0 b a) /\
  forall i, (i < N)%nat -> nth i (x_ (designed N b0 b a)) 0 = 0 /\ nth i (y_ (designed N b0 b a)) 0 = 0.
Proof.
  intros B A. unfold wf, designed. cbn [x_ b_ y_ a_]. rewrite repeat_length. split; [auto|]. intros i _. rewrite nth_repeat. auto.
Qed.
Lemma map_seq_inj (y z : nat -> R) : (forall n, map y (seq 0 n) = map z (seq 0 n)) -> forall k, y k = z k.
Proof.
  intros H k. pose proof (f_equal (fun l => nth_error l k) (H (S k))) as E. cbn beta in E.
  assert (Q : nth_error (seq 0 (S k)) k = Some k).
  { rewrite (nth_error_nth' _ 0%nat) by (rewrite seq_length; lia). rewrite seq_nth by lia. reflexivity. }
  rewrite !(map_nth_error _ _ _ Q) in E. congruence.
Qed.
Lemma response_outputs N f x y : (0 < N)%nat -> wf N f -> (Response N f x y <-> forall k, y k = outputs N f x k).
Proof.
  intros P W. assert (S0 : forall n, feed_all N f (map x (seq 0 n)) = Ok (states N f x n, map (outputs N f x) (seq 0 n))).
  { intros n. pose proof (feed_all_states N f x P W n 0) as H. cbn [states Nat.add] in H. exact H. }
  split.
  - intros H. apply map_seq_inj. intros n. destruct (H n) as (f' & E). rewrite S0 in E. inversion E. reflexivity.
  - intros H n. rewrite S0. eexists. f_equal. f_equal. symmetry. apply map_ext. exact H.
Qed.
Lemma response_solves N b0 b a x y : (0 < N)%nat -> length b = N -> length a = N ->
  (Response N (designed N b0 b a) x y <-> forall k, Solves b0 b a x y k).
Proof.
  intros P B A. destruct (designed_wf N b0 b a B A) as [W Z]. rewrite response_outputs by assumption.
  pose proof (outputs_solve N (designed N b0 b a) x P W Z) as G. cbn [designed b0_ b_ a_] in G. split.
  - intros H k. pose proof (G k) as Q. unfold Solves in *. rewrite H, Q. f_equal. apply sumR_ext. intros i _. f_equal. apply past_ext. intros j _. symmetry. apply H.
  - intros H k. apply (solve_unique b0 b a x x _ _ (S k)); auto.
Qed.

(* the outputs are the one solution of the difference equation *)
Theorem C65_difference_equation : forall N b0 b a, (0 < N)%nat -> length b = N -> length a = N -> forall x,
  (exists y, Response N (designed N b0 b a) x y) /\
  forall y, Response N (designed N b0 b a) x y <-> forall k, Solves b0 b a x y k.
Proof.
  intros N b0 b a P B A x. destruct (designed_wf N b0 b a B A) as [W Z]. split.
  - exists (outputs N (designed N b0 b a) x). apply response_outputs; auto.
  - intros y. apply response_solves; assumption.
Qed.
Print Assumptions C65_difference_equation.

Theorem C65_unique : forall N b0 b a x y z, (0 < N)%nat -> length b = N -> length a = N ->
  Response N (designed N b0 b a) x y -> Response N (designed N b0 b a) x z -> forall k, y k = z k.
Proof.
  intros N b0 b a x y z P B A Y Z k. rewrite response_solves in Y, Z by assumption. apply (solve_unique b0 b a x x _ _ (S k)); auto.
Qed.
Print Assumptions C65_unique.

(* the last output and its change can be asked for; both are 0 before any input *)
Theorem C65_queries : forall N b0 b a x y n f', (0 < N)%nat -> length b = N -> length a = N ->
  Response N (designed N b0 b a) x y -> feed_all N (designed N b0 b a) (map x (seq 0 n)) = Ok (f', map y (seq 0 n)) ->
  last_output f' = Ok (past y n 0) /\ velocity f' = if (2 <=? N)%nat then Ok (past y n 0 - past y n 1) else UB.
Proof.
  intros N b0 b a x y n f' P B A RS E. destruct (designed_wf N b0 b a B A) as [W Z].
  pose proof (feed_all_states N _ x P W n 0) as S0. cbn [states Nat.add] in S0. rewrite S0 in E. assert (E1 : states N (designed N b0 b a) x n = f') by congruence. clear E.
  pose proof (states_hold N _ x P W Z n) as H. destruct (states_ok N _ x P W n) as ((_ & _ & Ly & _) & _). rewrite E1 in *.
  rewrite response_outputs in RS by assumption.
  assert (PE : forall i, past (outputs N (designed N b0 b a) x) n i = past y n i) by (intros i; apply past_ext; intros j _; symmetry; apply RS).
  unfold last_output, velocity. rewrite vget_nth by lia. destruct (H 0%nat P) as [_ H0]. rewrite H0, PE. split; [reflexivity|]. cbn [bind].
  destruct (Nat.leb_spec 2 N) as [L|L].
  - rewrite vget_nth by lia. destruct (H 1%nat ltac:(lia)) as [_ H1]. rewrite H1, PE. reflexivity.
  - unfold vget. replace (nth_error (y_ f') 1) with (@None R); [reflexivity|]. symmetry. apply nth_error_None. lia.
Qed.
Print Assumptions C65_queries.

Theorem C65_linear : forall N b0 b a s t u v y z, (0 < N)%nat -> length b = N -> length a = N ->
  Response N (designed N b0 b a) u y -> Response N (designed N b0 b a) v z ->
  Response N (designed N b0 b a) (fun n => s * u n + t * v n) (fun n => s * y n + t * z n).
Proof.
  intros N b0 b a s t u v y z P B A Y Z. rewrite response_solves in Y, Z by assumption. rewrite response_solves by assumption.
  intros k. apply solve_lin; auto.
Qed.
Print Assumptions C65_linear.

Theorem C65_time_invariant : forall N b0 b a d x y, (0 < N)%nat -> length b = N -> length a = N ->
  Response N (designed N b0 b a) x y -> Response N (designed N b0 b a) (delay d x) (delay d y).
Proof.
  intros N b0 b a d x y P B A Y. rewrite response_solves in Y by assumption. rewrite response_solves by assumption.
  intros k. apply solve_delay. auto.
Qed.
Print Assumptions C65_time_invariant.

(* later inputs do not matter *)
Theorem C65_causal : forall N b0 b a x x' y y' n, (0 < N)%nat -> length b = N -> length a = N ->
  Response N (designed N b0 b a) x y -> Response N (designed N b0 b a) x' y' ->
  (forall k, (k < n)%nat -> x k = x' k) -> forall k, (k < n)%nat -> y k = y' k.
Proof.
  intros N b0 b a x x' y y' n P B A Y Y' E. rewrite response_solves in Y, Y' by assumption.
  apply (solve_unique b0 b a x x' y y' n); auto.
Qed.
Print Assumptions C65_causal.

(* so that every response is the superposition of responses to a single pulse *)
Theorem C65_superposition : forall N b0 b a x y h, (0 < N)%nat -> length b = N -> length a = N ->
  Response N (designed N b0 b a) x y -> Response N (designed N b0 b a) pulse h ->
  forall k, y k = sumR (S k) (fun j => x j * h (k - j)%nat).
Proof.
  intros N b0 b a x y h P B A Y H k. rewrite response_solves in Y, H by assumption.
  assert (G : forall m k, Solves b0 b a (fun n => sumR m (fun j => x j * delay j pulse n)) (fun n => sumR m (fun j => x j * delay j h n)) k).
  { induction m as [|m IH]; intros n.
    - unfold Solves. cbn [sumR]. rewrite !sum_zero by (intros i _; unfold past; destruct (i <? n)%nat; reflexivity). ring.
    - cbn [sumR]. pose proof (solve_lin b0 b a 1 (x m) _ _ _ _ n (IH n) (solve_delay b0 b a m pulse h n (fun _ => H _))) as Q.
      unfold Solves in *. rewrite !Rmult_1_l in Q. rewrite Q. f_equal; [f_equal|]; try (rewrite Rmult_1_l; reflexivity); apply sumR_ext; intros i _; f_equal; apply past_ext; intros j _; ring. }
  assert (T : forall m n, (n < m)%nat -> sumR m (fun j => x j * delay j pulse n) = x n).
  { induction m as [|m IH]; intros n L; [lia|]. cbn [sumR]. destruct (Nat.eq_dec n m) as [->|D].
    - replace (sumR m (fun j => x j * delay j pulse m)) with 0.
      + unfold delay. rewrite Nat.ltb_irrefl, Nat.sub_diag. cbn. ring.
      + symmetry. apply sum_zero. intros j J. unfold delay. destruct (Nat.ltb_spec m j); [lia|]. destruct (m - j)%nat eqn:E; [lia|reflexivity].
    - rewrite IH by lia. unfold delay. destruct (Nat.ltb_spec n m); [ring|lia]. }
  rewrite (solve_unique b0 b a x (fun n => sumR (S k) (fun j => x j * delay j pulse n)) y (fun n => sumR (S k) (fun j => x j * delay j h n)) (S k)).
  - apply sumR_ext. intros j J. f_equal. unfold delay. destruct (Nat.ltb_spec k j); [lia|reflexivity].
  - intros n L. symmetry. apply T. exact L.
  - intros n _. apply Y.
  - intros n _. apply G.
  - lia.
Qed.
Print Assumptions C65_superposition.

(* the argument is a reference: the filter may be fed its own output or its
   own last input *)
Theorem C65_feedback : forall N f, (0 < N)%nat -> length (x_ f) = N -> length (b_ f) = N -> length (y_ f) = N -> length (a_ f) = N ->
  feed_ref N f (OwnY 0) = (let* y := last_output f in feed N f y) /\ feed_ref N f (OwnX 0) = feed N f (nth 0 (x_ f) 0).
Proof.
  intros N f P Lx Lb Ly La. assert (W : wf N f) by (repeat split; assumption).
  destruct (shift_ok N (x_ f) (y_ f) Lx Ly) as (xs' & ys' & E & A & B & C). destruct (C 0%nat P) as [C1 C2]. cbn in C1, C2.
  unfold last_output. rewrite vget_nth by lia. cbn [bind]. unfold feed, feed_ref. cbn [fetch]. rewrite !vget_nth by lia. cbn [bind].
  rewrite !accumulate_ok by exact W. cbn [bind]. rewrite E. cbn [bind fst snd]. rewrite !vget_nth by lia. rewrite C1, C2. split; reflexivity.
Qed.
Print Assumptions C65_feedback.

(* but not an older value of its own: the shift comes before the last use *)
Theorem C65_older_value_refuted : exists f f1 f2 y1 y2, feed_ref 2 f (OwnX 1) = Ok (f1, y1) /\ feed 2 f (nth 1 (x_ f) 0) = Ok (f2, y2) /\
  nth 0 (x_ f1) 0 = 1 /\ nth 0 (x_ f2) 0 = 2.
Proof.
  exists (mkFilter 1 [1; 2] [0; 0] [0; 0] [0; 0]). do 4 eexists. split; [reflexivity|]. split; [reflexivity|]. cbn. auto.
Qed.
Print Assumptions C65_older_value_refuted.

(* an order of 0 has no register for the output *)
Theorem C65_order_zero : forall b0 x, feed 0 (designed 0 b0 [] []) x = UB.
Proof. reflexivity. Qed.
Print Assumptions C65_order_zero.

Example C65_nonvacuous : exists f', feed_all 1 (designed 1 1 [0] [1 / 2]) [1; 0; 0; 8] = Ok (f', [1; 1 / 2; 1 / 4; 65 / 8]).
Proof.
  eexists. unfold feed_all, feed, feed_ref, accumulate, shift, designed. cbn. f_equal. repeat (f_equal; try lra).
Qed.

(* Butterworth design *)
Lemma cutoff_tan ratio : 0 < ratio < 1 / 2 -> 0 < sin (flut_pi * ratio) /\ 0 < cos (flut_pi * ratio) /\ 0 < tan (flut_pi * ratio).
Proof.
  intros [L U]. pose proof flut_pi_below as B. assert (P : 0 < flut_pi) by (unfold flut_pi; lra).
  assert (L' : 0 < flut_pi * ratio) by nra. assert (U' : flut_pi * ratio < PI / 2) by nra.
  split; [apply sin_gt_0; lra|]. split; [apply cos_gt_0; lra|apply tan_gt_0; assumption].
Qed.
Lemma lowpass_designed e : lowpass e = designed 2 (b0_ (lowpass e)) (b_ (lowpass e)) (a_ (lowpass e)).
Proof. reflexivity. Qed.
Lemma lowpass_solves e x y : Response 2 (lowpass e) x y -> forall k, Solves (b0_ (lowpass e)) (b_ (lowpass e)) (a_ (lowpass e)) x y k.
Proof. intros H. rewrite lowpass_designed, response_solves in H; [exact H|lia|reflexivity|reflexivity]. Qed.

(* the coefficients are finite except at multiples of a quarter turn; it is a
   second order filter without past *)
Theorem C66_defined : forall ratio,
  (sin (flut_pi * ratio) <> 0 -> cos (flut_pi * ratio) <> 0 -> exists b0 b a, length b = 2%nat /\ length a = 2%nat /\ butterworth ratio = Ok (designed 2 b0 b a)) /\
  (sin (flut_pi * ratio) = 0 \/ cos (flut_pi * ratio) = 0 -> butterworth ratio = UB) /\
  (0 < ratio < 1 / 2 -> sin (flut_pi * ratio) <> 0 /\ cos (flut_pi * ratio) <> 0).
Proof.
  intros ratio. split; [|split].
  - intros S C. rewrite butterworth_ok by assumption. rewrite lowpass_designed. do 3 eexists. split; [|split; [|reflexivity]]; reflexivity.
  - apply butterworth_ub.
  - intros H. destruct (cutoff_tan ratio H) as (S & C & _). split; lra.
Qed.
Print Assumptions C66_defined.

(* bounded input, bounded output: one factor for all inputs *)
Theorem C66_stable : forall ratio f, 0 < ratio < 1 / 2 -> butterworth ratio = Ok f ->
  exists G, 0 < G /\ forall x y M, Response 2 f x y -> (forall n, Rabs (x n) <= M) -> forall n, Rabs (y n) <= G * M.
Proof.
  intros ratio f H E. destruct (cutoff_tan ratio H) as (S & C & T). rewrite butterworth_ok in E by lra. inversion E; subst f. clear E.
  set (e := 1 / tan (flut_pi * ratio)). assert (P : 0 < e) by (unfold e; apply Rmult_lt_0_compat; [lra|apply Rinv_0_lt_compat; exact T]).
  exists (1 / den e * 4 / (1 - rr e) / ss e). split.
  - pose proof (rr_lt1 e P). pose proof (ss_pos e P). pose proof (den_pos e) as [D _]. unfold Rdiv. repeat apply Rmult_lt_0_compat; try lra; apply Rinv_0_lt_compat; lra.
  - intros x y M RS B. apply (lowpass_stable e x y M P); [apply lowpass_solves; exact RS|exact B].
Qed.
Print Assumptions C66_stable.

(* what settles at a value settles at that value *)
Theorem C66_settles : forall ratio f x y k, 0 < ratio < 1 / 2 -> butterworth ratio = Ok f -> Response 2 f x y -> Un_cv x k -> Un_cv y k.
Proof.
  intros ratio f x y k H E RS X. destruct (cutoff_tan ratio H) as (S & C & T). rewrite butterworth_ok in E by lra. inversion E; subst f.
  eapply lowpass_settles; [|apply lowpass_solves; exact RS|exact X]. apply Rmult_lt_0_compat; [lra|apply Rinv_0_lt_compat; exact T].
Qed.
Print Assumptions C66_settles.

(* what alternates is removed *)
Theorem C66_alternating : forall ratio f x y k, 0 < ratio < 1 / 2 -> butterworth ratio = Ok f -> Response 2 f x y ->
  (forall n, x n = k * (-1) ^ n) -> Un_cv y 0.
Proof.
  intros ratio f x y k H E RS X. destruct (cutoff_tan ratio H) as (S & C & T). rewrite butterworth_ok in E by lra. inversion E; subst f.
  eapply lowpass_blocks; [|apply lowpass_solves; exact RS|]. { apply Rmult_lt_0_compat; [lra|apply Rinv_0_lt_compat; exact T]. }
  intros eps EP. exists 0%nat. intros n _. rewrite !X. unfold R_dist. cbn [pow]. replace (_ - 0) with 0 by ring. rewrite Rabs_R0. exact EP.
Qed.
Print Assumptions C66_alternating.

(* a tone of w radians per sample comes out as a tone of the same frequency, with
   power 1 / ( 1 + X^4 ), where X compares the frequencies *)
Theorem C66_tone : forall ratio f w, 0 < ratio < 1 / 2 -> butterworth ratio = Ok f -> cos (w / 2) <> 0 ->
  exists A B, A * A + B * B = 1 / (1 + (tan (w / 2) / tan (flut_pi * ratio)) ^ 4) /\
  forall phi x y, Response 2 f x y -> (forall n, x n = cos (INR n * w + phi)) ->
    Un_cv (fun n => y n - (A * cos (INR n * w + phi) + B * sin (INR n * w + phi))) 0.
Proof.
  intros ratio f w H E CW. destruct (cutoff_tan ratio H) as (S & C & T). rewrite butterworth_ok in E by lra. inversion E; subst f.
  set (e := 1 / tan (flut_pi * ratio)). exists (in_phase (e * tan (w / 2))), (quadrature (e * tan (w / 2))). split.
  - rewrite amplitude. unfold e. f_equal. f_equal. field. lra.
  - intros phi x y RS X. apply (lowpass_tone e w phi x y); [|exact CW|apply lowpass_solves; exact RS|exact X].
    apply Rmult_lt_0_compat; [lra|apply Rinv_0_lt_compat; exact T].
Qed.
Print Assumptions C66_tone.

(* at the cutoff ratio (of the sampling frequency) half the power is left *)
Theorem C66_cutoff : forall ratio f, 0 < ratio < 1 / 2 -> butterworth ratio = Ok f ->
  exists A B, A * A + B * B = 1 / 2 /\
  forall phi x y, Response 2 f x y -> (forall n, x n = cos (INR n * (2 * flut_pi * ratio) + phi)) ->
    Un_cv (fun n => y n - (A * cos (INR n * (2 * flut_pi * ratio) + phi) + B * sin (INR n * (2 * flut_pi * ratio) + phi))) 0.
Proof.
  intros ratio f H E. destruct (cutoff_tan ratio H) as (S & C & T).
  assert (W : 2 * flut_pi * ratio / 2 = flut_pi * ratio) by field.
  destruct (C66_tone ratio f (2 * flut_pi * ratio) H E) as (A & B & P & Q); [rewrite W; lra|].
  exists A, B. split; [|exact Q]. rewrite P, W. replace (tan (flut_pi * ratio) / tan (flut_pi * ratio)) with 1 by (field; lra). lra.
Qed.
Print Assumptions C66_cutoff.

(* higher tones come out weaker *)
Theorem C66_attenuation : forall ratio w v, 0 < ratio < 1 / 2 -> 0 <= w < v -> v < PI ->
  1 / (1 + (tan (v / 2) / tan (flut_pi * ratio)) ^ 4) < 1 / (1 + (tan (w / 2) / tan (flut_pi * ratio)) ^ 4) <= 1.
Proof.
  intros ratio w v H W V. destruct (cutoff_tan ratio H) as (S & C & T).
  assert (TI : tan (w / 2) < tan (v / 2)) by (apply tan_increasing; lra).
  assert (T0 : 0 <= tan (w / 2)). { destruct (Req_EM_T w 0) as [->|N]; [replace (0 / 2) with 0 by field; rewrite tan_0; lra|]. left. apply tan_gt_0; lra. }
  assert (IT : 0 < / tan (flut_pi * ratio)) by (apply Rinv_0_lt_compat; exact T).
  set (p := tan (w / 2) / tan (flut_pi * ratio)). set (q := tan (v / 2) / tan (flut_pi * ratio)).
  assert (P0 : 0 <= p) by (unfold p, Rdiv; apply Rmult_le_pos; lra). assert (PQ : p < q) by (unfold p, q, Rdiv; apply Rmult_lt_compat_r; assumption).
  assert (LT : p ^ 4 < q ^ 4). { replace (p ^ 4) with ((p * p) * (p * p)) by ring. replace (q ^ 4) with ((q * q) * (q * q)) by ring. assert (p * p < q * q) by nra. assert (0 <= p * p) by nra. nra. }
  assert (G0 : 0 <= p ^ 4) by (apply pow_le; exact P0). split.
  - unfold Rdiv. rewrite !Rmult_1_l. apply Rinv_lt_contravar; [apply Rmult_lt_0_compat; lra|lra].
  - apply Rmult_le_reg_r with (1 + p ^ 4); [lra|]. unfold Rdiv. rewrite Rmult_1_l, Rinv_l by lra. lra.
Qed.
Print Assumptions C66_attenuation.

(* a negative tangent (a negative ratio above - 1 / 2, for one) gives a filter
   that a single pulse makes grow without bound *)
Theorem C66_any_ratio_refuted : forall ratio, tan (flut_pi * ratio) < 0 -> cos (flut_pi * ratio) <> 0 ->
  exists f, butterworth ratio = Ok f /\ forall y, Response 2 f pulse y -> forall M, exists n, M < Rabs (y n).
Proof.
  intros ratio T C. assert (S : sin (flut_pi * ratio) <> 0) by (intros E; unfold tan in T; rewrite E in T; lra).
  exists (lowpass (1 / tan (flut_pi * ratio))). split; [apply butterworth_ok; assumption|]. intros y RS. eapply lowpass_unstable; [|apply lowpass_solves; exact RS].
  unfold Rdiv. rewrite Rmult_1_l. apply Rinv_lt_0_compat. exact T.
Qed.
Print Assumptions C66_any_ratio_refuted.

Example C66_negative_ratio : tan (flut_pi * (- 1 / 4)) < 0 /\ cos (flut_pi * (- 1 / 4)) <> 0.
Proof.
  destruct (cutoff_tan (1 / 4) ltac:(lra)) as (S & C & T). replace (flut_pi * (- 1 / 4)) with (- (flut_pi * (1 / 4))) by field.
  rewrite tan_neg, cos_neg. split; lra.
Qed.

(* a ratio of one quarter, roughly: tan = 1 *)
Example C66_nonvacuous : lowpass 1 = mkFilter (1 / (2 + sqrt 2)) [0; 0] [2 * (1 / (2 + sqrt 2)); 1 / (2 + sqrt 2)] [0; 0] [0; - (2 - sqrt 2) * (1 / (2 + sqrt 2))].
Proof.
  unfold lowpass, den. replace (1 + sqrt 2 * 1 + 1 * 1) with (2 + sqrt 2) by ring. replace (1 - sqrt 2 * 1 + 1 * 1) with (2 - sqrt 2) by ring.
  replace (2 * (1 * 1 - 1) * (1 / (2 + sqrt 2))) with 0 by ring. reflexivity.
Qed.
