(* C105: filters and delayers on float and double *)
From Coq Require Import Reals ZArith List Bool Lia Lra.
From Verif Require Import Model.Base Model.FloatText Model.Math Model.Filter Model.Ieee Model.FloatMath Model.FloatInterp Model.FloatFilter Spec.FloatText Spec.Ieee Spec.Stats Spec.Filter Spec.Rounding Spec.FloatFilter.
From Verif Require Import Proofs.BaseFacts Proofs.FloatTextProofs Proofs.IeeeProofs Proofs.IeeeErrorProofs Proofs.IeeeSqrtProofs Proofs.FloatOpsProofs Proofs.StorageRealProofs Proofs.FilterProofs Props.Filter Props.FloatEquals Props.FloatAverage Props.FloatSqrt Props.FloatInterp Props.FloatPoly Props.FloatVec Proofs.RoundingProofs Proofs.FloatFilterProofs.
From Verif Require Proofs.FloatContainersProofs Model.Delayer.
Local Open Scope R_scope.

(* a filter with coefficients b0, b, a and nothing in its registers *)
Definition f_designed (N : nat) (b0 : fnum) (b a : list fnum) : f_filter := mkFf b0 (repeat f_zero N) b (repeat f_zero N) a.
(* the signal x, sample by sample, into s: the signal y comes out *)
Definition F_response (f : fmt) (N : nat) (s : f_filter) (x y : nat -> fnum) : Prop :=
  forall n, exists s', ff_feed_all f N s (map x (seq 0 n)) = Ok (s', map y (seq 0 n)).
Definition coef (l : list fnum) (i : nat) : fnum := nth i l f_zero.
(* the value computed at time k *)
Definition Follows (f : fmt) (N : nat) (b0 : fnum) (b a : list fnum) (x y : nat -> fnum) (k : nat) : Prop :=
  y k = computed f (equation N b0 (x k) (coef b) (earlier x k) (coef a) (earlier y k)).
Definition reals (f : fmt) (x : nat -> fnum) (k : nat) : R := number f (x k).
(* the exact right hand side of the difference equation at time k, and the sum of the sizes of its terms *)
Definition rhs (f : fmt) (b0 : fnum) (b a : list fnum) (x y : nat -> fnum) (k : nat) : R :=
  number f b0 * number f (x k) + sumR (List.length b) (fun i => number f (nth i b f_zero) * past (reals f x) k i) + sumR (List.length a) (fun i => number f (nth i a f_zero) * past (reals f y) k i).
Definition rhs_size (f : fmt) (b0 : fnum) (b a : list fnum) (x y : nat -> fnum) (k : nat) : R :=
  Rabs (number f b0) * Rabs (number f (x k)) + sumR (List.length b) (fun i => Rabs (number f (nth i b f_zero)) * Rabs (past (reals f x) k i)) + sumR (List.length a) (fun i => Rabs (number f (nth i a f_zero)) * Rabs (past (reals f y) k i)).
(* the relative error of N + 2 roundings, and what N + 1 products and sums below the normal numbers may lose *)
Definition steps_error (f : fmt) (N : nat) : R := (1 + ulp f) ^ (N + 2) - 1.
Definition steps_lost (f : fmt) (N : nat) : R := (1 + ulp f) ^ (N + 1) * (2 * INR N + 1) * (unit_of f / 2).

Lemma f_designed_wf N b0 b a : List.length b = N -> List.length a = N -> ff_wf N (f_designed N b0 b a) /\
  forall i, (i < N)%nat -> nth i (ff_x (f_designed N b0 b a)) f_zero = f_zero /\ nth i (ff_y (f_designed N b0 b a)) f_zero = f_zero.
Proof.
  intros B A. unfold ff_wf, f_designed. cbn [ff_x ff_b ff_y ff_a]. rewrite repeat_length. split; [auto|]. intros i _. rewrite nth_repeat. auto.
Qed.
Lemma map_seq_inj_ {T} (y z : nat -> T) : (forall n, map y (seq 0 n) = map z (seq 0 n)) -> forall k, y k = z k.
Proof.
  intros H k. pose proof (f_equal (fun l => nth_error l k) (H (S k))) as E. cbn beta in E.
  assert (Q : nth_error (seq 0 (S k)) k = Some k).
  { rewrite (nth_error_nth' _ 0%nat) by (rewrite seq_length; lia). rewrite seq_nth by lia. reflexivity. }
  rewrite !(map_nth_error _ _ _ Q) in E. congruence.
Qed.
Lemma f_response_outputs f N s x y : (0 < N)%nat -> ff_wf N s -> (F_response f N s x y <-> forall k, y k = ff_outputs f N s x k).
Proof.
  intros P W. assert (S0 : forall n, ff_feed_all f N s (map x (seq 0 n)) = Ok (ff_states f N s x n, map (ff_outputs f N s x) (seq 0 n))).
  { intros n. pose proof (ff_feed_all_states f N s x P W n 0) as H. cbn [ff_states Nat.add] in H. exact H. }
  split.
  - intros H. apply map_seq_inj_. intros n. destruct (H n) as (f' & E). rewrite S0 in E. inversion E. reflexivity.
  - intros H n. rewrite S0. eexists. f_equal. f_equal. symmetry. apply map_ext. exact H.
Qed.
Lemma earlier_ext (x y : nat -> fnum) k i : (forall j, (j < k)%nat -> x j = y j) -> earlier x k i = earlier y k i.
Proof. intros H. unfold earlier. destruct (Nat.ltb_spec i k); [|reflexivity]. apply H. lia. Qed.
Lemma follows_unique f N b0 b a x y z : (forall k, Follows f N b0 b a x y k) -> (forall k, Follows f N b0 b a x z k) -> forall k, y k = z k.
Proof.
  intros Y Z. induction k as [k IH] using lt_wf_ind. rewrite (Y k), (Z k). f_equal. apply equation_ext. intros i L. repeat split. apply earlier_ext, IH.
Qed.
(* the outputs are the one sequence that follows the difference equation, each
   sum and product rounded, and the sums taken in the order of the loop *)
Theorem C105_equation : forall f N b0 b a, (0 < N)%nat -> List.length b = N -> List.length a = N -> forall x,
  (exists y, F_response f N (f_designed N b0 b a) x y) /\
  forall y, F_response f N (f_designed N b0 b a) x y <-> forall k, Follows f N b0 b a x y k.
Proof.
  intros f N b0 b a P B A x. destruct (f_designed_wf N b0 b a B A) as [W Z]. split.
  - exists (ff_outputs f N (f_designed N b0 b a) x). apply f_response_outputs; auto.
  - intros y. rewrite f_response_outputs by assumption. pose proof (ff_outputs_equation f N (f_designed N b0 b a) x P W Z) as G. cbn [f_designed ff_b0 ff_b ff_a] in G. split.
    + intros H k. unfold Follows. rewrite H, G. f_equal. apply equation_ext. intros i _. repeat split. apply earlier_ext. intros j _. symmetry. apply H.
    + intros H. apply (follows_unique f N b0 b a x); [exact H|exact G].
Qed.
Print Assumptions C105_equation.

(* the last output and its change can be asked for *)
Theorem C105_queries : forall f N b0 b a x y n s', (0 < N)%nat -> List.length b = N -> List.length a = N ->
  F_response f N (f_designed N b0 b a) x y -> ff_feed_all f N (f_designed N b0 b a) (map x (seq 0 n)) = Ok (s', map y (seq 0 n)) ->
  ff_last s' = Ok (earlier y n 0) /\ ff_velocity f s' = if (2 <=? N)%nat then Ok (f_sub f (earlier y n 0) (earlier y n 1)) else UB.
Proof.
  intros f N b0 b a x y n s' P B A RS E. destruct (f_designed_wf N b0 b a B A) as [W Z].
  pose proof (ff_feed_all_states f N _ x P W n 0) as S0. cbn [ff_states Nat.add] in S0. rewrite S0 in E. assert (E1 : ff_states f N (f_designed N b0 b a) x n = s') by congruence. clear E.
  pose proof (ff_states_hold f N _ x P W Z n) as H. destruct (ff_states_ok f N _ x P W n) as ((_ & _ & Ly & _) & _). rewrite E1 in *.
  rewrite f_response_outputs in RS by assumption.
  assert (PE : forall i, earlier (ff_outputs f N (f_designed N b0 b a) x) n i = earlier y n i) by (intros i; apply earlier_ext; intros j _; symmetry; apply RS).
  unfold ff_last, ff_velocity. rewrite vget_nth_ by lia. destruct (H 0%nat P) as [_ H0]. rewrite H0, PE. split; [reflexivity|]. cbn [bind].
  destruct (Nat.leb_spec 2 N) as [L|L].
  - rewrite vget_nth_ by lia. destruct (H 1%nat ltac:(lia)) as [_ H1]. rewrite H1, PE. reflexivity.
  - unfold vget. replace (nth_error (ff_y s') 1) with (@None fnum); [reflexivity|]. symmetry. apply nth_error_None. lia.
Qed.
Print Assumptions C105_queries.

Lemma zero_fin_f f : IEEE f -> Fin f f_zero.
Proof. intros I. exists false, 0%Z. split; [reflexivity|]. apply zero_finite, ieee_sane, I. Qed.
Lemma number_zero f : number f f_zero = 0.
Proof. unfold number, f_zero, val. unfold Rdiv. rewrite Rmult_0_l. reflexivity. Qed.
Lemma reals_past f x k i : number f (earlier x k i) = past (reals f x) k i.
Proof. unfold earlier, past. destruct (Nat.ltb_spec i k); [reflexivity|]. apply number_zero. Qed.
Lemma coef_all (P : fnum -> Prop) l i : P f_zero -> Forall P l -> P (coef l i).
Proof. intros Z H. unfold coef. destruct (Nat.lt_ge_cases i (List.length l)); [|rewrite nth_overflow by assumption; exact Z]. rewrite Forall_forall in H. apply H, nth_In. assumption. Qed.
Lemma earlier_all (P : fnum -> Prop) x k i : P f_zero -> (forall j, (j < k)%nat -> P (x j)) -> P (earlier x k i).
Proof. intros Z H. unfold earlier. destruct (Nat.ltb_spec i k); [apply H; lia|exact Z]. Qed.
Lemma follows_over (P : fnum -> Prop) N b0 b a x y k : P f_zero -> P b0 -> Forall P b -> Forall P a -> (forall j, (j <= k)%nat -> P (x j)) -> (forall j, (j < k)%nat -> P (y j)) ->
  Over P (equation N b0 (x k) (coef b) (earlier x k) (coef a) (earlier y k)).
Proof.
  intros Z H0 B A X Y. apply equation_over; [exact H0|apply X; lia|]. intros i _. split; [apply coef_all; assumption|]. split; [apply earlier_all; [exact Z|intros j L; apply X; lia]|]. split; [apply coef_all; assumption|]. apply earlier_all; assumption.
Qed.
Lemma follows_valid f N b0 b a x y : IEEE f -> Valid f b0 -> Forall (Valid f) b -> Forall (Valid f) a -> (forall k, Valid f (x k)) -> (forall k, Follows f N b0 b a x y k) -> forall k, Valid f (y k).
Proof.
  intros I H0 B A X Y. induction k as [k IH] using lt_wf_ind. rewrite (Y k). apply computed_valid; [exact I|]. apply follows_over; auto. apply fin_valid, zero_fin_f, I.
Qed.
Lemma rhs_exact f N b0 b a x y k : List.length b = N -> List.length a = N -> exact f (equation N b0 (x k) (coef b) (earlier x k) (coef a) (earlier y k)) = rhs f b0 b a x y k.
Proof.
  intros B A. rewrite equation_exact. unfold rhs. rewrite B, A. f_equal; [f_equal|]; apply sumR_ext; intros i _; unfold real_at; rewrite <- reals_past; reflexivity.
Qed.
Lemma rhs_extent f N b0 b a x y k : List.length b = N -> List.length a = N -> extent f (equation N b0 (x k) (coef b) (earlier x k) (coef a) (earlier y k)) = rhs_size f b0 b a x y k.
Proof.
  intros B A. rewrite equation_extent. unfold rhs_size. rewrite B, A. f_equal; [f_equal|]; apply sumR_ext; intros i _; unfold real_at; rewrite <- reals_past; reflexivity.
Qed.

(* an output that is finite is near the right hand side of the difference equation for the outputs before it *)
Theorem C105_error : forall f N b0 b a x y k, IEEE f -> (0 < N)%nat -> List.length b = N -> List.length a = N ->
  Valid f b0 -> Forall (Valid f) b -> Forall (Valid f) a -> (forall k, Valid f (x k)) ->
  F_response f N (f_designed N b0 b a) x y -> Fin f (y k) ->
  Rabs (number f (y k) - rhs f b0 b a x y k) <= steps_error f N * rhs_size f b0 b a x y k + steps_lost f N.
Proof.
  intros f N b0 b a x y k I P B A V0 VB VA VX RS F. destruct (C105_equation f N b0 b a P B A x) as [_ G]. rewrite G in RS.
  set (e := equation N b0 (x k) (coef b) (earlier x k) (coef a) (earlier y k)).
  assert (O : Over (Valid f) e) by (apply follows_over; auto; [apply fin_valid, zero_fin_f, I|intros j _; apply (follows_valid f N b0 b a x y); assumption]).
  pose proof (RS k) as K. unfold Follows in K. fold e in K. rewrite K in F |- *. pose proof (computed_error f e I O F) as E. subst e. rewrite rhs_exact, rhs_extent, equation_roundings in E by assumption.
  eapply Rle_trans; [exact E|]. apply Rplus_le_compat; [apply Rle_refl|]. apply equation_lost, I.
Qed.
Print Assumptions C105_error.

(* one nan or infinite value is never forgotten *)
Theorem C105_poison : forall f N b0 b a x y j, IEEE f -> (0 < N)%nat -> List.length b = N -> List.length a = N ->
  Valid f b0 -> Forall (Valid f) b -> Forall (Valid f) a -> (forall k, Valid f (x k)) -> F_response f N (f_designed N b0 b a) x y ->
  (x j = FNan -> forall k, (j <= k)%nat -> y k = FNan) /\ (~ Fin f (x j) \/ ~ Fin f (y j) -> forall k, (j <= k)%nat -> ~ Fin f (y k)).
Proof.
  intros f N b0 b a x y j I P B A V0 VB VA VX RS. destruct (C105_equation f N b0 b a P B A x) as [_ G]. rewrite G in RS. clear G.
  assert (IX : forall k, Inside (x k) (equation N b0 (x k) (coef b) (earlier x k) (coef a) (earlier y k))) by (intros; apply equation_inside; auto).
  assert (IY : forall k, Inside (y k) (equation N b0 (x (S k)) (coef b) (earlier x (S k)) (coef a) (earlier y (S k)))).
  { intros k. apply equation_inside. right. right. exists 0%nat. split; [exact P|]. right. right. right. rewrite earlier_S. reflexivity. }
  assert (O : forall k, Over (Valid f) (equation N b0 (x k) (coef b) (earlier x k) (coef a) (earlier y k))) by (intros; apply follows_over; auto; [apply fin_valid, zero_fin_f, I|intros i _; apply (follows_valid f N b0 b a x y); assumption]).
  split.
  - intros X k. induction k as [|k IH]; intros L.
    + replace j with 0%nat in X by lia. rewrite (RS 0%nat). apply computed_nan. rewrite <- X at 1. apply IX.
    + destruct (Nat.eq_dec j (S k)) as [->|D]; rewrite (RS (S k)); apply computed_nan; [rewrite <- X at 1; apply IX|]. rewrite <- (IH ltac:(lia)) at 1. apply IY.
  - intros X. assert (YJ : ~ Fin f (y j)). { intros F. destruct X as [X|X]; [|contradiction]. apply X. rewrite (RS j) in F. apply (computed_inside f _ (x j) I (O j) F), IX. }
    induction k as [|k IH]; intros L F; [replace j with 0%nat in YJ by lia; contradiction|]. destruct (Nat.eq_dec j (S k)) as [->|D]; [contradiction|]. apply IH; [lia|]. rewrite (RS (S k)) in F. apply (computed_inside f _ (y k) I (O (S k)) F), IY.
Qed.
Print Assumptions C105_poison.

(* the sum of the sizes of an impulse response bounds what a bounded input gives *)
Lemma bounded_response N a h w v n H W : (0 < N)%nat -> List.length a = N -> (forall k, Solves 1 (repeat 0 N) a pulse h k) -> (forall k, sumR k (fun j => Rabs (h j)) <= H) -> 0 <= W ->
  (forall j, (j < n)%nat -> Solves 1 (repeat 0 N) a w v j) -> (forall j, (j < n)%nat -> Rabs (w j) <= W) -> forall j, (j < n)%nat -> Rabs (v j) <= H * W.
Proof.
  intros P A HH HB W0 V WB j L. destruct (C65_difference_equation N 1 (repeat 0 N) a P (repeat_length _ _) A w) as [(v' & RV) G].
  assert (E : v j = v' j). { pose proof (proj1 (G v') RV) as Q. apply (solve_unique 1 (repeat 0 N) a w w v v' n); auto. }
  rewrite E. destruct (C65_difference_equation N 1 (repeat 0 N) a P (repeat_length _ _) A pulse) as [_ G2].
  rewrite (C65_superposition N 1 (repeat 0 N) a w v' h P (repeat_length _ _) A RV (proj2 (G2 h) HH) j). eapply Rle_trans; [apply sumR_abs|]. eapply Rle_trans; [apply (sumR_le _ _ (fun i => W * Rabs (h (S j - 1 - i)%nat)))|].
  - intros i K. rewrite Rabs_mult. replace (S j - 1 - i)%nat with (j - i)%nat by lia. apply Rmult_le_compat_r; [apply Rabs_pos|]. apply WB. lia.
  - rewrite sumR_scal. rewrite (sumR_rev (S j) (fun i => Rabs (h i))). rewrite (Rmult_comm H). apply Rmult_le_compat_l; [exact W0|]. apply HB.
Qed.
Lemma solves_feedback N a w v k : List.length a = N -> (Solves 1 (repeat 0 N) a w v k <-> v k = w k + sumR N (fun i => nth i a 0 * past v k i)).
Proof.
  intros A. unfold Solves. rewrite repeat_length, A. replace (sumR N (fun i => nth i (repeat 0 N) 0 * past w k i)) with 0; [rewrite Rmult_1_l, Rplus_0_r; reflexivity|].
  symmetry. rewrite (sumR_ext N _ (fun _ => 0)) by (intros i _; rewrite nth_repeat; apply Rmult_0_l). rewrite sumR_const. ring.
Qed.

(* the sums of the sizes of the coefficients *)
Definition input_gain (f : fmt) (b0 : fnum) (b : list fnum) : R := Rabs (number f b0) + sumR (List.length b) (fun i => Rabs (number f (nth i b f_zero))).
Definition feedback_gain (f : fmt) (a : list fnum) : R := sumR (List.length a) (fun i => Rabs (number f (nth i a f_zero))).
(* the largest error of one step, for inputs up to X and outputs up to Y *)
Definition step_error (f : fmt) (N : nat) (b0 : fnum) (b a : list fnum) (X Y : R) : R := steps_error f N * (input_gain f b0 b * X + feedback_gain f a * Y) + steps_lost f N.

Lemma steps_error_nonneg f N : IEEE f -> 0 <= steps_error f N.
Proof. intros I. unfold steps_error. pose proof (grow_pos f (N + 2) I). lra. Qed.
Lemma steps_lost_nonneg f N : IEEE f -> 0 <= steps_lost f N.
Proof.
  intros I. unfold steps_lost. pose proof (grow_pos f (N + 1) I). pose proof (unit_pos f (ieee_sane f I)). pose proof (pos_INR N). apply Rmult_le_pos; [apply Rmult_le_pos; lra|lra].
Qed.
Lemma gain_nonneg l f : 0 <= sumR (List.length l) (fun i => Rabs (number f (nth i l f_zero))).
Proof. apply sumR_nonneg. intros. apply Rabs_pos. Qed.
Lemma past_bound x k i X : 0 <= X -> (forall j, (j < k)%nat -> Rabs (x j) <= X) -> Rabs (past x k i) <= X.
Proof. intros X0 H. unfold past. destruct (Nat.ltb_spec i k); [apply H; lia|]. rewrite Rabs_R0. exact X0. Qed.
Lemma gain_bound f l v V : 0 <= V -> (forall i, Rabs (v i) <= V) -> sumR (List.length l) (fun i => Rabs (number f (nth i l f_zero)) * Rabs (v i)) <= sumR (List.length l) (fun i => Rabs (number f (nth i l f_zero))) * V.
Proof.
  intros V0 H. rewrite Rmult_comm, <- sumR_scal. apply sumR_le. intros i _. rewrite Rmult_comm. apply Rmult_le_compat_r; [apply Rabs_pos|apply H].
Qed.
Lemma rhs_size_bound f b0 b a x y k X Y : 0 <= X -> 0 <= Y -> (forall j, (j <= k)%nat -> Rabs (number f (x j)) <= X) -> (forall j, (j < k)%nat -> Rabs (number f (y j)) <= Y) ->
  0 <= rhs_size f b0 b a x y k <= input_gain f b0 b * X + feedback_gain f a * Y.
Proof.
  intros X0 Y0 HX HY. unfold rhs_size, input_gain, feedback_gain.
  pose proof (gain_bound f b (past (reals f x) k) X X0 ltac:(intros i; apply past_bound; [exact X0|intros j L; apply HX; lia])).
  pose proof (gain_bound f a (past (reals f y) k) Y Y0 ltac:(intros i; apply past_bound; [exact Y0|exact HY])).
  assert (Rabs (number f b0) * Rabs (number f (x k)) <= Rabs (number f b0) * X) by (apply Rmult_le_compat_l; [apply Rabs_pos|apply HX; lia]).
  assert (0 <= Rabs (number f b0) * Rabs (number f (x k))) by (apply Rmult_le_pos; apply Rabs_pos).
  assert (Q : forall l v, 0 <= sumR (List.length l) (fun i => Rabs (number f (nth i l f_zero)) * Rabs (v i))) by (intros; apply sumR_nonneg; intros; apply Rmult_le_pos; apply Rabs_pos).
  pose proof (Q b (past (reals f x) k)). pose proof (Q a (past (reals f y) k)). lra.
Qed.
Lemma nth_number f l i : nth i (map (number f) l) 0 = number f (nth i l f_zero).
Proof. rewrite <- (number_zero f). apply map_nth. Qed.
Lemma past_sub x y k i : past (fun n => x n - y n) k i = past x k i - past y k i.
Proof. unfold past. destruct (i <? k)%nat; ring. Qed.

(* as long as the exact filter is stable, the outputs stay finite and near those of the exact filter, for inputs of any length *)
Theorem C105_forever : forall f N b0 b a x y h X Y H t, IEEE f -> (0 < N)%nat -> List.length b = N -> List.length a = N ->
  Fin f b0 -> Forall (Fin f) b -> Forall (Fin f) a -> (forall k, Fin f (x k)) -> (forall k, Rabs (number f (x k)) <= X) ->
  (forall k, Solves 1 (repeat 0 N) (map (number f) a) pulse h k) -> (forall k, sumR k (fun j => Rabs (h j)) <= H) ->
  let c := step_error f N b0 b a X Y in 0 <= Y ->
  H * (input_gain f b0 b * X + c) <= Y -> input_gain f b0 b * X + feedback_gain f a * Y + c <= IZR (2 ^ fm_top f) / 2 ->
  F_response f N (f_designed N b0 b a) x y -> (forall k, Solves (number f b0) (map (number f) b) (map (number f) a) (reals f x) t k) ->
  forall k, Fin f (y k) /\ Rabs (number f (y k)) <= Y /\ Rabs (number f (y k) - t k) <= H * c.
Proof.
  intros f N b0 b a x y h X Y H t I P B A F0 FB FA FX BX HH HB c Y0 HY TOP RS T. destruct (C105_equation f N b0 b a P B A x) as [_ G]. rewrite G in RS. clear G.
  assert (X0 : 0 <= X) by (eapply Rle_trans; [apply Rabs_pos|apply (BX 0%nat)]). assert (H0 : 0 <= H) by apply (HB 0%nat).
  pose proof (gain_nonneg b f) as GB. pose proof (gain_nonneg a f) as GA. assert (BG : 0 <= input_gain f b0 b) by (unfold input_gain; pose proof (Rabs_pos (number f b0)); lra). fold (feedback_gain f a) in GA.
  pose proof (steps_error_nonneg f N I) as SE. pose proof (steps_lost_nonneg f N I) as SL.
  assert (BX0 : 0 <= input_gain f b0 b * X) by (apply Rmult_le_pos; assumption).
  assert (C0 : 0 <= c). { unfold c, step_error. assert (0 <= feedback_gain f a * Y) by (apply Rmult_le_pos; assumption). assert (0 <= steps_error f N * (input_gain f b0 b * X + feedback_gain f a * Y)) by (apply Rmult_le_pos; lra). lra. }
  assert (LA : List.length (map (number f) a) = N) by (rewrite map_length; exact A).
  (* what a step adds to the exact right hand side *)
  set (e := fun k => number f (y k) - rhs f b0 b a x y k). set (w := fun k => number f b0 * number f (x k) + sumR N (fun i => number f (nth i b f_zero) * past (reals f x) k i)).
  assert (WB : forall k, Rabs (w k) <= input_gain f b0 b * X).
  { intros k. unfold w. eapply Rle_trans; [apply Rabs_triang|]. unfold input_gain. rewrite Rmult_plus_distr_r. apply Rplus_le_compat; [rewrite Rabs_mult; apply Rmult_le_compat_l; [apply Rabs_pos|apply BX]|]. eapply Rle_trans; [apply sumR_abs|]. rewrite <- B. rewrite (sumR_ext (List.length b) _ (fun i => Rabs (number f (nth i b f_zero)) * Rabs (past (reals f x) k i))) by (intros; apply Rabs_mult). apply gain_bound; [exact X0|]. intros i. apply past_bound; [exact X0|]. intros j _. apply BX. }
  assert (SY : forall k, Solves 1 (repeat 0 N) (map (number f) a) (fun j => w j + e j) (reals f y) k).
  { intros k. rewrite solves_feedback by exact LA. unfold e, w, rhs, reals at 1. rewrite B, A. rewrite (sumR_ext N (fun i => nth i (map (number f) a) 0 * past (reals f y) k i) (fun i => number f (nth i a f_zero) * past (reals f y) k i)) by (intros; rewrite nth_number; reflexivity). ring. }
  assert (SD : forall k, Solves 1 (repeat 0 N) (map (number f) a) e (fun j => reals f y j - t j) k).
  { intros k. rewrite solves_feedback by exact LA. rewrite (T k). rewrite !map_length, B, A. unfold e, rhs. rewrite B, A. change (reals f y k) with (number f (y k)). change (reals f x k) with (number f (x k)).
    rewrite (sumR_ext N (fun i => nth i (map (number f) a) 0 * past (fun j => reals f y j - t j) k i) (fun i => number f (nth i a f_zero) * past (reals f y) k i + -1 * (nth i (map (number f) a) 0 * past t k i))) by (intros; rewrite past_sub, nth_number; ring). rewrite sumR_plus, sumR_scal.
    rewrite (sumR_ext N (fun i => nth i (map (number f) b) 0 * past (reals f x) k i) (fun i => number f (nth i b f_zero) * past (reals f x) k i)) by (intros; rewrite nth_number; reflexivity). ring. }
  assert (MAIN : forall k, (forall j, (j < k)%nat -> Fin f (y j) /\ Rabs (number f (y j)) <= Y /\ Rabs (e j) <= c) -> Fin f (y k) /\ Rabs (e k) <= c).
  { intros k IH. pose proof (rhs_size_bound f b0 b a x y k X Y X0 Y0 ltac:(intros; apply BX) ltac:(intros j L; apply IH, L)) as [Z0 Z1].
    set (q := equation N b0 (x k) (coef b) (earlier x k) (coef a) (earlier y k)). assert (O : Over (Fin f) q) by (apply follows_over; auto; [apply zero_fin_f, I|intros j L; apply IH, L]).
    assert (EB : steps_error f N * rhs_size f b0 b a x y k + steps_lost f N <= c) by (unfold c, step_error; apply Rplus_le_compat_r, Rmult_le_compat_l; assumption).
    assert (LQ : lost f q <= steps_lost f N) by (apply equation_lost, I).
    assert (RM : Roomy f q). { apply equation_roomy; [exact I|]. fold q. unfold reach. fold (ulp f). subst q. rewrite rhs_extent, equation_roundings by assumption. unfold steps_error in EB. lra. }
    assert (FK : Fin f (y k)) by (rewrite (RS k); apply (computed_roomy f q I O RM)). split; [exact FK|].
    unfold e. eapply Rle_trans; [|exact EB]. rewrite (RS k) in FK |- *. fold q in FK |- *. pose proof (computed_error f q I (over_valid f q O) FK) as E. subst q. rewrite rhs_exact, rhs_extent, equation_roundings in E by assumption. fold (steps_error f N) in E. lra. }
  assert (ALL : forall k, Fin f (y k) /\ Rabs (number f (y k)) <= Y /\ Rabs (e k) <= c).
  { induction k as [k IH] using lt_wf_ind. destruct (MAIN k IH) as [FK EK]. split; [exact FK|]. split; [|exact EK]. change (Rabs (reals f y k) <= Y). eapply Rle_trans; [|exact HY].
    apply (bounded_response N (map (number f) a) h (fun j => w j + e j) (reals f y) (S k) H (input_gain f b0 b * X + c) P LA HH HB); [lra|intros j _; apply SY| |lia].
    intros j L. eapply Rle_trans; [apply Rabs_triang|]. apply Rplus_le_compat; [apply WB|]. destruct (Nat.eq_dec j k) as [->|D]; [exact EK|]. apply IH. lia. }
  intros k. destruct (ALL k) as (FK & YK & _). split; [exact FK|]. split; [exact YK|].
  apply (bounded_response N (map (number f) a) h e (fun j => reals f y j - t j) (S k) H c P LA HH HB C0); [intros j _; apply SD|intros j _; apply ALL|lia].
Qed.
Print Assumptions C105_forever.

Lemma past_total h i : forall k, sumR (S k) (fun j => Rabs (past h j i)) <= sumR k (fun j => Rabs (h j)).
Proof.
  assert (M : forall k, 0 <= sumR k (fun j => Rabs (h j)) <= sumR (S k) (fun j => Rabs (h j))) by (intros k; cbn [sumR]; pose proof (Rabs_pos (h k)); split; [apply sumR_nonneg; intros; apply Rabs_pos|lra]).
  induction i as [|i IH]; intros k; rewrite sumR_first; unfold past at 1; cbn [Nat.ltb Nat.leb]; rewrite Rabs_R0, Rplus_0_l.
  - apply Req_le, sumR_ext. intros j _. rewrite past_S. reflexivity.
  - rewrite (sumR_ext k _ (fun j => Rabs (past h j i))) by (intros j _; rewrite past_S; reflexivity). destruct k as [|k]; [apply Rle_refl|]. eapply Rle_trans; [apply IH|]. apply M.
Qed.
Lemma contraction_response N a h : List.length a = N -> (forall k, Solves 1 (repeat 0 N) a pulse h k) -> let A := sumR N (fun i => Rabs (nth i a 0)) in A < 1 -> forall k, sumR k (fun j => Rabs (h j)) <= / (1 - A).
Proof.
  intros LA HH A A1. assert (A0 : 0 <= A) by (apply sumR_nonneg; intros; apply Rabs_pos). assert (I0 : 0 < / (1 - A)) by (apply Rinv_0_lt_compat; lra).
  assert (FX : 1 + A * / (1 - A) = / (1 - A)) by (field; lra).
  induction k as [|k IH]; [cbn [sumR]; lra|].
  assert (P1 : sumR (S k) (fun j => Rabs (pulse j)) = 1). { rewrite sumR_first. cbn [pulse]. rewrite Rabs_R1, (sumR_ext k _ (fun _ => 0)) by (intros; apply Rabs_R0). rewrite sumR_const. ring. }
  apply Rle_trans with (sumR (S k) (fun j => Rabs (pulse j) + sumR N (fun i => Rabs (nth i a 0) * Rabs (past h j i)))).
  - apply sumR_le. intros j _. pose proof (HH j) as E. rewrite solves_feedback in E by exact LA. rewrite E at 1. eapply Rle_trans; [apply Rabs_triang|]. apply Rplus_le_compat_l. eapply Rle_trans; [apply sumR_abs|]. apply Req_le, sumR_ext. intros. apply Rabs_mult.
  - rewrite sumR_plus, P1, sumR_swap. rewrite (sumR_ext N _ (fun i => Rabs (nth i a 0) * sumR (S k) (fun j => Rabs (past h j i)))) by (intros; apply sumR_scal).
    rewrite <- FX. apply Rplus_le_compat_l. unfold A at 1. rewrite Rmult_comm, <- sumR_scal. apply sumR_le. intros i _. rewrite Rmult_comm. apply Rmult_le_compat_r; [apply Rabs_pos|]. eapply Rle_trans; [apply past_total|exact IH].
Qed.
(* in particular if the feedback coefficients, with the error of a step, are a contraction *)
Theorem C105_contraction : forall f N b0 b a x y X t, IEEE f -> (0 < N)%nat -> List.length b = N -> List.length a = N ->
  Fin f b0 -> Forall (Fin f) b -> Forall (Fin f) a -> (forall k, Fin f (x k)) -> (forall k, Rabs (number f (x k)) <= X) ->
  let G := 1 + steps_error f N in let A := feedback_gain f a in let B := input_gain f b0 b in
  G * A < 1 -> let Y := (G * (B * X) + steps_lost f N) / (1 - G * A) in Y <= IZR (2 ^ fm_top f) / 2 ->
  F_response f N (f_designed N b0 b a) x y -> (forall k, Solves (number f b0) (map (number f) b) (map (number f) a) (reals f x) t k) ->
  forall k, Fin f (y k) /\ Rabs (number f (y k)) <= Y /\ Rabs (number f (y k) - t k) <= (Y - A * Y - B * X) / (1 - A).
Proof.
  intros f N b0 b a x y X t I P LB LA F0 FB FA FX BX G A B G1 Y TOP RS T.
  assert (X0 : 0 <= X) by (eapply Rle_trans; [apply Rabs_pos|apply (BX 0%nat)]). pose proof (gain_nonneg b f) as GB. pose proof (gain_nonneg a f) as GA. fold (feedback_gain f a) in GA. fold A in GA. assert (B0 : 0 <= B) by (unfold B, input_gain; pose proof (Rabs_pos (number f b0)); lra).
  pose proof (steps_error_nonneg f N I) as SE. pose proof (steps_lost_nonneg f N I) as SL. assert (BX0 : 0 <= B * X) by (apply Rmult_le_pos; assumption).
  assert (GP : 1 <= G) by (unfold G; lra). assert (A1 : A < 1). { assert (1 * A <= G * A) by (apply Rmult_le_compat_r; assumption). lra. }
  assert (EY : Y = G * (B * X) + steps_lost f N + G * A * Y) by (unfold Y; field; lra).
  assert (Y0 : 0 <= Y). { unfold Y, Rdiv. apply Rmult_le_pos; [assert (0 <= G * (B * X)) by (apply Rmult_le_pos; lra); lra|left; apply Rinv_0_lt_compat; lra]. }
  assert (EC : step_error f N b0 b a X Y = Y - A * Y - B * X). { unfold step_error. fold A B. rewrite EY at 2. unfold G. ring. }
  destruct (C65_difference_equation N 1 (repeat 0 N) (map (number f) a) P (repeat_length _ _) ltac:(rewrite map_length; exact LA) pulse) as [(h & RH) QH]. rewrite QH in RH.
  assert (AE : sumR N (fun i => Rabs (nth i (map (number f) a) 0)) = A). { unfold A, feedback_gain. rewrite LA. apply sumR_ext. intros. rewrite nth_number. reflexivity. }
  pose proof (contraction_response N (map (number f) a) h ltac:(rewrite map_length; exact LA) RH) as HB. cbn zeta in HB. rewrite AE in HB. specialize (HB A1).
  pose proof (C105_forever f N b0 b a x y h X Y (/ (1 - A)) t I P LB LA F0 FB FA FX BX RH HB) as Q. cbn zeta in Q. fold A B in Q. rewrite EC in Q.
  assert (H1 : / (1 - A) * (B * X + (Y - A * Y - B * X)) <= Y) by (apply Req_le; field; lra).
  specialize (Q Y0 H1 ltac:(lra) RS T). intros k. destruct (Q k) as (Q1 & Q2 & Q3). split; [exact Q1|]. split; [exact Q2|]. unfold Rdiv. rewrite Rmult_comm. exact Q3.
Qed.
Print Assumptions C105_contraction.

(* whole numbers are filtered exactly, while the sizes of the terms of each sum stay small enough *)
Theorem C105_whole : forall f N b0 b a x y t, IEEE f -> (0 < N)%nat -> List.length b = N -> List.length a = N ->
  Whole f b0 -> Forall (Whole f) b -> Forall (Whole f) a -> (forall k, Whole f (x k)) -> F_response f N (f_designed N b0 b a) x y ->
  (forall k, Solves (number f b0) (map (number f) b) (map (number f) a) (reals f x) t k) ->
  forall n, (forall k, (k < n)%nat -> Rabs (number f b0) * Rabs (number f (x k)) + sumR N (fun i => Rabs (number f (nth i b f_zero)) * Rabs (past (reals f x) k i)) + sumR N (fun i => Rabs (number f (nth i a f_zero)) * Rabs (past t k i)) <= IZR (2 ^ fm_prec f)) ->
  forall k, (k < n)%nat -> Fin f (y k) /\ number f (y k) = t k.
Proof.
  intros f N b0 b a x y t I P LB LA W0 WB WA WX RS T n SM. destruct (C105_equation f N b0 b a P LB LA x) as [_ G]. rewrite G in RS. clear G.
  assert (WZ : Whole f f_zero) by (split; [apply zero_fin_f, I|exists 0%Z; apply number_zero]).
  assert (M : forall k, (k < n)%nat -> Whole f (y k) /\ number f (y k) = t k); [|intros k L; destruct (M k L) as [[F _] E]; auto].
  induction k as [k IH] using lt_wf_ind. intros L. set (q := equation N b0 (x k) (coef b) (earlier x k) (coef a) (earlier y k)).
  assert (O : Over (Whole f) q) by (apply follows_over; auto; intros j J; apply IH; lia).
  assert (PE : forall i, past (reals f y) k i = past t k i) by (intros i; apply past_ext; intros j J; apply IH; lia).
  assert (SQ : Small f q).
  { apply small_terms.
    - subst q. rewrite rhs_extent by assumption. unfold rhs_size. rewrite LB, LA. eapply Rle_trans; [|apply (SM k L)]. apply Req_le. f_equal. apply sumR_ext. intros i _. rewrite PE. reflexivity.
    - subst q. clear. induction N as [|N IN]; cbn [equation Terms]; [cbn [Small]; auto|]. split; [exact IN|]. cbn [Small]. auto. }
  assert (OF : Over (Fin f) q). { apply follows_over; [apply zero_fin_f, I|apply W0| | |intros j _; apply WX|intros j J; apply IH; lia]; eapply Forall_impl; try eassumption; intros v V; apply V. }
  destruct (computed_exact f q I OF (fits_small f q I O SQ)) as [FQ EQ]. rewrite (RS k). fold q. split; [split; [exact FQ|rewrite EQ; apply exact_whole, O]|].
  rewrite EQ. subst q. rewrite rhs_exact by assumption. rewrite (T k). unfold rhs. rewrite !map_length, LB, LA. f_equal; [f_equal|]; apply sumR_ext; intros i _; rewrite nth_number, ?PE; reflexivity.
Qed.
Print Assumptions C105_whole.

(* nothing in, nothing out *)
Lemma equation_rest f n b0 x b p a q : IEEE f -> number f x = 0 -> (forall i, number f (p i) = 0) -> (forall i, number f (q i) = 0) -> Fits f (equation n b0 x b p a q) /\ exact f (equation n b0 x b p a q) = 0.
Proof.
  intros I X P Q. assert (M : forall v w, number f w = 0 -> exact f (Mul (Lit v) (Lit w)) = 0) by (intros v w E; cbn [exact]; change (fin_val f w) with (number f w); rewrite E; ring). destruct (zero_fits f I) as [GZ TZ].
  assert (MF : forall v w, number f w = 0 -> Fits f (Mul (Lit v) (Lit w))) by (intros v w E; cbn [Fits]; rewrite (M v w E); auto).
  induction n as [|n [IF IE]]; cbn [equation]; [split; [apply MF|apply M]; exact X|].
  assert (E2 : exact f (Add (Mul (Lit (b n)) (Lit (p n))) (Mul (Lit (a n)) (Lit (q n)))) = 0) by (pose proof (M (b n) (p n) (P n)) as M1; pose proof (M (a n) (q n) (Q n)) as M2; cbn [exact] in *; lra).
  assert (F2 : Fits f (Add (Mul (Lit (b n)) (Lit (p n))) (Mul (Lit (a n)) (Lit (q n))))) by (split; [apply MF, P|]; split; [apply MF, Q|]; rewrite E2; auto).
  assert (E3 : forall u v, exact f u = 0 -> exact f v = 0 -> exact f (Add u v) = 0) by (intros u v U V; cbn [exact]; lra).
  split; [|apply E3; assumption]. split; [exact IF|]. split; [exact F2|]. rewrite E3 by assumption. auto.
Qed.
Theorem C105_rest : forall f N b0 b a x y, IEEE f -> (0 < N)%nat -> List.length b = N -> List.length a = N ->
  Fin f b0 -> Forall (Fin f) b -> Forall (Fin f) a -> (forall k, Fin f (x k) /\ number f (x k) = 0) -> F_response f N (f_designed N b0 b a) x y ->
  forall k, Fin f (y k) /\ number f (y k) = 0.
Proof.
  intros f N b0 b a x y I P LB LA F0 FB FA X RS. destruct (C105_equation f N b0 b a P LB LA x) as [_ G]. rewrite G in RS. clear G. pose proof (number_zero f) as Z.
  induction k as [k IH] using lt_wf_ind. destruct (equation_rest f N b0 (x k) (coef b) (earlier x k) (coef a) (earlier y k) I) as [FT E].
  - apply X.
  - intros i. apply (earlier_all (fun v => number f v = 0)); [exact Z|]. intros. apply X.
  - intros i. apply (earlier_all (fun v => number f v = 0)); [exact Z|]. intros. apply IH. assumption.
  - rewrite (RS k), <- E. apply computed_exact; [exact I| |exact FT]. apply follows_over; auto; [apply zero_fin_f, I|intros; apply X|intros; apply IH; assumption].
Qed.
Print Assumptions C105_rest.

(* an order of 0 has no register for the output *)
Theorem C105_order_zero : forall f b0 x, ff_feed f 0 (f_designed 0 b0 [] []) x = UB.
Proof. reflexivity. Qed.
Print Assumptions C105_order_zero.

(* a stable filter does not forget every input: y = x + 3/4 y, after an input of the smallest number *)
Theorem C105_decay_refuted : let d := float_fmt in let one := f_one d in let a := [flt 3 (-2)] in let x := fun k => match k with 0%nat => FFin false 1 | _ => f_zero end in
  Fin d one /\ Forall (Fin d) a /\ feedback_gain d a = 3 / 4 /\ (forall k, Fin d (x k)) /\
  (exists t, (forall k, Solves 1 [0] [3 / 4] (reals d x) t k) /\ Un_cv t 0) /\
  F_response d 1 (f_designed 1 one [f_zero] a) x (fun _ => FFin false 1) /\ 0 < number d (FFin false 1).
Proof.
  cbn zeta. set (d := float_fmt). set (x := fun k => match k with 0%nat => FFin false 1 | _ => f_zero end). assert (I : IEEE d) by (right; reflexivity). assert (F1 : Fin d (flt 3 (-2))) by (apply flt_fin; lia). assert (U : Fin d (FFin false 1)) by (apply (flt_fin 1 (-149)); lia).
  assert (V1 : number d (flt 3 (-2)) = 3 / 4).
  { unfold flt, number, val, unit_of, d. change (3 <? 0)%Z with false. cbn iota. change (Z.abs 3 * 2 ^ (149 + -2))%Z with (3 * 2 ^ 147)%Z. change (2 ^ fm_low float_fmt)%Z with (4 * 2 ^ 147)%Z. rewrite !mult_IZR. pose proof (IZR_lt 0 (2 ^ 147) eq_refl). field. lra. }
  assert (UP : 0 < number d (FFin false 1)) by (pose proof (unit_pos d (ieee_sane d I)) as P; unfold number, val; lra).
  split; [apply (flt_fin 1 0); lia|]. split; [repeat constructor; exact F1|]. split; [unfold feedback_gain; cbn [List.length sumR nth]; rewrite V1, Rabs_right; lra|].
  split; [intros [|k]; [exact U|apply zero_fin]|]. split.
  - exists (fun k => number d (FFin false 1) * (3 / 4) ^ k). split.
    + intros k. unfold Solves. cbn [List.length sumR nth]. destruct k as [|k]; unfold past; cbn [Nat.ltb Nat.leb].
      * unfold reals, x. cbn [pow]. ring.
      * unfold reals at 1. cbn [x]. rewrite number_zero. replace (S k - 1 - 0)%nat with k by lia. cbn [pow]. field.
    + assert (Q : Un_cv (fun k => (3 / 4) ^ k) 0) by (intros e E; destruct (pow_lt_1_zero (3 / 4) ltac:(rewrite Rabs_right; lra) e E) as [M H]; exists M; intros k K; unfold R_dist; rewrite Rminus_0_r; apply H; lia).
      replace 0 with (number d (FFin false 1) * 0) by ring. apply (CV_mult (fun _ => number d (FFin false 1))); [|exact Q]. intros e E. exists 0%nat. intros k _. unfold R_dist. rewrite Rminus_diag_eq, Rabs_R0 by reflexivity. exact E.
  - split; [|exact UP]. destruct (C105_equation d 1 (f_one d) [f_zero] [flt 3 (-2)] (Nat.lt_0_succ 0) eq_refl eq_refl x) as [_ G]. rewrite G. intros k. unfold Follows. destruct k as [|[|k]].
    + vm_compute. reflexivity.
    + vm_compute. reflexivity.
    + cbn [equation]. rewrite !earlier_S. cbn [x coef nth]. vm_compute. reflexivity.
Qed.
Print Assumptions C105_decay_refuted.

Example C105_example : let d := float_fmt in
  (exists s', ff_feed_all d 1 (f_designed 1 (f_one d) [f_zero] [flt 1 (-1)]) [flt 1 0; f_zero; f_zero; flt 1 3] = Ok (s', [flt 1 0; flt 1 (-1); flt 1 (-2); flt 65 (-3)])) /\
  forall x y t, (forall k, Fin d (x k)) -> (forall k, Rabs (number d (x k)) <= 1) -> F_response d 1 (f_designed 1 (f_one d) [f_zero] [flt 1 (-1)]) x y -> (forall k, Solves 1 [0] [1 / 2] (reals d x) t k) ->
    forall k, Fin d (y k) /\ Rabs (number d (y k) - t k) <= 1 / 100000.
Proof.
  cbn zeta. split; [eexists; vm_compute; reflexivity|]. set (d := float_fmt). assert (I : IEEE d) by (right; reflexivity). intros x y t FX BX RS T k.
  assert (V1 : number d (f_one d) = 1) by (apply (one_val d), ieee_sane, I). assert (VH : number d (flt 1 (-1)) = 1 / 2).
  { unfold flt, number, val, unit_of, d. change (1 <? 0)%Z with false. cbn iota. change (Z.abs 1 * 2 ^ (149 + -1))%Z with (2 ^ 148)%Z. change (2 ^ fm_low float_fmt)%Z with (2 * 2 ^ 148)%Z. rewrite !mult_IZR. pose proof (IZR_lt 0 (2 ^ 148) eq_refl). field. lra. }
  assert (GA : feedback_gain d [flt 1 (-1)] = 1 / 2) by (unfold feedback_gain; cbn [List.length sumR nth]; rewrite VH, Rabs_right; lra).
  assert (GB : input_gain d (f_one d) [f_zero] = 1) by (unfold input_gain; cbn [List.length sumR nth]; rewrite V1, number_zero, Rabs_R0, Rabs_R1; lra).
  assert (U : 0 < ulp d <= / 16000000) by (unfold ulp; change (2 ^ fm_prec d)%Z with 16777216%Z; split; [apply Rinv_0_lt_compat; lra|apply Rinv_le_contravar; lra]).
  assert (SE : 0 <= steps_error d 1 <= 4 * ulp d). { unfold steps_error. cbn [Nat.add pow]. set (u := ulp d) in *. assert (0 <= u * u <= u * / 16000000) by (split; [apply Rmult_le_pos; lra|apply Rmult_le_compat_l; lra]). assert (0 <= u * u * u <= u * u * 1) by (split; [repeat apply Rmult_le_pos; lra|apply Rmult_le_compat_l; lra]). lra. }
  assert (SL : 0 <= steps_lost d 1 <= ulp d / 100).
  { split; [apply steps_lost_nonneg, I|]. unfold steps_lost. cbn [Nat.add pow INR]. destruct (ulp_small d I) as [_ V]. pose proof (unit_pos d (ieee_sane d I)) as P. set (u := ulp d) in *. set (e := unit_of d) in *. assert ((1 + u) * ((1 + u) * 1) <= 2). { assert (0 <= u * u <= u * / 16000000) by (split; [apply Rmult_le_pos; lra|apply Rmult_le_compat_l; lra]). lra. }
    assert ((1 + u) * ((1 + u) * 1) * (2 * 1 + 1) * (e / 2) <= 6 * (e / 2)) by (apply Rmult_le_compat_r; lra). lra. }
  pose proof (C105_contraction d 1 (f_one d) [f_zero] [flt 1 (-1)] x y 1 t I Nat.lt_0_1 eq_refl eq_refl) as Q. cbn zeta in Q. rewrite GA, GB in Q. set (g := steps_error d 1) in *. set (l := steps_lost d 1) in *.
  assert (YB : (( 1 + g) * (1 * 1) + l) / (1 - (1 + g) * (1 / 2)) <= 2 + 20 * ulp d). { apply (Rmult_le_reg_r (1 - (1 + g) * (1 / 2))); [lra|]. unfold Rdiv at 1. rewrite Rmult_assoc, Rinv_l by lra. assert (ulp d * g <= ulp d * (4 * / 16000000)) by (apply Rmult_le_compat_l; lra). lra. }
  destruct (Q ltac:(apply (flt_fin 1 0); lia) ltac:(repeat constructor; apply zero_fin) ltac:(repeat constructor; apply flt_fin; lia) FX BX ltac:(lra)) with (k := k) as (F & _ & E).
  - pose proof (room_large d I) as RL. unfold room in RL. assert (4 <= IZR (2 ^ 60)) by (apply IZR_le; lia). lra.
  - exact RS.
  - cbn [map]. rewrite V1, VH, number_zero. exact T.
  - split; [exact F|]. eapply Rle_trans; [exact E|]. set (Y := (((1 + g) * (1 * 1) + l) / (1 - (1 + g) * (1 / 2)))) in *. lra.
Qed.

(* delayers *)
Lemma lt_number f x y : IEEE f -> Fin f x -> Fin f y -> (f_lt x y = true <-> number f x < number f y).
Proof.
  intros I (a & n & -> & _) (b & m & -> & _). rewrite (lt_less f _ _ (ieee_sane f I)). unfold Less. cbn [Place number]. split.
  - intros (p & q & -> & -> & L). exact L.
  - intros L. exists (Real (val f a n)), (Real (val f b m)). auto.
Qed.
Lemma half_fin f : IEEE f -> Fin f (f_half f) /\ number f (f_half f) = 1 / 2.
Proof.
  intros I. pose proof (ieee_sane f I) as W. split.
  - assert (L : (1 <= fm_low f /\ 1 <= fm_prec f /\ 0 <= fm_top f)%Z) by (destruct I as [-> | ->]; cbn; lia). exists false, (2 ^ (fm_low f - 1))%Z. split; [reflexivity|]. split; [|apply Z.pow_lt_mono_r; lia].
    exists 1%Z, (fm_low f - 1)%Z. split; [lia|]. split; [|lia]. split; [lia|]. apply Z.pow_gt_1; lia.
  - unfold f_half, number, val, unit_of. replace (2 ^ fm_low f)%Z with (2 * 2 ^ (fm_low f - 1))%Z by (rewrite <- Z.pow_succ_r by (destruct I as [-> | ->]; cbn; lia); f_equal; lia). rewrite mult_IZR. assert (0 < IZR (2 ^ (fm_low f - 1))) by (apply IZR_lt, pow_pos_; destruct I as [-> | ->]; cbn; lia). field. lra.
Qed.
(* the mix of two values *)
Definition mix (f : fmt) (w a b : fnum) : expr := Add (Mul (Lit w) (Lit a)) (Mul (Sub (Lit (f_one f)) (Lit w)) (Lit b)).
Lemma fd_value_mix f N d a b : vget (fd_data d) ((fd_idx d + N + 2) mod N) = Ok a -> vget (fd_data d) ((fd_idx d + N + 1) mod N) = Ok b ->
  fd_value f N d = Ok (computed f (mix f (f_div f (fd_time d) (fd_window d)) a b)).
Proof. intros A B. unfold fd_value. rewrite A. cbn [bind]. rewrite B. reflexivity. Qed.
Lemma one_number f : IEEE f -> Fin f (f_one f) /\ number f (f_one f) = 1.
Proof.
  intros I. pose proof (int_fin f 1 I) as [F E]; [cbn; pose proof (Z.pow_le_mono_r 2 0 (fm_prec f)); destruct I as [-> | ->]; cbn; lia|]. split.
  - exists false, (2 ^ fm_low f)%Z. split; [reflexivity|apply one_finite, ieee_sane, I].
  - apply one_val, ieee_sane, I.
Qed.
Lemma mid f r g lo hi : Near f r g -> Grid f lo -> Grid f hi -> lo <= r <= hi -> lo <= g <= hi.
Proof. intros N L H B. split; [apply (near_mono f lo lo r g (exact_near f lo L) N), B|apply (near_mono f r g hi hi N (exact_near f hi H)), B]. Qed.

(* one sample *)
Definition At_rest (f : fmt) (N : nat) (w : fnum) (d : f_delayer) : Prop := fd_window d = w /\ Fin f (fd_time d) /\ Rabs (number f (fd_time d)) <= number f w /\ List.length (fd_data d) = N /\ (fd_idx d < N)%nat.
Lemma abs_both r b : Rabs r <= b <-> - b <= r <= b.
Proof. split; [intros H; unfold Rabs in H; destruct (Rcase_abs r); lra|intros H; apply Rabs_le; lra]. Qed.
Lemma fd_add_step f N w d v dt : IEEE f -> (0 < N)%nat -> Fin f w -> 0 < number f w -> 3 * number f w <= room f -> At_rest f N w d -> Fin f dt -> 0 <= number f dt <= number f w ->
  exists d' k, fd_add f N d v dt = Ok d' /\ At_rest f N w d' /\ (k <= 1)%nat /\ fd_idx d' = ((fd_idx d + k) mod N)%nat /\
    Rabs (number f (fd_time d) + number f dt - (INR k * number f w + number f (fd_time d'))) <= 3 * ulp f * number f w /\
    (k = 0%nat -> fd_data d' = fd_data d /\ number f (fd_time d) + number f dt / 2 <= number f w * (1 + 3 * ulp f)) /\
    (k = 1%nat -> vset (fd_data d) (fd_idx d') v = Ok (fd_data d') /\ number f w - 3 * ulp f * number f w < number f (fd_time d) + number f dt * (3 / 2) + unit_of f).
Proof.
  intros I NP FW WP RM (EW & FT & TB & LD & LI) FD DB. pose proof (ieee_sane f I) as SA. destruct (ulp_small f I) as [U UU]. pose proof (unit_pos f SA) as UP. set (W := number f w) in *. set (t := number f (fd_time d)) in *. set (x := number f dt) in *. set (u := ulp f) in *.
  apply abs_both in TB. pose proof (fin_grid f w FW) as GW. fold W in GW. pose proof (grid_opp f W GW) as GN. pose proof (FloatContainersProofs.grid_double f W SA GW) as G2. pose proof (fin_grid f dt FD) as GX. fold x in GX.
  destruct (add_fin f (fd_time d) dt I FT FD) as (F1 & N1 & E1). { fold t x. apply abs_both. lra. } fold t x in N1, E1. fold u in E1. set (t1 := number f (f_add f (fd_time d) dt)) in *.
  pose proof (mid f _ _ _ _ N1 GN G2 ltac:(lra)) as B1.
  destruct (half_fin f I) as [FH VH]. destruct (mul_fin f (f_half f) dt I FH FD) as (F2 & N2 & E2). { rewrite VH. fold x. apply abs_both. lra. } rewrite VH in N2, E2. fold x in N2, E2. fold u in E2. set (h := number f (f_mul f (f_half f) dt)) in *.
  pose proof (mid f _ _ _ _ N2 (grid_zero f SA) GX ltac:(lra)) as B2.
  destruct (add_fin f _ _ I F1 F2) as (F3 & N3 & E3). { fold t1 h. apply abs_both. lra. } fold t1 h in N3, E3. fold u in E3. set (s := number f (f_add f (f_add f (fd_time d) dt) (f_mul f (f_half f) dt))) in *.
  assert (ER1 : Rabs (t1 - (t + x)) <= 2 * u * W). { eapply Rle_trans; [exact E1|]. rewrite (Rmult_comm 2), Rmult_assoc. apply Rmult_le_compat_l; [lra|]. apply abs_both. lra. }
  assert (EH : h <= x / 2 + x / 2 * u + unit_of f / 2 /\ x / 2 - x / 2 * u - unit_of f / 2 <= h). { rewrite (Rabs_right (1 / 2 * x)) in E2 by lra. apply abs_both in E2. lra. }
  unfold fd_add. unfold f_gt. rewrite EW. destruct (f_lt w (f_add f (f_add f (fd_time d) dt) (f_mul f (f_half f) dt))) eqn:C.
  - apply (lt_number f _ _ I FW F3) in C. fold W s in C. assert (C1 : W < t1 + h). { destruct (Rlt_le_dec W (t1 + h)) as [|L]; [assumption|exfalso]. pose proof (near_mono f _ _ _ _ N3 (exact_near f W GW) L). lra. }
    destruct (sub_fin f _ w I F1 FW) as (F4 & N4 & E4). { fold t1 W. apply abs_both. lra. } fold t1 W in N4, E4. fold u in E4.
    pose proof (mid f _ _ _ _ N4 GN GW ltac:(lra)) as B4. set (t2 := number f (f_sub f (f_add f (fd_time d) dt) w)) in *.
    assert (ER4 : Rabs (t2 - (t1 - W)) <= u * W). { eapply Rle_trans; [exact E4|]. apply Rmult_le_compat_l; [lra|]. apply abs_both. lra. }
    assert (LI' : ((fd_idx d + 1) mod N < N)%nat) by (apply Nat.mod_upper_bound; lia). rewrite vset_ok by (rewrite LD; exact LI'). cbn [bind]. eexists. exists 1%nat. split; [reflexivity|]. unfold At_rest. cbn [fd_window fd_time fd_idx fd_data].
    split; [|split; [lia|split; [reflexivity|split; [|split; [discriminate|intros _; split; [rewrite vset_ok by (rewrite LD; exact LI'); reflexivity|]]]]]].
    + split; [first [exact EW|reflexivity]|]. split; [exact F4|]. split; [fold t2 W; apply abs_both; lra|]. split; [rewrite upd_length by (rewrite LD; exact LI'); exact LD|exact LI'].
    + fold t2. cbn [INR]. apply abs_both in ER1. apply abs_both in ER4. apply abs_both. lra.
    + apply abs_both in ER1. assert (x / 2 * u <= W * u) by (apply Rmult_le_compat_r; lra). lra.
  - assert (C1 : s <= W). { destruct (Rle_lt_dec s W) as [|L]; [assumption|exfalso]. assert (Q : f_lt w (f_add f (f_add f (fd_time d) dt) (f_mul f (f_half f) dt)) = true) by (apply (lt_number f _ _ I FW F3); exact L). congruence. }
    assert (C2 : t1 <= s) by (apply (near_mono f t1 t1 (t1 + h) s (exact_near f t1 (fin_grid f _ F1)) N3); lra).
    eexists. exists 0%nat. split; [reflexivity|]. unfold At_rest. cbn [fd_window fd_time fd_idx fd_data]. split; [|split; [lia|split; [rewrite Nat.add_0_r, Nat.mod_small by exact LI; reflexivity|split; [|split; [intros _; split; [reflexivity|]|discriminate]]]]].
    + split; [first [exact EW|reflexivity]|]. split; [exact F1|]. split; [fold W t1; apply abs_both; lra|]. split; [exact LD|exact LI].
    + fold t1. cbn [INR]. assert (0 <= u * W) by (apply Rmult_le_pos; lra). apply abs_both in ER1. apply abs_both. lra.
    + apply abs_both in ER1. assert (0 <= u * W) by (apply Rmult_le_pos; lra). lra.
Qed.

Definition lasted (f : fmt) (l : list (fnum * fnum)) : R := fold_right (fun p s => number f (snd p) + s) 0 l.
Lemma fd_adds_clock f N w : IEEE f -> (0 < N)%nat -> Fin f w -> 0 < number f w -> 3 * number f w <= room f -> forall l d, At_rest f N w d -> (forall p, In p l -> Fin f (snd p) /\ 0 <= number f (snd p) <= number f w) ->
  exists d' K, fd_adds f N d l = Ok d' /\ At_rest f N w d' /\ (K <= List.length l)%nat /\ fd_idx d' = ((fd_idx d + K) mod N)%nat /\
    Rabs (number f (fd_time d) + lasted f l - (INR K * number f w + number f (fd_time d'))) <= INR (List.length l) * (3 * ulp f * number f w).
Proof.
  intros I NP FW WP RM. induction l as [|[v dt] l IH]; intros d A H.
  - exists d, 0%nat. split; [reflexivity|]. split; [exact A|]. split; [apply le_n|]. split; [rewrite Nat.add_0_r, Nat.mod_small by apply A; reflexivity|]. cbn. rewrite Rmult_0_l. apply abs_both. lra.
  - destruct (H (v, dt) (or_introl eq_refl)) as [FD BD]. cbn [snd] in FD, BD. destruct (fd_add_step f N w d v dt I NP FW WP RM A FD BD) as (d1 & k & E & A1 & K1 & I1 & T1 & _).
    destruct (IH d1 A1 ltac:(intros p Q; apply H; right; exact Q)) as (d' & K & E' & A' & K' & I' & T'). exists d', (k + K)%nat. cbn [fd_adds]. rewrite E. cbn [bind]. split; [exact E'|]. split; [exact A'|].
    cbn [List.length]. split; [lia|]. split; [rewrite I', I1, Nat.add_mod_idemp_l by lia; f_equal; lia|]. cbn [lasted fold_right snd]. fold (lasted f l). rewrite S_INR, plus_INR. apply abs_both in T1. apply abs_both in T'. apply abs_both. lra.
Qed.
(* the length of a window *)
Theorem C105_delayer_window : forall f N delay init, IEEE f -> (2 <= N)%nat -> (Z.of_nat N <= 2 ^ fm_prec f)%Z -> Fin f delay -> Rabs (number f delay) <= room f ->
  let w := fd_window (fd_new f N delay init) in Fin f w /\ Near f (number f delay / (INR N - 1)) (number f w).
Proof.
  intros f N delay init I N2 NB F B w. destruct (int_fin f (Z.of_nat N - 1) I ltac:(lia)) as [FI EI]. unfold w, fd_new. cbn [fd_window]. assert (EN : number f (f_of_int f (Z.of_nat N - 1)) = INR N - 1) by (rewrite EI, minus_IZR, <- INR_IZR_INZ; reflexivity).
  pose proof (le_INR 2 N N2) as L. cbn in L. destruct (div_fin f delay (f_of_int f (Z.of_nat N - 1)) I F FI) as (FD & ND & _); [rewrite EN; lra| |rewrite EN in ND; auto].
  rewrite EN. unfold Rdiv. rewrite Rabs_mult. rewrite (Rabs_right (/ (INR N - 1))) by (apply Rle_ge; left; apply Rinv_0_lt_compat; lra).
  assert (/ (INR N - 1) <= 1) by (rewrite <- Rinv_1; apply Rinv_le_contravar; lra). assert (Rabs (number f delay) * / (INR N - 1) <= Rabs (number f delay) * 1) by (apply Rmult_le_compat_l; [apply Rabs_pos|assumption]). lra.
Qed.
Print Assumptions C105_delayer_window.
(* what is in the registers after some samples, none of them longer than a window: K windows, and the rest of the time; the time stays within a window, and each sample adds an error of 3 roundings to the clock *)
Theorem C105_delayer_clock : forall f N delay init l, IEEE f -> (2 <= N)%nat -> let w := fd_window (fd_new f N delay init) in
  Fin f w -> 0 < number f w -> 3 * number f w <= IZR (2 ^ fm_top f) / 2 -> (forall p, In p l -> Fin f (snd p) /\ 0 <= number f (snd p) <= number f w) ->
  exists d K, fd_adds f N (fd_new f N delay init) l = Ok d /\ (K <= List.length l)%nat /\ fd_idx d = (K mod N)%nat /\ Fin f (fd_time d) /\ Rabs (number f (fd_time d)) <= number f w /\
    Rabs (lasted f l - (INR K * number f w + number f (fd_time d))) <= INR (List.length l) * (3 * / IZR (2 ^ fm_prec f) * number f w).
Proof.
  intros f N delay init l I N2 w FW WP RM H. assert (A : At_rest f N w (fd_new f N delay init)).
  { unfold At_rest. split; [reflexivity|]. cbn [fd_new fd_time fd_data fd_idx List.length]. split; [apply zero_fin_f, I|]. rewrite number_zero, Rabs_R0. split; [lra|]. rewrite repeat_length. lia. }
  destruct (fd_adds_clock f N w I ltac:(lia) FW WP RM l _ A H) as (d & K & E & (EW & FT & TB & _) & KL & EI & ET). exists d, K. split; [exact E|]. split; [exact KL|]. split; [exact EI|]. split; [exact FT|]. split; [exact TB|].
  cbn [fd_new fd_time] in ET. rewrite number_zero, Rplus_0_l in ET. exact ET.
Qed.
Print Assumptions C105_delayer_clock.

(* a sample per window *)
Lemma fd_window_step f N w d v : IEEE f -> (0 < N)%nat -> Fin f w -> 2 * unit_of f <= number f w -> 3 * number f w <= room f -> At_rest f N w d -> number f (fd_time d) = 0 ->
  exists d', fd_add f N d v w = Ok d' /\ At_rest f N w d' /\ number f (fd_time d') = 0 /\ fd_idx d' = ((fd_idx d + 1) mod N)%nat /\ vset (fd_data d) (fd_idx d') v = Ok (fd_data d').
Proof.
  intros I NP FW W2 RM A T0. pose proof (ieee_sane f I) as SA. destruct (ulp_small f I) as [U UU]. pose proof (unit_pos f SA) as UP. pose proof A as (EW & FT & TB & LD & LI).
  unfold fd_add. rewrite EW. set (W := number f w) in *. pose proof (fin_grid f w FW) as GW. fold W in GW.
  destruct (add_fin f (fd_time d) w I FT FW) as (F1 & N1 & _). { fold W. rewrite T0. apply abs_both. lra. } fold W in N1. rewrite T0, Rplus_0_l in N1. pose proof (near_exact f _ _ N1 GW) as E1.
  destruct (half_fin f I) as [FH VH]. destruct (mul_fin f (f_half f) w I FH FW) as (F2 & N2 & E2). { rewrite VH. fold W. apply abs_both. lra. } rewrite VH in N2, E2. fold W in N2, E2. set (h := number f (f_mul f (f_half f) w)) in *.
  assert (GU : Grid f (unit_of f)) by (pose proof (grid_small f 1 SA ltac:(cbn; pose proof (pow_pos_ (fm_prec f) ltac:(destruct SA; lia)); lia)) as G; rewrite Rmult_1_l in G; exact G).
  pose proof (mid f _ _ _ _ N2 GU GW ltac:(lra)) as B2. assert (H8 : W / 8 <= h). { destruct (Rle_lt_dec W (8 * unit_of f)); [lra|]. rewrite (Rabs_right (1 / 2 * W)) in E2 by lra. apply abs_both in E2. assert (ulp f * (1 / 2 * W) <= / 1000 * (1 / 2 * W)) by (apply Rmult_le_compat_r; lra). lra. }
  destruct (add_fin f _ _ I F1 F2) as (F3 & N3 & E3). { rewrite E1. fold h. apply abs_both. lra. } rewrite E1 in E3, N3. fold h in N3, E3. rewrite (Rabs_right (W + h)) in E3 by lra. apply abs_both in E3.
  assert (C : f_gt (f_add f (f_add f (fd_time d) w) (f_mul f (f_half f) w)) w = true). { unfold f_gt. apply (lt_number f _ _ I FW F3). fold W. assert (ulp f * (W + h) <= / 1000 * (W + h)) by (apply Rmult_le_compat_r; lra). lra. }
  rewrite C. assert (LI' : ((fd_idx d + 1) mod N < N)%nat) by (apply Nat.mod_upper_bound; lia). rewrite vset_ok by (rewrite LD; exact LI'). cbn [bind].
  destruct (sub_fin f _ w I F1 FW) as (F4 & N4 & _). { rewrite E1. fold W. apply abs_both. lra. } rewrite E1 in N4. fold W in N4. rewrite Rminus_diag_eq in N4 by reflexivity. pose proof (near_exact f _ _ N4 (grid_zero f SA)) as E4.
  eexists. split; [reflexivity|]. unfold At_rest. cbn [fd_window fd_time fd_idx fd_data]. split; [|split; [exact E4|split; [reflexivity|rewrite vset_ok by (rewrite LD; exact LI'); reflexivity]]].
  split; [first [exact EW|reflexivity]|]. split; [exact F4|]. split; [rewrite E4, Rabs_R0; fold W; lra|]. split; [rewrite upd_length by (rewrite LD; exact LI'); exact LD|exact LI'].
Qed.
Lemma mod_other N i n : (0 < N)%nat -> (i < n)%nat -> (n < i + N)%nat -> (i mod N <> n mod N)%nat.
Proof.
  intros P L U E. pose proof (Nat.div_mod i N ltac:(lia)) as D1. pose proof (Nat.div_mod n N ltac:(lia)) as D2. rewrite E in D1. assert ((n / N) <= i / N \/ i / N + 1 <= n / N)%nat as [Q|Q] by lia; [|].
  - assert (N * (n / N) <= N * (i / N))%nat by (apply Nat.mul_le_mono_l; lia). lia.
  - assert (N * (i / N + 1) <= N * (n / N))%nat by (apply Nat.mul_le_mono_l; lia). lia.
Qed.
Lemma fd_windows f N w v : IEEE f -> (0 < N)%nat -> Fin f w -> 2 * unit_of f <= number f w -> 3 * number f w <= room f -> forall n d0, At_rest f N w d0 -> number f (fd_time d0) = 0 -> fd_idx d0 = 0%nat ->
  exists d, fd_adds f N d0 (map (fun i => (v i, w)) (seq 1 n)) = Ok d /\ At_rest f N w d /\ number f (fd_time d) = 0 /\ fd_idx d = (n mod N)%nat /\
    forall i, (1 <= i <= n)%nat -> (n < i + N)%nat -> nth (i mod N) (fd_data d) f_zero = v i.
Proof.
  intros I NP FW W2 RM n d0 A0 T0 I0. assert (SN : forall l1 d l2, fd_adds f N d (l1 ++ l2) = let* x := fd_adds f N d l1 in fd_adds f N x l2).
  { induction l1 as [|[a b] l1 IH]; intros d l2; cbn [app fd_adds bind]; [reflexivity|]. destruct (fd_add f N d a b); cbn [bind]; auto. }
  induction n as [|n (d & E & A & T & IX & D)].
  - exists d0. cbn [seq map fd_adds]. split; [reflexivity|]. split; [exact A0|]. split; [exact T0|]. split; [rewrite I0, Nat.mod_0_l by lia; reflexivity|]. intros; lia.
  - destruct (fd_window_step f N w d (v (S n)) I NP FW W2 RM A T) as (d' & E' & A' & T' & IX' & V'). exists d'. rewrite seq_S, map_app, SN, E. cbn [bind map Nat.add fd_adds]. rewrite E'. cbn [bind]. split; [reflexivity|]. split; [exact A'|]. split; [exact T'|].
    assert (IS : fd_idx d' = (S n mod N)%nat) by (rewrite IX', IX, Nat.add_mod_idemp_l by lia; f_equal; lia). split; [exact IS|].
    pose proof A as (_ & _ & _ & LD & _). assert (LT : (S n mod N < List.length (fd_data d))%nat) by (rewrite LD; apply Nat.mod_upper_bound; lia). rewrite IS, vset_ok in V' by exact LT. injection V' as V'. rewrite <- V'. intros i [L1 L2] L3. rewrite nth_upd_ by exact LT. destruct (Nat.eq_dec i (S n)) as [->|NE]; [rewrite Nat.eqb_refl; reflexivity|].
    destruct (Nat.eqb_spec (i mod N) (S n mod N)) as [Q|_]; [exfalso; apply (mod_other N i (S n)); lia|]. apply D; lia.
Qed.
Lemma mix_zero f w a b : IEEE f -> Fin f w -> Fin f a -> Fin f b -> number f w = 0 -> Fin f (computed f (mix f w a b)) /\ number f (computed f (mix f w a b)) = number f b.
Proof.
  intros I FW FA FB Z. destruct (one_number f I) as [F1 V1]. destruct (computed_exact f (mix f w a b) I) as [F E].
  - cbn [mix Over]. auto.
  - change (fin_val f) with (number f) in *. assert (X1 : number f w * number f a = 0) by (rewrite Z; ring). assert (X2 : number f (f_one f) - number f w = 1) by lra. assert (X3 : (number f (f_one f) - number f w) * number f b = number f b) by (rewrite X2; ring). assert (X4 : number f w * number f a + (number f (f_one f) - number f w) * number f b = number f b) by (rewrite X1, X3; ring).
    cbn [mix Fits exact]. change (fin_val f) with (number f). rewrite X4, X3, X1, X2. pose proof (number_fits f b I FB). pose proof (zero_fits f I). pose proof (number_fits f (f_one f) I F1) as Q. rewrite V1 in Q. tauto.
  - split; [exact F|]. rewrite E. cbn [mix exact]. change (fin_val f) with (number f). rewrite Z, V1. ring.
Qed.
(* sampled once per window, the value is the one of N - 1 samples ago, exactly *)
Theorem C105_delay : forall f N delay init v n, IEEE f -> (2 <= N)%nat -> (N <= n)%nat -> let w := fd_window (fd_new f N delay init) in
  Fin f w -> 2 * unit_of f <= number f w -> 3 * number f w <= IZR (2 ^ fm_top f) / 2 -> (forall i, Fin f (v i)) ->
  exists d x, fd_adds f N (fd_new f N delay init) (map (fun i => (v i, w)) (seq 1 n)) = Ok d /\ fd_value f N d = Ok x /\ Fin f x /\ number f x = number f (v (n - (N - 1))%nat).
Proof.
  intros f N delay init v n I N2 NL w FW W2 RM FV. pose proof (unit_pos f (ieee_sane f I)) as UP. assert (A : At_rest f N w (fd_new f N delay init)).
  { unfold At_rest. split; [reflexivity|]. cbn [fd_new fd_time fd_data fd_idx List.length]. split; [apply zero_fin_f, I|]. rewrite number_zero, Rabs_R0. split; [lra|]. rewrite repeat_length. lia. }
  destruct (fd_windows f N w v I ltac:(lia) FW W2 RM n _ A (number_zero f) eq_refl) as (d & E & (EW & FT & _ & LD & _) & T & IX & D).
  assert (G : forall j, (j <= 1)%nat -> vget (fd_data d) ((fd_idx d + N + (2 - j)) mod N) = Ok (v (n - (N - 1) + (1 - j))%nat)).
  { intros j J. assert (Q : ((fd_idx d + N + (2 - j)) mod N = (n - (N - 1) + (1 - j)) mod N)%nat).
    { rewrite IX. replace (n mod N + N + (2 - j))%nat with (n mod N + (N + (2 - j)))%nat by lia. rewrite Nat.add_mod_idemp_l by lia. replace (n + (N + (2 - j)))%nat with (n - (N - 1) + (1 - j) + 2 * N)%nat by lia. apply Nat.mod_add. lia. }
    rewrite Q, vget_nth_ by (rewrite LD; apply Nat.mod_upper_bound; lia). f_equal. apply D; lia. }
  destruct (div_fin f (fd_time d) w I FT FW) as (FQ & NQ & _); [lra|rewrite T; unfold Rdiv; rewrite Rmult_0_l, Rabs_R0; unfold room; pose proof (top_pos f (ieee_sane f I)); lra|]. rewrite T in NQ. unfold Rdiv in NQ. rewrite Rmult_0_l in NQ. pose proof (near_exact f _ _ NQ (grid_zero f (ieee_sane f I))) as EQ.
  exists d. eexists. split; [exact E|]. pose proof (G 0%nat ltac:(lia)) as G0. pose proof (G 1%nat ltac:(lia)) as G1. cbn [Nat.sub] in G0, G1. rewrite Nat.add_0_r in G1. split; [apply (fd_value_mix f N d _ _ G0 G1)|]. rewrite EW.
  apply mix_zero; auto.
Qed.
Print Assumptions C105_delay.

(* the delayer of Model/Delayer.v with the same registers *)
Definition real_delayer (f : fmt) (d : f_delayer) : Delayer.delayer := Delayer.mkDelayer (number f (fd_window d)) (number f (fd_time d)) (fd_idx d) (map (number f) (fd_data d)).
(* a number of ticks of 2^e units *)
Definition ticks (f : fmt) (e k : Z) : R := IZR (k * 2 ^ e) * unit_of f.
Lemma ticks_add f e a b : ticks f e (a + b) = ticks f e a + ticks f e b.
Proof. unfold ticks. rewrite Z.mul_add_distr_r, plus_IZR. ring. Qed.
Lemma ticks_sub f e a b : ticks f e (a - b) = ticks f e a - ticks f e b.
Proof. unfold ticks. rewrite Z.mul_sub_distr_r, minus_IZR. ring. Qed.
Lemma ticks_le f e a b : IEEE f -> (0 <= e)%Z -> (a <= b)%Z <-> ticks f e a <= ticks f e b.
Proof.
  intros I E. pose proof (unit_pos f (ieee_sane f I)) as U. pose proof (pow_pos_ e E) as P. unfold ticks. split; intros H.
  - apply Rmult_le_compat_r; [lra|]. apply IZR_le. apply Z.mul_le_mono_nonneg_r; lia.
  - apply Rmult_le_reg_r in H; [|exact U]. apply le_IZR in H. apply Z.mul_le_mono_pos_r in H; assumption.
Qed.
Lemma vset_map {A B} (g : A -> B) l i x l' : vset l i x = Ok l' -> vset (map g l) i (g x) = Ok (map g l').
Proof.
  unfold vset. rewrite map_length. destruct (i <? List.length l)%nat; [|discriminate]. intros H. injection H as <-. rewrite map_app, firstn_map. cbn [map]. rewrite skipn_map. reflexivity.
Qed.
Definition Ticking (f : fmt) (e W : Z) (d : f_delayer) : Prop := (exists T, Fin f (fd_time d) /\ number f (fd_time d) = ticks f e T /\ - W <= T <= W)%Z.
Lemma fd_add_exact f N e W w d v dt D : IEEE f -> (0 < N)%nat -> (0 <= e)%Z -> (0 < W /\ 3 * W <= 2 ^ fm_prec f)%Z -> Fin f w -> number f w = ticks f e W -> 3 * number f w <= room f ->
  At_rest f N w d -> Ticking f e W d -> Fin f dt -> number f dt = ticks f e (2 * D) -> (0 <= 2 * D <= W)%Z ->
  exists d', fd_add f N d v dt = Ok d' /\ At_rest f N w d' /\ Ticking f e W d' /\ Delayer.add_sample N (real_delayer f d) (number f v) (number f dt) = Ok (real_delayer f d').
Proof.
  intros I NP E0 [W0 WB] FW EW RM A (T & FT & ET & BT) FD ED BD. pose proof (ieee_sane f I) as SA. pose proof A as (WE & _ & _ & LD & LI).
  assert (GR : forall k, (Z.abs k <= 3 * W)%Z -> Grid f (ticks f e k)) by (intros k K; apply grid_int; [exact SA|exact E0|lia]).
  assert (BK : forall k, (Z.abs k <= 3 * W)%Z -> Rabs (ticks f e k) <= room f).
  { intros k K. assert (E3 : 3 * number f w = ticks f e (3 * W)) by (rewrite EW; replace (3 * W)%Z with (W + W + W)%Z by lia; rewrite !ticks_add; ring). rewrite E3 in RM. eapply Rle_trans; [|exact RM]. apply abs_both. assert (N3 : - ticks f e (3 * W) = ticks f e (- (3 * W))) by (unfold ticks; rewrite Z.mul_opp_l, opp_IZR; ring). rewrite N3. split; apply (ticks_le f e _ _ I E0); lia. }
  destruct (add_fin f (fd_time d) dt I FT FD) as (F1 & N1 & _). { rewrite ET, ED, <- ticks_add. apply BK. lia. } rewrite ET, ED, <- ticks_add in N1. pose proof (near_exact f _ _ N1 (GR (T + 2 * D)%Z ltac:(lia))) as E1. clear N1.
  destruct (half_fin f I) as [FH VH]. assert (HD : 1 / 2 * ticks f e (2 * D) = ticks f e D) by (replace (2 * D)%Z with (D + D)%Z by lia; rewrite ticks_add; lra).
  destruct (mul_fin f (f_half f) dt I FH FD) as (F2 & N2 & _). { rewrite VH, ED, HD. apply BK. lia. } rewrite VH, ED, HD in N2. pose proof (near_exact f _ _ N2 (GR D ltac:(lia))) as E2. clear N2.
  destruct (add_fin f _ _ I F1 F2) as (F3 & N3 & _). { rewrite E1, E2, <- ticks_add. apply BK. lia. } rewrite E1, E2, <- ticks_add in N3. pose proof (near_exact f _ _ N3 (GR (T + 2 * D + D)%Z ltac:(lia))) as E3. clear N3.
  unfold fd_add, f_gt, Delayer.add_sample, real_delayer. cbn [Delayer.time Delayer.window Delayer.idx Delayer.data]. rewrite WE.
  assert (CR : Rltb (number f w) (number f (fd_time d) + number f dt + 1 / 2 * number f dt) = f_lt w (f_add f (f_add f (fd_time d) dt) (f_mul f (f_half f) dt))).
  { replace (number f (fd_time d) + number f dt + 1 / 2 * number f dt) with (number f (f_add f (f_add f (fd_time d) dt) (f_mul f (f_half f) dt))) by (rewrite E3, ET, ED, HD, <- !ticks_add; reflexivity).
    apply eq_true_iff_eq. rewrite (lt_number f _ _ I FW F3). unfold Rltb. destruct (Rlt_dec _ _); split; intros; try discriminate; try reflexivity; [assumption|contradiction]. }
  rewrite CR. destruct (f_lt w (f_add f (f_add f (fd_time d) dt) (f_mul f (f_half f) dt))) eqn:C.
  - apply (lt_number f _ _ I FW F3) in C. rewrite E3, EW in C. assert (CT : (W < T + 2 * D + D)%Z) by (apply Z.nle_gt; intros Q; apply (ticks_le f e _ _ I E0) in Q; lra).
    destruct (sub_fin f _ w I F1 FW) as (F4 & N4 & _). { rewrite E1, EW, <- ticks_sub. apply BK. lia. } rewrite E1, EW, <- ticks_sub in N4. pose proof (near_exact f _ _ N4 (GR (T + 2 * D - W)%Z ltac:(lia))) as E4. clear N4.
    assert (LI' : ((fd_idx d + 1) mod N < N)%nat) by (apply Nat.mod_upper_bound; lia). destruct (vset (fd_data d) ((fd_idx d + 1) mod N) v) as [l| | |] eqn:V; try (rewrite vset_ok in V by (rewrite LD; exact LI'); discriminate). rewrite (vset_map (number f) _ _ _ _ V). cbn [bind].
    assert (LL : List.length l = N) by (rewrite vset_ok in V by (rewrite LD; exact LI'); assert (VE := f_equal (fun r => match r with Ok x => List.length x | _ => 0%nat end) V); cbn beta iota in VE; rewrite <- VE, <- LD; apply upd_length; rewrite LD; exact LI').
    eexists. split; [reflexivity|]. unfold At_rest, Ticking. cbn [fd_window fd_time fd_idx fd_data]. assert (BW : Rabs (ticks f e (T + 2 * D - W)) <= number f w).
    { rewrite EW. apply abs_both. assert (NW : - ticks f e W = ticks f e (- W)) by (unfold ticks; rewrite Z.mul_opp_l, opp_IZR; ring). rewrite NW. split; apply (ticks_le f e _ _ I E0); lia. }
    split; [rewrite E4; auto|]. split; [exists (T + 2 * D - W)%Z; split; [exact F4|split; [exact E4|lia]]|]. f_equal. f_equal; []. rewrite E4, ET, ED, EW, <- ticks_add, <- ticks_sub. reflexivity.
  - assert (CT : (T + 2 * D + D <= W)%Z). { apply (ticks_le f e _ _ I E0). rewrite <- E3, <- EW. destruct (Rle_lt_dec (number f (f_add f (f_add f (fd_time d) dt) (f_mul f (f_half f) dt))) (number f w)) as [|Q]; [assumption|]. apply (lt_number f _ _ I FW F3) in Q. congruence. }
    eexists. split; [reflexivity|]. unfold At_rest, Ticking. cbn [fd_window fd_time fd_idx fd_data]. assert (BW : Rabs (ticks f e (T + 2 * D)) <= number f w).
    { rewrite EW. apply abs_both. assert (NW : - ticks f e W = ticks f e (- W)) by (unfold ticks; rewrite Z.mul_opp_l, opp_IZR; ring). rewrite NW. split; apply (ticks_le f e _ _ I E0); lia. }
    split; [rewrite E1; auto|]. split; [exists (T + 2 * D)%Z; split; [exact F1|split; [exact E1|lia]]|]. f_equal. f_equal. rewrite E1, ET, ED, <- ticks_add. reflexivity.
Qed.
(* with all times whole numbers of ticks, and those of samples even, there is no rounding at all in the clock: the delayer is that of Model/Delayer.v *)
Theorem C105_delayer_exact : forall f N delay init l e W, IEEE f -> (2 <= N)%nat -> let w := fd_window (fd_new f N delay init) in
  (0 <= e)%Z -> (0 < W /\ 3 * W <= 2 ^ fm_prec f)%Z -> Fin f w -> number f w = ticks f e W -> 3 * number f w <= IZR (2 ^ fm_top f) / 2 ->
  (forall p, In p l -> Fin f (snd p) /\ exists D, number f (snd p) = ticks f e (2 * D) /\ (0 <= 2 * D <= W)%Z) ->
  exists d, fd_adds f N (fd_new f N delay init) l = Ok d /\ Fin f (fd_time d) /\
    Delayer.add_samples N (Delayer.mkDelayer (number f w) 0 0 (number f init :: repeat 0 (N - 1))) (map (fun p => (number f (fst p), number f (snd p))) l) = Ok (real_delayer f d).
Proof.
  intros f N delay init l e W I N2 w E0 WB FW EW RM H. pose proof (unit_pos f (ieee_sane f I)) as UP.
  assert (WP : 0 < number f w). { rewrite EW. unfold ticks. apply Rmult_lt_0_compat; [|exact UP]. apply IZR_lt. apply Z.mul_pos_pos; [lia|apply pow_pos_, E0]. }
  assert (A : At_rest f N w (fd_new f N delay init)).
  { unfold At_rest. split; [reflexivity|]. cbn [fd_new fd_time fd_data fd_idx List.length]. split; [apply zero_fin_f, I|]. rewrite number_zero, Rabs_R0. split; [lra|]. rewrite repeat_length. lia. }
  assert (K : Ticking f e W (fd_new f N delay init)). { exists 0%Z. cbn [fd_new fd_time]. split; [apply zero_fin_f, I|]. split; [rewrite number_zero; unfold ticks; rewrite Z.mul_0_l; ring|lia]. }
  assert (R0 : real_delayer f (fd_new f N delay init) = Delayer.mkDelayer (number f w) 0 0 (number f init :: repeat 0 (N - 1))).
  { unfold real_delayer. cbn [fd_new fd_window fd_time fd_idx fd_data map]. rewrite number_zero. f_equal. f_equal. clear. induction (N - 1)%nat as [|m IH]; [reflexivity|]. cbn [repeat map]. rewrite IH, number_zero. reflexivity. }
  rewrite <- R0. clear R0. clearbody w. set (d0 := fd_new f N delay init) in *. clearbody d0. revert d0 A K. induction l as [|[v dt] l IH]; intros d0 A K.
  - exists d0. split; [reflexivity|]. split; [apply A|reflexivity].
  - destruct (H (v, dt) (or_introl eq_refl)) as (FD & D & ED & BD). cbn [snd] in FD, ED. destruct (fd_add_exact f N e W w d0 v dt D I ltac:(lia) E0 WB FW EW RM A K FD ED BD) as (d1 & E1 & A1 & K1 & R1).
    destruct (IH ltac:(intros p Q; apply H; right; exact Q) d1 A1 K1) as (d & E & F & RR). exists d. cbn [fd_adds map Delayer.add_samples fst snd]. rewrite E1, R1. cbn [bind]. auto.
Qed.
Print Assumptions C105_delayer_exact.

(* the value, from what is in the registers: near the exact mix *)
Theorem C105_delayer_value : forall f N d a b M, IEEE f -> Fin f (fd_time d) -> Fin f (fd_window d) -> 0 < number f (fd_window d) -> Rabs (number f (fd_time d)) <= number f (fd_window d) ->
  vget (fd_data d) ((fd_idx d + N + 2) mod N) = Ok a -> vget (fd_data d) ((fd_idx d + N + 1) mod N) = Ok b -> Fin f a -> Fin f b -> Rabs (number f a) <= M -> Rabs (number f b) <= M -> 4 * M + 1 <= IZR (2 ^ fm_top f) / 2 ->
  exists x, fd_value f N d = Ok x /\ Fin f x /\ let r := number f (fd_time d) / number f (fd_window d) in
    Rabs (number f x - (r * number f a + (1 - r) * number f b)) <= 12 * / IZR (2 ^ fm_prec f) * M + 2 * unit_of f.
Proof.
  intros f N d a b M I FT FW WP TB GA GB FA FB MA MB RM. pose proof (ieee_sane f I) as SA. destruct (ulp_small f I) as [U UU]. pose proof (unit_pos f SA) as UP. destruct (one_number f I) as [F1 V1]. fold (ulp f). set (u := ulp f) in *. set (e := unit_of f) in *.
  rewrite (fd_value_mix f N d a b GA GB). eexists. split; [reflexivity|]. set (r := number f (fd_time d) / number f (fd_window d)).
  assert (RB : Rabs r <= 1). { unfold r, Rdiv. rewrite Rabs_mult, (Rabs_right (/ number f (fd_window d))) by (apply Rle_ge; left; apply Rinv_0_lt_compat; lra). apply (Rmult_le_reg_r (number f (fd_window d))); [exact WP|]. rewrite Rmult_assoc, Rinv_l by lra. lra. }
  pose proof (room_large f I) as RL. assert (RL1 : 4 <= room f) by (eapply Rle_trans; [|exact RL]; apply IZR_le; lia).
  destruct (div_fin f (fd_time d) (fd_window d) I FT FW) as (FQ & NQ & EQ); [lra|fold r; lra|]. fold r in NQ, EQ. fold u e in EQ. set (wx := f_div f (fd_time d) (fd_window d)) in *.
  assert (WB : Rabs (number f wx) <= 1). { apply abs_both in RB. pose proof (grid_whole f 1 SA ltac:(cbn; pose proof (pow_pos_ (fm_prec f) ltac:(destruct SA; lia)); lia)) as G1. apply abs_both. apply (mid f r (number f wx) (- 1) 1 NQ (grid_opp f 1 G1) G1). lra. }
  assert (M0 : 0 <= M) by (eapply Rle_trans; [apply Rabs_pos|exact MA]).
  assert (EX : 0 <= extent f (mix f wx a b) <= 3 * M).
  { cbn [mix extent]. change (fin_val f) with (number f). rewrite V1, Rabs_R1. pose proof (Rabs_pos (number f wx)). pose proof (Rabs_pos (number f a)). pose proof (Rabs_pos (number f b)).
    assert (0 <= Rabs (number f wx) * Rabs (number f a) <= 1 * M) by (split; [apply Rmult_le_pos; assumption|apply Rmult_le_compat; assumption]). assert (0 <= (1 + Rabs (number f wx)) * Rabs (number f b) <= 2 * M) by (split; [apply Rmult_le_pos; lra|apply Rmult_le_compat; lra]). lra. }
  assert (LQ : 0 <= lost f (mix f wx a b) <= (1 + u) * e). { split; [apply lost_nonneg, I|]. cbn [mix lost roundings extent pow]. fold (ulp f) u e. apply Req_le. field. }
  assert (RQ : roundings (mix f wx a b) = 3%nat) by reflexivity.
  assert (U2 : 0 <= u * u <= u * / 1000) by (split; [apply Rmult_le_pos; lra|apply Rmult_le_compat_l; lra]). assert (U3 : 0 <= u * u * u <= u * u * 1) by (split; [repeat apply Rmult_le_pos; lra|apply Rmult_le_compat_l; lra]).
  assert (G3 : 0 <= (1 + u) ^ 3 - 1 <= 301 / 100 * u) by (cbn [pow]; lra).
  assert (EUE : 0 <= u * e <= e) by (split; [apply Rmult_le_pos; lra|rewrite <- (Rmult_1_l e) at 2; apply Rmult_le_compat_r; lra]).
  assert (FM : Fin f (computed f (mix f wx a b))).
  { apply computed_roomy; [exact I|cbn [mix Over]; auto|]. apply roomy_terms; [exact I| |].
    - unfold reach. fold (ulp f) u. rewrite RQ. assert ((1 + u) ^ 3 * extent f (mix f wx a b) <= (1 + 301 / 100 * / 1000) * (3 * M)) by (apply Rmult_le_compat; lra). assert ((1 + u) * e <= 1) by lra. lra.
    - cbn [mix Terms Roomy]. split; [tauto|]. intros Q. split; [|tauto]. split; [exact Logic.I|]. split; [exact Logic.I|]. unfold reach. cbn [roundings extent lost Nat.max pow]. change (fin_val f) with (number f). fold (ulp f) u. rewrite V1, Rabs_R1. unfold room in RL1. assert ((1 + u) * 1 * (1 + Rabs (number f wx)) <= (1 + / 1000) * 2) by (apply Rmult_le_compat; [lra|pose proof (Rabs_pos (number f wx)); lra|lra|lra]). lra. }
  split; [exact FM|]. cbn zeta. fold r. assert (OV : Over (Valid f) (mix f wx a b)) by (cbn [mix Over]; auto using fin_valid). pose proof (computed_error f _ I OV FM) as ER. fold u in ER. rewrite RQ in ER.
  assert (EXV : exact f (mix f wx a b) = number f wx * number f a + (1 - number f wx) * number f b) by (cbn [mix exact]; change (fin_val f) with (number f); rewrite V1; reflexivity).
  assert (B1 : ((1 + u) ^ 3 - 1) * extent f (mix f wx a b) <= 301 / 100 * u * (3 * M)) by (apply Rmult_le_compat; lra).
  assert (UM : 0 <= u * M) by (apply Rmult_le_pos; lra).
  assert (B2 : Rabs ((number f wx - r) * (number f a - number f b)) <= (u * 1 + e / 2) * (2 * M)).
  { rewrite Rabs_mult. apply Rmult_le_compat; [apply Rabs_pos|apply Rabs_pos| |].
    - eapply Rle_trans; [exact EQ|]. assert (u * Rabs r <= u * 1) by (apply Rmult_le_compat_l; lra). lra.
    - apply abs_both in MA. apply abs_both in MB. apply abs_both. lra. }
  assert (B3 : e * M <= u * / 1000 * M) by (apply Rmult_le_compat_r; lra).
  replace (number f (computed f (mix f wx a b)) - (r * number f a + (1 - r) * number f b)) with ((number f (computed f (mix f wx a b)) - exact f (mix f wx a b)) + (number f wx - r) * (number f a - number f b)) by (rewrite EXV; ring).
  eapply Rle_trans; [apply Rabs_triang|]. lra.
Qed.
Print Assumptions C105_delayer_value.

(* an infinite sample is nan in the value one window before it is due *)
Theorem C105_delay_infinite_refuted : let d := float_fmt in exists x, fd_adds d 2 (fd_new d 2 (f_one d) f_zero) [(FInf false, f_one d)] = Ok x /\ fd_value d 2 x = Ok FNan.
Proof. exists (mkFd (f_one float_fmt) f_zero 1 [f_zero; FInf false]). split; vm_compute; reflexivity. Qed.
Print Assumptions C105_delay_infinite_refuted.
(* in a window of one unit, half a sample is rounded to nothing, and the first sample is lost *)
Theorem C105_delay_tiny_refuted : let d := float_fmt in let w := FFin false 1 in let one := f_one d in let two := flt 2 0 in
  exists x, fd_window (fd_new d 2 w f_zero) = w /\ fd_adds d 2 (fd_new d 2 w f_zero) [(one, w); (two, w); (two, w)] = Ok x /\ ~ In one (fd_data x) /\ fd_time x = w.
Proof. exists (mkFd (FFin false 1) (FFin false 1) 0 [flt 2 0; flt 2 0]). split; [vm_compute; reflexivity|]. split; [vm_compute; reflexivity|]. split; [|reflexivity]. vm_compute. intros [H|[H|[]]]; discriminate. Qed.
Print Assumptions C105_delay_tiny_refuted.
(* a delay of 3 with 4 samples: whole windows, and halves of windows *)
Example C105_delayer_example : let d := float_fmt in let s := fun k => flt k 0 in
  (exists x, fd_adds d 4 (fd_new d 4 (s 3%Z) f_zero) (map (fun k => (s k, s 1%Z)) [1; 2; 3; 4; 5; 6]%Z) = Ok x /\ fd_value d 4 x = Ok (s 3%Z)) /\
  (exists x, fd_adds d 2 (fd_new d 2 (s 1%Z) f_zero) (map (fun k => (s k, flt 1 (-1))) [1; 2; 3; 4; 5; 6; 7]%Z) = Ok x /\ fd_value d 2 x = Ok (s 5%Z)).
Proof.
  cbn zeta. set (s := fun k => flt k 0). split; [exists (mkFd (s 1%Z) f_zero 2 [s 4%Z; s 5%Z; s 6%Z; s 3%Z])|exists (mkFd (s 1%Z) (flt 1 (-1)) 1 [s 4%Z; s 6%Z])]; split; vm_compute; reflexivity.
Qed.
