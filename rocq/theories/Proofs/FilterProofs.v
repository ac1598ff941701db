(* Proofs about the linear filters. *)
From Coq Require Import Reals ZArith List Lra Lia.
From Verif Require Import Model.Base Model.Math Model.Regression Model.Filter Spec.Stats Spec.Filter Proofs.BaseFacts Proofs.StorageRealProofs.
Local Open Scope R_scope.

Lemma vget_nth (l : list R) i : (i < length l)%nat -> vget l i = Ok (nth i l 0).
Proof. intros H. unfold vget. rewrite (nth_error_nth' l 0 H). reflexivity. Qed.
Lemma nth_upd (l : list R) i j x : (i < length l)%nat -> nth j (firstn i l ++ x :: skipn (S i) l) 0 = if (j =? i)%nat then x else nth j l 0.
Proof.
  intros H. destruct (Nat.eqb_spec j i) as [->|N].
  - rewrite app_nth2; rewrite firstn_length; [|lia]. replace (i - Nat.min i (length l))%nat with 0%nat by lia. reflexivity.
  - destruct (Nat.lt_ge_cases j (length l)) as [L|L].
    + pose proof (nth_error_upd l i j x H) as E. destruct (Nat.eqb_spec j i) as [|_]; [contradiction|].
      rewrite (nth_error_nth' l 0 L) in E. rewrite (nth_error_nth _ _ 0 E). reflexivity.
    + rewrite !nth_overflow; [reflexivity|exact L|]. rewrite upd_length; assumption.
Qed.

Definition wf (N : nat) (f : filter) : Prop := length (x_ f) = N /\ length (b_ f) = N /\ length (y_ f) = N /\ length (a_ f) = N.

Lemma accumulate_ok N f y : wf N f -> accumulate N f y = Ok (y + sumR N (fun i => nth i (b_ f) 0 * nth i (x_ f) 0 + nth i (a_ f) 0 * nth i (y_ f) 0)).
Proof.
  intros (Lx & Lb & Ly & La). unfold accumulate.
  destruct (for_up_inv (fun i y => let* b := vget (b_ f) i in let* x := vget (x_ f) i in let* a := vget (a_ f) i in let* v := vget (y_ f) i in Ok (y + (b * x + a * v)))
    (fun i v => v = y + sumR i (fun i => nth i (b_ f) 0 * nth i (x_ f) 0 + nth i (a_ f) 0 * nth i (y_ f) 0)) N y) as (v & E & I).
  - cbn [sumR]. ring.
  - intros i v L I. rewrite !vget_nth by lia. cbn [bind]. eexists. split; [reflexivity|]. cbn [sumR]. rewrite I. ring.
  - rewrite E, I. reflexivity.
Qed.

Lemma shift_ok N xs ys : length xs = N -> length ys = N -> exists xs' ys', shift N xs ys = Ok (xs', ys') /\ length xs' = N /\ length ys' = N /\
  forall i, (i < N)%nat -> nth i xs' 0 = nth (i - 1) xs 0 /\ nth i ys' 0 = nth (i - 1) ys 0.
Proof.
  intros Lx Ly. unfold shift.
  match goal with |- exists _ _, for_down _ ?b _ = _ /\ _ =>
    destruct (for_down_inv b (fun j s => length (fst s) = N /\ length (snd s) = N /\ forall i, (i < N)%nat ->
      nth i (fst s) 0 = nth (if (j <? i)%nat then i - 1 else i) xs 0 /\ nth i (snd s) 0 = nth (if (j <? i)%nat then i - 1 else i) ys 0) (N - 1)%nat (xs, ys)) as ([xs' ys'] & E & A & B & C) end.
  - cbn [fst snd]. split; [exact Lx|]. split; [exact Ly|]. intros i L. destruct (Nat.ltb_spec (N - 1) i); [lia|]. split; reflexivity.
  - intros j [u v] L (A & B & C). cbn [fst snd] in *. rewrite vget_nth by lia. cbn [bind]. rewrite vset_ok by lia. cbn [bind].
    rewrite vget_nth by lia. cbn [bind]. rewrite vset_ok by lia. cbn [bind]. eexists. split; [reflexivity|]. cbn [fst snd].
    rewrite !upd_length by lia. split; [exact A|]. split; [exact B|]. intros i I. rewrite !nth_upd by lia.
    destruct (C j ltac:(lia)) as [C1 C2]. destruct (C i I) as [C3 C4]. destruct (Nat.ltb_spec (S j) j); [lia|].
    destruct (Nat.eqb_spec i (S j)) as [->|D].
    + destruct (Nat.ltb_spec j (S j)); [|lia]. replace (S j - 1)%nat with j by lia. split; assumption.
    + replace (j <? i)%nat with (S j <? i)%nat; [split; assumption|]. destruct (Nat.ltb_spec (S j) i), (Nat.ltb_spec j i); try reflexivity; lia.
  - exists xs', ys'. split; [exact E|]. split; [exact A|]. split; [exact B|]. intros i I. destruct (C i I) as [C1 C2].
    replace (if (0 <? i)%nat then (i - 1)%nat else i) with (i - 1)%nat in *; [split; assumption|]. destruct (Nat.ltb_spec 0 i); lia.
Qed.

Definition outcome (N : nat) (f : filter) (x : R) : R :=
  b0_ f * x + sumR N (fun i => nth i (b_ f) 0 * nth i (x_ f) 0 + nth i (a_ f) 0 * nth i (y_ f) 0).
Definition same_coefficients (f g : filter) : Prop := b0_ g = b0_ f /\ b_ g = b_ f /\ a_ g = a_ f.
Definition recorded (N : nat) (f : filter) (x : R) (g : filter) : Prop :=
  forall i, (i < N)%nat -> nth i (x_ g) 0 = (match i with 0%nat => x | S j => nth j (x_ f) 0 end) /\
                           nth i (y_ g) 0 = (match i with 0%nat => outcome N f x | S j => nth j (y_ f) 0 end).
Lemma feed_ref_ok N f a x : (0 < N)%nat -> wf N f -> fetch (x_ f) (y_ f) a = Ok x ->
  (forall xs' ys', length xs' = N -> length ys' = N -> nth 0 xs' 0 = nth 0 (x_ f) 0 -> nth 0 ys' 0 = nth 0 (y_ f) 0 -> fetch xs' ys' a = Ok x) ->
  exists g, feed_ref N f a = Ok (g, outcome N f x) /\ wf N g /\ same_coefficients f g /\ recorded N f x g.
Proof.
  intros P W F K. pose proof W as (Lx & Lb & Ly & La). unfold feed_ref. rewrite F. cbn [bind]. rewrite accumulate_ok by exact W. cbn [bind].
  fold (outcome N f x). destruct (shift_ok N (x_ f) (y_ f) Lx Ly) as (xs' & ys' & E & A & B & C). rewrite E. cbn [bind fst snd].
  destruct (C 0%nat P) as [C1 C2]. cbn in C1, C2. rewrite K by assumption. cbn [bind]. rewrite !vset_ok by lia. cbn [bind].
  eexists. split; [reflexivity|]. split; [|split].
  - unfold wf. cbn [x_ b_ y_ a_]. rewrite !upd_length by lia. auto.
  - unfold same_coefficients. cbn [b0_ b_ a_]. auto.
  - intros i L. cbn [x_ y_]. rewrite !nth_upd by lia. destruct i as [|j]; [split; reflexivity|]. cbn [Nat.eqb].
    destruct (C (S j) L) as [D1 D2]. replace (S j - 1)%nat with j in * by lia. split; assumption.
Qed.
Lemma feed_ok N f x : (0 < N)%nat -> wf N f -> exists g, feed N f x = Ok (g, outcome N f x) /\ wf N g /\ same_coefficients f g /\ recorded N f x g.
Proof. intros P W. unfold feed. apply feed_ref_ok; auto. Qed.

(* the two registers hold the past *)
Definition Holds (N : nat) (f : filter) (x y : nat -> R) (k : nat) : Prop :=
  forall i, (i < N)%nat -> nth i (x_ f) 0 = past x k i /\ nth i (y_ f) 0 = past y k i.
Lemma past_S x k i : past x (S k) i = match i with 0%nat => x k | S j => past x k j end.
Proof.
  unfold past. destruct i as [|j].
  - cbn. f_equal. lia.
  - destruct (Nat.ltb_spec (S j) (S k)), (Nat.ltb_spec j k); try lia; [f_equal; lia|reflexivity].
Qed.
Lemma sum_split n f g : sumR n (fun i => f i + g i) = sumR n f + sumR n g. Proof. apply sumR_plus. Qed.

(* the solution of the difference equation with the registers of f as the past *)
Fixpoint states (N : nat) (f : filter) (x : nat -> R) (k : nat) : filter :=
  match k with
  | 0%nat => f
  | S j => let g := states N f x j in
    match feed N g (x j) with Ok (h, _) => h | _ => g end
  end.
Definition outputs (N : nat) (f : filter) (x : nat -> R) (k : nat) : R := outcome N (states N f x k) (x k).

Lemma states_ok N f x : (0 < N)%nat -> wf N f -> forall k, wf N (states N f x k) /\ same_coefficients f (states N f x k) /\
  feed N (states N f x k) (x k) = Ok (states N f x (S k), outputs N f x k) /\ recorded N (states N f x k) (x k) (states N f x (S k)).
Proof.
  intros P W. assert (G : forall k, wf N (states N f x k) /\ same_coefficients f (states N f x k)).
  { induction k as [|k [IW IS]]; cbn [states]; [split; [exact W|repeat split]|].
    destruct (feed_ok N (states N f x k) (x k) P IW) as (g & E & WG & SG & _). rewrite E. split; [exact WG|].
    destruct IS as (A & B & C), SG as (A' & B' & C'). repeat split; congruence. }
  intros k. destruct (G k) as [WG SG]. split; [exact WG|]. split; [exact SG|].
  destruct (feed_ok N (states N f x k) (x k) P WG) as (g & E & _ & _ & RG).
  assert (H : states N f x (S k) = g) by (cbn [states]; rewrite E; reflexivity). rewrite H. split; [exact E|exact RG].
Qed.
Lemma states_hold N f x : (0 < N)%nat -> wf N f -> (forall i, (i < N)%nat -> nth i (x_ f) 0 = 0 /\ nth i (y_ f) 0 = 0) ->
  forall k, Holds N (states N f x k) x (outputs N f x) k.
Proof.
  intros P W Z. induction k as [|k IH]; intros i L.
  - cbn [states]. unfold past. cbn. apply Z, L.
  - destruct (states_ok N f x P W k) as (_ & _ & _ & RC). destruct (RC i L) as [E1 E2]. rewrite E1, E2, !past_S.
    destruct i as [|j]; [split; reflexivity|]. apply IH. lia.
Qed.
Lemma outputs_solve N f x : (0 < N)%nat -> wf N f -> (forall i, (i < N)%nat -> nth i (x_ f) 0 = 0 /\ nth i (y_ f) 0 = 0) ->
  forall k, Solves (b0_ f) (b_ f) (a_ f) x (outputs N f x) k.
Proof.
  intros P W Z k. pose proof (states_hold N f x P W Z k) as H. destruct (states_ok N f x P W k) as (_ & (A & B & C) & _).
  destruct W as (Lx & Lb & Ly & La). unfold Solves. unfold outputs at 1. unfold outcome. rewrite A, B, C, Lb, La, sum_split, Rplus_assoc.
  f_equal. f_equal; apply sumR_ext; intros i L; destruct (H i L) as [E1 E2]; congruence.
Qed.
Lemma feed_all_states N f x : (0 < N)%nat -> wf N f -> forall n k, feed_all N (states N f x k) (map x (seq k n)) = Ok (states N f x (k + n), map (outputs N f x) (seq k n)).
Proof.
  intros P W. induction n as [|n IH]; intros k; cbn [seq map feed_all].
  - rewrite Nat.add_0_r. reflexivity.
  - destruct (states_ok N f x P W k) as (_ & _ & E & _). rewrite E. cbn [bind]. rewrite IH. cbn [bind]. do 3 f_equal. lia.
Qed.

(* the equation has one solution *)
Lemma past_ext x y k i : (forall j, (j < k)%nat -> x j = y j) -> past x k i = past y k i.
Proof. intros H. unfold past. destruct (Nat.ltb_spec i k); [|reflexivity]. apply H. lia. Qed.
Lemma solve_unique b0 b a x x' y z n : (forall k, (k < n)%nat -> x k = x' k) ->
  (forall k, (k < n)%nat -> Solves b0 b a x y k) -> (forall k, (k < n)%nat -> Solves b0 b a x' z k) -> forall k, (k < n)%nat -> y k = z k.
Proof.
  intros X Y Z. induction k as [k IH] using lt_wf_ind. intros L. rewrite (Y k L), (Z k L), X by exact L. f_equal; [f_equal|].
  - apply sumR_ext. intros i _. f_equal. apply past_ext. intros j J. apply X. lia.
  - apply sumR_ext. intros i _. f_equal. apply past_ext. intros j J. apply IH; lia.
Qed.
Lemma past_lin s t x y k i : past (fun n => s * x n + t * y n) k i = s * past x k i + t * past y k i.
Proof. unfold past. destruct (i <? k)%nat; ring. Qed.
Lemma sum_lin n c s t f g : sumR n (fun i => c i * (s * f i + t * g i)) = s * sumR n (fun i => c i * f i) + t * sumR n (fun i => c i * g i).
Proof. rewrite <- !sumR_scal, <- sumR_plus. apply sumR_ext. intros i _. ring. Qed.
Lemma solve_lin b0 b a s t u v y z k : Solves b0 b a u y k -> Solves b0 b a v z k -> Solves b0 b a (fun n => s * u n + t * v n) (fun n => s * y n + t * z n) k.
Proof.
  unfold Solves. intros Y Z. rewrite Y, Z. 
  rewrite (sumR_ext _ (fun i => nth i b 0 * past (fun n => s * u n + t * v n) k i) (fun i => nth i b 0 * (s * past u k i + t * past v k i))) by (intros; rewrite past_lin; reflexivity).
  rewrite (sumR_ext _ (fun i => nth i a 0 * past (fun n => s * y n + t * z n) k i) (fun i => nth i a 0 * (s * past y k i + t * past z k i))) by (intros; rewrite past_lin; reflexivity).
  rewrite !sum_lin. ring.
Qed.
Lemma past_delay d x k i : past (delay d x) k i = if (k <? d)%nat then 0 else past x (k - d) i.
Proof.
  unfold past, delay. destruct (Nat.ltb_spec i k); destruct (Nat.ltb_spec k d); destruct (Nat.ltb_spec i (k - d)); try lia; try reflexivity;
  destruct (Nat.ltb_spec (k - 1 - i) d); try lia; try reflexivity; f_equal; lia.
Qed.
Lemma sum_zero n c f : (forall i, (i < n)%nat -> f i = 0) -> sumR n (fun i => c i * f i) = 0.
Proof. intros H. induction n as [|n IH]; cbn [sumR]; [reflexivity|]. rewrite IH by (intros; apply H; lia). rewrite H by lia. ring. Qed.
Lemma solve_delay b0 b a d x y k : ((d <= k)%nat -> Solves b0 b a x y (k - d)) -> Solves b0 b a (delay d x) (delay d y) k.
Proof.
  unfold Solves. intros H. destruct (Nat.lt_ge_cases k d) as [L|L].
  - rewrite !sum_zero by (intros i _; rewrite past_delay; destruct (Nat.ltb_spec k d); [reflexivity|lia]).
    unfold delay. destruct (Nat.ltb_spec k d); [ring|lia].
  - specialize (H L). unfold delay at 1 2. destruct (Nat.ltb_spec k d); [lia|]. rewrite H. f_equal; [f_equal|]; apply sumR_ext; intros i _;
    rewrite past_delay; destruct (Nat.ltb_spec k d); try lia; reflexivity.
Qed.

(* second order recurrences with a pair of complex roots c +- i s *)
Definition norm2 (p w : R) : R := sqrt (p * p + w * w).
Lemma norm2_nonneg p w : 0 <= norm2 p w. Proof. apply sqrt_pos. Qed.
Lemma norm2_sq p w : norm2 p w * norm2 p w = p * p + w * w.
Proof. apply sqrt_sqrt. nra. Qed.
Lemma norm2_rotate c s r p w : 0 <= r -> c * c + s * s = r * r -> norm2 (c * p - s * w) (s * p + c * w) = r * norm2 p w.
Proof.
  intros P E. unfold norm2. replace ((c * p - s * w) * (c * p - s * w) + (s * p + c * w) * (s * p + c * w)) with (r * r * (p * p + w * w)) by (rewrite <- E; ring).
  rewrite sqrt_mult by nra. rewrite sqrt_square by exact P. reflexivity.
Qed.
Lemma norm2_shift p w u : norm2 (p + u) w <= norm2 p w + Rabs u.
Proof.
  pose proof (norm2_nonneg p w). pose proof (Rabs_pos u). apply Rsqr_incr_0_var; [|lra]. unfold Rsqr. rewrite norm2_sq.
  assert (A : Rabs u * Rabs u = u * u) by (rewrite <- Rabs_mult; apply Rabs_pos_eq; nra).
  replace ((norm2 p w + Rabs u) * (norm2 p w + Rabs u)) with (norm2 p w * norm2 p w + 2 * (norm2 p w * Rabs u) + Rabs u * Rabs u) by ring.
  rewrite norm2_sq, A. assert (p * u <= norm2 p w * Rabs u); [|nra].
  assert (Rabs p <= norm2 p w). { apply Rsqr_incr_0_var; [|assumption]. unfold Rsqr. rewrite norm2_sq, <- Rabs_mult, Rabs_pos_eq by nra. nra. }
  eapply Rle_trans; [apply Rle_abs|]. rewrite Rabs_mult. apply Rmult_le_compat_r; assumption.
Qed.
Lemma norm2_right p w : Rabs w <= norm2 p w.
Proof. pose proof (norm2_nonneg p w). apply Rsqr_incr_0_var; [|assumption]. unfold Rsqr. rewrite norm2_sq, <- Rabs_mult, Rabs_pos_eq by nra. nra. Qed.

Definition energy (c s : R) (y : nat -> R) (n : nat) : R := norm2 (y (S n) - c * y n) (s * y n).
Definition Recurrence (c r : R) (y u : nat -> R) : Prop := forall n, y (S (S n)) = 2 * c * y (S n) - r * r * y n + u n.
Lemma energy_step c s r y u : 0 <= r -> c * c + s * s = r * r -> Recurrence c r y u -> forall n,
  energy c s y (S n) <= r * energy c s y n + Rabs (u n).
Proof.
  intros P E RC n. unfold energy. rewrite RC. rewrite <- (norm2_rotate c s r) by assumption.
  replace (2 * c * y (S n) - r * r * y n + u n - c * y (S n)) with (c * (y (S n) - c * y n) - s * (s * y n) + u n) by (rewrite <- E; ring).
  replace (s * y (S n)) with (s * (y (S n) - c * y n) + c * (s * y n)) by ring. apply norm2_shift.
Qed.
Lemma energy_free c s r y u : 0 <= r -> c * c + s * s = r * r -> Recurrence c r y u -> forall n, u n = 0 -> energy c s y (S n) = r * energy c s y n.
Proof.
  intros P E RC n U. unfold energy. rewrite RC, U. rewrite <- (norm2_rotate c s r) by assumption.
  f_equal; [rewrite <- E|]; ring.
Qed.
Lemma energy_value c s y n : 0 < s -> Rabs (y n) <= energy c s y n / s.
Proof.
  intros P. apply Rmult_le_reg_l with s; [exact P|]. replace (s * (energy c s y n / s)) with (energy c s y n) by (field; lra).
  rewrite <- (Rabs_pos_eq s) at 1 by lra. rewrite <- Rabs_mult. apply norm2_right.
Qed.
Lemma energy_nonneg c s y n : 0 <= energy c s y n. Proof. apply norm2_nonneg. Qed.

(* bounded input *)
Lemma contraction_bounded z v r U : 0 <= r < 1 -> (forall n, z (S n) <= r * z n + v n) -> (forall n : nat, v n <= U) -> z 0%nat <= U / (1 - r) ->
  forall n : nat, z n <= U / (1 - r).
Proof.
  intros P Z V B. induction n as [|n IH]; [exact B|]. eapply Rle_trans; [apply Z|]. specialize (V n).
  replace (U / (1 - r)) with (r * (U / (1 - r)) + U) by (field; lra). assert (r * z n <= r * (U / (1 - r))) by (apply Rmult_le_compat_l; lra). lra.
Qed.
(* input that dies out *)
Lemma contraction_power z r n0 : 0 <= r -> (forall n, (n0 <= n)%nat -> z (S n) <= r * z n) -> forall k, z (n0 + k)%nat <= r ^ k * z n0.
Proof.
  intros P Z. induction k as [|k IH]; [rewrite Nat.add_0_r; cbn; lra|]. rewrite Nat.add_succ_r. eapply Rle_trans; [apply Z; lia|].
  cbn [pow]. rewrite Rmult_assoc. apply Rmult_le_compat_l; [exact P|exact IH].
Qed.
Lemma contraction_vanishes z v r : 0 <= r < 1 -> (forall n, 0 <= z n) -> (forall n, z (S n) <= r * z n + v n) -> Un_cv v 0 -> Un_cv z 0.
Proof.
  intros P Z0 Z V eps E.
  set (d := eps * (1 - r) / 2). assert (D : 0 < d) by (unfold d; nra).
  destruct (V d D) as (n0 & N0).
  (* the excess over eps / 2 contracts *)
  assert (C : forall k, z (n0 + k)%nat - eps / 2 <= r ^ k * Rmax 0 (z n0 - eps / 2)).
  { induction k as [|k IH].
    - rewrite Nat.add_0_r. cbn. rewrite Rmult_1_l. apply Rmax_r.
    - rewrite Nat.add_succ_r. pose proof (Z (n0 + k)%nat) as H. specialize (N0 (n0 + k)%nat ltac:(lia)). unfold R_dist in N0. rewrite Rminus_0_r in N0.
      apply Rabs_def2 in N0. cbn [pow]. rewrite Rmult_assoc.
      assert (r * (z (n0 + k)%nat - eps / 2) <= r * (r ^ k * Rmax 0 (z n0 - eps / 2))) by (apply Rmult_le_compat_l; lra). unfold d in N0. nra. }
  assert (PR : Rabs r < 1) by (rewrite Rabs_pos_eq; lra).
  set (m := Rmax 0 (z n0 - eps / 2)) in *. assert (M : 0 <= m) by apply Rmax_l.
  destruct (pow_lt_1_zero r PR (eps / 2 / (m + 1))) as (k0 & K0); [apply Rmult_lt_0_compat; [lra|apply Rinv_0_lt_compat; lra]|].
  exists (n0 + k0)%nat. intros n L. unfold R_dist. rewrite Rminus_0_r, Rabs_pos_eq by apply Z0.
  replace n with (n0 + (n - n0))%nat by lia. specialize (C (n - n0)%nat). specialize (K0 (n - n0)%nat ltac:(lia)).
  assert (Q : 0 <= r ^ (n - n0)) by (apply pow_le; lra). rewrite Rabs_pos_eq in K0 by exact Q.
  assert (r ^ (n - n0) * m <= r ^ (n - n0) * (m + 1)) by (apply Rmult_le_compat_l; lra).
  assert (r ^ (n - n0) * (m + 1) < eps / 2).
  { apply Rmult_lt_reg_r with (/ (m + 1)); [apply Rinv_0_lt_compat; lra|]. rewrite Rmult_assoc, Rinv_r by lra. unfold Rdiv in K0. lra. }
  lra.
Qed.

Lemma cv_le (y z : nat -> R) k : 0 <= k -> (forall n, Rabs (y n) <= k * z n) -> Un_cv z 0 -> Un_cv y 0.
Proof.
  intros P H Z eps E. destruct (Z (eps / (k + 1))) as (n0 & N0); [apply Rmult_lt_0_compat; [lra|apply Rinv_0_lt_compat; lra]|].
  exists n0. intros n L. specialize (N0 n L). unfold R_dist in *. rewrite Rminus_0_r in *. eapply Rle_lt_trans; [apply H|].
  assert (z n < eps / (k + 1)) by (apply Rabs_def2 in N0; lra).
  apply Rle_lt_trans with (k * (eps / (k + 1))); [apply Rmult_le_compat_l; lra|].
  apply Rmult_lt_reg_r with (k + 1); [lra|]. replace (k * (eps / (k + 1)) * (k + 1)) with (k * eps) by (field; lra). nra.
Qed.
Lemma recurrence_vanishes c s r y u : 0 <= r < 1 -> 0 < s -> c * c + s * s = r * r -> Recurrence c r y u -> Un_cv u 0 -> Un_cv y 0.
Proof.
  intros P S E RC U. apply (cv_le y (energy c s y) (/ s)); [left; apply Rinv_0_lt_compat; exact S| |].
  - intros n. pose proof (energy_value c s y n S). unfold Rdiv in *. lra.
  - apply (contraction_vanishes _ (fun n => Rabs (u n)) r P).
    + intros n. apply energy_nonneg.
    + intros n. apply energy_step; [apply P|exact E|exact RC].
    + intros eps EP. destruct (U eps EP) as (n0 & N0). exists n0. intros n L. specialize (N0 n L). unfold R_dist in *. rewrite Rminus_0_r in *. rewrite Rabs_Rabsolu. exact N0.
Qed.

(* the coefficients of the Butterworth design *)
Definition den (e : R) : R := 1 + sqrt 2 * e + e * e.
Definition cc (e : R) : R := (e * e - 1) / den e.
Definition ss (e : R) : R := sqrt 2 * e / den e.
Definition rr (e : R) : R := sqrt ((1 - sqrt 2 * e + e * e) / den e).
Definition lowpass (e : R) : filter :=
  mkFilter (1 / den e) [0; 0] [2 * (1 / den e); 1 / den e] [0; 0] [2 * (e * e - 1) * (1 / den e); - (1 - sqrt 2 * e + e * e) * (1 / den e)].
Lemma sqrt2_sq : sqrt 2 * sqrt 2 = 2. Proof. apply sqrt_sqrt. lra. Qed.
Lemma sqrt2_pos : 0 < sqrt 2. Proof. apply sqrt_lt_R0. lra. Qed.
Lemma den_pos e : 0 < den e /\ 0 < 1 - sqrt 2 * e + e * e.
Proof. unfold den. pose proof sqrt2_sq. split; nra. Qed.
Lemma rr_sq e : rr e * rr e = (1 - sqrt 2 * e + e * e) / den e.
Proof. pose proof (den_pos e) as [D N]. unfold rr. apply sqrt_sqrt. left. apply Rmult_lt_0_compat; [exact N|apply Rinv_0_lt_compat; exact D]. Qed.
Lemma rr_pos e : 0 < rr e.
Proof. pose proof (den_pos e) as [D N]. unfold rr. apply sqrt_lt_R0. apply Rmult_lt_0_compat; [exact N|apply Rinv_0_lt_compat; exact D]. Qed.
Lemma cc_ss e : cc e * cc e + ss e * ss e = rr e * rr e.
Proof.
  rewrite rr_sq. pose proof (den_pos e) as [D _]. pose proof sqrt2_sq as Q. unfold cc, ss.
  replace ((e * e - 1) / den e * ((e * e - 1) / den e) + sqrt 2 * e / den e * (sqrt 2 * e / den e))
    with (((e * e - 1) * (e * e - 1) + sqrt 2 * sqrt 2 * (e * e)) / den e / den e) by (field; lra).
  replace ((1 - sqrt 2 * e + e * e) / den e) with ((1 - sqrt 2 * e + e * e) * den e / den e / den e) by (field; lra).
  do 2 f_equal. unfold den. replace ((1 - sqrt 2 * e + e * e) * (1 + sqrt 2 * e + e * e)) with ((1 + e * e) * (1 + e * e) - sqrt 2 * sqrt 2 * (e * e)) by ring.
  rewrite Q. ring.
Qed.
Lemma rr_lt1 e : 0 < e -> 0 <= rr e < 1.
Proof.
  intros P. pose proof (rr_pos e). split; [lra|]. pose proof (rr_sq e) as S. pose proof (den_pos e) as [D N]. pose proof sqrt2_pos.
  assert ((1 - sqrt 2 * e + e * e) / den e < 1). { apply Rmult_lt_reg_r with (den e); [exact D|]. unfold Rdiv. rewrite Rmult_assoc, Rinv_l by lra. unfold den. nra. }
  nra.
Qed.
Lemma rr_gt1 e : e < 0 -> 1 < rr e.
Proof.
  intros P. pose proof (rr_pos e). pose proof (rr_sq e) as S. pose proof (den_pos e) as [D N]. pose proof sqrt2_pos.
  assert (1 < (1 - sqrt 2 * e + e * e) / den e). { apply Rmult_lt_reg_r with (den e); [exact D|]. unfold Rdiv. rewrite Rmult_assoc, Rinv_l by lra. unfold den. nra. }
  nra.
Qed.
Lemma ss_pos e : 0 < e -> 0 < ss e.
Proof. intros P. pose proof (den_pos e) as [D _]. unfold ss. pose proof sqrt2_pos. apply Rmult_lt_0_compat; [nra|apply Rinv_0_lt_compat; exact D]. Qed.

Lemma lowpass_recurrence e x y : (forall k, Solves (b0_ (lowpass e)) (b_ (lowpass e)) (a_ (lowpass e)) x y k) ->
  forall n, y (S (S n)) = 2 * cc e * y (S n) - rr e * rr e * y n + 1 / den e * (x (S (S n)) + 2 * x (S n) + x n).
Proof.
  intros H n. specialize (H (S (S n))). unfold Solves in H. cbn [lowpass b0_ b_ a_ length sumR nth] in H. rewrite !past_S in H. rewrite H, rr_sq.
  unfold cc. pose proof (den_pos e) as [D _]. field. lra.
Qed.
Lemma lowpass_gain e k : k = 2 * cc e * k - rr e * rr e * k + 1 / den e * (k + 2 * k + k).
Proof.
  rewrite rr_sq. pose proof (den_pos e) as [D _]. unfold cc.
  transitivity (k * (2 * (e * e - 1) - (1 - sqrt 2 * e + e * e) + 4) / den e); [|field; lra].
  replace (2 * (e * e - 1) - (1 - sqrt 2 * e + e * e) + 4) with (den e) by (unfold den; ring). field. lra.
Qed.
Lemma lowpass_start e x y : (forall k, Solves (b0_ (lowpass e)) (b_ (lowpass e)) (a_ (lowpass e)) x y k) ->
  y 0%nat = 1 / den e * x 0%nat /\ y 1%nat = 2 * cc e * y 0%nat + 1 / den e * (x 1%nat + 2 * x 0%nat).
Proof.
  intros H. pose proof (H 0%nat) as H0. pose proof (H 1%nat) as H1. unfold Solves in *. cbn [lowpass b0_ b_ a_ length sumR nth past Nat.ltb Nat.leb Nat.sub] in *.
  unfold past in *. cbn in H0, H1. pose proof (den_pos e) as [D _]. split; [rewrite H0; ring|]. rewrite H1. unfold cc. field. lra.
Qed.

(* every bounded input has a bounded response *)
Lemma lowpass_stable e x y M : 0 < e -> (forall k, Solves (b0_ (lowpass e)) (b_ (lowpass e)) (a_ (lowpass e)) x y k) ->
  (forall n, Rabs (x n) <= M) -> forall n, Rabs (y n) <= 1 / den e * 4 / (1 - rr e) / ss e * M.
Proof.
  intros P H B n. pose proof (rr_lt1 e P) as RL. pose proof (ss_pos e P) as SP. pose proof (den_pos e) as [D _].
  assert (ID : 0 < 1 / den e) by (apply Rmult_lt_0_compat; [lra|apply Rinv_0_lt_compat; exact D]).
  assert (MP : 0 <= M) by (pose proof (Rabs_pos (x 0%nat)); specialize (B 0%nat); lra).
  assert (H2 : forall k, Solves (b0_ (lowpass e)) (b_ (lowpass e)) (a_ (lowpass e)) (delay 2 x) (delay 2 y) k) by (intros k; apply solve_delay; auto).
  pose proof (lowpass_recurrence e _ _ H2) as RC.
  set (u := fun n => 1 / den e * (delay 2 x (S (S n)) + 2 * delay 2 x (S n) + delay 2 x n)). change (Recurrence (cc e) (rr e) (delay 2 y) u) in RC.
  assert (BD : forall n, Rabs (delay 2 x n) <= M) by (intros k; unfold delay; destruct (k <? 2)%nat; [rewrite Rabs_R0; exact MP|apply B]).
  assert (U : forall n, Rabs (u n) <= 1 / den e * 4 * M).
  { intros k. unfold u. rewrite Rabs_mult, Rabs_pos_eq, Rmult_assoc by lra. apply Rmult_le_compat_l; [lra|].
    pose proof (BD k) as B0. pose proof (BD (S k)) as B1. pose proof (BD (S (S k))) as B2. revert B0 B1 B2. unfold Rabs. repeat destruct Rcase_abs; lra. }
  pose proof (contraction_bounded (energy (cc e) (ss e) (delay 2 y)) (fun n => Rabs (u n)) (rr e) (1 / den e * 4 * M) RL) as CB.
  specialize (CB (energy_step (cc e) (ss e) (rr e) _ u (proj1 RL) (cc_ss e) RC) U).
  assert (I0 : 0 < / (1 - rr e)) by (apply Rinv_0_lt_compat; lra).
  assert (Z0 : energy (cc e) (ss e) (delay 2 y) 0 = 0).
  { unfold energy. cbn [delay Nat.ltb Nat.leb]. unfold norm2. replace (_ + _) with 0 by ring. apply sqrt_0. }
  rewrite Z0 in CB. specialize (CB ltac:(unfold Rdiv; repeat apply Rmult_le_pos; lra) (S (S n))).
  pose proof (energy_value (cc e) (ss e) (delay 2 y) (S (S n)) SP) as V. replace (delay 2 y (S (S n))) with (y n) in V by (unfold delay; cbn; f_equal; lia).
  eapply Rle_trans; [exact V|]. replace (1 / den e * 4 / (1 - rr e) / ss e * M) with (1 / den e * 4 * M / (1 - rr e) / ss e) by (field; lra).
  unfold Rdiv at 1 4. apply Rmult_le_compat_r; [left; apply Rinv_0_lt_compat; exact SP|exact CB].
Qed.

(* inputs that settle *)
Lemma lowpass_settles e x y k : 0 < e -> (forall n, Solves (b0_ (lowpass e)) (b_ (lowpass e)) (a_ (lowpass e)) x y n) -> Un_cv x k -> Un_cv y k.
Proof.
  intros P H X. pose proof (rr_lt1 e P) as RL. pose proof (ss_pos e P) as SP.
  assert (V : Un_cv (fun n => y n - k) 0).
  { apply (recurrence_vanishes (cc e) (ss e) (rr e) _ (fun n => 1 / den e * (x (S (S n)) + 2 * x (S n) + x n - 4 * k)) RL SP (cc_ss e)).
    - intros n. rewrite (lowpass_recurrence e x y H). pose proof (lowpass_gain e k). lra.
    - intros eps E. pose proof (den_pos e) as [D _]. assert (ID : 0 < 1 / den e) by (apply Rmult_lt_0_compat; [lra|apply Rinv_0_lt_compat; exact D]).
      destruct (X (eps / (4 * (1 / den e)))) as (n0 & N0); [apply Rmult_lt_0_compat; [lra|apply Rinv_0_lt_compat; lra]|]. exists n0. intros n L.
      pose proof (N0 n L) as A0. pose proof (N0 (S n) ltac:(lia)) as A1. pose proof (N0 (S (S n)) ltac:(lia)) as A2. unfold R_dist in *.
      rewrite Rminus_0_r, Rabs_mult, (Rabs_pos_eq (1 / den e)) by lra.
      apply Rabs_def2 in A0, A1, A2. set (g := eps / (4 * (1 / den e))) in *. replace eps with (1 / den e * (4 * g)) by (unfold g; field; lra).
      apply Rmult_lt_compat_l; [exact ID|]. apply Rabs_def1; lra. }
  intros eps E. destruct (V eps E) as (n0 & N0). exists n0. intros n L. specialize (N0 n L). unfold R_dist in *. rewrite Rminus_0_r in N0. exact N0.
Qed.
(* inputs with nothing below the highest frequency *)
Lemma lowpass_blocks e x y : 0 < e -> (forall n, Solves (b0_ (lowpass e)) (b_ (lowpass e)) (a_ (lowpass e)) x y n) ->
  Un_cv (fun n => x (S (S n)) + 2 * x (S n) + x n) 0 -> Un_cv y 0.
Proof.
  intros P H X. pose proof (rr_lt1 e P) as RL. pose proof (ss_pos e P) as SP. pose proof (den_pos e) as [D _].
  assert (ID : 0 < 1 / den e) by (apply Rmult_lt_0_compat; [lra|apply Rinv_0_lt_compat; exact D]).
  apply (recurrence_vanishes (cc e) (ss e) (rr e) _ (fun n => 1 / den e * (x (S (S n)) + 2 * x (S n) + x n)) RL SP (cc_ss e)).
  - intros n. apply lowpass_recurrence, H.
  - intros eps E. destruct (X (eps / (1 / den e))) as (n0 & N0); [apply Rmult_lt_0_compat; [lra|apply Rinv_0_lt_compat; lra]|]. exists n0. intros n L.
    specialize (N0 n L). unfold R_dist in *. rewrite Rminus_0_r in *. rewrite Rabs_mult, (Rabs_pos_eq (1 / den e)) by lra.
    replace eps with (1 / den e * (eps / (1 / den e))) by (field; lra). apply Rmult_lt_compat_l; assumption.
Qed.
(* a single frequency *)
Definition in_phase (X : R) : R := (1 - X * X) / (1 + X * X * (X * X)).
Definition quadrature (X : R) : R := sqrt 2 * X / (1 + X * X * (X * X)).
Lemma amplitude X : in_phase X * in_phase X + quadrature X * quadrature X = 1 / (1 + X * X * (X * X)).
Proof.
  assert (P : 1 + X * X * (X * X) <> 0) by nra. unfold in_phase, quadrature. pose proof sqrt2_sq as Q.
  replace (sqrt 2 * X / (1 + X * X * (X * X)) * (sqrt 2 * X / (1 + X * X * (X * X)))) with (sqrt 2 * sqrt 2 * (X * X) / (1 + X * X * (X * X)) / (1 + X * X * (X * X))) by (field; exact P).
  rewrite Q. field. exact P.
Qed.
Lemma lowpass_tone e w phi x y : 0 < e -> cos (w / 2) <> 0 -> (forall n, Solves (b0_ (lowpass e)) (b_ (lowpass e)) (a_ (lowpass e)) x y n) ->
  (forall n, x n = cos (INR n * w + phi)) ->
  let X := e * tan (w / 2) in
  Un_cv (fun n => y n - (in_phase X * cos (INR n * w + phi) + quadrature X * sin (INR n * w + phi))) 0.
Proof.
  intros P C H HX X. pose proof (rr_lt1 e P) as RL. pose proof (ss_pos e P) as SP. pose proof (den_pos e) as [D _].
  apply (recurrence_vanishes (cc e) (ss e) (rr e) _ (fun _ => 0) RL SP (cc_ss e)).
  2: { intros eps E. exists 0%nat. intros n _. unfold R_dist. rewrite Rminus_0_r, Rabs_R0. exact E. }
  intros n. rewrite (lowpass_recurrence e x y H), !HX. set (th := INR (S n) * w + phi).
  replace (INR (S (S n)) * w + phi) with (th + w) by (unfold th; rewrite (S_INR (S n)); ring).
  replace (INR n * w + phi) with (th - w) by (unfold th; rewrite (S_INR n); ring).
  rewrite cos_plus, sin_plus, cos_minus, sin_minus.
  set (c := cos (w / 2)) in *. set (s := sin (w / 2)).
  assert (CS : s * s + c * c = 1) by (unfold s, c; pose proof (sin2_cos2 (w / 2)) as Q; unfold Rsqr in Q; exact Q).
  assert (CW : cos w = c * c - s * s) by (replace w with (w / 2 + w / 2) by field; rewrite cos_plus; reflexivity).
  assert (SW : sin w = 2 * s * c) by (replace w with (w / 2 + w / 2) at 1 by field; rewrite sin_plus; fold c s; ring).
  assert (XE : X * c = e * s) by (unfold X, tan; fold c s; field; exact C).
  rewrite CW, SW. set (A := in_phase X). set (B := quadrature X).
  assert (PX : 1 + X * X * (X * X) <> 0) by nra.
  assert (E1 : A * (1 - X * X) + B * (sqrt 2 * X) = 1).
  { unfold A, B, in_phase, quadrature. replace (sqrt 2 * X / (1 + X * X * (X * X)) * (sqrt 2 * X)) with (sqrt 2 * sqrt 2 * (X * X) / (1 + X * X * (X * X))) by (field; exact PX).
    rewrite sqrt2_sq. field. exact PX. }
  assert (E2 : B * (1 - X * X) - A * (sqrt 2 * X) = 0) by (unfold A, B, in_phase, quadrature; field; exact PX).
  (* the same, times c^2 *)
  assert (F1 : A * (c * c - e * e * (s * s)) + B * (sqrt 2 * e * (s * c)) = c * c).
  { replace (e * e * (s * s)) with (X * c * (X * c)) by (rewrite XE; ring). replace (sqrt 2 * e * (s * c)) with (sqrt 2 * (X * c) * c) by (rewrite XE; ring).
    transitivity ((A * (1 - X * X) + B * (sqrt 2 * X)) * (c * c)); [ring|]. rewrite E1. ring. }
  assert (F2 : B * (c * c - e * e * (s * s)) - A * (sqrt 2 * e * (s * c)) = 0).
  { replace (e * e * (s * s)) with (X * c * (X * c)) by (rewrite XE; ring). replace (sqrt 2 * e * (s * c)) with (sqrt 2 * (X * c) * c) by (rewrite XE; ring).
    transitivity ((B * (1 - X * X) - A * (sqrt 2 * X)) * (c * c)); [ring|]. rewrite E2. ring. }
  clearbody A B. clear E1 E2 PX XE CW SW HX H X. rewrite rr_sq. unfold cc. set (ct := cos th). set (st := sin th). clearbody ct st c s.
  assert (G : ct * (4 * (A * (c * c - e * e * (s * s)) + B * (sqrt 2 * e * (s * c)) - c * c)) + st * (4 * (B * (c * c - e * e * (s * s)) - A * (sqrt 2 * e * (s * c)))) = 0) by (rewrite F1, F2; ring).
  set (Y2 := A * (ct * (c * c - s * s) - st * (2 * s * c)) + B * (st * (c * c - s * s) + ct * (2 * s * c))).
  set (Y0 := A * (ct * (c * c - s * s) + st * (2 * s * c)) + B * (st * (c * c - s * s) - ct * (2 * s * c))).
  set (Y1 := A * ct + B * st). set (T := ct * (c * c - s * s) - st * (2 * s * c) + 2 * ct + (ct * (c * c - s * s) + st * (2 * s * c))).
  assert (M : T - den e * Y2 + 2 * (e * e - 1) * Y1 - (1 - sqrt 2 * e + e * e) * Y0 = 0).
  { replace T with (ct * (c * c - s * s) - st * (2 * s * c) + 2 * ct * (s * s + c * c) + (ct * (c * c - s * s) + st * (2 * s * c))) by (rewrite CS; unfold T; ring).
    replace Y1 with ((A * ct + B * st) * (s * s + c * c)) by (rewrite CS; unfold Y1; ring).
    transitivity (- (ct * (4 * (A * (c * c - e * e * (s * s)) + B * (sqrt 2 * e * (s * c)) - c * c)) + st * (4 * (B * (c * c - e * e * (s * s)) - A * (sqrt 2 * e * (s * c)))))); [|rewrite G; ring].
    unfold Y2, Y0, den. ring. }
  clearbody Y0 Y1 Y2 T. assert (D' : den e <> 0) by lra. set (N := 1 - sqrt 2 * e + e * e) in *. clearbody N. set (d := den e) in *. clearbody d.
  apply Rminus_diag_uniq. transitivity ((T - d * Y2 + 2 * (e * e - 1) * Y1 - N * Y0) / d); [field; exact D'|]. rewrite M. field. exact D'.
Qed.

(* with a negative parameter the response to a single pulse grows without bound *)
Lemma lowpass_unstable e y : e < 0 -> (forall n, Solves (b0_ (lowpass e)) (b_ (lowpass e)) (a_ (lowpass e)) pulse y n) ->
  forall M, exists n, M < Rabs (y n).
Proof.
  intros P H M. pose proof (rr_gt1 e P) as RG. pose proof (den_pos e) as [D _]. destruct (lowpass_start e _ _ H) as [Y0 Y1].
  cbn [pulse] in Y0, Y1. pose proof (lowpass_recurrence e _ _ H) as RC.
  assert (ID : 0 < 1 / den e) by (apply Rmult_lt_0_compat; [lra|apply Rinv_0_lt_compat; exact D]).
  assert (F : forall n, energy (cc e) (ss e) y (S (S n)) = rr e * energy (cc e) (ss e) y (S n)).
  { intros n. apply (energy_free (cc e) (ss e) (rr e) y (fun n => 1 / den e * (pulse (S (S n)) + 2 * pulse (S n) + pulse n))); [lra|apply cc_ss|exact RC|]. cbn [pulse]. ring. }
  assert (Z : 0 < energy (cc e) (ss e) y 1).
  { unfold energy, norm2. apply sqrt_lt_R0.
    assert (SN : ss e <> 0). { unfold ss. pose proof sqrt2_pos. intros Q. apply Rmult_integral in Q. destruct Q as [Q|Q]; [nra|]. pose proof (Rinv_0_lt_compat _ D). lra. }
    destruct (Req_EM_T (y 1%nat) 0) as [E|E].
    - pose proof (RC 0%nat) as Y2. cbn [pulse] in Y2. rewrite E, Y0 in Y2. set (v := y 2%nat) in *. rewrite E.
      assert (v <> 0). { rewrite Y2. replace (2 * cc e * 0 - rr e * rr e * (1 / den e * 1) + 1 / den e * (0 + 2 * 0 + 1)) with (1 / den e * (1 - rr e * rr e)) by ring.
        intros Q. apply Rmult_integral in Q. destruct Q as [Q|Q]; [lra|nra]. }
      assert (0 < v * v) by nra. nra.
    - assert (SY : ss e * y 1%nat <> 0) by (intros Q; apply Rmult_integral in Q; tauto). set (p := y 2%nat - cc e * y 1%nat). set (w := ss e * y 1%nat) in *. clearbody p w.
      assert (0 < w * w) by nra. nra. }
  (* the energy grows *)
  assert (GR : forall k, energy (cc e) (ss e) y (S k) = rr e ^ k * energy (cc e) (ss e) y 1).
  { induction k as [|k IH]; [cbn; ring|]. rewrite F, IH. cbn [pow]. ring. }
  (* and is bounded by two successive values *)
  assert (B : forall n L, Rabs (y n) <= L -> Rabs (y (S n)) <= L -> energy (cc e) (ss e) y n <= (1 + Rabs (cc e) + Rabs (ss e)) * L).
  { intros n L A1 A2. unfold energy. replace (y (S n) - cc e * y n) with (0 + (y (S n) - cc e * y n)) by ring. eapply Rle_trans; [apply norm2_shift|].
    replace (norm2 0 (ss e * y n)) with (Rabs (ss e * y n)) by (unfold norm2; rewrite <- sqrt_Rsqr_abs; f_equal; unfold Rsqr; ring).
    pose proof (Rabs_triang (y (S n)) (- (cc e * y n))) as T. rewrite Rabs_Ropp in T. rewrite !Rabs_mult in *. unfold Rminus.
    assert (Rabs (ss e) * Rabs (y n) <= Rabs (ss e) * L) by (apply Rmult_le_compat_l; [apply Rabs_pos|exact A1]).
    assert (Rabs (cc e) * Rabs (y n) <= Rabs (cc e) * L) by (apply Rmult_le_compat_l; [apply Rabs_pos|exact A1]). lra. }
  set (K := 1 + Rabs (cc e) + Rabs (ss e)) in *. assert (KP : 0 < K) by (unfold K; pose proof (Rabs_pos (cc e)); pose proof (Rabs_pos (ss e)); lra).
  destruct (Pow_x_infinity (rr e) ltac:(rewrite Rabs_pos_eq; lra) (K * Rmax M 0 / energy (cc e) (ss e) y 1 + 1)) as (k0 & K0).
  specialize (K0 k0 ltac:(lia)). assert (PP : 0 < rr e ^ k0) by (apply pow_lt; lra). rewrite Rabs_pos_eq in K0 by lra.
  assert (BIG : K * Rmax M 0 < energy (cc e) (ss e) y (S k0)).
  { rewrite GR. apply Rlt_le_trans with ((K * Rmax M 0 / energy (cc e) (ss e) y 1 + 1) * energy (cc e) (ss e) y 1).
    - replace ((K * Rmax M 0 / energy (cc e) (ss e) y 1 + 1) * energy (cc e) (ss e) y 1) with (K * Rmax M 0 + energy (cc e) (ss e) y 1) by (field; lra). lra.
    - apply Rmult_le_compat_r; lra. }
  pose proof (Rmax_l M 0) as ML. destruct (Rlt_le_dec (Rmax M 0) (Rabs (y (S k0)))) as [L1|L1]; [exists (S k0); lra|].
  destruct (Rlt_le_dec (Rmax M 0) (Rabs (y (S (S k0))))) as [L2|L2]; [exists (S (S k0)); lra|].
  specialize (B (S k0) (Rmax M 0) L1 L2). lra.
Qed.

(* the design *)
Lemma butterworth_ok ratio : sin (flut_pi * ratio) <> 0 -> cos (flut_pi * ratio) <> 0 -> butterworth ratio = Ok (lowpass (1 / tan (flut_pi * ratio))).
Proof.
  intros S C. unfold butterworth, ctan, rdiv. destruct (Req_EM_T (cos (flut_pi * ratio)) 0) as [E|_]; [contradiction|]. cbn [bind].
  fold (tan (flut_pi * ratio)). destruct (Req_EM_T (tan (flut_pi * ratio)) 0) as [E|_].
  { exfalso. unfold tan in E. apply Rmult_integral in E. destruct E as [E|E]; [contradiction|]. apply Rinv_neq_0_compat in C. contradiction. }
  cbn [bind]. set (e := 1 / tan (flut_pi * ratio)). pose proof (den_pos e) as [D _]. unfold den in D.
  destruct (Req_EM_T (1 + sqrt 2 * e + e * e) 0) as [E|_]; [lra|]. reflexivity.
Qed.
Lemma butterworth_ub ratio : sin (flut_pi * ratio) = 0 \/ cos (flut_pi * ratio) = 0 -> butterworth ratio = UB.
Proof.
  intros H. unfold butterworth, ctan, rdiv. destruct (Req_EM_T (cos (flut_pi * ratio)) 0) as [E|E]; [reflexivity|]. cbn [bind].
  destruct H as [H|H]; [|contradiction]. rewrite H. destruct (Req_EM_T (0 / cos (flut_pi * ratio)) 0) as [_|Z]; [reflexivity|]. exfalso. apply Z. unfold Rdiv. ring.
Qed.
