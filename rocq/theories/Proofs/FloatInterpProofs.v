(* Weighted means of two floating point numbers. *)
From Coq Require Import Reals ZArith Lia Lra List.
From Verif Require Import Model.Base Model.FloatText Model.Ieee Model.FloatMath Model.FloatInterp Spec.FloatText Spec.Ieee Proofs.FloatTextProofs Proofs.IeeeProofs Proofs.IeeeErrorProofs Proofs.IeeeSqrtProofs Props.FloatAverage Props.FloatEquals Props.FloatOrder Props.FloatSqrt Props.FloatVec.
Local Open Scope R_scope.

(* a correctly rounded result no larger than a number is a number no larger *)
Lemma correct_within f r x a n : Sane f -> Correct f r x -> Finite f n -> Rabs r <= Rabs (val f a n) ->
  exists b m, x = FFin b m /\ Finite f m /\ Near f r (val f b m) /\ Rabs (val f b m) <= Rabs (val f a n).
Proof.
  intros W (g & N & C) F L. pose proof (finite_small f a n W F) as T.
  assert (G : Grid f (Rabs (val f a n))). { exists false, n. split; [apply F|]. symmetry. apply val_false; [exact W|]. destruct F as [R _]. exact (rep_nonneg f n R). }
  pose proof (near_mono f _ _ _ _ (near_rabs f r g W N) (exact_near f _ G) L) as B.
  destruct x as [|s|s m]; [contradiction| |].
  - destruct C as [C _]. lra.
  - destruct C as (FM & -> & _). exists s, m. auto.
Qed.
Lemma prec_pos f : Sane f -> 0 < IZR (2 ^ fm_prec f).
Proof. intros [W1 W2]. apply IZR_lt, pow_pos_. lia. Qed.
(* powers of two *)
Lemma pow_split a b : (0 <= a)%Z -> (0 <= b)%Z -> IZR (2 ^ (a + b)) = IZR (2 ^ a) * IZR (2 ^ b).
Proof. intros A B. rewrite Z.pow_add_r by lia. apply mult_IZR. Qed.
Lemma ulp_one f : Sane f -> IZR (2 ^ (fm_low f - fm_prec f)) * unit_of f = / IZR (2 ^ fm_prec f).
Proof.
  intros W. pose proof W as [W1 W2]. pose proof (prec_pos f W) as P. pose proof (unit_scale f W) as U. unfold unit_of. assert (E : IZR (2 ^ fm_low f) = IZR (2 ^ (fm_low f - fm_prec f)) * IZR (2 ^ fm_prec f)) by (rewrite <- pow_split by lia; f_equal; f_equal; lia). rewrite E in *. field. split; [lra|]. nra.
Qed.
Lemma ulp_top f : Sane f -> IZR (2 ^ (fm_top f + fm_low f - fm_prec f)) * unit_of f = IZR (2 ^ fm_top f) * / IZR (2 ^ fm_prec f).
Proof.
  intros W. pose proof W as [W1 W2]. rewrite <- (ulp_one f W). replace (fm_top f + fm_low f - fm_prec f)%Z with (fm_top f + (fm_low f - fm_prec f))%Z by lia. rewrite pow_split by lia. ring.
Qed.
(* the largest number *)
Lemma max_val f : Sane f -> val f false ((2 ^ fm_prec f - 1) * 2 ^ (fm_top f + fm_low f - fm_prec f)) = IZR (2 ^ fm_top f) * (1 - / IZR (2 ^ fm_prec f)).
Proof.
  intros W. pose proof (prec_pos f W) as P. unfold val. rewrite mult_IZR, minus_IZR, Rmult_assoc, (ulp_top f W). field. lra.
Qed.
(* X * (1 - 2^-p) is rounded to something less than X *)
Lemma shrink f m e g : Sane f -> (1 <= e)%Z -> (2 ^ (fm_prec f - 1) <= m < 2 ^ fm_prec f)%Z -> let X := IZR (m * 2 ^ e) * unit_of f in
  Near f (X * (1 - / IZR (2 ^ fm_prec f))) g -> g <= X - IZR (2 ^ e) * unit_of f / 2 /\ ((2 ^ (fm_prec f - 1) < m)%Z -> g <= X - IZR (2 ^ e) * unit_of f).
Proof.
  intros W E M X N. pose proof W as [W1 W2]. pose proof (prec_pos f W) as P. pose proof (unit_pos f W) as U. assert (EP : 0 < IZR (2 ^ e)) by (apply IZR_lt, pow_pos_; lia). set (u := / IZR (2 ^ fm_prec f)) in *. assert (PU : IZR (2 ^ fm_prec f) * u = 1) by (unfold u; field; lra). assert (UP : 0 < u) by (unfold u; apply Rinv_0_lt_compat; lra).
  assert (H2 : IZR (2 ^ fm_prec f) = 2 * IZR (2 ^ (fm_prec f - 1))). { replace (fm_prec f) with (1 + (fm_prec f - 1))%Z at 1 by lia. rewrite pow_split by lia. reflexivity. }
  assert (XM : X = IZR m * (IZR (2 ^ e) * unit_of f)) by (unfold X; rewrite mult_IZR; ring). set (d := IZR (2 ^ e) * unit_of f) in *. assert (D : 0 < d) by (unfold d; nra).
  destruct (Z.eq_dec m (2 ^ (fm_prec f - 1))) as [Q|Q].
  - split; [|lia]. assert (GX : Grid f (X * (1 - u))).
    { exists false, ((2 ^ fm_prec f - 1) * 2 ^ (e - 1))%Z. split; [apply rep_small; try lia; pose proof (pow_pos_ (fm_prec f) ltac:(lia)); lia|]. unfold val. rewrite mult_IZR, minus_IZR. assert (E2 : IZR (2 ^ e) = 2 * IZR (2 ^ (e - 1))) by (replace e with (1 + (e - 1))%Z at 1 by lia; rewrite pow_split by lia; reflexivity).
      rewrite XM. unfold d. rewrite E2, Q. transitivity ((2 * IZR (2 ^ (fm_prec f - 1)) - (2 * IZR (2 ^ (fm_prec f - 1))) * u) * (IZR (2 ^ (e - 1)) * unit_of f)); [ring|]. rewrite <- H2, PU. ring. }
    rewrite (near_exact f _ g N GX). rewrite XM, Q. assert (IZR (2 ^ (fm_prec f - 1)) * u = / 2) by nra. nra.
  - assert (ML : (2 ^ (fm_prec f - 1) < m)%Z) by lia. assert (MU : / 2 < IZR m * u < 1). { destruct M as [_ M]. apply IZR_lt in ML, M. split; nra. }
    assert (GL : Grid f (IZR ((m - 1) * 2 ^ e) * unit_of f)) by (apply grid_int; [exact W|lia|pose proof (pow_pos_ (fm_prec f - 1) ltac:(lia)); lia]).
    pose proof (near_abs f _ g _ N GL) as A. rewrite mult_IZR, minus_IZR in A. replace ((IZR m - 1) * IZR (2 ^ e) * unit_of f - X * (1 - u)) with (- ((1 - IZR m * u) * d)) in A by (rewrite XM; unfold d; ring). rewrite Rabs_Ropp, (Rabs_right ((1 - IZR m * u) * d)) in A by nra.
    assert (GX : g < X). { pose proof (Rle_abs (g - X * (1 - u))). rewrite XM in *. nra. }
    assert (NE : g <> val f false (m * 2 ^ e)) by (unfold val; fold X; lra). pose proof (grid_gap f m e g W ltac:(lia) ltac:(lia) (proj1 N) NE) as GG. fold d in GG. unfold val in GG. fold X in GG. rewrite Rabs_left in GG by lra. split; [lra|intros _; lra].
Qed.
Lemma top_form f n : Sane f -> Rep f n -> (0 < n)%Z -> exists m e, (1 <= e)%Z /\ (2 ^ (fm_prec f - 1) <= m < 2 ^ fm_prec f)%Z /\ (n * 2 ^ fm_top f = m * 2 ^ e)%Z.
Proof.
  intros W R P. pose proof W as [W1 W2]. destruct (Z_le_gt_dec (2 ^ (fm_prec f - 1)) n) as [L|L].
  - destruct (normal_form f n W R L) as (m & e & E & M & ->). exists m, (e + fm_top f)%Z. split; [lia|]. split; [exact M|]. rewrite Z.pow_add_r by lia. lia.
  - pose proof (Z.log2_spec n P) as [K1 K2]. set (k := Z.log2 n) in *. assert (K0 : (0 <= k)%Z) by apply Z.log2_nonneg. assert (KP : (k < fm_prec f - 1)%Z) by (apply (Z.pow_lt_mono_r_iff 2); lia).
    exists (n * 2 ^ (fm_prec f - 1 - k))%Z, (fm_top f - (fm_prec f - 1 - k))%Z. split; [lia|]. pose proof (pow_pos_ (fm_prec f - 1 - k) ltac:(lia)) as Q. split.
    + replace (2 ^ (fm_prec f - 1))%Z with (2 ^ k * 2 ^ (fm_prec f - 1 - k))%Z by (rewrite <- Z.pow_add_r by lia; f_equal; lia). replace (2 ^ fm_prec f)%Z with (2 ^ Z.succ k * 2 ^ (fm_prec f - 1 - k))%Z by (rewrite <- Z.pow_add_r by lia; f_equal; lia). nia.
    + rewrite <- Z.mul_assoc, <- Z.pow_add_r by lia. do 2 f_equal. lia.
Qed.
Definition largest (f : fmt) : R := IZR (2 ^ fm_top f) * (1 - / IZR (2 ^ fm_prec f)).
Lemma scaled_less f n g : Sane f -> Rep f n -> (0 < n)%Z -> Near f (val f false n * largest f) g -> g < val f false n * IZR (2 ^ fm_top f).
Proof.
  intros W R P N. destruct (top_form f n W R P) as (m & e & E & M & Q). assert (X : val f false n * IZR (2 ^ fm_top f) = IZR (m * 2 ^ e) * unit_of f) by (rewrite <- Q, mult_IZR; unfold val; ring).
  unfold largest in N. rewrite <- Rmult_assoc, X in N. destruct (shrink f m e g W E M N) as [S _]. rewrite X. pose proof (unit_pos f W) as U. assert (0 < IZR (2 ^ e)) by (apply IZR_lt, pow_pos_; lia). nra.
Qed.
(* the numbers from 1/2 to 1 are multiples of 2^-p *)
Lemma upper_half f x : Sane f -> Grid f x -> / 2 <= x <= 1 -> exists k, (2 ^ (fm_prec f - 1) <= k <= 2 ^ fm_prec f)%Z /\ x = IZR k * / IZR (2 ^ fm_prec f).
Proof.
  intros W (s & n & R & ->) B. pose proof W as [W1 W2]. pose proof (unit_pos f W) as U. pose proof (rep_nonneg f n R) as N0. pose proof (unit_scale f W) as US. assert (EU : IZR (2 ^ fm_low f) * unit_of f = 1) by (unfold unit_of; field; lra).
  assert (V : val f s n = IZR n * unit_of f). { destruct s; [|reflexivity]. unfold val in *. apply (IZR_le 0) in N0. nra. } rewrite V in *.
  assert (H : IZR (2 ^ fm_low f) = 2 * IZR (2 ^ (fm_low f - 1))) by (replace (fm_low f) with (1 + (fm_low f - 1))%Z at 1 by lia; rewrite pow_split by lia; reflexivity).
  assert (L : (2 ^ (fm_low f - 1) <= n)%Z) by (apply le_IZR; nra). assert (L2 : (n <= 2 ^ fm_low f)%Z) by (apply le_IZR; nra).
  destruct (rep_large f n (fm_low f - fm_prec f) ltac:(lia) ltac:(lia) R) as [k K]. { replace (fm_prec f - 1 + (fm_low f - fm_prec f))%Z with (fm_low f - 1)%Z by lia. exact L. }
  exists k. split.
  - pose proof (pow_pos_ (fm_low f - fm_prec f) ltac:(lia)) as Q. replace (2 ^ (fm_low f - 1))%Z with (2 ^ (fm_prec f - 1) * 2 ^ (fm_low f - fm_prec f))%Z in L by (rewrite <- Z.pow_add_r by lia; f_equal; lia). replace (2 ^ fm_low f)%Z with (2 ^ fm_prec f * 2 ^ (fm_low f - fm_prec f))%Z in L2 by (rewrite <- Z.pow_add_r by lia; f_equal; lia). nia.
  - rewrite K, mult_IZR, Rmult_assoc, (ulp_one f W). reflexivity.
Qed.
Lemma grid_upper f k : Sane f -> (0 <= k <= 2 ^ fm_prec f)%Z -> Grid f (IZR k * / IZR (2 ^ fm_prec f)).
Proof. intros W K. pose proof W as [W1 W2]. rewrite <- (ulp_one f W), <- Rmult_assoc, <- mult_IZR. apply grid_int; [exact W|lia|lia]. Qed.
Lemma grid_one f : Sane f -> Grid f 1.
Proof. intros W. pose proof (prec_pos f W) as P. pose proof (grid_upper f (2 ^ fm_prec f) W ltac:(pose proof (pow_pos_ (fm_prec f) ltac:(destruct W; lia)); lia)) as G. rewrite Rinv_r in G by lra. exact G. Qed.
Lemma grid_half f : Sane f -> Grid f (/ 2).
Proof.
  intros W. pose proof W as [W1 W2]. pose proof (prec_pos f W) as P. pose proof (pow_pos_ (fm_prec f - 1) ltac:(lia)) as P1. pose proof (Z.pow_le_mono_r 2 (fm_prec f - 1) (fm_prec f) ltac:(lia) ltac:(lia)). pose proof (grid_upper f (2 ^ (fm_prec f - 1)) W ltac:(lia)) as G.
  assert (H2 : IZR (2 ^ fm_prec f) = 2 * IZR (2 ^ (fm_prec f - 1))) by (replace (fm_prec f) with (1 + (fm_prec f - 1))%Z at 1 by lia; rewrite pow_split by lia; reflexivity). rewrite H2 in G. replace (IZR (2 ^ (fm_prec f - 1)) * / (2 * IZR (2 ^ (fm_prec f - 1)))) with (/ 2) in G by (field; lra). exact G.
Qed.
Lemma grid_scaled f x : Sane f -> Grid f x -> Grid f (x * IZR (2 ^ fm_top f)).
Proof.
  intros W (s & n & R & ->). pose proof W as [W1 W2]. exists s, (n * 2 ^ fm_top f)%Z. split; [|unfold val; rewrite mult_IZR; destruct s; ring].
  destruct R as (m & e & R). exists m, (e + fm_top f)%Z. rewrite Z.pow_add_r by lia. lia.
Qed.
Lemma grid_largest f : Sane f -> Grid f (largest f).
Proof. intros W. pose proof W as [W1 W2]. eexists false, _. split; [|symmetry; apply max_val; exact W]. pose proof (pow_pos_ (fm_prec f) ltac:(lia)). apply rep_small; lia. Qed.
(* a multiple of 2^-p above 1/2, times the largest number *)
Lemma upper_scaled f x g : Sane f -> Grid f x -> / 2 <= x < 1 -> Near f (x * largest f) g -> g <= (x - / IZR (2 ^ fm_prec f) / 2) * IZR (2 ^ fm_top f) /\ (/ 2 < x -> g <= (x - / IZR (2 ^ fm_prec f)) * IZR (2 ^ fm_top f)).
Proof.
  intros W G B N. pose proof W as [W1 W2]. pose proof (prec_pos f W) as P. set (u := / IZR (2 ^ fm_prec f)) in *. assert (PU : IZR (2 ^ fm_prec f) * u = 1) by (unfold u; field; lra). assert (UP : 0 < u) by (unfold u; apply Rinv_0_lt_compat; lra).
  destruct (upper_half f x W G ltac:(lra)) as (k & K & X). fold u in X. assert (H2 : IZR (2 ^ fm_prec f) = 2 * IZR (2 ^ (fm_prec f - 1))) by (replace (fm_prec f) with (1 + (fm_prec f - 1))%Z at 1 by lia; rewrite pow_split by lia; reflexivity).
  assert (K2 : (k < 2 ^ fm_prec f)%Z) by (apply lt_IZR; nra). assert (XT : x * IZR (2 ^ fm_top f) = IZR (k * 2 ^ (fm_top f + fm_low f - fm_prec f)) * unit_of f) by (rewrite mult_IZR, Rmult_assoc, (ulp_top f W); fold u; rewrite X; ring).
  unfold largest in N. rewrite <- Rmult_assoc, XT in N. destruct (shrink f k (fm_top f + fm_low f - fm_prec f) g W ltac:(lia) ltac:(lia) N) as [S1 S2]. rewrite <- XT, (ulp_top f W) in S1. rewrite <- XT, (ulp_top f W) in S2. fold u in S1, S2. split; [lra|]. intros HX. assert (KL : (2 ^ (fm_prec f - 1) < k)%Z) by (apply lt_IZR; nra). specialize (S2 KL). lra.
Qed.

(* the weights of a mean never carry it past the largest number *)
Lemma no_overflow f w c P Q : Sane f -> Grid f w -> 0 <= w <= 1 -> Near f (1 - w) c -> Near f (c * largest f) P -> Near f (w * largest f) Q -> P + Q < IZR (2 ^ fm_top f) * (1 - / IZR (2 ^ fm_prec f) / 2).
Proof.
  intros W G B NC NP NQ. pose proof W as [W1 W2]. pose proof (prec_pos f W) as PP. assert (TP : 0 < IZR (2 ^ fm_top f)) by (apply IZR_lt, pow_pos_; lia). set (u := / IZR (2 ^ fm_prec f)) in *. assert (PU : IZR (2 ^ fm_prec f) * u = 1) by (unfold u; field; lra). assert (UP : 0 < u) by (unfold u; apply Rinv_0_lt_compat; lra).
  set (T := IZR (2 ^ fm_top f)) in *. assert (LG : largest f = T * (1 - u)) by reflexivity. assert (U1 : u < 1). { assert (1 < IZR (2 ^ fm_prec f)) by (apply (IZR_lt 1); apply (Z.pow_lt_mono_r 2 0); lia). nra. } assert (LP : 0 < largest f < T) by (rewrite LG; nra).
  pose proof (grid_one f W) as G1. pose proof (grid_half f W) as GH. pose proof (grid_zero f W) as G0. pose proof (grid_largest f W) as GL.
  assert (QT : forall x X, Grid f x -> 0 < x -> Near f (x * largest f) X -> X < x * T).
  { intros x X (s & n & R & E) X0 N. pose proof (rep_nonneg f n R) as N0. assert (V : x = val f false n). { destruct s; [|exact E]. pose proof (unit_pos f W). unfold val in E. apply (IZR_le 0) in N0. nra. } rewrite V in *. apply (scaled_less f n X W R); [|exact N]. destruct (Z.eq_dec n 0) as [->|]; [rewrite (val_zero f false) in X0; lra|lia]. }
  destruct (Req_dec w 0) as [->|W0].
  { rewrite Rminus_0_r in NC. rewrite (near_exact f 1 c NC G1) in NP. rewrite Rmult_1_l in NP. rewrite (near_exact f _ P NP GL). rewrite Rmult_0_l in NQ. rewrite (near_exact f 0 Q NQ G0). rewrite LG. nra. }
  destruct (Req_dec w 1) as [->|W3].
  { replace (1 - 1) with 0 in NC by ring. rewrite (near_exact f 0 c NC G0) in NP. rewrite Rmult_0_l in NP. rewrite (near_exact f 0 P NP G0). rewrite Rmult_1_l in NQ. rewrite (near_exact f _ Q NQ GL). rewrite LG. nra. }
  destruct (Rlt_dec (/ 2) w) as [WH|WH].
  { destruct (upper_half f w W G ltac:(lra)) as (k & K & X). fold u in X. assert (GC : Grid f (1 - w)). { replace (1 - w) with (IZR (2 ^ fm_prec f - k) * u) by (rewrite minus_IZR, X; nra). apply grid_upper; [exact W|]. pose proof (pow_pos_ (fm_prec f - 1) ltac:(lia)). lia. }
    rewrite (near_exact f _ c NC GC) in NP. pose proof (QT _ _ GC ltac:(lra) NP) as B1. destruct (upper_scaled f w Q W G ltac:(lra) NQ) as [_ B2]. specialize (B2 WH). fold u T in B2. nra. }
  pose proof (QT w Q G ltac:(lra) NQ) as BQ. assert (C1 : / 2 <= c <= 1) by (split; [apply (near_mono f _ _ _ _ (exact_near f _ GH) NC); lra|apply (near_mono f _ _ _ _ NC (exact_near f _ G1)); lra]).
  assert (CE : Rabs (c - (1 - w)) <= u / 2).
  { set (k := (up ((1 - w) * IZR (2 ^ fm_prec f)) - 1)%Z). destruct (archimed ((1 - w) * IZR (2 ^ fm_prec f))) as [A1 A2]. assert (K1 : IZR k <= (1 - w) * IZR (2 ^ fm_prec f) < IZR (k + 1)) by (unfold k; rewrite plus_IZR, minus_IZR; lra).
    assert (K0 : (0 <= k)%Z). { assert (0 < IZR (k + 1)) by nra. apply lt_IZR in H. lia. } assert (K2 : (k < 2 ^ fm_prec f)%Z) by (apply lt_IZR; nra). rewrite plus_IZR in K1.
    pose proof (near_between f (1 - w) c (IZR k * u) (IZR (k + 1) * u) NC (grid_upper f k W ltac:(lia)) (grid_upper f (k + 1) W ltac:(lia))) as NB. rewrite plus_IZR in NB. replace (((IZR k + 1) * u - IZR k * u) / 2) with (u / 2) in NB by field. apply NB. nra. }
  pose proof (Rle_abs (c - (1 - w))) as CA. assert (CG : Grid f c) by apply NC.
  destruct (Req_dec c 1) as [->|C2].
  { rewrite Rmult_1_l in NP. rewrite (near_exact f _ P NP GL). rewrite LG. nra. }
  destruct (upper_scaled f c P W CG ltac:(lra) NP) as [B1 B2]. fold u T in B1, B2. destruct (Req_dec c (/ 2)) as [E|C3]; [|specialize (B2 ltac:(lra))]; nra.
Qed.
(* below that nothing is rounded to infinity *)
Lemma below_top f r g : Sane f -> Rabs r < IZR (2 ^ fm_top f) * (1 - / IZR (2 ^ fm_prec f) / 2) -> Near f r g -> Rabs g < IZR (2 ^ fm_top f).
Proof.
  intros W B N. pose proof W as [W1 W2]. apply (near_rabs f _ _ W) in N. assert (TP : 0 < IZR (2 ^ fm_top f)) by (apply IZR_lt, pow_pos_; lia). pose proof (prec_pos f W) as PP. set (u := / IZR (2 ^ fm_prec f)) in *. assert (UP : 0 < u) by (unfold u; apply Rinv_0_lt_compat; lra). set (T := IZR (2 ^ fm_top f)) in *. pose proof (grid_largest f W) as GL. assert (LG : largest f = T * (1 - u)) by reflexivity.
  destruct (Rle_dec (Rabs r) (largest f)) as [L|L]; [pose proof (near_mono f _ _ _ _ N (exact_near f _ GL) L); nra|].
  pose proof (near_abs f _ _ _ N GL) as A. rewrite (Rabs_left (largest f - Rabs r)) in A by lra. pose proof (Rle_abs (Rabs g - Rabs r)). nra.
Qed.
(* the parts of a mean *)
Lemma mix_parts f s n a i b j : Sane f -> Finite f n -> Finite f i -> Finite f j -> 0 <= val f s n <= 1 -> exists c p q r k,
  Near f (1 - val f s n) c /\ Near f (c * val f a i) p /\ Near f (val f s n * val f b j) q /\ Near f (p + q) (val f r k) /\ Finite f k /\ Grid f p /\ Grid f q /\
  f_mix f (FFin s n) (FFin a i) (FFin b j) = FFin r k.
Proof.
  intros W FN FI FJ B. pose proof W as [W1 W2]. assert (NN : forall m, Finite f m -> (0 <= m)%Z) by (intros m [R _]; exact (rep_nonneg f m R)).
  assert (ONE : Finite f (2 ^ fm_low f)) by (rewrite <- (Z.mul_1_l (2 ^ fm_low f)); apply count_fin; [exact W|lia|]; pose proof (pow_pos_ (fm_prec f) ltac:(lia)); lia).
  pose proof (sub_correct f false (2 ^ fm_low f) s n W) as C1. rewrite (one_val f W) in C1.
  destruct (correct_within f _ _ false _ W C1 ONE) as (cs & cn & E1 & F1 & N1 & _); [rewrite (one_val f W), !Rabs_right; lra|].
  pose proof (near_mono f _ _ _ _ N1 (exact_near f _ (grid_one f W)) ltac:(lra)) as CU. pose proof (near_mono f _ _ _ _ (exact_near f _ (grid_zero f W)) N1 ltac:(lra)) as CL.
  pose proof (mul_correct f cs cn a i W (NN _ F1) (NN _ FI)) as C2. destruct (correct_within f _ _ a i W C2 FI) as (ps & pn & E2 & F2 & N2 & _); [rewrite Rabs_mult, (Rabs_right (val f cs cn)) by lra; pose proof (Rabs_pos (val f a i)); nra|].
  pose proof (mul_correct f s n b j W (NN _ FN) (NN _ FJ)) as C3. destruct (correct_within f _ _ b j W C3 FJ) as (qs & qn & E3 & F3 & N3 & _); [rewrite Rabs_mult, (Rabs_right (val f s n)) by lra; pose proof (Rabs_pos (val f b j)); nra|].
  pose proof (add_correct f ps pn qs qn W) as (g & NG & C4).
  assert (MAX : forall z m, Finite f m -> Rabs (val f z m) <= largest f).
  { intros z m FM. rewrite (val_abs f z m W (NN _ FM)). destruct FM as [RM TM]. apply Rnot_lt_le. intros L. unfold largest in L. rewrite <- (max_val f W) in L. change (IZR m * unit_of f) with (val f false m) in L. apply (val_lt f _ _ _ _ W) in L. cbn [signed] in L.
    destruct (rep_large f m (fm_top f + fm_low f - fm_prec f) ltac:(lia) ltac:(lia) RM) as [k K]. { pose proof (pow_pos_ (fm_top f + fm_low f - fm_prec f) ltac:(lia)). rewrite Z.pow_add_r by lia. assert (2 ^ (fm_prec f - 1) <= 2 ^ fm_prec f - 1)%Z by (replace (2 ^ fm_prec f)%Z with (2 * 2 ^ (fm_prec f - 1))%Z by (rewrite <- Z.pow_succ_r by lia; f_equal; lia); pose proof (pow_pos_ (fm_prec f - 1) ltac:(lia)); lia). nia. }
    pose proof (pow_pos_ (fm_top f + fm_low f - fm_prec f) ltac:(lia)) as Q. replace (fm_top f + fm_low f)%Z with (fm_prec f + (fm_top f + fm_low f - fm_prec f))%Z in TM by lia. rewrite Z.pow_add_r in TM by lia. subst m. apply (proj2 (Z.mul_lt_mono_pos_r _ _ _ Q)) in TM. apply (proj2 (Z.mul_lt_mono_pos_r _ _ _ Q)) in L. lia. }
  pose proof (mul_correct f cs cn false ((2 ^ fm_prec f - 1) * 2 ^ (fm_top f + fm_low f - fm_prec f)) W (NN _ F1)) as CP. pose proof (mul_correct f s n false ((2 ^ fm_prec f - 1) * 2 ^ (fm_top f + fm_low f - fm_prec f)) W (NN _ FN)) as CQ. rewrite (max_val f W) in CP, CQ. fold (largest f) in CP, CQ.
  assert (MN : (0 <= (2 ^ fm_prec f - 1) * 2 ^ (fm_top f + fm_low f - fm_prec f))%Z) by (pose proof (pow_pos_ (fm_prec f) ltac:(lia)); pose proof (pow_pos_ (fm_top f + fm_low f - fm_prec f) ltac:(lia)); nia).
  destruct (CP MN) as (P & NP & _). destruct (CQ MN) as (Q & NQ & _). clear CP CQ. assert (GN : Grid f (val f s n)) by (exists s, n; split; [apply FN|reflexivity]).
  pose proof (no_overflow f (val f s n) (val f cs cn) P Q W GN B N1 NP NQ) as OV.
  assert (PB : Rabs (val f ps pn) <= P) by (apply (near_mono f _ _ _ _ (near_rabs f _ _ W N2) NP); rewrite Rabs_mult, (Rabs_right (val f cs cn)) by lra; apply Rmult_le_compat_l; [lra|apply MAX, FI]).
  assert (QB : Rabs (val f qs qn) <= Q) by (apply (near_mono f _ _ _ _ (near_rabs f _ _ W N3) NQ); rewrite Rabs_mult, (Rabs_right (val f s n)) by lra; apply Rmult_le_compat_l; [lra|apply MAX, FJ]).
  pose proof (Rabs_triang (val f ps pn) (val f qs qn)) as TR. pose proof (below_top f (val f ps pn + val f qs qn) g W ltac:(lra) NG) as GT.
  assert (EM : f_mix f (FFin s n) (FFin a i) (FFin b j) = f_add f (FFin ps pn) (FFin qs qn)). { unfold f_mix. change (f_one f) with (FFin false (2 ^ fm_low f)). rewrite E1, E2, E3. reflexivity. }
  destruct (f_add f (FFin ps pn) (FFin qs qn)) as [|z|r k]; [contradiction|lra|]. destruct C4 as (FK & -> & _).
  exists (val f cs cn), (val f ps pn), (val f qs qn), r, k. repeat match goal with |- _ /\ _ => split end; try assumption; [exists ps, pn; split; [apply F2|reflexivity]|exists qs, qn; split; [apply F3|reflexivity]].
Qed.
Lemma near_gsum f a b g : Sane f -> Grid f a -> Grid f b -> Near f (a + b) g -> Rabs (g - (a + b)) <= Rabs (a + b) * / IZR (2 ^ fm_prec f).
Proof. intros W (s & n & _ & ->) (t & m & _ & ->) N. exact (near_sum f s n t m g W N). Qed.
Lemma near_gsub f a b g : Sane f -> Grid f a -> Grid f b -> Near f (a - b) g -> Rabs (g - (a - b)) <= Rabs (a - b) * / IZR (2 ^ fm_prec f).
Proof. intros W A B N. apply (near_gsum f a (- b) g W A (grid_opp f b B) N). Qed.
(* the error of a mean, for a weight w instead of t *)
Lemma mix_R u h t w c a b p q g e M : 0 < u <= / 1000 -> 0 <= h -> 0 <= w <= 1 -> Rabs (w - t) <= e -> Rabs a <= M -> Rabs b <= M ->
  Rabs (c - (1 - w)) <= (1 - w) * u -> Rabs (p - c * a) <= Rabs (c * a) * u + h -> Rabs (q - w * b) <= Rabs (w * b) * u + h -> Rabs (g - (p + q)) <= Rabs (p + q) * u ->
  Rabs (g - ((1 - t) * a + t * b)) <= (7 / 2 * u + 2 * e) * M + 3 * h.
Proof.
  intros U H W E A B C P Q G. assert (M0 : 0 <= M) by (pose proof (Rabs_pos a); lra). assert (E0 : 0 <= e) by (pose proof (Rabs_pos (w - t)); lra).
  assert (CB : 0 <= c <= (1 - w) * (1 + u)). { unfold Rabs in C; destruct (Rcase_abs (c - (1 - w))); nra. }
  assert (CA : Rabs (c * a) <= (1 - w) * (1 + u) * M) by (rewrite Rabs_mult, (Rabs_right c) by lra; apply Rmult_le_compat; try lra; apply Rabs_pos).
  assert (WB : Rabs (w * b) <= w * M) by (rewrite Rabs_mult, (Rabs_right w) by lra; apply Rmult_le_compat_l; lra).
  assert (PB : Rabs p <= Rabs (c * a) * (1 + u) + h) by (pose proof (Rabs_triang (p - c * a) (c * a)) as T; replace (p - c * a + c * a) with p in T by ring; lra).
  assert (QB : Rabs q <= Rabs (w * b) * (1 + u) + h) by (pose proof (Rabs_triang (q - w * b) (w * b)) as T; replace (q - w * b + w * b) with q in T by ring; lra).
  pose proof (Rabs_triang p q) as PQ.
  assert (S : Rabs (p + q) <= (1 + 3 * u) * M + 2 * h).
  { assert (Rabs p <= (1 - w) * M * ((1 + u) * (1 + u)) + h) by (eapply Rle_trans; [exact PB|]; apply Rplus_le_compat_r; replace ((1 - w) * M * ((1 + u) * (1 + u))) with ((1 - w) * (1 + u) * M * (1 + u)) by ring; apply Rmult_le_compat_r; lra).
    assert (Rabs q <= w * M * ((1 + u) * (1 + u)) + h). { eapply Rle_trans; [exact QB|]. apply Rplus_le_compat_r. apply Rle_trans with (w * M * (1 + u)); [apply Rmult_le_compat_r; lra|]. assert (0 <= w * M * (1 + u)) by (apply Rmult_le_pos; [apply Rmult_le_pos; lra|lra]). nra. }
    assert ((1 + u) * (1 + u) <= 1 + 3 * u) by nra. assert (M * ((1 + u) * (1 + u)) <= M * (1 + 3 * u)) by (apply Rmult_le_compat_l; lra). replace ((1 - w) * M * ((1 + u) * (1 + u))) with (M * ((1 + u) * (1 + u)) - w * M * ((1 + u) * (1 + u))) in H0 by ring. lra. }
  replace (g - ((1 - t) * a + t * b)) with ((g - (p + q)) + (p - c * a) + (q - w * b) + (c - (1 - w)) * a + (w - t) * (b - a)) by ring.
  assert (T1 : Rabs ((c - (1 - w)) * a) <= (1 - w) * u * M) by (rewrite Rabs_mult; apply Rmult_le_compat; try apply Rabs_pos; lra).
  assert (T2 : Rabs ((w - t) * (b - a)) <= e * (2 * M)). { rewrite Rabs_mult. apply Rmult_le_compat; try apply Rabs_pos; [lra|]. pose proof (Rabs_triang b (- a)) as T. rewrite Rabs_Ropp in T. unfold Rminus. lra. }
  pose proof (Rabs_triang (g - (p + q) + (p - c * a) + (q - w * b) + (c - (1 - w)) * a) ((w - t) * (b - a))). pose proof (Rabs_triang (g - (p + q) + (p - c * a) + (q - w * b)) ((c - (1 - w)) * a)). pose proof (Rabs_triang (g - (p + q) + (p - c * a)) (q - w * b)). pose proof (Rabs_triang (g - (p + q)) (p - c * a)).
  assert (K1 : Rabs (p + q) * u <= ((1 + 3 * u) * M + 2 * h) * u) by (apply Rmult_le_compat_r; lra). assert (K2 : Rabs (c * a) * u <= (1 - w) * (1 + u) * M * u) by (apply Rmult_le_compat_r; lra). assert (K3 : Rabs (w * b) * u <= w * M * u) by (apply Rmult_le_compat_r; lra).
  assert (UM : 0 <= u * M) by (apply Rmult_le_pos; lra). assert (UUM : u * (u * M) <= / 1000 * (u * M)) by (apply Rmult_le_compat_r; lra). assert (WUM : 0 <= w * (u * M) <= u * M) by nra. assert (HU : h * u <= h * / 1000) by (apply Rmult_le_compat_l; lra). assert (0 <= u * (u * M)) by (apply Rmult_le_pos; lra). assert (0 <= w * (u * (u * M))) by (apply Rmult_le_pos; lra).
  replace (((1 + 3 * u) * M + 2 * h) * u) with (u * M + 3 * (u * (u * M)) + 2 * (h * u)) in K1 by ring. replace ((1 - w) * (1 + u) * M * u) with (u * M - w * (u * M) + u * (u * M) - w * (u * (u * M))) in K2 by ring. replace (w * M * u) with (w * (u * M)) in K3 by ring. replace ((1 - w) * u * M) with (u * M - w * (u * M)) in T1 by ring. replace ((7 / 2 * u + 2 * e) * M + 3 * h) with (7 / 2 * (u * M) + e * (2 * M) + 3 * h) by field. lra.
Qed.
Lemma mix_error f s n a i b j t e r k M : IEEE f -> Finite f n -> Finite f i -> Finite f j -> 0 <= val f s n <= 1 -> Rabs (val f s n - t) <= e -> Rabs (val f a i) <= M -> Rabs (val f b j) <= M ->
  f_mix f (FFin s n) (FFin a i) (FFin b j) = FFin r k -> Rabs (val f r k - ((1 - t) * val f a i + t * val f b j)) <= (7 / 2 * / IZR (2 ^ fm_prec f) + 2 * e) * M + 3 / 2 * unit_of f.
Proof.
  intros I FN FI FJ B E MA MB EQ. pose proof (ieee_sane f I) as W. destruct (prec_small f I) as (U & _ & _). pose proof (unit_pos f W) as UP.
  destruct (mix_parts f s n a i b j W FN FI FJ B) as (c & p & q & r' & k' & NC & NP & NQ & NR & FK & GP & GQ & EQ'). rewrite EQ in EQ'. injection EQ' as <- <-.
  assert (GN : Grid f (val f s n)) by (exists s, n; split; [apply FN|reflexivity]).
  pose proof (near_gsub f 1 (val f s n) c W (grid_one f W) GN NC) as EC. rewrite (Rabs_right (1 - val f s n)) in EC by lra. pose proof (near_bound f _ _ W NP) as EP. pose proof (near_bound f _ _ W NQ) as EQQ. pose proof (near_gsum f p q _ W GP GQ NR) as ER.
  replace (3 / 2 * unit_of f) with (3 * (unit_of f / 2)) by field. unfold Rdiv at 2 in EP. eapply (mix_R (/ IZR (2 ^ fm_prec f)) (unit_of f / 2)); try eassumption; lra.
Qed.

Lemma weight_R u h A B d1 d2 w : 0 < u <= / 1000 -> 0 <= h <= u / 1000 -> 0 <= A <= B -> 0 < B -> Rabs (d1 - A) <= A * u -> Rabs (d2 - B) <= B * u -> 0 < d2 -> Rabs (w - d1 / d2) <= d1 / d2 * u + h -> Rabs (w - A / B) <= 13 / 4 * u.
Proof.
  intros U H AB BP E1 E2 D E3. set (t := A / B) in *. assert (AT : A = t * B) by (unfold t; field; lra). assert (T : 0 <= t <= 1) by (split; nra).
  set (x := d1 / d2) in *. assert (DX : d1 = x * d2) by (unfold x; field; lra).
  assert (X : t * (1 - u) <= x * (1 + u) /\ x * (1 - u) <= t * (1 + u)).
  { assert (A * (1 - u) <= d1 <= A * (1 + u)) by (unfold Rabs in E1; destruct (Rcase_abs (d1 - A)); lra). assert (B * (1 - u) <= d2 <= B * (1 + u)) by (unfold Rabs in E2; destruct (Rcase_abs (d2 - B)); lra). assert (X0 : 0 <= x) by nra.
    split; apply (Rmult_le_reg_r B); try lra.
    - apply Rle_trans with d1; [rewrite AT in H0; lra|]. rewrite DX. replace (x * (1 + u) * B) with (x * (B * (1 + u))) by ring. apply Rmult_le_compat_l; lra.
    - apply Rle_trans with d1; [rewrite DX; replace (x * (1 - u) * B) with (x * (B * (1 - u))) by ring; apply Rmult_le_compat_l; lra|]. rewrite AT in H0. lra. }
  assert (XU : x <= t * (1 + 201 / 100 * u)). { assert ((1 + u) <= (1 + 201 / 100 * u) * (1 - u)) by nra. assert (x * (1 - u) <= t * (1 + 201 / 100 * u) * (1 - u)) by nra. nra. }
  assert (XL : t * (1 - 2 * u) <= x). { assert ((1 - 2 * u) * (1 + u) <= 1 - u) by nra. assert (t * (1 - 2 * u) * (1 + u) <= x * (1 + u)) by nra. nra. }
  assert (TU : 0 <= t * u <= u) by nra. assert (X0 : 0 <= x <= 101 / 100) by nra. assert (XUU : x * u <= 101 / 100 * u) by nra. unfold Rabs in *. destruct (Rcase_abs (w - x)); destruct (Rcase_abs (w - t)); lra.
Qed.
Lemma weight f a n b m c k : IEEE f -> Finite f n -> Finite f m -> Finite f k -> val f b m <= val f a n <= val f c k -> val f b m < val f c k -> Fin f (f_sub f (FFin c k) (FFin b m)) ->
  exists s w, f_div f (f_sub f (FFin a n) (FFin b m)) (f_sub f (FFin c k) (FFin b m)) = FFin s w /\ Finite f w /\ 0 <= val f s w <= 1 /\ Rabs (val f s w - (val f a n - val f b m) / (val f c k - val f b m)) <= 13 / 4 * / IZR (2 ^ fm_prec f).
Proof.
  intros I FN FM FK B LT (s2 & e2 & E2 & F2). pose proof (ieee_sane f I) as W. pose proof W as [W1 W2]. destruct (prec_small f I) as (U & US & _). pose proof (unit_pos f W) as UP. assert (NN : forall m, Finite f m -> (0 <= m)%Z) by (intros z [R _]; exact (rep_nonneg f z R)). assert (GG : forall s z, Finite f z -> Grid f (val f s z)) by (intros s z [R _]; exists s, z; auto).
  pose proof (sub_correct f c k b m W) as C2. rewrite E2 in C2. destruct (correct_parts f _ _ _ C2) as [_ N2]. pose proof (sub_correct f a n b m W) as C1.
  assert (P2 : 0 < val f s2 e2). { pose proof (near_mono f _ _ _ _ (exact_near f _ (grid_zero f W)) N2 ltac:(lra)) as L. destruct (Req_dec (val f s2 e2) 0) as [Z|Z]; [|lra]. rewrite Z in N2. pose proof (near_gsub f _ _ _ W (GG c k FK) (GG b m FM) N2) as R. rewrite Rabs_left, Rabs_right in R by lra. nra. }
  assert (L1 : Rabs (val f a n - val f b m) <= Rabs (val f c k - val f b m)) by (rewrite !Rabs_right; lra).
  destruct C1 as (g1 & N1 & C1). pose proof (near_mono f _ _ _ _ N1 N2 ltac:(lra)) as G12. pose proof (near_mono f _ _ _ _ (exact_near f _ (grid_zero f W)) N1 ltac:(lra)) as G10. pose proof (finite_small f s2 e2 W F2) as T2. rewrite Rabs_right in T2 by lra.
  rewrite E2. destruct (f_sub f (FFin a n) (FFin b m)) as [|z|s1 e1]; [contradiction|destruct C1 as [C1 _]; rewrite Rabs_right in C1 by lra; lra|]. destruct C1 as (F1 & -> & _).
  assert (E2P : (0 < e2)%Z). { destruct (Z.eq_dec e2 0) as [->|]; [rewrite (val_zero f s2) in P2; lra|pose proof (NN _ F2); lia]. }
  pose proof (div_correct f s1 e1 s2 e2 W (NN _ F1) E2P) as C3.
  assert (ONE : Finite f (2 ^ fm_low f)) by (rewrite <- (Z.mul_1_l (2 ^ fm_low f)); apply count_fin; [exact W|lia|]; pose proof (pow_pos_ (fm_prec f) ltac:(lia)); lia).
  assert (Q : 0 <= val f s1 e1 / val f s2 e2 <= 1) by (split; [apply Rmult_le_pos; [lra|left; apply Rinv_0_lt_compat; lra]|apply (Rmult_le_reg_r (val f s2 e2)); [lra|]; unfold Rdiv; rewrite Rmult_assoc, Rinv_l by lra; lra]).
  destruct (correct_within f _ _ false _ W C3 ONE) as (s & w & E3 & F3 & N3 & _); [rewrite (one_val f W), !Rabs_right; lra|].
  exists s, w. split; [exact E3|]. split; [exact F3|]. split; [split; [apply (near_mono f _ _ _ _ (exact_near f _ (grid_zero f W)) N3); lra|apply (near_mono f _ _ _ _ N3 (exact_near f _ (grid_one f W))); lra]|].
  pose proof (near_gsub f _ _ _ W (GG a n FN) (GG b m FM) N1) as R1. pose proof (near_gsub f _ _ _ W (GG c k FK) (GG b m FM) N2) as R2. rewrite (Rabs_right (val f a n - val f b m)) in R1 by lra. rewrite (Rabs_right (val f c k - val f b m)) in R2 by lra. pose proof (near_bound f _ _ W N3) as R3. rewrite (Rabs_right (val f s1 e1 / val f s2 e2)) in R3 by lra.
  apply (weight_R (/ IZR (2 ^ fm_prec f)) (unit_of f / 2) (val f a n - val f b m) (val f c k - val f b m) (val f s1 e1) (val f s2 e2)); try lra; exact R3.
Qed.
