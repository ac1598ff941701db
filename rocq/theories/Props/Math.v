(* C52 - C55, C60, C74, C75: scalar functions, bounds and angles. *)
From Coq Require Import Reals Lra.
From Coq Require Import Floats.SpecFloat.
From Verif Require Import Model.Base Model.Math Spec.Math Proofs.MathProofs Proofs.PiProofs.
Local Open Scope R_scope.

(* C52: the clamped value is the point of the interval nearest to v, and the
   only one; values inside are kept, and the order of values too. *)
Theorem C52_clamp_nearest : forall v lo hi, lo <= hi ->
  Nearest lo hi v (clampR v lo hi) /\ forall w, Nearest lo hi v w -> w = clampR v lo hi.
Proof. intros v lo hi H. pose proof (clampR_nearest v lo hi H) as N. split; [exact N|]. intros w W. exact (nearest_unique _ _ _ _ _ W N). Qed.
Theorem C52_clamp_inside : forall v lo hi, lo <= hi -> (clampR v lo hi = v <-> lo <= v <= hi).
Proof. intros v lo hi H. split; [|apply clampR_id]. intros E. rewrite <- E. apply clampR_range. exact H. Qed.
Theorem C52_clamp_monotone : forall v w lo hi, lo <= hi -> v <= w -> clampR v lo hi <= clampR w lo hi.
Proof. intros v w lo hi H L. apply clampR_mono; assumption. Qed.
Theorem C52_clamp_idempotent : forall v lo hi, lo <= hi -> clampR (clampR v lo hi) lo hi = clampR v lo hi.
Proof. intros v lo hi H. apply clampR_id. apply clampR_range. exact H. Qed.
(* with the limits exchanged the value is one of them: the first below it *)
Theorem C52_clamp_exchanged : forall v lo hi, hi < lo -> clampR v lo hi = lo /\ v < lo \/ clampR v lo hi = hi /\ lo <= v.
Proof. intros v lo hi H. unfold clampR, clamp. rcases; auto; exfalso; lra. Qed.
(* the same in any type whose < is a total order, such as the integers *)
Theorem C52_clamp_any_order : forall (T : Type) (lt : T -> T -> bool),
  (forall x, lt x x = false) -> (forall x y, lt x y = true -> lt y x = false) ->
  forall v lo hi, lt hi lo = false ->
  lt (clamp lt v lo hi) lo = false /\ lt hi (clamp lt v lo hi) = false /\
  (lt v lo = false -> lt hi v = false -> clamp lt v lo hi = v) /\ (clamp lt v lo hi = v \/ clamp lt v lo hi = lo \/ clamp lt v lo hi = hi).
Proof.
  intros T lt I A v lo hi H. unfold clamp. destruct (lt v lo) eqn:E1; [|destruct (lt hi v) eqn:E2].
  - rewrite I. repeat split; auto. intros; discriminate.
  - rewrite H, I. repeat split; auto. intros _ F. discriminate.
  - repeat split; auto.
Qed.
(* the same for floating point numbers with rounding, infinities and signed
   zeros; not a number stays not a number, and a limit that is not a number has
   no effect *)
Theorem C52_clamp_ieee : forall v lo hi : spec_float, is_nan lo = false -> is_nan hi = false -> SFleb lo hi = true ->
  (is_nan v = true -> clamp SFltb v lo hi = v) /\
  (is_nan v = false -> SFleb lo (clamp SFltb v lo hi) = true /\ SFleb (clamp SFltb v lo hi) hi = true /\
     (SFleb lo v = true -> SFleb v hi = true -> clamp SFltb v lo hi = v)).
Proof.
  intros v lo hi L H O. split.
  - intros N. unfold clamp. rewrite ltb_nan by auto. rewrite ltb_nan by auto. reflexivity.
  - intros N. unfold clamp. destruct (SFltb v lo) eqn:E1; [|destruct (SFltb hi v) eqn:E2].
    + split; [apply leb_refl; exact L|]. split; [exact O|]. intros A _. exfalso. unfold SFleb in A. unfold SFltb in E1. rewrite cmp_swap in A.
      destruct (SFcompare v lo) as [[]|]; discriminate.
    + split; [exact O|]. split; [apply leb_refl; exact H|]. intros _ A. exfalso. unfold SFleb in A. unfold SFltb in E2. rewrite cmp_swap in A.
      destruct (SFcompare hi v) as [[]|]; discriminate.
    + split; [apply ltb_false_leb; assumption|]. split; [apply ltb_false_leb; assumption|reflexivity].
Qed.
Theorem C52_clamp_ieee_nan_limit : forall v lo hi : spec_float,
  (is_nan lo = true -> clamp SFltb v lo hi = if SFltb hi v then hi else v) /\
  (is_nan hi = true -> clamp SFltb v lo hi = if SFltb v lo then lo else v).
Proof.
  intros v lo hi. unfold clamp. split; intros N; [rewrite ltb_nan by auto; reflexivity|]. rewrite (ltb_nan hi v) by auto. reflexivity.
Qed.
Example C52_case : clampR 7 (-1) 3 = 3 /\ clampR (-2) (-1) 3 = -1 /\ clampR 2 (-1) 3 = 2 /\ clamp Z.ltb (-9)%Z (-5)%Z 5%Z = (-5)%Z.
Proof. unfold clampR, clamp. repeat split; rcases; try lra. Qed.

(* C53: the result is strictly inside; the middle part is left as it is; the
   function is strictly increasing and never steeper than the identity, hence
   continuous; it treats both ends alike. *)
Theorem C53_soft_clamp_inside : forall v lo hi b, lo < hi -> 0 < b <= 1 / 2 -> lo < soft_clamp v lo hi b < hi.
Proof. intros v lo hi b H B. rewrite soft_clamp_soft. apply soft_range; nra. Qed.
Theorem C53_soft_clamp_middle : forall v lo hi b, lo < hi -> 0 < b <= 1 / 2 ->
  lo + b * (hi - lo) <= v <= hi - b * (hi - lo) -> soft_clamp v lo hi b = v.
Proof. intros v lo hi b H B V. rewrite soft_clamp_soft. apply soft_id; [nra|exact V]. Qed.
Theorem C53_soft_clamp_increasing : forall lo hi b, lo < hi -> 0 < b <= 1 / 2 ->
  Increasing (fun v => soft_clamp v lo hi b) /\
  forall v w, Rabs (soft_clamp v lo hi b - soft_clamp w lo hi b) <= Rabs (v - w).
Proof.
  intros lo hi b H B. assert (X : forall v w, v < w -> 0 < soft_clamp w lo hi b - soft_clamp v lo hi b <= w - v).
  { intros v w V. rewrite !soft_clamp_soft. apply soft_lip; [nra|nra|exact V]. }
  split.
  - intros x y L. specialize (X x y L). lra.
  - intros v w. destruct (Rtotal_order v w) as [L|[->|L]].
    + specialize (X v w L). rewrite !Rabs_left1 by lra. lra.
    + replace (soft_clamp w lo hi b - soft_clamp w lo hi b) with 0 by ring. rewrite Rabs_R0. apply Rabs_pos.
    + specialize (X w v L). rewrite !Rabs_right by lra. lra.
Qed.
Theorem C53_soft_clamp_symmetric : forall v lo hi b, lo < hi -> 0 < b <= 1 / 2 ->
  soft_clamp (lo + hi - v) lo hi b = lo + hi - soft_clamp v lo hi b.
Proof. intros v lo hi b H B. rewrite !soft_clamp_soft. apply soft_mirror; nra. Qed.
(* a boundary of zero is the plain clamp *)
Theorem C53_soft_clamp_zero : forall v lo hi, lo <= hi -> soft_clamp v lo hi 0 = clampR v lo hi.
Proof.
  intros v lo hi H. rewrite soft_clamp_soft. replace (0 * (hi - lo)) with 0 by ring. unfold soft, clampR, clamp, limit_transfer.
  rcases; try lra; unfold Rdiv; rewrite ?Rmult_0_l, ?Rmult_0_r; lra.
Qed.
(* a boundary above one half is not increasing any more *)
Theorem C53_wide_boundary_refuted : ~ (forall lo hi b, lo < hi -> 0 < b <= 1 -> Increasing (fun v => soft_clamp v lo hi b)).
Proof.
  intros H. specialize (H 0 1 1 ltac:(lra) ltac:(lra) 0 (1 / 10) ltac:(lra)). cbv beta in H. rewrite !soft_clamp_soft in H. unfold soft, limit_transfer in H. rcases; lra.
Qed.
Example C53_case : soft_clamp 5 0 4 (1 / 4) = 4 - 1 / 3 /\ soft_clamp 2 0 4 (1 / 4) = 2 /\ soft_clamp (-1) 0 4 (1 / 4) = 1 / 3.
Proof. rewrite !soft_clamp_soft. unfold soft, limit_transfer. repeat split; rcases; lra. Qed.

(* C54: the remainder used is the one with the sign of the dividend *)
Theorem C54_fmod : forall x y, 0 < y -> Remainder x y (fmod x y).
Proof. exact fmod_remainder. Qed.
(* C54: the wrapped value is in the range and a whole number of ranges away; it
   is the upper limit itself exactly for values that many ranges below the
   lower limit, and is otherwise the only such value below it *)
Theorem C54_wrap : forall v lo hi, lo < hi -> Congruent (hi - lo) (wrap v lo hi) v /\ lo <= wrap v lo hi <= hi /\
  (wrap v lo hi = hi <-> exists n, (1 <= n)%Z /\ v = lo - IZR n * (hi - lo)) /\
  (wrap v lo hi < hi -> forall w, lo <= w < hi -> Congruent (hi - lo) w v -> w = wrap v lo hi).
Proof.
  intros v lo hi H. assert (C : Congruent (hi - lo) (wrap v lo hi) v /\ lo <= wrap v lo hi <= hi).
  { destruct (Rle_lt_dec lo v) as [V|V]; [destruct (wrap_above v lo hi H V); split; [assumption|lra]|].
    destruct (wrap_below v lo hi H V) as [B (n & _ & E)]. split; [exists n; exact E|lra]. }
  destruct C as [C R]. split; [exact C|]. split; [exact R|]. split; [apply wrap_hi; exact H|].
  intros L w W (m & M). destruct C as (n & E). assert (X : w - lo = wrap v lo hi - lo); [|lra].
  apply (congruent_unique (hi - lo)); [lra|lra|lra|]. exists (m - n)%Z. rewrite minus_IZR. lra.
Qed.
Theorem C54_wrap_inside : forall v lo hi, lo <= v < hi -> wrap v lo hi = v.
Proof.
  intros v lo hi V. destruct (C54_wrap v lo hi ltac:(lra)) as (C & R & _ & U). symmetry. apply U; [|exact V|exists 0%Z; ring].
  destruct (wrap_above v lo hi ltac:(lra) ltac:(lra)). lra.
Qed.
Theorem C54_below_upper_refuted : ~ (forall v lo hi, lo < hi -> wrap v lo hi < hi).
Proof.
  intros H. specialize (H (-1) 0 1 ltac:(lra)). assert (E : wrap (-1) 0 1 = 1). { apply wrap_hi; [lra|]. exists 1%Z. split; [lia|lra]. } lra.
Qed.
(* so wrapping twice is not wrapping once *)
Theorem C54_idempotent_refuted : ~ (forall v lo hi, lo < hi -> wrap (wrap v lo hi) lo hi = wrap v lo hi).
Proof.
  intros H. specialize (H (-1) 0 1 ltac:(lra)). assert (E : wrap (-1) 0 1 = 1). { apply wrap_hi; [lra|]. exists 1%Z. split; [lia|lra]. }
  rewrite E in H. destruct (wrap_above 1 0 1 ltac:(lra) ltac:(lra)). lra.
Qed.
(* C54: square_wave is 1 on [2n, 2n+1) and -1 on [2n+1, 2n+2) for n >= 0, and 1
   for everything below zero *)
Theorem C54_square_wave : forall v, (v < 1 -> square_wave v = 1) /\
  (forall n : Z, (0 <= n)%Z -> (2 * IZR n <= v < 2 * IZR n + 1 -> square_wave v = 1) /\ (2 * IZR n + 1 <= v < 2 * IZR n + 2 -> square_wave v = -1)).
Proof.
  intros v. split.
  - intros V. unfold square_wave. destruct (Rle_lt_dec 0 v) as [P|P].
    + destruct (fmod_pos v 2 ltac:(lra) P) as [F B]. rewrite (floor_unique (v / 2) 0) in F by lra. rcases; lra.
    + destruct (fmod_neg v 2 ltac:(lra) P) as [B _]. rcases; lra.
  - intros n N. assert (I : 0 <= IZR n) by (apply IZR_le; exact N). unfold square_wave. split; intros V; destruct (fmod_pos v 2 ltac:(lra) ltac:(lra)) as [F B];
      rewrite (floor_unique (v / 2) n) in F by lra; rcases; lra.
Qed.
Theorem C54_square_wave_period_refuted : ~ (forall v, square_wave (v + 2) = square_wave v).
Proof.
  intros H. specialize (H (- (1 / 2))). rewrite (proj1 (C54_square_wave (- (1 / 2)))) in H by lra.
  rewrite (proj2 (proj2 (C54_square_wave (- (1 / 2) + 2)) 0%Z ltac:(lia))) in H by lra. lra.
Qed.
Example C54_case : wrap 7 (-1) 2 = 1 /\ wrap (-4) (-1) 2 = 2 /\ wrap (-3) (-1) 2 = 0.
Proof.
  split; [|split].
  - destruct (C54_wrap 7 (-1) 2 ltac:(lra)) as (_ & R & _ & U). symmetry. apply U; [|lra|exists (-2)%Z; lra]. destruct (wrap_above 7 (-1) 2 ltac:(lra) ltac:(lra)). lra.
  - apply wrap_hi; [lra|]. exists 1%Z. split; [lia|lra].
  - destruct (C54_wrap (-3) (-1) 2 ltac:(lra)) as (_ & R & E & U). symmetry. apply U; [|lra|exists 1%Z; lra].
    destruct R as [_ [R|R]]; [exact R|]. apply E in R as (n & N & X). exfalso. assert (Y : IZR (3 * n) = IZR 2) by (rewrite mult_IZR; lra). apply eq_IZR in Y. lia.
Qed.

(* C55: for every integer type the test is exact; the smallest value of a signed
   type of int size or larger is undefined *)
Theorem C55_is_power_of_two : forall t v, (0 < width t)%Z -> in_type t v ->
  (exists b, is_power_of_two t v = Some b /\ (b = true <-> Power_of_two v)) \/
  (is_power_of_two t v = None /\ signed t = true /\ (32 <= width t)%Z /\ v = (- 2 ^ (width t - 1))%Z).
Proof.
  intros t v W V. unfold is_power_of_two. destruct (Z.eqb_spec v 0) as [->|N].
  { left. exists false. split; [reflexivity|]. split; [discriminate|]. intros P. apply pow2_pos in P. lia. }
  assert (X : forall u, u = (v - 1)%Z -> exists b, Some (Z.land v u =? 0)%Z = Some b /\ (b = true <-> Power_of_two v)).
  { intros u ->. eexists. split; [reflexivity|]. rewrite Z.eqb_eq. destruct (Z_lt_le_dec 0 v) as [P|P]; [apply land_pow2; exact P|].
    split; [|intros Q; apply pow2_pos in Q; lia]. intros E. pose proof (land_neg_neg v (v - 1) ltac:(lia) ltac:(lia)). lia. }
  unfold minus_one, in_type in *. destruct (Z.ltb_spec (width t) 32); [left; apply X; reflexivity|]. destruct (signed t).
  - destruct (Z.leb_spec (- 2 ^ (width t - 1)) (v - 1)); [left; apply X; reflexivity|]. right. repeat split; [exact H|lia].
  - left. apply X. apply Z.mod_small. lia.
Qed.
Theorem C55_even_odd : forall v, (is_even v = true <-> Z.Even v) /\ (is_odd v = true <-> Z.Odd v).
Proof.
  intros v. unfold is_even, is_odd. rewrite !Z.eqb_eq. change 1%Z with (Z.ones 1). rewrite Z.land_ones by lia. change (2 ^ 1)%Z with 2%Z.
  rewrite <- Z.even_spec, <- Z.odd_spec, Zmod_odd, <- Z.negb_odd. destruct (Z.odd v); cbn; split; split; congruence || (intros; lia).
Qed.
Example C55_case : is_power_of_two (mkInt 8 false) 128 = Some true /\ is_power_of_two (mkInt 64 false) (2 ^ 63 + 2 ^ 4) = Some false /\
  is_power_of_two (mkInt 32 true) (-8) = Some false /\ is_power_of_two (mkInt 32 true) (- 2 ^ 31) = None /\
  is_power_of_two (mkInt 16 true) (- 2 ^ 15) = Some false /\ is_odd (-3) = true.
Proof. repeat split; vm_compute; reflexivity. Qed.

(* C60 *)
Theorem C60_bounds : forall b v, lower b <= upper b ->
  (get_violation b v = 0 <-> is_within b v = true) /\
  (get_violation b v < 0 <-> v < lower b) /\ (0 < get_violation b v <-> upper b < v) /\
  v - get_violation b v = bounds_clamp b v /\ is_within b (bounds_clamp b v) = true /\
  Rabs (get_violation b v) = Rabs (v - bounds_clamp b v).
Proof.
  intros b v H. assert (E : v - get_violation b v = bounds_clamp b v) by (unfold get_violation, bounds_clamp, clampR, clamp; rcases; lra).
  split; [|split; [|split; [|split; [exact E|split]]]].
  - unfold is_within. rewrite andb_true_iff, !Rleb_le. unfold get_violation. rcases; split; intros; try split; try lra.
  - unfold get_violation. rcases; split; intros; lra.
  - unfold get_violation. rcases; split; intros; lra.
  - unfold is_within, bounds_clamp. rewrite andb_true_iff, !Rleb_le. apply clampR_range. exact H.
  - rewrite <- E. f_equal. ring.
Qed.
Theorem C60_negation : forall b v, is_within (bounds_neg b) (- v) = is_within b v /\ range (bounds_neg b) = range b /\ bounds_neg (bounds_neg b) = b /\
  (lower b <= upper b -> get_violation (bounds_neg b) (- v) = - get_violation b v).
Proof.
  intros [l u] v. unfold is_within, range, bounds_neg, get_violation. cbn [lower upper]. split; [|split; [ring|split; [f_equal; ring|]]].
  - rcases; cbn; try reflexivity; exfalso; lra.
  - intros H. rcases; try lra.
Qed.
Example C60_case : get_violation (mkBounds (-1) 2) 5 = 3 /\ get_violation (mkBounds (-1) 2) (-3) = -2 /\ bounds_clamp (mkBounds (-1) 2) 5 = 2.
Proof. unfold get_violation, bounds_clamp, clampR, clamp. cbn [lower upper]. repeat split; rcases; lra. Qed.

(* C74: angles in degrees and radians *)
Lemma flut_pi_pos : 0 < flut_pi.
Proof. unfold flut_pi. lra. Qed.
Ltac units := unfold angle_eq, angle_lt, angle_add, angle_sub, angle_mul, angle_neg, to_unit, deg_value, rad_value, convert, deg_to_rad, rad_to_deg in *;
  cbn [aunit avalue] in *; pose proof flut_pi_pos.
Theorem C74_round_trip : forall a u, to_unit (aunit a) (to_unit u a) = a /\ angle_eq a (to_unit u a) = true /\ angle_eq (to_unit u a) a = true /\
  rad_value (to_unit u a) = rad_value a /\ deg_value (to_unit u a) = deg_value a.
Proof.
  intros [[] x] []; units; repeat split; try reflexivity;
    try (destruct (Req_EM_T _ _) as [|N]; [reflexivity|exfalso; apply N; field; lra]); try (f_equal; field; lra); field; lra.
Qed.
Theorem C74_additive : forall a b u, to_unit u (angle_add a b) = angle_add (to_unit u a) b /\
  rad_value (angle_add a b) = rad_value a + rad_value b /\ rad_value (angle_sub a b) = rad_value a - rad_value b /\
  rad_value (angle_neg a) = - rad_value a /\ (forall s, rad_value (angle_mul a s) = rad_value a * s).
Proof. intros [[] x] [[] y] []; units; repeat split; intros; try (f_equal; field; lra); field; lra. Qed.
Theorem C74_comparison : forall a b, (angle_lt a b = true <-> rad_value a < rad_value b) /\ (angle_eq a b = true <-> rad_value a = rad_value b).
Proof.
  intros [u x] [w y]. assert (K : 0 < flut_pi / 180) by (pose proof flut_pi_pos; lra). assert (P := flut_pi_pos).
  assert (L : forall s t, s < t <-> flut_pi / 180 * s < flut_pi / 180 * t) by (intros; split; intros; nra).
  assert (Q : forall s t, s = t <-> flut_pi / 180 * s = flut_pi / 180 * t) by (intros; split; [congruence|intros; nra]).
  assert (I : forall z, flut_pi / 180 * (180 / flut_pi * z) = z) by (intros; field; lra).
  unfold angle_lt, angle_eq. rewrite Rltb_lt. destruct (Req_EM_T _ _) as [E|E].
  - destruct u, w; unfold to_unit, rad_value, convert, deg_to_rad, rad_to_deg in *; cbn [aunit avalue] in *; (split; [|split; [intros _|reflexivity]]);
      rewrite ?(L x), ?I; try reflexivity; try (rewrite E; rewrite ?I; reflexivity); try exact E.
  - destruct u, w; unfold to_unit, rad_value, convert, deg_to_rad, rad_to_deg in *; cbn [aunit avalue] in *; (split; [|split; [discriminate|intros F; exfalso; apply E]]);
      rewrite ?(L x), ?I; try reflexivity; try (apply Q; rewrite ?I; exact F); try exact F.
Qed.
(* C74: the constant used for pi is below pi, so half a turn of 180 degrees is
   not quite one *)
Theorem C74_half_turn_refuted : flut_pi < PI /\ ~ angle_sin (mkAngle Degrees 180) = 0.
Proof.
  split; [exact flut_pi_below|]. intros E. unfold angle_sin, rad_value, convert, deg_to_rad in E. cbn [aunit avalue] in E.
  replace (flut_pi / 180 * 180) with flut_pi in E by field. pose proof sin_flut_pi. lra.
Qed.
Example C74_case : rad_value (angle_add (mkAngle Degrees 90) (mkAngle Radians flut_pi)) = 3 / 2 * flut_pi.
Proof. units. field. lra. Qed.

(* C75: equals compares relative to its first argument, so it is reflexive but
   neither symmetric nor, with zero first, true for anything but zero *)
Theorem C75_equals_reflexive : forall v e, 0 <= e -> equals v v e = true.
Proof. intros v e E. apply Rleb_le. replace (v - v) with 0 by ring. rewrite Rabs_R0. pose proof (Rabs_pos v). nra. Qed.
Theorem C75_equals_zero : forall v e, equals 0 v e = true <-> v = 0.
Proof.
  intros v e. unfold equals. rewrite Rleb_le, Rabs_R0. replace (0 - v) with (- v) by ring. rewrite Rabs_Ropp, Rmult_0_l. split; [|intros ->; rewrite Rabs_R0; lra].
  intros H. destruct (Req_dec v 0) as [|N]; [assumption|]. apply Rabs_pos_lt in N. lra.
Qed.
Theorem C75_equals_symmetric_refuted : forall e, 0 < e < 1 -> exists v w, equals v w e = true /\ equals w v e = false.
Proof.
  intros e E. exists 1, (1 - e). unfold equals. rewrite Rleb_le, Rleb_gt. replace (1 - (1 - e)) with e by ring. replace (1 - e - 1) with (- e) by ring.
  rewrite Rabs_Ropp, !Rabs_right by lra. split; [lra|nra].
Qed.
(* but nearly: what one order accepts, the other does with a slightly larger e *)
Theorem C75_equals_nearly_symmetric : forall v w e, 0 <= e < 1 -> equals v w e = true -> equals w v (e / (1 - e)) = true.
Proof.
  intros v w e E. unfold equals. rewrite !Rleb_le. intros H. rewrite Rabs_minus_sym.
  assert (T : Rabs v <= Rabs w + Rabs (v - w)). { replace v with (w + (v - w)) at 1 by ring. apply Rabs_triang. }
  assert (X : Rabs (v - w) * (1 - e) <= Rabs w * e) by nra. apply (Rmult_le_reg_r (1 - e)); [lra|].
  replace (Rabs w * (e / (1 - e)) * (1 - e)) with (Rabs w * e) by (field; lra). exact X.
Qed.
(* C75: signed_sqrt inverts the signed square, sign is 1 or -1 and multiplies to the absolute value *)
Theorem C75_signed_sqrt : forall v, signed_sqrt v * Rabs (signed_sqrt v) = v /\ signed_sqrt (- v) = - signed_sqrt v /\ sign v * Rabs v = v /\ (sign v = 1 \/ sign v = -1).
Proof.
  intros v. unfold signed_sqrt, sign. split; [|split; [|split; [|rcases; auto]]].
  - rcases.
    + rewrite Rabs_right by (apply Rle_ge, sqrt_pos). apply sqrt_sqrt. exact E.
    + rewrite Rabs_Ropp, Rabs_right by (apply Rle_ge, sqrt_pos). replace (- sqrt (- v) * sqrt (- v)) with (- (sqrt (- v) * sqrt (- v))) by ring. rewrite sqrt_sqrt by lra. ring.
  - rcases; try lra.
    + assert (v = 0) by lra. subst. rewrite Ropp_0, sqrt_0. ring.
    + rewrite Ropp_involutive. reflexivity.
  - rcases; [rewrite Rabs_right by lra|rewrite Rabs_left by lra]; ring.
Qed.
Example C75_case : equals 100 101 (1 / 100) = true /\ equals 0 (1 / 1000) (1 / 100) = false /\ signed_sqrt (-9) = -3.
Proof.
  split; [|split].
  - apply Rleb_le. rewrite Rabs_left1, Rabs_right by lra. lra.
  - destruct (equals 0 (1 / 1000) (1 / 100)) eqn:E; [|reflexivity]. apply C75_equals_zero in E. lra.
  - unfold signed_sqrt. rcases; [lra|]. replace (- -9) with (3 * 3) by ring. rewrite sqrt_square by lra. ring.
Qed.
