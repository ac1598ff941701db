(* C94: wrap and square_wave of flut/math on float and double *)
From Coq Require Import Reals ZArith List Bool Lia Lra.
From Verif Require Import Model.Base Model.FloatText Model.Math Model.Ieee Model.FloatMath Spec.FloatText Spec.Ieee Spec.Math Proofs.FloatTextProofs Proofs.IeeeProofs Proofs.IeeeErrorProofs Props.FloatEquals.
Local Open Scope R_scope.

(* r is not beyond the finite numbers *)
Definition InReach (f : fmt) (r : R) : Prop := exists n, Finite f n /\ Rabs r <= val f false n.

Lemma reach_fin f r x : Sane f -> Correct f r x -> InReach f r -> exists a n, x = FFin a n.
Proof.
  intros W C (n & F & B). pose proof (Rabs_pos r) as P. destruct (correct_le_fin f _ _ false n W (abs_correct f r x W C) F ltac:(lra)) as (a & m & E). destruct x as [|s|s k]; [discriminate|discriminate|eauto].
Qed.
(* fmod is exact *)
Theorem C94_fmod : forall f a n b m, IEEE f -> Valid f (FFin a n) -> Valid f (FFin b m) -> (0 < m)%Z ->
  exists r, f_mod (FFin a n) (FFin b m) = FFin a r /\ Valid f (FFin a r) /\ (0 <= r < m)%Z /\ Congruent (val f b m) (val f a r) (val f a n).
Proof.
  intros f a n b m I VA VB M. pose proof (ieee_sane f I) as W. exists (n mod m)%Z. cbn [f_mod]. rewrite (proj2 (Z.eqb_neq m 0)) by lia. split; [reflexivity|]. pose proof (Z.mod_pos_bound n m M) as B. destruct VA as [RA FA], VB as [RB FB]. pose proof (rep_nonneg f n RA) as NP. split; [split; [apply rem_rep; assumption|]; pose proof (Z.mod_le n m NP M); lia|]. split; [exact B|].
  pose proof (Z.div_mod n m ltac:(lia)) as D. exists (if xorb a b then n / m else - (n / m))%Z. assert (DR : IZR n = IZR m * IZR (n / m) + IZR (n mod m)) by (rewrite <- mult_IZR, <- plus_IZR; f_equal; exact D). unfold val. rewrite DR. destruct a, b; cbn [xorb]; rewrite ?opp_IZR; ring.
Qed.
Print Assumptions C94_fmod.
(* the general form of the result *)
Lemma wrap_form f v lo hi a n b m c k : Sane f -> v = FFin a n -> lo = FFin b m -> hi = FFin c k -> Valid f v -> Valid f lo -> Valid f hi -> val f b m < val f c k ->
  InReach f (val f a n - val f b m) -> InReach f (val f c k - val f b m) ->
  exists d g r, Near f (val f a n - val f b m) d /\ Near f (val f c k - val f b m) g /\ Grid f r /\ Congruent g (if Rle_lt_dec 0 d then r else - r) d /\ 0 <= r /\ r < g /\ (0 <= d < g -> r = d) /\ (- g < d < 0 -> r = - d) /\
    Correct f (if Rle_lt_dec 0 d then r + val f b m else - r + val f c k) (f_wrap f v lo hi).
Proof.
  intros W -> -> -> VA VB VC L R1 R2. pose proof (unit_pos f W) as U. pose proof (sub_correct f a n b m W) as C1. pose proof (sub_correct f c k b m W) as C2. destruct (reach_fin f _ _ W C1 R1) as (s & j & E1). destruct (reach_fin f _ _ W C2 R2) as (t & i & E2).
  assert (T : Less f f_zero (f_sub f (FFin c k) (FFin b m))) by (apply (sub_positive f (FFin b m) (FFin c k) W); do 2 eexists; split; [reflexivity|]; split; [reflexivity|exact L]). rewrite E1 in C1. rewrite E2 in C2, T. destruct C1 as (d & N1 & F1 & -> & S1). destruct C2 as (g & N2 & F2 & -> & S2).
  apply (lt_less f _ _ W) in T. cbn in T. apply Z.ltb_lt in T. pose proof F2 as [F2R _]. pose proof (rep_nonneg f i F2R) as IP. assert (t = false) by (destruct t; [cbn in T; lia|reflexivity]). subst t. cbn [signed] in T.
  pose proof F1 as [F1R F1T]. pose proof (rep_nonneg f j F1R) as JP. pose proof (Z.mod_pos_bound j i T) as B. pose proof (rem_rep f j i W F1R F2R T) as RR.
  pose proof (Z.div_mod j i ltac:(lia)) as D. assert (IJ : 0 <= IZR j) by (apply IZR_le; exact JP). assert (II : 0 < IZR i) by (apply IZR_lt; exact T). assert (IB : 0 <= IZR (j mod i) < IZR i) by (split; [apply IZR_le|apply IZR_lt]; lia).
  assert (DJ : IZR j = IZR i * IZR (j / i) + IZR (j mod i)) by (rewrite <- mult_IZR, <- plus_IZR; f_equal; exact D).
  exists (val f s j), (val f false i), (val f false (j mod i)). split; [exact N1|]. split; [exact N2|]. split; [exists false, (j mod i)%Z; auto|]. unfold f_wrap. rewrite E1, E2. unfold f_ge, f_le, f_zero. cbn [f_lt f_eq signed f_mod]. rewrite (proj2 (Z.eqb_neq i 0)) by lia.
  assert (SM : forall x, (x < i)%Z -> (0 <= x)%Z -> (x mod i = x)%Z) by (intros; apply Z.mod_small; lia).
  destruct (Rle_lt_dec 0 (val f s j)) as [P|P].
  - assert (SJ : signed s j = j). { apply (Rmult_le_compat_r (/ unit_of f)) in P; [|left; apply Rinv_0_lt_compat, U]. rewrite val_signed, Rmult_0_l, Rmult_assoc, Rinv_r, Rmult_1_r in P by lra. apply le_IZR in P. destruct s; cbn in *; lia. }
    rewrite SJ. replace ((0 <? j)%Z || (0 =? j)%Z) with true by (destruct (Z.ltb_spec 0 j), (Z.eqb_spec 0 j); lia || reflexivity). assert (VS : forall x, (x <= j)%Z -> (0 <= x)%Z -> val f s x = val f false x) by (intros x X1 X2; destruct s; [cbn in SJ; assert (x = 0)%Z as -> by lia; rewrite !val_zero; reflexivity|reflexivity]).
    assert (MJ : (j mod i <= j)%Z) by (apply Z.mod_le; lia). split; [exists (- (j / i))%Z; rewrite (VS j) by lia; unfold val; rewrite DJ, opp_IZR; ring|]. unfold val at 1 2 3. split; [nra|]. split; [nra|]. split; [|split; [intros [_ X]; lra|]].
    + intros [_ X]. rewrite (VS j) in X |- * by lia. apply (val_lt f false j false i W) in X. cbn in X. rewrite SM by lia. reflexivity.
    + rewrite <- (VS (j mod i)%Z) by lia. apply add_correct, W.
  - assert (SJ : s = true /\ (0 < j)%Z). { rewrite <- (val_zero f false) in P. apply (val_lt f s j false 0 W) in P. destruct s; cbn in P; split; (reflexivity || lia). } destruct SJ as [-> JJ].
    cbn [signed]. replace ((0 <? - j)%Z || (0 =? - j)%Z) with false by (destruct (Z.ltb_spec 0 (- j)), (Z.eqb_spec 0 (- j)); lia || reflexivity).
    split; [exists (j / i)%Z; unfold val; rewrite DJ; ring|]. split; [unfold val; nra|]. split; [unfold val; nra|]. split; [intros [X _]; lra|]. split.
    + intros [X _]. change true with (negb false) in X |- *. rewrite val_neg in X |- *. assert (X' : val f false j < val f false i) by lra. apply (val_lt f false j false i W) in X'. cbn in X'. rewrite SM by lia. ring.
    + rewrite <- val_neg. apply add_correct, W.
Qed.
(* a number of the format below the rounded length is not above the length *)
Lemma grid_below f r g x : Near f r g -> Grid f x -> x < g -> x <= r.
Proof.
  intros N G L. destruct (Rle_lt_dec x r) as [|C]; [assumption|exfalso]. pose proof (near_abs f r g x N G) as A. rewrite !Rabs_right in A by lra. lra.
Qed.
(* the result is never outside the range, with every rounding *)
Theorem C94_range : forall f a n b m c k, IEEE f -> Valid f (FFin a n) -> Valid f (FFin b m) -> Valid f (FFin c k) -> val f b m < val f c k ->
  InReach f (val f a n - val f b m) -> InReach f (val f c k - val f b m) ->
  LessEq f (FFin b m) (f_wrap f (FFin a n) (FFin b m) (FFin c k)) /\ LessEq f (f_wrap f (FFin a n) (FFin b m) (FFin c k)) (FFin c k).
Proof.
  intros f a n b m c k I VA VB VC L R1 R2. pose proof (ieee_sane f I) as W. destruct (wrap_form f _ _ _ a n b m c k W eq_refl eq_refl eq_refl VA VB VC L R1 R2) as (d & g & r & N1 & N2 & G & T & P & Q & _ & _ & C).
  pose proof (grid_below f _ g r N2 G Q) as B. split; eapply correct_mono; try exact W; try exact C; try (apply correct_fin; [exact W|assumption]); destruct (Rle_lt_dec 0 d); lra.
Qed.
Print Assumptions C94_range.
(* the result for lengths and distances that are numbers of the format: the
   value, moved by whole lengths into the range, rounded once *)
Theorem C94_value : forall f a n b m c k, IEEE f -> Valid f (FFin a n) -> Valid f (FFin b m) -> Valid f (FFin c k) -> val f b m < val f c k ->
  InReach f (val f a n - val f b m) -> InReach f (val f c k - val f b m) -> Grid f (val f a n - val f b m) -> Grid f (val f c k - val f b m) ->
  exists w, Congruent (val f c k - val f b m) w (val f a n) /\ val f b m <= w <= val f c k /\ (val f b m <= val f a n < val f c k -> w = val f a n) /\ (w = val f c k -> val f a n < val f b m) /\
    Correct f w (f_wrap f (FFin a n) (FFin b m) (FFin c k)).
Proof.
  intros f a n b m c k I VA VB VC L R1 R2 G1 G2. pose proof (ieee_sane f I) as W. destruct (wrap_form f _ _ _ a n b m c k W eq_refl eq_refl eq_refl VA VB VC L R1 R2) as (d & g & r & N1 & N2 & G & T & P & Q & J1 & J2 & C).
  apply near_exact in N1; [|exact G1]. apply near_exact in N2; [|exact G2]. eexists. split; [|split; [|split; [|split; [|exact C]]]]; destruct (Rle_lt_dec 0 d) as [D|D]; subst g; try lra.
  - destruct T as (j & T). exists j. lra.
  - destruct T as (j & T). exists (j + 1)%Z. rewrite plus_IZR. lra.
Qed.
Print Assumptions C94_value.
(* fixed point numbers, such as whole numbers, are wrapped without error *)
Theorem C94_fixed : forall f a n b m c k q A B C, IEEE f -> (0 <= q)%Z -> val f b m < val f c k ->
  signed a n = (A * 2 ^ q)%Z -> signed b m = (B * 2 ^ q)%Z -> signed c k = (C * 2 ^ q)%Z -> (Z.abs A <= 2 ^ (fm_prec f - 1))%Z -> (Z.abs B <= 2 ^ (fm_prec f - 1))%Z -> (Z.abs C <= 2 ^ (fm_prec f - 1))%Z ->
  Valid f (FFin a n) -> Valid f (FFin b m) -> Valid f (FFin c k) -> InReach f (val f a n - val f b m) -> InReach f (val f c k - val f b m) ->
  exists s j, f_wrap f (FFin a n) (FFin b m) (FFin c k) = FFin s j /\ Congruent (val f c k - val f b m) (val f s j) (val f a n) /\ val f b m <= val f s j <= val f c k /\
    (val f b m <= val f a n < val f c k -> val f s j = val f a n).
Proof.
  intros f a n b m c k q A B C I Q L EA EB EC BA BB BC VA VB VC R1 R2. pose proof (ieee_sane f I) as W. destruct W as [W1 W2]. assert (W : Sane f) by (split; assumption).
  assert (P2 : (2 ^ fm_prec f = 2 * 2 ^ (fm_prec f - 1))%Z) by (replace (fm_prec f) with (1 + (fm_prec f - 1))%Z at 1 by lia; rewrite Z.pow_add_r by lia; reflexivity).
  assert (G : forall X Y, (Z.abs X <= 2 ^ (fm_prec f - 1))%Z -> (Z.abs Y <= 2 ^ (fm_prec f - 1))%Z -> Grid f (IZR (X * 2 ^ q) * unit_of f - IZR (Y * 2 ^ q) * unit_of f)).
  { intros X Y BX BY. replace (IZR (X * 2 ^ q) * unit_of f - IZR (Y * 2 ^ q) * unit_of f) with (IZR ((X - Y) * 2 ^ q) * unit_of f) by (rewrite (mult_IZR (X - Y)), (mult_IZR X), (mult_IZR Y), minus_IZR; ring). apply grid_int; [exact W|exact Q|lia]. }
  assert (VE : val f a n = IZR (A * 2 ^ q) * unit_of f /\ val f b m = IZR (B * 2 ^ q) * unit_of f /\ val f c k = IZR (C * 2 ^ q) * unit_of f) by (rewrite !val_signed, EA, EB, EC; auto). destruct VE as (VEA & VEB & VEC).
  destruct (C94_value f a n b m c k I VA VB VC L R1 R2) as (w & (z & T) & RW & IN & _ & CW); [rewrite VEA, VEB; apply G; assumption|rewrite VEC, VEB; apply G; assumption|].
  assert (WE : w = IZR ((A + z * (C - B)) * 2 ^ q) * unit_of f) by (rewrite T, VEA, VEB, VEC; rewrite !mult_IZR, plus_IZR, mult_IZR, minus_IZR; ring).
  pose proof (unit_pos f W) as U. pose proof (pow_pos_ q Q) as QP. assert (WB : (B <= A + z * (C - B) <= C)%Z).
  { rewrite WE, VEB, VEC in RW. destruct RW as [RW1 RW2]. apply Rmult_le_reg_r in RW1; [|exact U]. apply Rmult_le_reg_r in RW2; [|exact U]. apply le_IZR in RW1. apply le_IZR in RW2. nia. }
  destruct (reach_fin f w _ W CW) as (s & j & E).
  { destruct VB as [RB FB], VC as [RC FC]. pose proof (rep_nonneg f m RB) as MP. pose proof (rep_nonneg f k RC) as KP. destruct (Z.le_ge_cases m k) as [X|X]; [exists k|exists m]; (split; [split; assumption|]).
    - assert (- val f false k <= val f b m). { rewrite <- val_neg. apply val_le; [exact W|]. destruct b; cbn; lia. } assert (val f c k <= val f false k) by (apply val_le; [exact W|destruct c; cbn; lia]). apply Rabs_le. lra.
    - assert (- val f false m <= val f b m). { rewrite <- val_neg. apply val_le; [exact W|]. destruct b; cbn; lia. } assert (val f c k <= val f false m) by (apply val_le; [exact W|destruct c; cbn; lia]). apply Rabs_le. lra. }
  exists s, j. split; [exact E|]. rewrite E in CW. destruct CW as (g & N & F & -> & _). assert (GW : Grid f w) by (rewrite WE; apply grid_int; [exact W|exact Q|lia]). apply near_exact in N; [|exact GW]. rewrite N. split; [exists z; exact T|]. split; [exact RW|exact IN].
Qed.
Print Assumptions C94_fixed.

(* what rounding breaks: a value inside the range moves to the other end, and a
   value just below the range gives the upper end *)
Theorem C94_inside_refuted : let d := float_fmt in let one := f_one d in exists v, Valid d v /\ Less d (f_neg one) v /\ Less d v one /\ f_wrap d v (f_neg one) one = f_neg one.
Proof.
  exists (FFin false ((2 ^ 24 - 1) * 2 ^ 125)). assert (W : Sane float_fmt) by (apply ieee_sane; right; reflexivity). split; [split; [exists (2 ^ 24 - 1)%Z, 125%Z; split; [lia|]; split; [cbn; lia|reflexivity]|reflexivity]|]. split; [apply (lt_less _ _ _ W); reflexivity|]. split; [apply (lt_less _ _ _ W); reflexivity|vm_compute; reflexivity].
Qed.
Print Assumptions C94_inside_refuted.
Theorem C94_upper_refuted : forall f, IEEE f -> Valid f (FFin true 1) /\ f_wrap f (FFin true 1) f_zero (f_one f) = f_one f.
Proof. intros f I. split; [apply (unit_finite f (ieee_sane f I))|]. destruct I as [->| ->]; vm_compute; reflexivity. Qed.
Print Assumptions C94_upper_refuted.
(* no number comes of an infinite value, of an empty range, or of one whose
   length is beyond the finite numbers *)
Theorem C94_nan_refuted : forall f a lo hi b m, IEEE f -> f_wrap f (FInf a) lo hi = FNan /\ f_wrap f FNan lo hi = FNan /\ (forall v, f_wrap f v (FFin b m) (FFin b m) = FNan) /\ f_wrap f (f_max f) (f_lowest f) (f_max f) = FNan.
Proof.
  intros f a lo hi b m I. split; [|split; [|split]].
  - unfold f_wrap. assert (A : f_sub f (FInf a) lo = FNan \/ exists s, f_sub f (FInf a) lo = FInf s) by (unfold f_sub; destruct lo as [|s|s k]; cbn [f_neg f_add]; [auto|destruct (Bool.eqb a (negb s)); eauto|eauto]).
    destruct A as [->|(s & ->)]; destruct (f_ge _ _), (f_sub f hi lo); reflexivity.
  - reflexivity.
  - intros v. assert (Z0 : exists s, f_sub f (FFin b m) (FFin b m) = FFin s 0). { unfold f_sub. cbn [f_neg f_add]. replace (signed b m + signed (negb b) m)%Z with 0%Z by (destruct b; cbn; lia). eexists. reflexivity. } destruct Z0 as (s & E). unfold f_wrap. rewrite E. destruct (f_ge _ _), (f_sub f v (FFin b m)); reflexivity.
  - destruct I as [->| ->]; vm_compute; reflexivity.
Qed.
Print Assumptions C94_nan_refuted.

(* square_wave: the real one, at every finite number *)
Theorem C94_square_wave : forall f a n, IEEE f -> Valid f (FFin a n) ->
  (val f a n < 1 -> f_square_wave f (FFin a n) = f_one f) /\
  (forall j : Z, (0 <= j)%Z -> (2 * IZR j <= val f a n < 2 * IZR j + 1 -> f_square_wave f (FFin a n) = f_one f) /\ (2 * IZR j + 1 <= val f a n < 2 * IZR j + 2 -> f_square_wave f (FFin a n) = f_neg (f_one f))) /\
  f_square_wave f (FInf a) = f_neg (f_one f) /\ f_square_wave f FNan = f_neg (f_one f).
Proof.
  intros f a n I V. pose proof (ieee_sane f I) as W. pose proof (fin_pos f a n V) as NP. pose proof (unit_scale f W) as US. assert (PL : (0 < 2 ^ fm_low f)%Z) by (apply pow_pos_; destruct W; lia). set (u := (2 ^ fm_low f)%Z) in *.
  assert (VU : val f a n = IZR (signed a n) / IZR u) by (rewrite val_signed; reflexivity).
  assert (LT : forall x : Z, val f a n < IZR x <-> (signed a n < x * u)%Z).
  { intros x. rewrite VU. split; intros H.
    - apply lt_IZR. rewrite mult_IZR. apply (Rmult_lt_compat_r (IZR u)) in H; [|exact US]. unfold Rdiv in H. rewrite Rmult_assoc, Rinv_l, Rmult_1_r in H by lra. exact H.
    - apply IZR_lt in H. rewrite mult_IZR in H. apply (Rmult_lt_reg_r (IZR u)); [exact US|]. unfold Rdiv. rewrite Rmult_assoc, Rinv_l, Rmult_1_r by lra. exact H. }
  assert (LE : forall x : Z, IZR x <= val f a n <-> (x * u <= signed a n)%Z).
  { intros x. pose proof (LT x) as L. split; intros H; [apply Z.nlt_ge|apply Rnot_lt_le]; intros C; [apply L in C; lra|apply L in C; lia]. }
  unfold f_square_wave, f_one. cbn [f_mod]. fold u. rewrite (proj2 (Z.eqb_neq (2 * u) 0)) by lia. cbn [f_lt signed]. split; [|split; [|split; reflexivity]].
  - intros H. apply (LT 1%Z) in H. destruct a; cbn [signed] in *; [pose proof (Z.mod_pos_bound n (2 * u) ltac:(lia)); rewrite (proj2 (Z.ltb_lt _ _)) by lia; reflexivity|]. rewrite Z.mod_small by lia. rewrite (proj2 (Z.ltb_lt _ _)) by lia. reflexivity.
  - intros j J. assert (JU : (0 <= j * u)%Z) by (apply Z.mul_nonneg_nonneg; lia). replace (2 * IZR j) with (IZR (2 * j)) by (rewrite mult_IZR; ring). replace (IZR (2 * j) + 1) with (IZR (2 * j + 1)) by (rewrite plus_IZR; ring). replace (IZR (2 * j) + 2) with (IZR (2 * j + 2)) by (rewrite plus_IZR; ring). rewrite !LE, !LT.
    assert (M : forall r, (0 <= r < 2 * u)%Z -> n = (j * (2 * u) + r)%Z -> (n mod (2 * u))%Z = r) by (intros r R ->; rewrite Z.add_comm, Z.mod_add by lia; apply Z.mod_small, R). split; intros [H1 H2].
    + assert (a = false \/ n = 0%Z) as [->| ->] by (destruct a; cbn [signed] in *; [right; lia|left; reflexivity]); [cbn [signed] in *; rewrite (M (n - j * (2 * u))%Z) by nia; rewrite (proj2 (Z.ltb_lt _ _)) by nia; reflexivity|]. rewrite Z.mod_0_l by lia. destruct a; cbn [signed]; rewrite (proj2 (Z.ltb_lt _ _)) by lia; reflexivity.
    + assert (a = false) as -> by (destruct a; cbn [signed] in *; [exfalso; lia|reflexivity]). cbn [signed] in *. rewrite (M (n - j * (2 * u))%Z) by nia. rewrite (proj2 (Z.ltb_ge _ _)) by nia. reflexivity.
Qed.
Print Assumptions C94_square_wave.

Local Open Scope Z_scope.
Example C94_nonvacuous : let d := float_fmt in let i := fun k : Z => to_fnum d (k <? 0)%Z (VNum (Z.abs k) 1) in let q := fun a b => to_fnum d false (VNum a b) in
  f_wrap d (i 365) (i 0) (i 360) = i 5 /\ f_wrap d (i (-725)) (i (-180)) (i 180) = i (-5) /\ f_wrap d (i (-360)) (i 0) (i 360) = i 360 /\ f_square_wave d (q 5 2) = i 1 /\ f_square_wave d (q 7 2) = i (-1) /\ f_square_wave d (i (-3)) = i 1.
Proof. vm_compute. repeat split. Qed.
