(* C91: the comparing functions of flut/math on float and double *)
From Coq Require Import Reals ZArith List Bool Lia.
From Verif Require Import Model.Base Model.FloatText Model.Math Model.Ieee Model.FloatMath Spec.FloatText Spec.Ieee Proofs.FloatTextProofs Proofs.IeeeProofs.
Import ListNotations.

(* r is the smallest (greatest) of the numbers among l *)
Definition Least (f : fmt) (l : list fnum) (r : fnum) : Prop := In r l /\ Num r /\ forall x, In x l -> Num x -> LessEq f r x.
Definition Greatest (f : fmt) (l : list fnum) (r : fnum) : Prop := In r l /\ Num r /\ forall x, In x l -> Num x -> LessEq f x r.

Lemma finite_form f : Sane f -> forall r, (exists a n, Finite f n /\ r = val f a n) <-> exists m e, (Z.abs m < 2 ^ fm_prec f)%Z /\ (0 <= e <= fm_top f + fm_low f - fm_prec f)%Z /\ r = (IZR (m * 2 ^ e) / IZR (2 ^ fm_low f))%R.
Proof.
  intros [W1 W2] r. pose proof (pow_pos_ (fm_prec f) ltac:(lia)) as PP. split.
  - intros (a & n & [(m & e & E & M & ->) F] & ->). destruct (Z.le_gt_cases e (fm_top f + fm_low f - fm_prec f)) as [G|G].
    + exists (signed a m), e. split; [destruct a; cbn; lia|]. split; [lia|]. rewrite val_signed. unfold Rdiv, unit_of. do 2 f_equal. destruct a; cbn; ring.
    + set (l := (fm_top f + fm_low f - fm_prec f)%Z) in *. pose proof (pow_pos_ (e - l) ltac:(lia)) as P. pose proof (pow_pos_ l ltac:(lia)) as PL. exists (signed a (m * 2 ^ (e - l))), l. assert (EE : (2 ^ e = 2 ^ (e - l) * 2 ^ l)%Z) by (rewrite <- Z.pow_add_r by lia; f_equal; lia). rewrite EE in F |- *.
      replace (fm_top f + fm_low f)%Z with (fm_prec f + l)%Z in F at 1 by (unfold l; lia). rewrite Z.pow_add_r in F by lia. rewrite Z.mul_assoc in F. apply Z.mul_lt_mono_pos_r in F; [|exact PL]. split; [destruct a; cbn [signed]; nia|]. split; [lia|]. rewrite val_signed. unfold Rdiv, unit_of. do 2 f_equal. destruct a; cbn [signed]; ring.
  - intros (m & e & M & E & ->). exists (m <? 0)%Z, (Z.abs m * 2 ^ e)%Z. pose proof (pow_pos_ e ltac:(lia)) as P. split.
    + split; [exists (Z.abs m), e; lia|]. pose proof (Z.pow_le_mono_r 2 e (fm_top f + fm_low f - fm_prec f) ltac:(lia) ltac:(lia)) as Q. replace (fm_top f + fm_low f)%Z with (fm_prec f + (fm_top f + fm_low f - fm_prec f))%Z at 1 by lia. rewrite Z.pow_add_r by lia. nia.
    + rewrite val_signed. unfold Rdiv, unit_of. do 2 f_equal. destruct (Z.ltb_spec m 0); cbn [signed]; lia.
Qed.
(* the finite numbers of double and float, and their values: whole numbers of 53
   and 24 bits times powers of two from 2^-1074 to 2^971 and 2^-149 to 2^104 *)
Theorem C91_formats : forall r : R,
  ((exists a n, Finite double_fmt n /\ r = val double_fmt a n) <-> exists m e, (Z.abs m < 2 ^ 53)%Z /\ (0 <= e <= 971 + 1074)%Z /\ r = (IZR (m * 2 ^ e) / IZR (2 ^ 1074))%R) /\
  ((exists a n, Finite float_fmt n /\ r = val float_fmt a n) <-> exists m e, (Z.abs m < 2 ^ 24)%Z /\ (0 <= e <= 104 + 149)%Z /\ r = (IZR (m * 2 ^ e) / IZR (2 ^ 149))%R).
Proof. intros r. split; [apply (finite_form double_fmt)|apply (finite_form float_fmt)]; apply ieee_sane; [left|right]; reflexivity. Qed.
Print Assumptions C91_formats.

Theorem C91_clamp : forall f v lo hi, IEEE f -> Num v -> LessEq f lo hi ->
  LessEq f lo (f_clamp v lo hi) /\ LessEq f (f_clamp v lo hi) hi /\
  (Less f v lo -> f_clamp v lo hi = lo) /\ (Less f hi v -> f_clamp v lo hi = hi) /\ (LessEq f lo v -> LessEq f v hi -> f_clamp v lo hi = v).
Proof.
  intros f v lo hi I N L. pose proof (ieee_sane f I) as W. destruct (lesseq_num f lo hi L) as [NL NH]. unfold f_clamp, clamp. destruct (lt_reflect f v lo W) as [A|A]; [|destruct (lt_reflect f hi v W) as [B|B]].
  - split; [apply lesseq_refl, NL|]. split; [exact L|]. split; [reflexivity|]. split.
    + intros H. exfalso. apply (less_not_lesseq f v lo A). apply lesseq_trans with hi; [exact L|apply less_lesseq, H].
    + intros H _. exfalso. apply (less_not_lesseq f v lo A H).
  - split; [exact L|]. split; [apply lesseq_refl, NH|]. split; [contradiction|]. split; [reflexivity|]. intros _ H. exfalso. apply (less_not_lesseq f hi v B H).
  - split; [apply not_less; assumption|]. split; [apply not_less; assumption|]. split; [contradiction|]. split; [contradiction|]. reflexivity.
Qed.
Print Assumptions C91_clamp.
Theorem C91_clamp_mono : forall f v w lo hi, IEEE f -> LessEq f lo hi -> LessEq f v w -> LessEq f (f_clamp v lo hi) (f_clamp w lo hi).
Proof.
  intros f v w lo hi I L H. destruct (lesseq_num f v w H) as [NV NW]. destruct (lesseq_num f lo hi L) as [NL NH]. pose proof (ieee_sane f I) as W. destruct (C91_clamp f w lo hi I NW L) as (W1 & W2 & _). unfold f_clamp at 1, clamp.
  destruct (lt_reflect f v lo W) as [A|A]; [exact W1|]. destruct (lt_reflect f hi v W) as [B|B].
  - unfold f_clamp, clamp. destruct (lt_reflect f w lo W) as [C|C]; [exfalso; apply A, (lesseq_less_trans f v w lo H C)|]. destruct (lt_reflect f hi w W) as [D|D]; [apply lesseq_refl, NH|]. exfalso. apply D. apply (less_lesseq_trans f hi v w B H).
  - unfold f_clamp, clamp. destruct (lt_reflect f w lo W) as [C|C]; [exfalso; apply A, (lesseq_less_trans f v w lo H C)|]. destruct (lt_reflect f hi w W) as [D|D]; [|exact H]. apply not_less; assumption.
Qed.
Print Assumptions C91_clamp_mono.
(* twice is once, for any value and bounds in order *)
Theorem C91_clamp_twice : forall f v lo hi, IEEE f -> LessEq f lo hi -> f_clamp (f_clamp v lo hi) lo hi = f_clamp v lo hi.
Proof.
  intros f v lo hi I L. destruct v as [|a|a n]; [unfold f_clamp, clamp; cbn [f_lt]; destruct hi; reflexivity| |].
  - destruct (C91_clamp f (FInf a) lo hi I ltac:(discriminate) L) as (A & B & _). destruct (lesseq_num f _ _ B) as [N _]. apply (C91_clamp f _ lo hi I N L); assumption.
  - destruct (C91_clamp f (FFin a n) lo hi I ltac:(discriminate) L) as (A & B & _). destruct (lesseq_num f _ _ B) as [N _]. apply (C91_clamp f _ lo hi I N L); assumption.
Qed.
Print Assumptions C91_clamp_twice.
(* nan is not clamped, and a bound that is nan does not count *)
Theorem C91_clamp_nan_refuted : forall f v lo hi, IEEE f ->
  f_clamp FNan lo hi = FNan /\
  (Less f hi v -> f_clamp v FNan hi = hi) /\ (~ Less f hi v -> f_clamp v FNan hi = v) /\
  (Less f v lo -> f_clamp v lo FNan = lo) /\ (~ Less f v lo -> f_clamp v lo FNan = v).
Proof.
  intros f v lo hi I. pose proof (ieee_sane f I) as W.
  assert (N1 : forall x, f_lt x FNan = false) by (intros [|a|a n]; reflexivity). assert (N2 : forall x, f_lt FNan x = false) by (intros [|a|a n]; reflexivity).
  split; [unfold f_clamp, clamp; rewrite N1, N2; reflexivity|]. unfold f_clamp, clamp. rewrite N1, N2. destruct (lt_reflect f hi v W), (lt_reflect f v lo W); repeat split; intros; (reflexivity || contradiction).
Qed.
Print Assumptions C91_clamp_nan_refuted.

Theorem C91_between : forall f v lo hi, IEEE f -> (f_is_between v lo hi = true <-> LessEq f lo v /\ LessEq f v hi) /\
  (fb_is_within (mkFb lo hi) v = true <-> LessEq f lo v /\ LessEq f v hi).
Proof.
  intros f v lo hi I. pose proof (ieee_sane f I) as W. unfold f_is_between, fb_is_within, f_ge. cbn [fb_lower fb_upper]. rewrite andb_true_iff, !(le_lesseq f _ _ W). tauto.
Qed.
Print Assumptions C91_between.
Theorem C91_sign : forall f v, IEEE f -> (LessEq f f_zero v -> f_sign f v = f_one f) /\ (~ LessEq f f_zero v -> f_sign f v = f_neg (f_one f)) /\
  f_sign f FNan = f_neg (f_one f) /\ f_sign f (FFin true 0) = f_one f.
Proof.
  intros f v I. pose proof (ieee_sane f I) as W. unfold f_sign, f_ge. destruct (le_reflect f f_zero v W); repeat split; intros; (reflexivity || contradiction).
Qed.
Print Assumptions C91_sign.

Lemma smaller_step f v x l : Sane f -> Num v -> forall r, Least f (f_set_if_smaller v x :: l) r -> Least f (v :: x :: l) r.
Proof.
  intros W N r (I & NR & M). unfold f_set_if_smaller in *. destruct (lt_reflect f x v W) as [A|A].
  - split; [right; exact I|]. split; [exact NR|]. intros y [<-|Y] NY; [|apply M; assumption]. apply lesseq_trans with x; [apply M; [left; reflexivity|apply (less_num f x v A)]|apply less_lesseq, A].
  - split; [destruct I as [<-|I]; [left; reflexivity|right; right; exact I]|]. split; [exact NR|]. intros y [<-|[<-|Y]] NY; [apply M; [left; reflexivity|exact NY]| |apply M; [right; exact Y|exact NY]].
    apply lesseq_trans with v; [apply M; [left; reflexivity|exact N]|apply not_less; assumption].
Qed.
Lemma bigger_step f v x l : Sane f -> Num v -> forall r, Greatest f (f_set_if_bigger v x :: l) r -> Greatest f (v :: x :: l) r.
Proof.
  intros W N r (I & NR & M). unfold f_set_if_bigger, f_gt in *. destruct (lt_reflect f v x W) as [A|A].
  - split; [right; exact I|]. split; [exact NR|]. intros y [<-|Y] NY; [|apply M; assumption]. apply lesseq_trans with x; [apply less_lesseq, A|apply M; [left; reflexivity|apply (less_num f v x A)]].
  - split; [destruct I as [<-|I]; [left; reflexivity|right; right; exact I]|]. split; [exact NR|]. intros y [<-|[<-|Y]] NY; [apply M; [left; reflexivity|exact NY]| |apply M; [right; exact Y|exact NY]].
    apply lesseq_trans with v; [apply not_less; assumption|apply M; [left; reflexivity|exact N]].
Qed.
(* set_if_smaller and set_if_bigger, over any values: the extreme one, where nan
   does not count *)
Theorem C91_extremes : forall f l v, IEEE f -> Num v -> Least f (v :: l) (fold_left f_set_if_smaller l v) /\ Greatest f (v :: l) (fold_left f_set_if_bigger l v).
Proof.
  intros f l v I N. pose proof (ieee_sane f I) as W. split; revert v N; induction l as [|x l IH]; intros v N; cbn [fold_left].
  1, 3: split; [left; reflexivity|]; split; [exact N|]; intros y [<-|[]] NY; apply lesseq_refl, NY.
  - apply (smaller_step f v x l W N), IH. unfold f_set_if_smaller. destruct (lt_reflect f x v W) as [A|A]; [apply (less_num f x v A)|exact N].
  - apply (bigger_step f v x l W N), IH. unfold f_set_if_bigger, f_gt. destruct (lt_reflect f v x W) as [A|A]; [apply (less_num f v x A)|exact N].
Qed.
Print Assumptions C91_extremes.
(* but a value that is nan is never replaced *)
Theorem C91_extremes_nan_refuted : forall l, fold_left f_set_if_smaller l FNan = FNan /\ fold_left f_set_if_bigger l FNan = FNan.
Proof. induction l as [|x l [IH1 IH2]]; [split; reflexivity|]. cbn [fold_left]. destruct x as [|a|a n]; split; assumption. Qed.
Print Assumptions C91_extremes_nan_refuted.

(* a coordinate of everything that was added to a box *)
Definition axis (g : f_vec -> fnum) : Prop := g = fv_x \/ g = fv_y \/ g = fv_z.
Definition lows (g : f_vec -> fnum) (l : list f_item) : list fnum := map (fun i => match i with FPoint p => g p | FWhole c => g (fx_lower c) end) l.
Definition highs (g : f_vec -> fnum) (l : list f_item) : list fnum := map (fun i => match i with FPoint p => g p | FWhole c => g (fx_upper c) end) l.
Lemma box_axis g l : axis g -> forall b, g (fx_lower (fx_include_all b l)) = fold_left f_set_if_smaller (lows g l) (g (fx_lower b)) /\
  g (fx_upper (fx_include_all b l)) = fold_left f_set_if_bigger (highs g l) (g (fx_upper b)).
Proof.
  intros A. induction l as [|i l IH]; intros b; [split; reflexivity|]. unfold fx_include_all in *. cbn [fold_left lows highs map]. destruct (IH (fx_include b i)) as [-> ->]. destruct A as [->|[->| ->]]; destruct i; split; reflexivity.
Qed.
Theorem C91_box : forall f g l b, IEEE f -> axis g -> Num (g (fx_lower b)) -> Num (g (fx_upper b)) ->
  Least f (g (fx_lower b) :: lows g l) (g (fx_lower (fx_include_all b l))) /\ Greatest f (g (fx_upper b) :: highs g l) (g (fx_upper (fx_include_all b l))).
Proof. intros f g l b I A NL NU. destruct (box_axis g l A b) as [-> ->]. split; apply C91_extremes; assumption. Qed.
Print Assumptions C91_box.
Lemma max_finite f : IEEE f -> Finite f ((2 ^ fm_prec f - 1) * 2 ^ (fm_top f + fm_low f - fm_prec f)).
Proof.
  intros I. pose proof (ieee_sane f I) as [W1 W2]. pose proof (pow_pos_ (fm_prec f) ltac:(lia)). pose proof (pow_pos_ (fm_top f + fm_low f - fm_prec f) ltac:(lia)). split.
  - exists (2 ^ fm_prec f - 1)%Z, (fm_top f + fm_low f - fm_prec f)%Z. lia.
  - replace (fm_top f + fm_low f)%Z with (fm_prec f + (fm_top f + fm_low f - fm_prec f))%Z at 2 by lia. rewrite (Z.pow_add_r 2 (fm_prec f)) by lia. nia.
Qed.
(* max is the largest finite number, lowest the smallest *)
Theorem C91_max : forall f neg n, IEEE f -> Finite f n -> LessEq f (FFin neg n) (f_max f) /\ LessEq f (f_lowest f) (FFin neg n) /\ Valid f (f_max f) /\ Valid f (f_lowest f).
Proof.
  intros f neg n I F. pose proof (ieee_sane f I) as W. assert (K : forall neg, LessEq f (FFin neg n) (f_max f)).
  { intros s. unfold f_max. apply lesseq_iff. do 2 eexists. split; [reflexivity|]. split; [reflexivity|]. assert (L : (val f s n <= val f false ((2 ^ fm_prec f - 1) * 2 ^ (fm_top f + fm_low f - fm_prec f)))%R).
    { apply val_le; [exact W|]. destruct W as [W1 W2]. destruct F as [(m & e & E & M & ->) F]. pose proof (pow_pos_ e E). pose proof (pow_pos_ (fm_prec f) ltac:(lia)). pose proof (pow_pos_ (fm_top f + fm_low f - fm_prec f) ltac:(lia)).
      apply Z.le_trans with (m * 2 ^ e)%Z; [destruct s; cbn; nia|]. cbn [signed]. destruct (Z.le_gt_cases e (fm_top f + fm_low f - fm_prec f)) as [G|G]; [apply Z.mul_le_mono_nonneg; try lia; apply Z.pow_le_mono_r; lia|].
      replace e with (e - (fm_top f + fm_low f - fm_prec f) + (fm_top f + fm_low f - fm_prec f))%Z in * by lia. set (d := (e - (fm_top f + fm_low f - fm_prec f))%Z) in *. rewrite Z.pow_add_r in * by lia.
      replace (fm_top f + fm_low f)%Z with (fm_prec f + (fm_top f + fm_low f - fm_prec f))%Z in F at 2 by lia. rewrite (Z.pow_add_r 2 (fm_prec f)) in F by lia. rewrite Z.mul_assoc in *. apply Z.mul_le_mono_nonneg_r; [lia|]. apply Zmult_lt_reg_r in F; lia. }
    destruct L as [L|L]; [left; exact L|right; f_equal; exact L]. }
  split; [apply K|]. split; [apply neg_lesseq; unfold f_lowest; destruct neg; [apply (K false)|apply (K true)]|]. split; apply (max_finite f I).
Qed.
Print Assumptions C91_max.
(* the box of points and boxes: on each axis where one coordinate is a number
   that is not infinite on the wrong side, the extreme coordinates *)
Theorem C91_box_tight : forall f g l, IEEE f -> axis g -> let b := fx_include_all (fx_default f) l in
  ((exists x, In x (lows g l) /\ LessEq f x (f_max f)) -> (exists y, In y (lows g l) /\ Same f y (g (fx_lower b))) /\ forall z, In z (lows g l) -> Num z -> LessEq f (g (fx_lower b)) z) /\
  ((exists x, In x (highs g l) /\ LessEq f (f_lowest f) x) -> (exists y, In y (highs g l) /\ Same f y (g (fx_upper b))) /\ forall z, In z (highs g l) -> Num z -> LessEq f z (g (fx_upper b))).
Proof.
  intros f g l I A b. assert (D : g (fx_lower (fx_default f)) = f_max f /\ g (fx_upper (fx_default f)) = f_lowest f) by (destruct A as [->|[->| ->]]; split; reflexivity). destruct D as [D1 D2].
  destruct (C91_box f g l (fx_default f) I A) as [(L1 & L2 & L3) (U1 & U2 & U3)]; [rewrite D1; discriminate|rewrite D2; discriminate|]. fold b in L1, L2, L3, U1, U2, U3. rewrite D1 in *. rewrite D2 in *. split.
  - intros (x & X & LX). split; [|intros z Z NZ; apply L3; [right; exact Z|exact NZ]]. destruct L1 as [L1|L1]; [|exists (g (fx_lower b)); split; [exact L1|]; destruct (num_place f _ L2) as [p P]; exists p; auto].
    exists x. split; [exact X|]. apply lesseq_antisym; [rewrite <- L1; exact LX|]. apply L3; [right; exact X|]. apply (lesseq_num f x _ LX).
  - intros (x & X & LX). split; [|intros z Z NZ; apply U3; [right; exact Z|exact NZ]]. destruct U1 as [U1|U1]; [|exists (g (fx_upper b)); split; [exact U1|]; destruct (num_place f _ U2) as [p P]; exists p; auto].
    exists x. split; [exact X|]. apply lesseq_antisym; [|rewrite <- U1; exact LX]. apply U3; [right; exact X|]. apply (lesseq_num f _ x LX).
Qed.
Print Assumptions C91_box_tight.
(* a point at infinity is not in its box, and a box that was made of a point
   that is nan holds nothing ever after *)
Theorem C91_box_infinite_refuted : forall f, IEEE f -> let p := mkFv (FInf false) (FInf false) (FInf false) in
  Less f (fv_x (fx_lower (fx_include_all (fx_default f) [FPoint p]))) (fv_x p).
Proof. intros f I p. pose proof (ieee_sane f I) as W. apply (lt_less f _ _ W). reflexivity. Qed.
Print Assumptions C91_box_infinite_refuted.
Theorem C91_box_nan_refuted : forall g l p, axis g -> g p = FNan -> g (fx_lower (fx_include_all (fx_of_point p) l)) = FNan /\ g (fx_upper (fx_include_all (fx_of_point p) l)) = FNan.
Proof. intros g l p A N. destruct (box_axis g l A (fx_of_point p)) as [-> ->]. cbn [fx_of_point fx_lower fx_upper]. rewrite N. split; apply C91_extremes_nan_refuted. Qed.
Print Assumptions C91_box_nan_refuted.

Example C91_nonvacuous : let d := float_fmt in let i := fun k : Z => to_fnum d (k <? 0)%Z (VNum (Z.abs k) 1) in
  f_clamp (i 7%Z) (i (-2)%Z) (i 5%Z) = i 5%Z /\ f_clamp (FInf true) (i (-2)%Z) (i 5%Z) = i (-2)%Z /\ f_clamp (FFin true 0) (i 0%Z) (i 5%Z) = FFin true 0 /\
  f_is_between FNan (i (-2)%Z) (i 5%Z) = false /\ f_sign d (i (-3)%Z) = i (-1)%Z /\
  fv_y (fx_upper (fx_include_all (fx_default d) [FPoint (mkFv (i 1%Z) (i 2%Z) (i 3%Z)); FPoint (mkFv (i 0%Z) FNan (i 9%Z)); FPoint (mkFv (i (-1)%Z) (i (-5)%Z) FNan)])) = i 2%Z /\
  fv_z (fx_upper (fx_include_all (fx_default d) [FPoint (mkFv (i 1%Z) (i 2%Z) (i 3%Z)); FPoint (mkFv (i 0%Z) FNan (i 9%Z)); FPoint (mkFv (i (-1)%Z) (i (-5)%Z) FNan)])) = i 9%Z.
Proof. vm_compute. repeat split. Qed.
