(* C92: bounds of float and double *)
From Coq Require Import Reals ZArith List Bool Lia Lra.
From Verif Require Import Model.Base Model.FloatText Model.Math Model.Ieee Model.FloatMath Spec.FloatText Spec.Ieee Proofs.FloatTextProofs Proofs.IeeeProofs Props.FloatOrder.
Import ListNotations.

(* the violation tells the side, with every rounding and at infinity *)
Theorem C92_violation : forall f lo hi v, IEEE f -> LessEq f lo hi ->
  (Less f v lo -> Less f (fb_violation f (mkFb lo hi) v) f_zero) /\
  (Less f hi v -> Less f f_zero (fb_violation f (mkFb lo hi) v)) /\
  (LessEq f lo v -> LessEq f v hi -> fb_violation f (mkFb lo hi) v = f_zero).
Proof.
  intros f lo hi v I L. pose proof (ieee_sane f I) as W. unfold fb_violation, f_gt. cbn [fb_lower fb_upper]. destruct (lt_reflect f v lo W) as [A|A]; [|destruct (lt_reflect f hi v W) as [B|B]].
  - split; [intros _; apply sub_negative; assumption|]. split.
    + intros H. exfalso. apply (less_not_lesseq f v lo A). apply lesseq_trans with hi; [exact L|apply less_lesseq, H].
    + intros H _. exfalso. apply (less_not_lesseq f v lo A H).
  - split; [contradiction|]. split; [intros _; apply sub_positive; assumption|]. intros _ H. exfalso. apply (less_not_lesseq f hi v B H).
  - split; [contradiction|]. split; [contradiction|]. reflexivity.
Qed.
Print Assumptions C92_violation.
(* between finite numbers it is the correctly rounded difference *)
Theorem C92_violation_value : forall f a n b m c k, IEEE f ->
  (Less f (FFin a n) (FFin b m) -> Correct f (val f a n - val f b m) (fb_violation f (mkFb (FFin b m) (FFin c k)) (FFin a n))) /\
  (LessEq f (FFin b m) (FFin c k) -> Less f (FFin c k) (FFin a n) -> Correct f (val f a n - val f c k) (fb_violation f (mkFb (FFin b m) (FFin c k)) (FFin a n))).
Proof.
  intros f a n b m c k I. pose proof (ieee_sane f I) as W. unfold fb_violation, f_gt. cbn [fb_lower fb_upper]. split.
  - intros L. rewrite (proj2 (lt_less f _ _ W) L). apply sub_correct, W.
  - intros L U. destruct (lt_reflect f (FFin a n) (FFin b m) W) as [A|A]; [exfalso; apply (less_not_lesseq f _ _ A); apply lesseq_trans with (FFin c k); [exact L|apply less_lesseq, U]|]. rewrite (proj2 (lt_less f _ _ W) U). apply sub_correct, W.
Qed.
Print Assumptions C92_violation_value.
Theorem C92_within_iff : forall f lo hi v, IEEE f -> LessEq f lo hi -> Num v ->
  (fb_is_within (mkFb lo hi) v = true <-> Same f (fb_violation f (mkFb lo hi) v) f_zero).
Proof.
  intros f lo hi v I L N. destruct (lesseq_num f lo hi L) as [NL NH]. destruct (C92_violation f lo hi v I L) as (V1 & V2 & V3). rewrite (proj2 (C91_between f v lo hi I)). split.
  - intros [A B]. rewrite (V3 A B). exists (Real (val f false 0)). split; reflexivity.
  - intros S. split; apply not_less; try assumption; intros X; [apply V1 in X|apply V2 in X]; apply less_not_same in X; apply X; [exact S|apply same_sym, S].
Qed.
Print Assumptions C92_within_iff.
Theorem C92_clamped : forall f lo hi v, IEEE f -> LessEq f lo hi -> Num v ->
  fb_is_within (mkFb lo hi) (fb_clamp (mkFb lo hi) v) = true /\ fb_violation f (mkFb lo hi) (fb_clamp (mkFb lo hi) v) = f_zero.
Proof.
  intros f lo hi v I L N. destruct (C91_clamp f v lo hi I N L) as (A & B & _). unfold fb_clamp. cbn [fb_lower fb_upper]. split; [apply (C91_between f _ lo hi I); auto|]. apply (C92_violation f lo hi); assumption.
Qed.
Print Assumptions C92_clamped.
(* nan is not within any bounds, but does not violate them either *)
Theorem C92_nan_refuted : forall f b, fb_is_within b FNan = false /\ fb_violation f b FNan = f_zero.
Proof. intros f [lo hi]. unfold fb_is_within, fb_violation, f_ge, f_gt. cbn [fb_lower fb_upper]. destruct lo, hi; split; reflexivity. Qed.
Print Assumptions C92_nan_refuted.

Lemma sub_mono f x y z : Sane f -> Valid f x -> Valid f y -> Valid f z -> LessEq f x y -> Num (f_sub f x z) -> Num (f_sub f y z) -> LessEq f (f_sub f x z) (f_sub f y z).
Proof.
  intros W VX VY VZ L NX NY. destruct (lesseq_num f x y L) as [N1 N2]. destruct z as [|c|c k].
  - exfalso. apply NX. destruct x; reflexivity.
  - unfold f_sub in *. cbn [f_neg] in *. destruct x as [|a|a n]; [exfalso; apply N1; reflexivity| |]; destruct y as [|b|b m]; try (exfalso; apply N2; reflexivity); cbn [f_add] in *;
      repeat match goal with |- context [Bool.eqb ?a ?b] => destruct (Bool.eqb_spec a b); subst; cbn in NX, NY end; try (exfalso; apply NX; reflexivity); try (exfalso; apply NY; reflexivity); apply lesseq_refl; discriminate.
  - unfold f_sub in *. cbn [f_neg] in *. destruct x as [|a|a n]; [exfalso; apply N1; reflexivity| |]; destruct y as [|b|b m]; try (exfalso; apply N2; reflexivity); cbn [f_add] in *.
    + exact L.
    + destruct a; [|exfalso; destruct L as [(p & q & P & Q & L)|(p & P & Q)]; cbn in *; subst; [contradiction|discriminate]].
      destruct (num_place f _ NY) as [q Q]. apply lesseq_iff. exists Below, q. split; [reflexivity|]. split; [exact Q|]. unfold xle. destruct q; cbn; auto.
    + destruct b; [exfalso; destruct L as [(p & q & P & Q & L)|(p & P & Q)]; cbn in *; subst; [contradiction|discriminate]|]. destruct (num_place f _ NX) as [q Q]. apply lesseq_iff. exists q, Above. split; [exact Q|]. split; [reflexivity|]. unfold xle. destruct q; cbn; auto.
    + apply (correct_mono f (val f a n + val f (negb c) k) _ (val f b m + val f (negb c) k)); [exact W|apply (add_correct f a n (negb c) k W)|apply (add_correct f b m (negb c) k W)|].
      apply Rplus_le_compat_r. apply lesseq_iff in L. destruct L as (p & q & -> & -> & [L|E]); [left; exact L|injection E as E; right; exact E].
Qed.
(* a greater value has a greater violation *)
Theorem C92_violation_mono : forall f lo hi v w, IEEE f -> Valid f lo -> Valid f hi -> Valid f v -> Valid f w -> LessEq f lo hi -> LessEq f v w ->
  LessEq f (fb_violation f (mkFb lo hi) v) (fb_violation f (mkFb lo hi) w).
Proof.
  intros f lo hi v w I VL VH VV VW L H. pose proof (ieee_sane f I) as W. destruct (lesseq_num f v w H) as [NV NW]. destruct (lesseq_num f lo hi L) as [NL NH].
  assert (SN : forall x y, Less f x y \/ Less f y x -> Num (f_sub f x y)) by (intros x y [Q|Q]; [apply (less_num f _ _ (sub_negative f x y W Q))|apply (less_num f _ _ (sub_positive f y x W Q))]).
  destruct (C92_violation f lo hi v I L) as (V1 & V2 & V3). destruct (C92_violation f lo hi w I L) as (W1 & W2 & W3).
  destruct (lt_reflect f v lo W) as [A|A]; [|destruct (lt_reflect f hi v W) as [B|B]].
  - destruct (lt_reflect f w lo W) as [C|C]; [|destruct (lt_reflect f hi w W) as [D|D]].
    + unfold fb_violation. cbn [fb_lower]. rewrite (proj2 (lt_less f v lo W) A), (proj2 (lt_less f w lo W) C). apply sub_mono; auto.
    + apply lesseq_trans with f_zero; apply less_lesseq; auto.
    + rewrite W3 by (apply not_less; assumption). apply less_lesseq; auto.
  - assert (D : Less f hi w) by (apply less_lesseq_trans with v; assumption). unfold fb_violation, f_gt. cbn [fb_lower fb_upper]. destruct (lt_reflect f v lo W) as [X|_]; [contradiction|]. destruct (lt_reflect f w lo W) as [X|_]; [exfalso; apply A; apply lesseq_less_trans with w; assumption|].
    rewrite (proj2 (lt_less f hi v W) B), (proj2 (lt_less f hi w W) D). apply sub_mono; auto.
  - rewrite V3 by (apply not_less; assumption). destruct (lt_reflect f hi w W) as [D|D]; [apply less_lesseq; auto|]. rewrite W3; [apply lesseq_refl; discriminate| |apply not_less; assumption]. apply lesseq_trans with v; [apply not_less; assumption|exact H].
Qed.
Print Assumptions C92_violation_mono.

Theorem C92_range : forall f lo hi, IEEE f ->
  (Less f lo hi -> Less f f_zero (fb_range f (mkFb lo hi))) /\ (Less f hi lo -> Less f (fb_range f (mkFb lo hi)) f_zero) /\
  (forall a n b m, lo = FFin a n -> hi = FFin b m -> Correct f (val f b m - val f a n) (fb_range f (mkFb lo hi)) /\ (Same f lo hi -> fb_range f (mkFb lo hi) = f_zero \/ fb_range f (mkFb lo hi) = FFin true 0)).
Proof.
  intros f lo hi I. pose proof (ieee_sane f I) as W. unfold fb_range. cbn [fb_lower fb_upper]. split; [apply sub_positive, W|]. split; [apply sub_negative, W|]. intros a n b m -> ->. split; [apply sub_correct, W|].
  intros (p & P & Q). cbn in P, Q. subst p. injection Q as Q. apply (val_eq f a n b m W) in Q. unfold f_sub. cbn [f_neg f_add]. replace (signed (negb a) n) with (- signed a n)%Z by (destruct a; cbn; lia). rewrite Q, Z.add_opp_diag_r. cbn [Z.eqb]. destruct (b && negb a); auto.
Qed.
Print Assumptions C92_range.
(* the range may be infinite though the bounds are not, and bounds that are both
   the same infinity have none *)
Theorem C92_range_refuted : forall f, IEEE f -> fb_range f (mkFb (f_lowest f) (f_max f)) = FInf false /\ forall a, fb_range f (mkFb (FInf a) (FInf a)) = FNan.
Proof. intros f [->| ->]; (split; [vm_compute; reflexivity|intros []; reflexivity]). Qed.
Print Assumptions C92_range_refuted.

Theorem C92_neg : forall f lo hi v, IEEE f -> let b := mkFb lo hi in
  fb_neg (fb_neg b) = b /\ fb_range f (fb_neg b) = fb_range f b /\ fb_is_within (fb_neg b) (f_neg v) = fb_is_within b v /\
  (LessEq f lo hi -> Less f v lo \/ Less f hi v -> fb_violation f (fb_neg b) (f_neg v) = f_neg (fb_violation f b v)).
Proof.
  intros f lo hi v I b. pose proof (ieee_sane f I) as W. subst b. unfold fb_neg, fb_range, fb_violation, fb_is_within, f_ge, f_gt. cbn [fb_lower fb_upper]. rewrite !neg_neg.
  assert (LT : forall x y, f_lt (f_neg x) (f_neg y) = f_lt y x) by (intros x y; apply eq_true_iff_eq; rewrite !(lt_less f _ _ W); symmetry; apply neg_less).
  assert (LE : forall x y, f_le (f_neg x) (f_neg y) = f_le y x) by (intros x y; apply eq_true_iff_eq; rewrite !(le_lesseq f _ _ W); symmetry; apply neg_lesseq).
  split; [reflexivity|]. split; [unfold f_sub; rewrite neg_neg; apply add_comm|]. split; [rewrite !LE; apply andb_comm|]. intros L H. rewrite !LT.
  destruct (lt_reflect f hi v W) as [B|B], (lt_reflect f v lo W) as [A|A].
  - exfalso. apply (less_not_lesseq f v lo A). apply lesseq_trans with hi; [exact L|apply less_lesseq, B].
  - unfold f_sub. symmetry. apply neg_add. intros S. apply (less_not_same f _ _ (sub_positive f hi v W B)). apply same_sym, S.
  - unfold f_sub. symmetry. apply neg_add. apply less_not_same. apply (sub_negative f v lo W A).
  - exfalso. destruct H; contradiction.
Qed.
Print Assumptions C92_neg.
(* the violation added to the bound need not give the value *)
Theorem C92_add_back_refuted : exists v lo hi, Valid float_fmt v /\ Less float_fmt v lo /\ LessEq float_fmt lo hi /\ ~ Same float_fmt (f_add float_fmt lo (fb_violation float_fmt (mkFb lo hi) v)) v.
Proof.
  assert (I : IEEE float_fmt) by (right; reflexivity). pose proof (ieee_sane _ I) as W. exists (FFin true 1), (f_one float_fmt), (f_one float_fmt). split; [apply (unit_finite _ W)|]. split; [apply (lt_less _ _ _ W); reflexivity|]. split; [apply lesseq_refl; discriminate|].
  intros S. apply (eq_same _ _ _ W) in S. vm_compute in S. discriminate.
Qed.
Print Assumptions C92_add_back_refuted.

Example C92_nonvacuous : let d := float_fmt in let i := fun k : Z => to_fnum d (k <? 0)%Z (VNum (Z.abs k) 1) in
  fb_violation d (mkFb (i 2%Z) (i 5%Z)) (i 7%Z) = i 2%Z /\ fb_violation d (mkFb (i 2%Z) (i 5%Z)) (FInf true) = FInf true /\ fb_violation d (mkFb (i 2%Z) (i 5%Z)) (i 3%Z) = f_zero /\
  fb_violation d (mkFb (FFin false 3) (i 5%Z)) (FFin false 2) = FFin true 1 /\ fb_range d (mkFb (i 2%Z) (i 5%Z)) = i 3%Z.
Proof. vm_compute. repeat split. Qed.
