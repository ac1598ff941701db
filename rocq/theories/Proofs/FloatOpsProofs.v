(* The operations on finite numbers: results that are not too large are finite
   and have a small error. *)
From Coq Require Import Reals Lra Lia ZArith List Bool.
From Verif Require Import Model.Base Model.FloatText Model.Ieee Model.FloatInterp Spec.FloatText Spec.Ieee Proofs.FloatTextProofs Proofs.IeeeProofs Proofs.IeeeErrorProofs Proofs.IeeeSqrtProofs Proofs.FloatInterpProofs Props.FloatAverage Props.FloatSqrt Props.FloatVec.
Local Open Scope R_scope.

Definition ulp (f : fmt) : R := / IZR (2 ^ fm_prec f).
Definition room (f : fmt) : R := IZR (2 ^ fm_top f) / 2.

Lemma ulp_small f : IEEE f -> 0 < ulp f <= / 1000 /\ unit_of f * 1000 <= ulp f.
Proof. intros I. destruct (prec_small f I) as (U & V & _). split; assumption. Qed.
Lemma top_pos f : Sane f -> 0 < IZR (2 ^ fm_top f).
Proof. intros [W1 W2]. apply IZR_lt, pow_pos_. lia. Qed.
Lemma room_large f : IEEE f -> IZR (2 ^ 60) <= room f.
Proof.
  intros I. unfold room. assert (IZR (2 ^ 61) <= IZR (2 ^ fm_top f)) by (apply IZR_le, Z.pow_le_mono_r; [lia|destruct I as [-> | ->]; cbn; lia]).
  replace (2 ^ 61)%Z with (2 * 2 ^ 60)%Z in H by reflexivity. rewrite mult_IZR in H. lra.
Qed.
Lemma correct_room f r x : IEEE f -> Correct f r x -> Rabs r <= room f -> Fin f x /\ Near f r (number f x).
Proof.
  intros I (g & N & C) B. pose proof (ieee_sane f I) as W. pose proof (top_pos f W) as T. destruct (ulp_small f I) as [U _]. unfold ulp in U.
  assert (G : Rabs g < IZR (2 ^ fm_top f)). { apply (below_top f r g W); [|exact N]. unfold room in B. nra. }
  destruct x as [|s|s n]; [contradiction|lra|]. destruct C as (F & -> & _). split; [exists s, n; auto|exact N].
Qed.
Lemma fin_grid f x : Fin f x -> Grid f (number f x).
Proof. intros (s & n & -> & F). exists s, n. split; [apply F|reflexivity]. Qed.
Lemma add_fin f x y : IEEE f -> Fin f x -> Fin f y -> Rabs (number f x + number f y) <= room f ->
  Fin f (f_add f x y) /\ Near f (number f x + number f y) (number f (f_add f x y)) /\ Rabs (number f (f_add f x y) - (number f x + number f y)) <= ulp f * Rabs (number f x + number f y).
Proof.
  intros I FX FY B. pose proof (ieee_sane f I) as W. pose proof FX as (a & n & EX & FN). pose proof FY as (b & m & EY & FM). subst x y. cbn [number] in *.
  destruct (correct_room f _ _ I (add_correct f a n b m W) B) as [F N]. split; [exact F|]. split; [exact N|]. rewrite Rmult_comm. exact (near_sum f a n b m _ W N).
Qed.
Lemma neg_fin f x : Fin f x -> Fin f (f_neg x) /\ number f (f_neg x) = - number f x.
Proof. intros (a & n & -> & F). split; [exists (negb a), n; auto|]. cbn [f_neg number]. apply val_neg. Qed.
Lemma sub_fin f x y : IEEE f -> Fin f x -> Fin f y -> Rabs (number f x - number f y) <= room f ->
  Fin f (f_sub f x y) /\ Near f (number f x - number f y) (number f (f_sub f x y)) /\ Rabs (number f (f_sub f x y) - (number f x - number f y)) <= ulp f * Rabs (number f x - number f y).
Proof. intros I FX FY B. destruct (neg_fin f y FY) as [FN E]. unfold f_sub, Rminus in *. rewrite <- E in *. exact (add_fin f x (f_neg y) I FX FN B). Qed.
Lemma mul_fin f x y : IEEE f -> Fin f x -> Fin f y -> Rabs (number f x * number f y) <= room f ->
  Fin f (f_mul f x y) /\ Near f (number f x * number f y) (number f (f_mul f x y)) /\ Rabs (number f (f_mul f x y) - number f x * number f y) <= ulp f * Rabs (number f x * number f y) + unit_of f / 2.
Proof.
  intros I FX FY B. pose proof (ieee_sane f I) as W. pose proof FX as (a & n & EX & FN). pose proof FY as (b & m & EY & FM). subst x y. cbn [number] in *.
  destruct (correct_room f _ _ I (mul_correct f a n b m W (rep_nonneg f n (proj1 FN)) (rep_nonneg f m (proj1 FM))) B) as [F N]. split; [exact F|]. split; [exact N|]. rewrite (Rmult_comm (ulp f)). exact (near_bound f _ _ W N).
Qed.
Lemma div_fin f x y : IEEE f -> Fin f x -> Fin f y -> number f y <> 0 -> Rabs (number f x / number f y) <= room f ->
  Fin f (f_div f x y) /\ Near f (number f x / number f y) (number f (f_div f x y)) /\ Rabs (number f (f_div f x y) - number f x / number f y) <= ulp f * Rabs (number f x / number f y) + unit_of f / 2.
Proof.
  intros I FX FY Z B. pose proof (ieee_sane f I) as W. pose proof FX as (a & n & EX & FN). pose proof FY as (b & m & EY & FM). subst x y. cbn [number] in *. pose proof (rep_nonneg f m (proj1 FM)) as M0.
  assert (M1 : (0 < m)%Z). { destruct (Z.eq_dec m 0) as [->|]; [|lia]. rewrite val_zero in Z. lra. }
  destruct (correct_room f _ _ I (div_correct f a n b m W (rep_nonneg f n (proj1 FN)) M1) B) as [F N]. split; [exact F|]. split; [exact N|]. rewrite (Rmult_comm (ulp f)). exact (near_bound f _ _ W N).
Qed.
(* whole numbers *)
Lemma int_correct f z : Sane f -> Correct f (IZR z) (f_of_int f z).
Proof.
  intros W. unfold f_of_int. pose proof (round_correct f (z <? 0)%Z (Z.abs z) 1 W ltac:(lia) ltac:(lia)) as C. replace ((if (z <? 0)%Z then - IZR (Z.abs z) else IZR (Z.abs z)) / 1) with (IZR z) in C; [exact C|].
  unfold Rdiv. rewrite Rinv_1, Rmult_1_r. destruct (Z.ltb_spec z 0); [rewrite Z.abs_neq, opp_IZR by lia; lra|rewrite Z.abs_eq by lia; reflexivity].
Qed.
Lemma grid_whole f z : Sane f -> (Z.abs z <= 2 ^ fm_prec f)%Z -> Grid f (IZR z).
Proof.
  intros W B. pose proof W as [W1 W2]. pose proof (unit_scale f W) as US. replace (IZR z) with (IZR (z * 2 ^ fm_low f) * unit_of f); [apply grid_int; [exact W|lia|exact B]|].
  rewrite mult_IZR. unfold unit_of. field. lra.
Qed.
Lemma int_fin f z : IEEE f -> (Z.abs z <= 2 ^ fm_prec f)%Z -> Fin f (f_of_int f z) /\ number f (f_of_int f z) = IZR z.
Proof.
  intros I B. pose proof (ieee_sane f I) as W. assert (R : Rabs (IZR z) <= room f).
  { rewrite <- abs_IZR. eapply Rle_trans; [|apply (room_large f I)]. apply IZR_le. etransitivity; [exact B|]. apply Z.pow_le_mono_r; [lia|]. destruct I as [-> | ->]; cbn; lia. }
  destruct (correct_room f _ _ I (int_correct f z W) R) as [F N]. split; [exact F|]. exact (near_exact f _ _ N (grid_whole f z W B)).
Qed.
