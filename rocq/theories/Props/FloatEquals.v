(* C93: equals of flut/math on float and double *)
From Coq Require Import Reals ZArith List Bool Lia Lra.
From Verif Require Import Model.Base Model.FloatText Model.Math Model.Ieee Model.FloatMath Spec.FloatText Spec.Ieee Proofs.FloatTextProofs Proofs.IeeeProofs Proofs.IeeeErrorProofs.
Local Open Scope R_scope.

Lemma near_rabs f r g : Sane f -> Near f r g -> Near f (Rabs r) (Rabs g).
Proof.
  intros W N. destruct (Rle_lt_dec 0 r) as [P|P].
  - assert (0 <= g) by (apply (near_mono f 0 0 r g (near_zero f W) N P)). rewrite !Rabs_right by lra. exact N.
  - assert (g <= 0) by (apply (near_mono f r g 0 0 N (near_zero f W)); lra). rewrite !Rabs_left1 by lra. apply near_opp, N.
Qed.
Lemma abs_correct f r x : Sane f -> Correct f r x -> Correct f (Rabs r) (f_abs x).
Proof.
  intros W (g & N & H). exists (Rabs g). split; [apply near_rabs; assumption|]. destruct x as [|a|a n]; cbn [f_abs]; [contradiction| |].
  - destruct H as [H1 H2]. rewrite Rabs_Rabsolu. split; [exact H1|]. destruct a; apply Rabs_pos_lt; lra.
  - destruct H as (H1 & H2 & H3). split; [exact H1|]. split; [|apply Rabs_pos]. rewrite H2. destruct H1 as [H1 _]. pose proof (rep_nonneg f n H1) as P. rewrite (val_abs f a n W P). reflexivity.
Qed.
Lemma val_false f a n : Sane f -> (0 <= n)%Z -> val f false n = Rabs (val f a n).
Proof. intros W P. rewrite (val_abs f a n W P). reflexivity. Qed.
Lemma fin_pos f a n : Valid f (FFin a n) -> (0 <= n)%Z.
Proof. intros [R _]. apply (rep_nonneg f n R). Qed.
(* the two sides of the comparison *)
Lemma equals_sides f a n b m k : Sane f -> Valid f (FFin a n) -> Valid f (FFin b m) -> Valid f (FFin false k) ->
  exists x y, Correct f (Rabs (val f a n - val f b m)) x /\ Correct f (Rabs (val f a n) * val f false k) y /\ (f_equals f (FFin a n) (FFin b m) (FFin false k) = true <-> LessEq f x y).
Proof.
  intros W VA VB VE. exists (f_abs (f_sub f (FFin a n) (FFin b m))), (f_mul f (FFin false n) (FFin false k)). split; [apply abs_correct, sub_correct; exact W|]. split.
  - rewrite <- (val_false f a n W (fin_pos f a n VA)). apply mul_correct; [exact W|exact (fin_pos f a n VA)|exact (fin_pos f false k VE)].
  - unfold f_equals. cbn [f_abs]. apply le_lesseq, W.
Qed.

(* numbers that are close enough are found so *)
Theorem C93_complete : forall f a n b m k, IEEE f -> Valid f (FFin a n) -> Valid f (FFin b m) -> Valid f (FFin false k) ->
  Rabs (val f a n - val f b m) <= Rabs (val f a n) * val f false k -> f_equals f (FFin a n) (FFin b m) (FFin false k) = true.
Proof.
  intros f a n b m k I VA VB VE H. pose proof (ieee_sane f I) as W. destruct (equals_sides f a n b m k W VA VB VE) as (x & y & X & Y & E). apply E. apply (correct_mono f _ x _ y W X Y H).
Qed.
Print Assumptions C93_complete.
Lemma correct_le_fin f r x a n : Sane f -> Correct f r x -> Finite f n -> 0 <= r <= val f a n -> exists neg m, x = FFin neg m.
Proof.
  intros W C F B. pose proof (correct_mono f _ _ _ _ W C (correct_fin f a n W F) ltac:(lra)) as L. destruct x as [|s|s m]; [exfalso; apply (correct_num _ _ _ C); reflexivity| |eauto]. exfalso. destruct C as (g & N & G & S). destruct s; [lra|]. destruct L as [(p & q & P & Q & L)|(p & P & Q)]; cbn in *; subst; [contradiction|discriminate].
Qed.
Lemma lesseq_fin f a n b m : LessEq f (FFin a n) (FFin b m) -> val f a n <= val f b m.
Proof. intros [(p & q & P & Q & L)|(p & P & Q)]; cbn in *; subst; [cbn in L; lra|]. injection Q as Q. lra. Qed.
Lemma equals_grid f a n b m k : Sane f -> Valid f (FFin a n) -> Valid f (FFin b m) -> Valid f (FFin false k) -> val f false k <= 1 -> f_equals f (FFin a n) (FFin b m) (FFin false k) = true ->
  exists g h, Near f (Rabs (val f a n - val f b m)) g /\ Near f (Rabs (val f a n) * val f false k) h /\ g <= h.
Proof.
  intros W VA VB VE E1 H. destruct (equals_sides f a n b m k W VA VB VE) as (x & y & X & Y & E). apply E in H. pose proof (Rabs_pos (val f a n)) as AP. assert (EP : 0 <= val f false k) by (rewrite <- (val_zero f false); apply val_le; [exact W|]; cbn; apply (fin_pos f false k VE)).
  destruct (correct_le_fin f _ y false n W Y VA) as (s & q & ->); [rewrite (val_false f a n W (fin_pos f a n VA)); nra|].
  destruct x as [|t|t j]; [exfalso; apply (correct_num _ _ _ X); reflexivity| |].
  - exfalso. destruct X as (g & N & G & S). pose proof (Rabs_pos (val f a n - val f b m)). destruct t; [lra|]. destruct H as [(p & p' & P & P' & L)|(p & P & P')]; cbn in *; subst; [contradiction|discriminate].
  - apply lesseq_fin in H. destruct X as (g & N & F & -> & _). destruct Y as (h & M & F' & -> & _). do 2 eexists. split; [exact N|]. split; [exact M|exact H].
Qed.
(* numbers that are found equal are close, but for the roundings of both sides *)
Theorem C93_sound : forall f a n b m k, IEEE f -> Valid f (FFin a n) -> Valid f (FFin b m) -> Valid f (FFin false k) -> val f false k <= 1 ->
  f_equals f (FFin a n) (FFin b m) (FFin false k) = true ->
  Rabs (val f a n - val f b m) * (1 - / IZR (2 ^ fm_prec f)) <= Rabs (val f a n) * val f false k * (1 + / IZR (2 ^ fm_prec f)) + unit_of f / 2.
Proof.
  intros f a n b m k I VA VB VE E1 H. pose proof (ieee_sane f I) as W. destruct (equals_grid f a n b m k W VA VB VE E1 H) as (g & h & G & K & L).
  assert (B1 : Rabs (g - Rabs (val f a n - val f b m)) <= Rabs (val f a n - val f b m) * / IZR (2 ^ fm_prec f)).
  { rewrite !val_signed in *. replace (IZR (signed a n) * unit_of f - IZR (signed b m) * unit_of f) with (IZR (signed a n - signed b m) * unit_of f) in * by (rewrite minus_IZR; ring).
    assert (R : Rabs (IZR (signed a n - signed b m) * unit_of f) = IZR (Z.abs (signed a n - signed b m)) * unit_of f) by (rewrite Rabs_mult, abs_IZR, (Rabs_right (unit_of f)) by (pose proof (unit_pos f W); lra); reflexivity).
    rewrite R in *. pose proof (near_units f _ g W G) as B. rewrite <- R in B at 2. rewrite Rabs_Rabsolu, R in B. exact B. }
  pose proof (near_bound f _ h W K) as B2. assert (EP : 0 <= val f false k) by (rewrite <- (val_zero f false); apply val_le; [exact W|]; cbn; apply (fin_pos f false k VE)). pose proof (Rabs_pos (val f a n)) as AP. assert (PP : 0 <= Rabs (val f a n) * val f false k) by nra.
  rewrite (Rabs_right (Rabs (val f a n) * val f false k)) in B2 by lra. unfold Rdiv in B2 at 1. unfold Rabs in B1 at 1. unfold Rabs in B2 at 1. destruct (Rcase_abs (g - _)), (Rcase_abs (h - _)); lra.
Qed.
Print Assumptions C93_sound.
(* exactly the finite numbers equal themselves *)
Theorem C93_reflexive : forall f v k, IEEE f -> Valid f v -> Valid f (FFin false k) -> (f_equals f v v (FFin false k) = true <-> exists a n, v = FFin a n).
Proof.
  intros f v k I V VE. split.
  - destruct v as [|[]|a n]; [discriminate|discriminate|discriminate|eauto].
  - intros (a & n & ->). apply C93_complete; try assumption. rewrite Rminus_diag_eq, Rabs_R0 by reflexivity. pose proof (ieee_sane f I) as W. apply Rmult_le_pos; [apply Rabs_pos|]. rewrite <- (val_zero f false). apply val_le; [exact W|]. cbn. apply (fin_pos f false k VE).
Qed.
Print Assumptions C93_reflexive.
Lemma near_half f r g : Sane f -> 0 <= r <= unit_of f / 2 -> Near f r g -> g = 0.
Proof.
  intros W B N. pose proof (unit_pos f W) as U. assert (H : Near f (unit_of f / 2) 0).
  { split; [apply grid_zero, W|]. intros g' (s & n & R & ->) NE. pose proof (rep_nonneg f n R) as P. assert (n <> 0)%Z by (intros ->; apply NE, val_zero). assert (Q : 1 <= IZR n) by (apply (IZR_le 1); lia).
    rewrite Rminus_0_l, Rabs_Ropp, (Rabs_right (unit_of f / 2)) by lra. unfold val in *. destruct s.
    - left. rewrite Rabs_left by nra. nra.
    - rewrite Rabs_right by nra. destruct (Rle_lt_dec (IZR n) 1) as [C|C]; [right|left; nra]. split; [assert (IZR n = 1) as -> by lra; lra|]. exists 0%Z. ring. }
  apply Rle_antisym; [apply (near_mono f r g _ 0 N H); lra|apply (near_mono f 0 0 r g (near_zero f W) N); lra].
Qed.
Lemma near_nonzero f k g : Sane f -> Near f (IZR k * unit_of f) g -> g = 0 -> k = 0%Z.
Proof.
  intros W N E. pose proof (near_units f k g W N) as B. rewrite E, Rminus_0_l, Rabs_Ropp in B. pose proof (pow_scale f W) as P. assert (Q : 2 <= IZR (2 ^ fm_prec f)) by (apply IZR_le; destruct W as [W1 _]; replace 2%Z with (2 ^ 1)%Z at 1 by reflexivity; apply Z.pow_le_mono_r; lia).
  assert (Z0 : Rabs (IZR k * unit_of f) = 0). { pose proof (Rabs_pos (IZR k * unit_of f)) as A. unfold Rdiv in B. assert (/ IZR (2 ^ fm_prec f) <= / 2) by (apply Rinv_le_contravar; lra). nra. }
  destruct (Z.eq_dec k 0) as [|C]; [assumption|exfalso]. assert (IZR k * unit_of f <> 0); [|apply (Rabs_no_R0 _ H Z0)]. pose proof (unit_pos f W). apply Rmult_integral_contrapositive. split; [apply not_0_IZR, C|lra].
Qed.
Lemma equals_exact f a n b m k : Sane f -> Valid f (FFin a n) -> Valid f (FFin b m) -> Valid f (FFin false k) -> val f false k <= 1 -> Rabs (val f a n) * val f false k <= unit_of f / 2 -> f_equals f (FFin a n) (FFin b m) (FFin false k) = true -> val f a n = val f b m.
Proof.
  intros W VA VB VE E1 T H. destruct (equals_grid f a n b m k W VA VB VE E1 H) as (g & h & G & K & L). pose proof (Rabs_pos (val f a n)) as AP. assert (EP : 0 <= val f false k) by (rewrite <- (val_zero f false); apply val_le; [exact W|]; cbn; apply (fin_pos f false k VE)).
  assert (PP : 0 <= Rabs (val f a n) * val f false k <= unit_of f / 2) by (split; [nra|exact T]). assert (h = 0) by (apply (near_half f _ h W PP K)). assert (GP : 0 <= g) by (apply (near_mono f 0 0 _ g (near_zero f W) G), Rabs_pos). assert (g = 0) by lra.
  rewrite !val_signed in *. replace (IZR (signed a n) * unit_of f - IZR (signed b m) * unit_of f) with (IZR (signed a n - signed b m) * unit_of f) in G by (rewrite minus_IZR; ring).
  rewrite Rabs_mult, <- abs_IZR, (Rabs_right (unit_of f)) in G by (pose proof (unit_pos f W); lra). apply (near_nonzero f _ g W) in G; [|assumption]. assert (signed a n = signed b m) as -> by lia. reflexivity.
Qed.
Lemma equals_inf f a n s k : Sane f -> Valid f (FFin a n) -> Valid f (FFin false k) -> val f false k <= 1 -> f_equals f (FFin a n) (FInf s) (FFin false k) = false.
Proof.
  intros W VA VE E1. pose proof (mul_correct f false n false k W (fin_pos f a n VA) (fin_pos f false k VE)) as C. assert (EP : 0 <= val f false k) by (rewrite <- (val_zero f false); apply val_le; [exact W|]; cbn; apply (fin_pos f false k VE)).
  assert (NP : 0 <= val f false n) by (rewrite <- (val_zero f false); apply val_le; [exact W|]; cbn; apply (fin_pos f a n VA)). assert (B : 0 <= val f false n * val f false k <= val f false n) by nra.
  destruct (correct_le_fin f _ _ false n W C VA B) as (t & q & E). unfold f_equals. cbn [f_abs]. rewrite E. destruct s; reflexivity.
Qed.
(* nothing but zero is equal to zero, from either side *)
Theorem C93_zero : forall f a v k, IEEE f -> Valid f v -> Valid f (FFin false k) ->
  (val f false k <= 1 -> (f_equals f (FFin a 0) v (FFin false k) = true <-> exists b, v = FFin b 0)) /\
  (val f false k <= / 4 -> forall b n, v = FFin b n -> (f_equals f v (FFin a 0) (FFin false k) = true <-> n = 0%Z)).
Proof.
  intros f a v k I V VE. pose proof (ieee_sane f I) as W. pose proof (unit_pos f W) as U. assert (VZ : forall s, Valid f (FFin s 0)) by (intros s; apply (zero_finite f W)). assert (EP : 0 <= val f false k) by (rewrite <- (val_zero f false); apply val_le; [exact W|]; cbn; apply (fin_pos f false k VE)). split.
  - intros E1. split.
    + intros H. destruct v as [|s|b m]; [destruct a; discriminate| |].
      * exfalso. rewrite (equals_inf f a 0 s k W (VZ a) VE E1) in H. discriminate.
      * exists b. f_equal. apply equals_exact in H; auto; [|rewrite val_zero, Rabs_R0; lra]. rewrite !val_signed in H. apply Rmult_eq_reg_r in H; [|lra]. apply eq_IZR in H. destruct a, b; cbn in H; lia.
    + intros (b & ->). apply C93_complete; auto. rewrite !val_zero. replace (0 - 0) with 0 by ring. rewrite Rabs_R0. lra.
  - intros E1 b n ->. split.
    + intros H. pose proof (C93_sound f b n a 0 k I V (VZ a) VE ltac:(lra) H) as S. rewrite val_zero, Rminus_0_r in S. assert (Q : 16 <= IZR (2 ^ fm_prec f)) by (apply IZR_le; destruct I as [->| ->]; cbn; lia).
      assert (UI : / IZR (2 ^ fm_prec f) <= / 16) by (apply Rinv_le_contravar; lra). assert (UP : 0 < / IZR (2 ^ fm_prec f)) by (apply Rinv_0_lt_compat; lra). pose proof (Rabs_pos (val f b n)) as AP. pose proof (fin_pos f b n V) as NP. rewrite (val_abs f b n W NP) in *.
      destruct (Z.eq_dec n 0) as [|C]; [assumption|exfalso]. assert (N1 : 1 <= IZR n) by (apply (IZR_le 1); lia). set (x := IZR n * unit_of f) in *. assert (X : unit_of f <= x) by (unfold x; nra). assert (XE : 0 <= x * val f false k <= x * / 4) by (split; [apply Rmult_le_pos; lra|apply Rmult_le_compat_l; lra]). assert (x * val f false k * (1 + / IZR (2 ^ fm_prec f)) <= x * (/ 4) * (1 + / 4)) by (apply Rmult_le_compat; lra). assert (x * (1 - / 16) <= x * (1 - / IZR (2 ^ fm_prec f))) by (apply Rmult_le_compat_l; lra). lra.
    + intros ->. apply C93_complete; auto. rewrite !val_zero. replace (0 - 0) with 0 by ring. rewrite Rabs_R0. lra.
Qed.
Print Assumptions C93_zero.
(* infinity equals every finite number, and no finite number equals infinity;
   infinity does not equal itself *)
Theorem C93_infinite_refuted : forall f a n s t k, IEEE f -> Valid f (FFin a n) -> Valid f (FFin false k) ->
  ((0 < k)%Z -> f_equals f (FInf s) (FFin a n) (FFin false k) = true) /\ (val f false k <= 1 -> f_equals f (FFin a n) (FInf s) (FFin false k) = false) /\
  f_equals f (FInf s) (FInf s) (FFin false k) = false /\ ((0 < k)%Z -> f_equals f (FInf s) (FInf (negb s)) (FFin false k) = true) /\ f_equals f FNan t (FFin false k) = false /\ f_equals f t FNan (FFin false k) = false.
Proof.
  intros f a n s t k I V VE. pose proof (ieee_sane f I) as W. split; [|split; [|split; [|split; [|split]]]].
  - intros P. unfold f_equals. cbn. rewrite (proj2 (Z.eqb_neq k 0)) by lia. destruct s; reflexivity.
  - apply equals_inf; assumption.
  - destruct s; reflexivity.
  - intros P. unfold f_equals. destruct s; cbn; rewrite (proj2 (Z.eqb_neq k 0)) by lia; reflexivity.
  - destruct t; reflexivity.
  - unfold f_equals. destruct t; reflexivity.
Qed.
Print Assumptions C93_infinite_refuted.
(* with the default tolerance: numbers at most four places apart in the last
   digit of the first are equal, unless that is below the normal numbers *)
Lemma eps_val f : IEEE f -> exists k, f_relaxed_eps f = FFin false k /\ Finite f k /\ (0 < k)%Z /\ val f false k = 8 / IZR (2 ^ fm_prec f) /\ val f false k <= / 4.
Proof.
  intros I. exists (4 * 2 ^ (fm_low f - fm_prec f + 1))%Z. split; [reflexivity|]. assert (F : Finite f (4 * 2 ^ (fm_low f - fm_prec f + 1))).
  { split; [exists 4%Z, (fm_low f - fm_prec f + 1)%Z|]; destruct I as [->| ->]; cbn; try lia; reflexivity. }
  split; [exact F|]. pose proof (ieee_sane f I) as W. destruct W as [W1 W2]. pose proof (pow_pos_ (fm_low f - fm_prec f + 1) ltac:(lia)) as P. split; [lia|]. assert (E : val f false (4 * 2 ^ (fm_low f - fm_prec f + 1)) = 8 / IZR (2 ^ fm_prec f)).
  { unfold val, unit_of. assert (PP : 0 < IZR (2 ^ fm_prec f)) by (apply pow_scale; split; assumption). assert (LP : 0 < IZR (2 ^ fm_low f)) by (apply unit_scale; split; assumption). apply (Rmult_eq_reg_r (IZR (2 ^ fm_low f) * IZR (2 ^ fm_prec f))); [|apply Rmult_integral_contrapositive; lra].
    field_simplify; [|lra|lra]. rewrite <- !mult_IZR. f_equal. rewrite <- Z.mul_assoc, <- Z.pow_add_r by lia. replace (fm_low f - fm_prec f + 1 + fm_prec f)%Z with (1 + fm_low f)%Z by lia. rewrite Z.pow_add_r by lia. ring. }
  split; [exact E|]. rewrite E. assert (Q : 32 <= IZR (2 ^ fm_prec f)) by (apply IZR_le; destruct I as [->| ->]; cbn; lia). apply (Rmult_le_reg_r (IZR (2 ^ fm_prec f))); [lra|]. unfold Rdiv. rewrite Rmult_assoc, Rinv_l by lra. lra.
Qed.
Theorem C93_neighbours : forall f a m e b n, IEEE f -> (2 ^ (fm_prec f - 1) <= m < 2 ^ fm_prec f)%Z -> (0 <= e)%Z -> Valid f (FFin a (m * 2 ^ e)) -> Valid f (FFin b n) ->
  Rabs (val f a (m * 2 ^ e) - val f b n) <= 4 * (IZR (2 ^ e) * unit_of f) -> f_equals f (FFin a (m * 2 ^ e)) (FFin b n) (f_relaxed_eps f) = true.
Proof.
  intros f a m e b n I M E VA VB H. pose proof (ieee_sane f I) as W. destruct (eps_val f I) as (k & -> & F & KP & KV & _). apply C93_complete; try assumption. apply Rle_trans with (1 := H). rewrite (val_abs f a _ W (fin_pos f a _ VA)), KV. pose proof (pow_scale f W) as PP. pose proof (unit_pos f W) as U.
  assert (EP : 0 < IZR (2 ^ e)) by (apply IZR_lt, pow_pos_, E). rewrite mult_IZR. assert (MP : IZR (2 ^ fm_prec f) <= 2 * IZR m). { rewrite <- mult_IZR. apply IZR_le. destruct W as [W1 _]. replace (fm_prec f) with (1 + (fm_prec f - 1))%Z by lia. rewrite Z.pow_add_r by lia. lia. }
  replace (IZR m * IZR (2 ^ e) * unit_of f * (8 / IZR (2 ^ fm_prec f))) with (4 * (2 * IZR m / IZR (2 ^ fm_prec f)) * (IZR (2 ^ e) * unit_of f)) by (field; lra).
  apply Rmult_le_compat_r; [nra|]. assert (1 <= 2 * IZR m / IZR (2 ^ fm_prec f)); [|lra]. apply (Rmult_le_reg_r (IZR (2 ^ fm_prec f))); [lra|]. unfold Rdiv. rewrite Rmult_assoc, Rinv_l by lra. lra.
Qed.
Print Assumptions C93_neighbours.
(* tiny numbers equal none but themselves *)
Theorem C93_tiny_refuted : forall f a n b m, IEEE f -> (16 * n <= 2 ^ fm_prec f)%Z -> Valid f (FFin a n) -> Valid f (FFin b m) ->
  (f_equals f (FFin a n) (FFin b m) (f_relaxed_eps f) = true <-> val f a n = val f b m).
Proof.
  intros f a n b m I N VA VB. pose proof (ieee_sane f I) as W. destruct (eps_val f I) as (k & -> & F & KP & KV & K4). split.
  - intros H. apply (equals_exact f a n b m k W VA VB F ltac:(lra)); [|exact H]. rewrite (val_abs f a n W (fin_pos f a n VA)), KV. pose proof (pow_scale f W) as PP. pose proof (unit_pos f W) as U. assert (Q : 16 * IZR n <= IZR (2 ^ fm_prec f)) by (rewrite <- mult_IZR; apply IZR_le, N).
    replace (IZR n * unit_of f * (8 / IZR (2 ^ fm_prec f))) with (16 * IZR n / IZR (2 ^ fm_prec f) * (unit_of f / 2)) by (field; lra). assert (16 * IZR n / IZR (2 ^ fm_prec f) <= 1); [|nra]. apply (Rmult_le_reg_r (IZR (2 ^ fm_prec f))); [lra|]. unfold Rdiv. rewrite Rmult_assoc, Rinv_l by lra. lra.
  - intros E. apply C93_complete; try assumption. rewrite E, Rminus_diag_eq, Rabs_R0 by reflexivity. apply Rmult_le_pos; [apply Rabs_pos|]. rewrite <- (val_zero f false). apply val_le; [exact W|]. cbn. lia.
Qed.
Print Assumptions C93_tiny_refuted.
(* a greater tolerance accepts more, and signs do not matter *)
Theorem C93_tolerance : forall f a n b m k k', IEEE f -> Valid f (FFin a n) -> Valid f (FFin b m) -> Valid f (FFin false k) -> Valid f (FFin false k') -> (k <= k')%Z ->
  f_equals f (FFin a n) (FFin b m) (FFin false k) = true -> f_equals f (FFin a n) (FFin b m) (FFin false k') = true.
Proof.
  intros f a n b m k k' I VA VB VE VE' L. pose proof (ieee_sane f I) as W. unfold f_equals. rewrite !(le_lesseq f _ _ W). cbn [f_abs]. intros H. eapply lesseq_trans; [exact H|].
  pose proof (fin_pos f a n VA) as NP. eapply (correct_mono f _ _ _ _ W); [apply mul_correct; [exact W|exact NP|exact (fin_pos f false k VE)]|apply mul_correct; [exact W|exact NP|exact (fin_pos f false k' VE')]|].
  apply Rmult_le_compat_l; [rewrite <- (val_zero f false); apply val_le; [exact W|]; cbn; exact NP|]. apply val_le; [exact W|]. cbn. exact L.
Qed.
Print Assumptions C93_tolerance.
Theorem C93_signs : forall f v w e, f_equals f (f_neg v) (f_neg w) e = f_equals f v w e.
Proof.
  intros f v w e. assert (A : forall x, f_abs (f_neg x) = f_abs x) by (intros [|s|s n]; reflexivity). unfold f_equals. rewrite A. f_equal. destruct v as [|a|a n], w as [|b|b m]; try reflexivity; unfold f_sub; cbn [f_neg f_add].
  - destruct a, b; reflexivity.
  - replace (signed (negb a) n + signed (negb (negb b)) m)%Z with (- (signed a n + signed (negb b) m))%Z by (destruct a, b; cbn; lia). set (s := (signed a n + signed (negb b) m)%Z). replace (- s =? 0)%Z with (s =? 0)%Z by (apply eq_true_iff_eq; rewrite !Z.eqb_eq; lia). destruct (s =? 0)%Z; [reflexivity|]. rewrite Z.abs_opp. cbn [to_fnum]. destruct (_ <=? _)%Z; reflexivity.
Qed.
Print Assumptions C93_signs.
(* the order of the arguments matters *)
Theorem C93_symmetric_refuted : exists v w, Valid float_fmt v /\ Valid float_fmt w /\ f_equals float_fmt v w (f_relaxed_eps float_fmt) = true /\ f_equals float_fmt w v (f_relaxed_eps float_fmt) = false.
Proof.
  exists (FFin false ((2 ^ 23 + 3) * 2 ^ 126)), (FFin false ((2 ^ 24 - 2) * 2 ^ 125)). split; [|split; [|split; vm_compute; reflexivity]].
  - split; [exists (2 ^ 23 + 3)%Z, 126%Z; split; [lia|]; split; [cbn; lia|reflexivity]|reflexivity].
  - split; [exists (2 ^ 24 - 2)%Z, 125%Z; split; [lia|]; split; [cbn; lia|reflexivity]|reflexivity].
Qed.
Print Assumptions C93_symmetric_refuted.

Local Open Scope Z_scope.
Example C93_nonvacuous : let d := float_fmt in let e := f_relaxed_eps d in let q := fun a b => to_fnum d false (VNum a b) in
  f_equals d (f_add d (q 1 10) (q 6 10)) (q 7 10) e = true /\ f_eq (f_add d (q 1 10) (q 6 10)) (q 7 10) = false /\ f_equals d (q 1 1) (q 100001 100000) e = false /\
  f_equals d (q 1 10) (FInf false) e = false /\ f_equals d (FInf false) (q 1 10) e = true /\ f_equals d (FFin false 5) (FFin false 4) e = false.
Proof. vm_compute. repeat split. Qed.
