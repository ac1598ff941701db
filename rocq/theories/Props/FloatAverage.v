(* C95: average and delta of float and double *)
From Coq Require Import Reals ZArith List Bool Lia Lra.
From Verif Require Import Model.Base Model.FloatText Model.Math Model.Ieee Model.FloatMath Spec.FloatText Spec.Ieee Proofs.FloatTextProofs Proofs.IeeeProofs Proofs.IeeeErrorProofs Props.FloatEquals Props.FloatWrap.
Import ListNotations.
Local Open Scope R_scope.

(* the numbers that a list of finite numbers stands for, their sum, and the sum
   of their sizes *)
Definition number (f : fmt) (x : fnum) : R := match x with FFin a n => val f a n | _ => 0 end.
Definition total (f : fmt) (l : list fnum) : R := fold_right (fun x s => number f x + s) 0 l.
Definition size (f : fmt) (l : list fnum) : R := fold_right (fun x s => Rabs (number f x) + s) 0 l.
Definition Fin (f : fmt) (x : fnum) : Prop := exists a n, x = FFin a n /\ Finite f n.
Definition averaged (f : fmt) (l : list fnum) : f_average := fold_left (fa_add1 f) l fa_new.

Lemma one_val f : Sane f -> val f false (2 ^ fm_low f) = 1.
Proof. intros W. pose proof (unit_scale f W) as U. unfold val, unit_of. field. lra. Qed.
Lemma val_inj f a n m : Sane f -> val f a n = val f a m -> n = m.
Proof. intros W E. apply (val_eq f a n a m W) in E. destruct a; cbn in E; lia. Qed.
Lemma to_fnum_fin f neg num den r n : Sane f -> Correct f r (to_fnum f neg (VNum num den)) -> Finite f n -> r = val f neg n -> to_fnum f neg (VNum num den) = FFin neg n.
Proof.
  intros W C F E. pose proof (correct_same f r _ _ W C (eq_ind_r (fun r => Correct f r (FFin neg n)) (correct_fin f neg n W F) E)) as (p & P & Q). cbn [to_fnum] in *. destruct (_ <=? _)%Z; [destruct neg; cbn in P, Q; subst; discriminate|]. cbn in P, Q. subst p. injection Q as Q. f_equal. apply (val_inj f neg _ _ W Q).
Qed.
Lemma mul_one f x : Sane f -> Valid f x -> f_mul f (f_one f) x = x.
Proof.
  intros W V. assert (P : (0 < 2 ^ fm_low f)%Z) by (apply pow_pos_; destruct W; lia). destruct x as [|a|a n]; [reflexivity|cbn; rewrite (proj2 (Z.eqb_neq _ 0)) by lia; destruct a; reflexivity|]. pose proof (mul_correct f false (2 ^ fm_low f) a n W ltac:(lia) (fin_pos f a n V)) as C. unfold f_one. cbn [f_mul] in C |- *. rewrite xorb_false_l in *. apply (to_fnum_fin f a _ _ _ n W C V). rewrite (one_val f W). ring.
Qed.
Lemma div_one f x : Sane f -> Valid f x -> f_div f x (f_one f) = x.
Proof.
  intros W V. assert (P : (0 < 2 ^ fm_low f)%Z) by (apply pow_pos_; destruct W; lia). destruct x as [|a|a n]; [reflexivity|cbn; destruct a; reflexivity|]. pose proof (div_correct f a n false (2 ^ fm_low f) W (fin_pos f a n V) P) as C. unfold f_one. cbn [f_div] in C |- *. rewrite (proj2 (Z.eqb_neq _ 0)) in C |- * by lia. rewrite xorb_false_r in *. apply (to_fnum_fin f a _ _ _ n W C V). rewrite (one_val f W). field.
Qed.

(* the weight counts the values up to 2^24 or 2^53, and then stays *)
Lemma count_fin f k : Sane f -> (fm_prec f < fm_top f)%Z -> (0 <= k <= 2 ^ fm_prec f)%Z -> Finite f (k * 2 ^ fm_low f).
Proof.
  intros [W1 W2] T K. split; [apply rep_small; lia|]. pose proof (pow_pos_ (fm_low f) ltac:(lia)) as P. rewrite Z.pow_add_r by lia. apply Zmult_lt_compat_r; [exact P|]. apply Z.le_lt_trans with (2 ^ fm_prec f)%Z; [lia|apply Z.pow_lt_mono_r; lia].
Qed.
Lemma count_step f k : IEEE f -> (0 <= k < 2 ^ fm_prec f)%Z -> f_add f (FFin false (k * 2 ^ fm_low f)) (f_one f) = FFin false ((k + 1) * 2 ^ fm_low f).
Proof.
  intros I K. pose proof (ieee_sane f I) as W. pose proof W as [W1 W2]. pose proof (pow_pos_ (fm_low f) ltac:(lia)) as P. pose proof (add_correct f false (k * 2 ^ fm_low f) false (2 ^ fm_low f) W) as C. unfold f_one. cbn [f_add signed] in C |- *. assert (S : (0 < k * 2 ^ fm_low f + 2 ^ fm_low f)%Z) by nia. rewrite (proj2 (Z.eqb_neq _ 0)) in C |- * by lia. replace (k * 2 ^ fm_low f + 2 ^ fm_low f <? 0)%Z with false in C |- * by (symmetry; apply Z.ltb_ge; lia).
  apply (to_fnum_fin f false _ _ _ _ W C); [apply count_fin; [exact W|lia|lia]|]. unfold val. rewrite !mult_IZR, plus_IZR. ring.
Qed.
Lemma count_stays f : IEEE f -> f_add f (FFin false (2 ^ fm_prec f * 2 ^ fm_low f)) (f_one f) = FFin false (2 ^ fm_prec f * 2 ^ fm_low f).
Proof. intros [->| ->]; vm_compute; reflexivity. Qed.
Lemma averaged_weight f l : IEEE f -> forall a k, (0 <= k <= 2 ^ fm_prec f)%Z -> fa_w a = FFin false (k * 2 ^ fm_low f) -> fa_w (fold_left (fa_add1 f) l a) = FFin false (Z.min (k + Z.of_nat (length l)) (2 ^ fm_prec f) * 2 ^ fm_low f).
Proof.
  intros I. induction l as [|x l IH]; intros a k K E; cbn [fold_left length]; [rewrite E; f_equal; f_equal; lia|]. destruct (Z.eq_dec k (2 ^ fm_prec f)) as [->|N].
  - rewrite (IH _ (2 ^ fm_prec f)%Z); [f_equal; f_equal; lia|lia|]. cbn [fa_add1 fa_add fa_w]. rewrite E. apply count_stays, I.
  - rewrite (IH _ (k + 1)%Z); [f_equal; f_equal; lia|lia|]. cbn [fa_add1 fa_add fa_w]. rewrite E. apply count_step; [exact I|lia].
Qed.
Theorem C95_counter : forall f l, IEEE f -> exists n, fa_w (averaged f l) = FFin false n /\ Finite f n /\ val f false n = IZR (Z.min (Z.of_nat (length l)) (2 ^ fm_prec f)).
Proof.
  intros f l I. pose proof (ieee_sane f I) as W. pose proof W as [W1 W2]. pose proof (pow_pos_ (fm_prec f) ltac:(lia)) as P. eexists. split; [apply (averaged_weight f l I fa_new 0); [lia|reflexivity]|]. split; [apply count_fin; [exact W|lia|lia]|]. cbn [Z.add]. unfold val, unit_of. rewrite (mult_IZR (Z.min _ _)). pose proof (unit_scale f W). field. lra.
Qed.
Print Assumptions C95_counter.

(* sums of finite numbers *)
Lemma averaged_snoc f l x : averaged f (l ++ [x]) = fa_add1 f (averaged f l) x.
Proof. unfold averaged. rewrite fold_left_app. reflexivity. Qed.
Lemma fin_valid f x : Fin f x -> Valid f x. Proof. intros (a & n & -> & F). exact F. Qed.
Lemma total_snoc f l x : total f (l ++ [x]) = total f l + number f x.
Proof. unfold total, size in *. induction l as [|y l IH]; cbn [app fold_right]; [ring|rewrite IH; ring]. Qed.
Lemma size_snoc f l x : size f (l ++ [x]) = size f l + Rabs (number f x).
Proof. unfold total, size in *. induction l as [|y l IH]; cbn [app fold_right]; [ring|rewrite IH; ring]. Qed.
Lemma size_nonneg f l : 0 <= size f l.
Proof. unfold size in *. induction l as [|y l IH]; cbn [fold_right]; [lra|]. pose proof (Rabs_pos (number f y)). lra. Qed.
Lemma total_size f l : Rabs (total f l) <= size f l.
Proof. unfold total, size in *. induction l as [|y l IH]; cbn [fold_right]; [rewrite Rabs_R0; lra|]. eapply Rle_trans; [apply Rabs_triang|]. lra. Qed.
Lemma averaged_v f l x : Sane f -> Valid f x -> fa_v (averaged f (l ++ [x])) = f_add f (fa_v (averaged f l)) x.
Proof. intros W V. rewrite averaged_snoc. cbn [fa_add1 fa_add fa_v]. rewrite (mul_one f x W V). reflexivity. Qed.
(* the sum is as far off as k roundings may take it *)
Lemma sum_error f l : IEEE f -> Forall (Fin f) l -> forall s n, fa_v (averaged f l) = FFin s n -> Finite f n /\ Rabs (val f s n - total f l) <= ((1 + / IZR (2 ^ fm_prec f)) ^ length l - 1) * size f l.
Proof.
  intros I. pose proof (ieee_sane f I) as W. pose proof (pow_scale f W) as PS. assert (UP : 0 < / IZR (2 ^ fm_prec f)) by (apply Rinv_0_lt_compat, PS). set (u := / IZR (2 ^ fm_prec f)) in *. induction l as [|x l IH] using rev_ind; intros FL s n E.
  - cbn in E. injection E as <- <-. split; [apply zero_finite, W|]. rewrite val_zero. cbn. rewrite Rminus_0_r, Rabs_R0. lra.
  - apply Forall_app in FL. destruct FL as [FL FX]. inversion FX as [|? ? (a & k & -> & F) _]; subst. rewrite (averaged_v f l (FFin a k) W F) in E. destruct (fa_v (averaged f l)) as [|t|t j] eqn:EV; [discriminate|discriminate|]. destruct (IH FL t j eq_refl) as [FJ B]. pose proof (add_correct f t j a k W) as C. rewrite E in C. destruct C as (g & N & FN & -> & _). split; [exact FN|].
    pose proof (near_sum f t j a k _ W N) as D. rewrite total_snoc, size_snoc, app_length, Nat.add_1_r. cbn [number pow]. set (q := (1 + u) ^ length l) in *. assert (Q : 1 <= q) by (apply pow_R1_Rle; lra). set (S := val f t j) in *. set (v := val f a k) in *. set (T := total f l) in *. set (A := size f l) in *. pose proof (Rabs_pos v) as VP. pose proof (size_nonneg f l) as AP. fold A in AP. pose proof (total_size f l) as TA. fold T A in TA.
    assert (SB : Rabs S <= q * A). { replace S with ((S - T) + T) by ring. eapply Rle_trans; [apply Rabs_triang|]. lra. }
    assert (SV : Rabs (S + v) <= q * (A + Rabs v)). { eapply Rle_trans; [apply Rabs_triang|]. nra. }
    unfold Rdiv in D. fold u in D. assert (D' : Rabs (val f s n - (S + v)) <= q * (A + Rabs v) * u) by (eapply Rle_trans; [exact D|]; apply Rmult_le_compat_r; lra).
    replace (val f s n - (T + v)) with ((val f s n - (S + v)) + (S - T)) by ring. eapply Rle_trans; [apply Rabs_triang|]. assert (0 <= (q - 1) * Rabs v) by (apply Rmult_le_pos; lra). lra.
Qed.
Theorem C95_sum_error : forall f l s n, IEEE f -> Forall (Fin f) l -> fa_v (averaged f l) = FFin s n -> Rabs (val f s n - total f l) <= ((1 + / IZR (2 ^ fm_prec f)) ^ length l - 1) * size f l.
Proof. intros f l s n I FL E. apply (sum_error f l I FL s n E). Qed.
Print Assumptions C95_sum_error.
(* the average of up to 2^24 or 2^53 values *)
Theorem C95_error : forall f l s n, IEEE f -> Forall (Fin f) l -> l <> [] -> (Z.of_nat (length l) <= 2 ^ fm_prec f)%Z -> fa_get f (averaged f l) = FFin s n ->
  Rabs (val f s n - total f l / INR (length l)) <= ((1 + / IZR (2 ^ fm_prec f)) ^ S (length l) - 1) * (size f l / INR (length l)) + unit_of f / 2.
Proof.
  intros f l s n I FL NE K E. pose proof (ieee_sane f I) as W. pose proof (pow_scale f W) as PS. assert (UP : 0 < / IZR (2 ^ fm_prec f)) by (apply Rinv_0_lt_compat, PS). destruct (C95_counter f l I) as (w & EW & FW & VW). rewrite Z.min_l in VW by exact K. rewrite <- INR_IZR_INZ in VW. assert (LP : 0 < INR (length l)) by (apply lt_0_INR; destruct l; [contradiction|cbn; lia]).
  assert (WP : (0 < w)%Z). { rewrite <- VW in LP. rewrite <- (val_zero f false) in LP. apply (val_lt f _ _ _ _ W) in LP. exact LP. }
  unfold fa_get in E. rewrite EW in E. unfold f_gt, f_zero in E. cbn [f_lt signed] in E. rewrite (proj2 (Z.ltb_lt 0 w) WP) in E. destruct (fa_v (averaged f l)) as [|t|t j] eqn:EV; [discriminate|discriminate|].
  destruct (sum_error f l I FL t j EV) as [FJ B]. pose proof (div_correct f t j false w W (fin_pos f t j FJ) WP) as C. rewrite E in C. destruct C as (g & N & FN & -> & _). pose proof (near_bound f _ _ W N) as D. rewrite VW in *.
  set (u := / IZR (2 ^ fm_prec f)) in *. set (k := INR (length l)) in *. unfold Rdiv at 2 in D. fold u in D. set (T := total f l) in *. set (A := size f l) in *. set (q := (1 + u) ^ length l) in *. assert (Q : 1 <= q) by (apply pow_R1_Rle; lra). pose proof (total_size f l) as TA. fold T A in TA. set (S := val f t j) in *.
  assert (SB : Rabs S <= q * A). { replace S with ((S - T) + T) by ring. eapply Rle_trans; [apply Rabs_triang|]. lra. } assert (KI : 0 < / k) by (apply Rinv_0_lt_compat, LP).
  assert (D1 : Rabs (S / k) <= q * (A / k)). { unfold Rdiv. rewrite Rabs_mult, (Rabs_right (/ k)) by lra. rewrite <- Rmult_assoc. apply Rmult_le_compat_r; lra. }
  assert (D2 : Rabs (S / k - T / k) <= (q - 1) * (A / k)). { replace (S / k - T / k) with ((S - T) * / k) by (unfold Rdiv; ring). rewrite Rabs_mult, (Rabs_right (/ k)) by lra. unfold Rdiv. rewrite <- Rmult_assoc. apply Rmult_le_compat_r; lra. }
  replace (val f s n - T / k) with ((val f s n - S / k) + (S / k - T / k)) by ring. eapply Rle_trans; [apply Rabs_triang|]. cbn [pow]. fold q. assert (Rabs (S / k) * u <= q * (A / k) * u) by (apply Rmult_le_compat_r; lra). lra.
Qed.
Print Assumptions C95_error.
(* fixed point numbers, such as whole numbers, are summed without error, and
   their average is rounded once *)
Theorem C95_exact : forall f l q, IEEE f -> (0 <= q)%Z -> Forall (fun x => Fin f x /\ exists z, number f x = IZR (z * 2 ^ q) * unit_of f) l ->
  size f l <= IZR (2 ^ fm_prec f * 2 ^ q) * unit_of f -> InReach f (size f l) ->
  (exists s n, fa_v (averaged f l) = FFin s n /\ Finite f n /\ val f s n = total f l) /\
  (l <> [] -> (Z.of_nat (length l) <= 2 ^ fm_prec f)%Z -> Correct f (total f l / INR (length l)) (fa_get f (averaged f l))).
Proof.
  intros f l q I Q FL B R. pose proof (ieee_sane f I) as W. pose proof (unit_pos f W) as U. pose proof (pow_pos_ q Q) as QP.
  assert (S : exists s n, fa_v (averaged f l) = FFin s n /\ Finite f n /\ val f s n = total f l).
  { assert (M : exists z, total f l = IZR (z * 2 ^ q) * unit_of f). { clear B R. induction l as [|x l IH]; [exists 0%Z; cbn; ring|]. inversion FL as [|? ? [_ (z & Z)] FL']; subst. destruct (IH FL') as (y & Y). exists (z + y)%Z. unfold total in *. cbn [fold_right]. rewrite Y, Z. rewrite !mult_IZR, plus_IZR. ring. }
    induction l as [|x l IH] using rev_ind; [exists false, 0%Z; split; [reflexivity|]; split; [apply zero_finite, W|apply val_zero]|].
    apply Forall_app in FL. destruct FL as [FL FX]. inversion FX as [|? ? [(a & k & -> & F) (z & Z)] _]; subst. rewrite size_snoc in B, R. pose proof (Rabs_pos (number f (FFin a k))) as AP. pose proof (size_nonneg f l) as SP.
    assert (R' : InReach f (size f l)). { destruct R as (n & FN & RN). exists n. split; [exact FN|]. rewrite Rabs_right in RN |- * by lra. lra. }
    destruct (IH FL ltac:(lra) R') as (s & n & E & FN & V). { destruct M as (y & Y). rewrite total_snoc, Z in Y. exists (y - z)%Z. rewrite mult_IZR in *. rewrite mult_IZR in Y. rewrite minus_IZR. lra. }
    pose proof (averaged_v f l (FFin a k) W F) as EV. rewrite E in EV. pose proof (add_correct f s n a k W) as C. rewrite <- EV in C. rewrite V in C. change (val f a k) with (number f (FFin a k)) in C. rewrite <- total_snoc in C. pose proof (total_size f (l ++ [FFin a k])) as TS. rewrite size_snoc in TS.
    destruct (reach_fin f _ _ W C) as (t & j & ET). { destruct R as (i & FI & RI). exists i. split; [exact FI|]. rewrite (Rabs_right (_ + _)) in RI by lra. lra. }
    exists t, j. split; [exact ET|]. rewrite ET in C. destruct C as (g & N & FJ & -> & _). split; [exact FJ|]. apply (near_exact f _ _ N). destruct M as (y & Y). rewrite Y. apply grid_int; [exact W|exact Q|]. rewrite Y in TS. rewrite Rabs_mult, (Rabs_right (unit_of f)), <- abs_IZR in TS by lra.
    assert (X : IZR (Z.abs (y * 2 ^ q)) <= IZR (2 ^ fm_prec f * 2 ^ q)) by (apply (Rmult_le_reg_r (unit_of f)); [exact U|lra]). apply le_IZR in X. rewrite Z.abs_mul, (Z.abs_eq (2 ^ q)) in X by lia. apply (Z.mul_le_mono_pos_r _ _ (2 ^ q)); assumption. }
  split; [exact S|]. intros NE K. destruct S as (s & n & E & F & V). destruct (C95_counter f l I) as (w & EW & FW & VW). rewrite Z.min_l in VW by exact K. rewrite <- INR_IZR_INZ in VW. assert (LP : 0 < INR (length l)) by (apply lt_0_INR; destruct l; [contradiction|cbn; lia]).
  assert (WP : (0 < w)%Z). { rewrite <- VW in LP. rewrite <- (val_zero f false) in LP. apply (val_lt f _ _ _ _ W) in LP. exact LP. }
  unfold fa_get. rewrite EW, E. unfold f_gt, f_zero. cbn [f_lt signed]. rewrite (proj2 (Z.ltb_lt 0 w) WP). rewrite <- V, <- VW. apply div_correct; [exact W|exact (fin_pos f s n F)|exact WP].
Qed.
Print Assumptions C95_exact.

(* with weights: if the products and the weights are fixed point numbers their
   sums are exact and the average is rounded once *)
Definition Fixed (f : fmt) (q : Z) (l : list R) : Prop := Forall (fun r => exists z, r = IZR (z * 2 ^ q) * unit_of f) l /\
  fold_right (fun r s => Rabs r + s) 0 l <= IZR (2 ^ fm_prec f * 2 ^ q) * unit_of f /\ InReach f (fold_right (fun r s => Rabs r + s) 0 l).
Definition sum (l : list R) : R := fold_right Rplus 0 l.
Lemma fixed_sum f q l : Sane f -> (0 <= q)%Z -> Forall (Fin f) l -> Fixed f q (map (number f) l) -> exists s n, fold_left (f_add f) l f_zero = FFin s n /\ Finite f n /\ val f s n = sum (map (number f) l).
Proof.
  intros W Q FL (FX & B & R). pose proof (unit_pos f W) as U. pose proof (pow_pos_ q Q) as QP.
  assert (SZ : forall l, fold_right (fun r s => Rabs r + s) 0 (map (number f) l) = size f l) by (clear; unfold size; induction l as [|x l IH]; cbn [map fold_right]; [reflexivity|rewrite IH; reflexivity]).
  assert (TZ : forall l, sum (map (number f) l) = total f l) by (clear; unfold total, sum; induction l as [|x l IH]; cbn [map fold_right]; [reflexivity|rewrite IH; reflexivity]). rewrite SZ in B, R. rewrite TZ. clear SZ TZ.
  assert (M : forall l, Forall (fun r => exists z, r = IZR (z * 2 ^ q) * unit_of f) (map (number f) l) -> exists z, total f l = IZR (z * 2 ^ q) * unit_of f).
  { clear. induction l as [|x l IH]; [exists 0%Z; cbn; ring|]. intros FX. inversion FX as [|? ? (z & Z) FX']; subst. destruct (IH FX') as (y & Y). exists (z + y)%Z. unfold total in *. cbn [fold_right]. rewrite Y, Z. rewrite !mult_IZR, plus_IZR. ring. }
  induction l as [|x l IH] using rev_ind; [exists false, 0%Z; split; [reflexivity|]; split; [apply zero_finite, W|apply val_zero]|]. destruct (M _ FX) as (y & Y).
  apply Forall_app in FL. destruct FL as [FL FF]. inversion FF as [|? ? (a & k & -> & F) _]; subst. rewrite map_app in FX. apply Forall_app in FX. destruct FX as [FX _]. rewrite size_snoc in B, R. pose proof (Rabs_pos (number f (FFin a k))) as AP. pose proof (size_nonneg f l) as SP.
  assert (R' : InReach f (size f l)). { destruct R as (n & FN & RN). exists n. split; [exact FN|]. rewrite Rabs_right in RN |- * by lra. lra. }
  destruct (IH FL FX ltac:(lra) R') as (s & n & E & FN & V). rewrite fold_left_app, E. cbn [fold_left]. pose proof (add_correct f s n a k W) as C. rewrite V in C. change (val f a k) with (number f (FFin a k)) in C. rewrite <- total_snoc in C. pose proof (total_size f (l ++ [FFin a k])) as TS. rewrite size_snoc in TS.
  destruct (reach_fin f _ _ W C) as (t & j & ET). { destruct R as (i & FI & RI). exists i. split; [exact FI|]. rewrite (Rabs_right (_ + _)) in RI by lra. lra. }
  exists t, j. split; [exact ET|]. rewrite ET in C. destruct C as (g & N & FJ & -> & _). split; [exact FJ|]. apply (near_exact f _ _ N). rewrite Y. apply grid_int; [exact W|exact Q|]. rewrite Y in TS. rewrite Rabs_mult, (Rabs_right (unit_of f)), <- abs_IZR in TS by lra.
  assert (X : IZR (Z.abs (y * 2 ^ q)) <= IZR (2 ^ fm_prec f * 2 ^ q)) by (apply (Rmult_le_reg_r (unit_of f)); [exact U|lra]). apply le_IZR in X. rewrite Z.abs_mul, (Z.abs_eq (2 ^ q)) in X by lia. apply (Z.mul_le_mono_pos_r _ _ (2 ^ q)); assumption.
Qed.
Lemma term_le x (l : list R) : In x l -> Rabs x <= fold_right (fun r s => Rabs r + s) 0 l.
Proof. induction l as [|y l IH]; [intros []|]. cbn [fold_right]. assert (0 <= fold_right (fun r s => Rabs r + s) 0 l) by (clear; induction l as [|z l IH]; cbn [fold_right]; [lra|pose proof (Rabs_pos z); lra]). intros [<-|I]; [lra|]. pose proof (Rabs_pos y). specialize (IH I). lra. Qed.
Lemma weighted_sums f l a : fa_v (fold_left (fun a p => fa_add f a (fst p) (snd p)) l a) = fold_left (f_add f) (map (fun p => f_mul f (snd p) (fst p)) l) (fa_v a) /\ fa_w (fold_left (fun a p => fa_add f a (fst p) (snd p)) l a) = fold_left (f_add f) (map snd l) (fa_w a).
Proof. revert a. induction l as [|p l IH]; intros a; [split; reflexivity|]. cbn [fold_left map]. destruct (IH (fa_add f a (fst p) (snd p))) as [A B]. rewrite A, B. split; reflexivity. Qed.
Theorem C95_weighted : forall f l q r, IEEE f -> (0 <= q)%Z -> (0 <= r)%Z -> Forall (fun p => Fin f (fst p) /\ Fin f (snd p)) l ->
  Fixed f q (map (fun p => number f (snd p) * number f (fst p)) l) -> Fixed f r (map (fun p => number f (snd p)) l) ->
  let a := fold_left (fun a p => fa_add f a (fst p) (snd p)) l fa_new in let w := sum (map (fun p => number f (snd p)) l) in
  (0 < w -> Correct f (sum (map (fun p => number f (snd p) * number f (fst p)) l) / w) (fa_get f a)) /\ (w <= 0 -> fa_get f a = f_zero) /\ (fa_empty a = true <-> w = 0).
Proof.
  intros f l q r I Q R FL X Y a w. pose proof (ieee_sane f I) as W. pose proof (unit_pos f W) as U.
  assert (P : forall p, In p l -> exists s n, f_mul f (snd p) (fst p) = FFin s n /\ Finite f n /\ val f s n = number f (snd p) * number f (fst p)).
  { intros p IP. rewrite Forall_forall in FL. destruct (FL p IP) as [(b & m & EV & FV) (c & k & EW & FW)]. rewrite EV, EW. cbn [number]. pose proof (mul_correct f c k b m W (fin_pos f c k FW) (fin_pos f b m FV)) as C. destruct X as (X1 & X2 & (z & FZ & XZ)).
    assert (IX : In (val f c k * val f b m) (map (fun p => number f (snd p) * number f (fst p)) l)) by (apply in_map_iff; exists p; rewrite EV, EW; split; [reflexivity|exact IP]). pose proof (term_le _ _ IX) as TL. assert (0 <= Rabs (val f c k * val f b m)) by apply Rabs_pos. set (sz := fold_right (fun r s => Rabs r + s) 0 _) in *.
    destruct (reach_fin f _ _ W C) as (s & n & E); [exists z; split; [exact FZ|]; rewrite (Rabs_right sz) in XZ by lra; lra|]. exists s, n. split; [exact E|]. rewrite E in C. destruct C as (g & N & FN & -> & _). split; [exact FN|]. apply (near_exact f _ _ N).
    rewrite Forall_forall in X1. destruct (X1 _ IX) as (j & J). rewrite J. apply grid_int; [exact W|exact Q|]. rewrite J in TL. rewrite Rabs_mult, (Rabs_right (unit_of f)), <- abs_IZR in TL by lra. assert (XX : IZR (Z.abs (j * 2 ^ q)) <= IZR (2 ^ fm_prec f * 2 ^ q)) by (apply (Rmult_le_reg_r (unit_of f)); [exact U|lra]). apply le_IZR in XX. pose proof (pow_pos_ q Q) as QP. rewrite Z.abs_mul, (Z.abs_eq (2 ^ q)) in XX by lia. apply (Z.mul_le_mono_pos_r _ _ (2 ^ q)); assumption. }
  assert (M : map (number f) (map (fun p => f_mul f (snd p) (fst p)) l) = map (fun p => number f (snd p) * number f (fst p)) l). { rewrite map_map. apply map_ext_in. intros p IP. destruct (P p IP) as (s & n & -> & _ & V). exact V. }
  assert (MW : map (number f) (map snd l) = map (fun p => number f (snd p)) l) by (rewrite map_map; reflexivity).
  destruct (fixed_sum f q (map (fun p => f_mul f (snd p) (fst p)) l) W Q) as (s & n & E & FN & V); [apply Forall_forall; intros x IX; apply in_map_iff in IX; destruct IX as (p & <- & IP); destruct (P p IP) as (t & j & -> & FJ & _); exists t, j; auto|rewrite M; exact X|]. rewrite M in V.
  destruct (fixed_sum f r (map snd l) W R) as (t & k & EW & FK & VW); [apply Forall_forall; intros x IX; apply in_map_iff in IX; destruct IX as (p & <- & IP); rewrite Forall_forall in FL; apply (FL p IP)|rewrite MW; exact Y|]. rewrite MW in VW. fold w in VW.
  destruct (weighted_sums f l fa_new) as [WV WW]. fold a in WV, WW. change (fa_v fa_new) with f_zero in WV. change (fa_w fa_new) with f_zero in WW. rewrite E in WV. rewrite EW in WW. pose proof (fin_pos f t k FK) as KP. assert (SG : (0 < w <-> (0 < signed t k)%Z) /\ (w = 0 <-> signed t k = 0%Z)).
  { rewrite <- VW. rewrite <- (val_zero f false). rewrite (val_lt f false 0 t k W), (val_eq f t k false 0 W). cbn. split; reflexivity. } destruct SG as [SG SE].
  unfold fa_get, fa_empty. rewrite WV, WW. unfold f_gt, f_zero. cbn [f_lt f_eq signed]. split; [|split].
  - intros WP. apply SG in WP. rewrite (proj2 (Z.ltb_lt _ _) WP). assert (t = false) by (destruct t; [cbn in WP; lia|reflexivity]). subst t. rewrite <- V, <- VW. apply div_correct; [exact W|exact (fin_pos f s n FN)|exact WP].
  - intros WN. rewrite (proj2 (Z.ltb_ge _ _)); [reflexivity|]. apply Z.nlt_ge. intros C. apply SG in C. lra.
  - rewrite Z.eqb_eq. symmetry. exact SE.
Qed.
Print Assumptions C95_weighted.

Lemma add_mono_fin f x x' v v' : Sane f -> Valid f x -> Valid f x' -> LessEq f x x' -> Fin f v -> Fin f v' -> LessEq f v v' ->
  LessEq f (f_add f x v) (f_add f x' v') /\ Valid f (f_add f x v) /\ Valid f (f_add f x' v').
Proof.
  intros W VX VX' L (a & n & -> & F) (b & m & -> & F') LV. apply lesseq_fin in LV. destruct (lesseq_num f x x' L) as [NX NX'].
  assert (VAL : forall y c k, Valid f y -> Valid f (f_add f y (FFin c k))) by (intros [|t|t j] c k _; [exact I|exact I|]; apply (correct_valid f _ _ (add_correct f t j c k W))).
  split; [|split; apply VAL; assumption]. destruct x as [|s|s j]; [exfalso; apply NX; reflexivity| |]; destruct x' as [|t|t i]; try (exfalso; apply NX'; reflexivity); cbn [f_add].
  - exact L.
  - destruct s; [|exfalso; destruct L as [(p & q & P & Q & L)|(p & P & Q)]; cbn in *; subst; [contradiction|discriminate]]. pose proof (correct_num _ _ _ (add_correct f t i b m W)) as NN. destruct (num_place f _ NN) as [q Q]. apply lesseq_iff. exists Below, q. split; [reflexivity|]. split; [exact Q|]. unfold xle. destruct q; cbn; auto.
  - destruct t; [exfalso; destruct L as [(p & q & P & Q & L)|(p & P & Q)]; cbn in *; subst; [contradiction|discriminate]|]. pose proof (correct_num _ _ _ (add_correct f s j a n W)) as NN. destruct (num_place f _ NN) as [q Q]. apply lesseq_iff. exists q, Above. split; [exact Q|]. split; [reflexivity|]. unfold xle. destruct q; cbn; auto.
  - apply lesseq_fin in L. apply (correct_mono f _ _ _ _ W (add_correct f s j a n W) (add_correct f t i b m W)). lra.
Qed.
Lemma div_mono f x x' w : Sane f -> Valid f x -> Valid f x' -> LessEq f x x' -> (0 < w)%Z -> LessEq f (f_div f x (FFin false w)) (f_div f x' (FFin false w)).
Proof.
  intros W VX VX' L WP. assert (VW : 0 < val f false w) by (rewrite <- (val_zero f false); apply val_lt; [exact W|exact WP]). destruct (lesseq_num f x x' L) as [NX NX']. destruct x as [|s|s j]; [exfalso; apply NX; reflexivity| |]; destruct x' as [|t|t i]; try (exfalso; apply NX'; reflexivity).
  - destruct s, t; cbn; try exact L.
  - destruct s; [|exfalso; destruct L as [(p & q & P & Q & L)|(p & P & Q)]; cbn in *; subst; [contradiction|discriminate]]. pose proof (correct_num _ _ _ (div_correct f t i false w W (fin_pos f t i VX') WP)) as NN. destruct (num_place f _ NN) as [q Q]. apply lesseq_iff. exists Below, q. split; [reflexivity|]. split; [exact Q|]. unfold xle. destruct q; cbn; auto.
  - destruct t; [exfalso; destruct L as [(p & q & P & Q & L)|(p & P & Q)]; cbn in *; subst; [contradiction|discriminate]|]. pose proof (correct_num _ _ _ (div_correct f s j false w W (fin_pos f s j VX) WP)) as NN. destruct (num_place f _ NN) as [q Q]. apply lesseq_iff. exists q, Above. split; [exact Q|]. split; [reflexivity|]. unfold xle. destruct q; cbn; auto.
  - apply lesseq_fin in L. apply (correct_mono f _ _ _ _ W (div_correct f s j false w W (fin_pos f s j VX) WP) (div_correct f t i false w W (fin_pos f t i VX') WP)). apply Rmult_le_compat_r; [left; apply Rinv_0_lt_compat, VW|exact L].
Qed.
(* greater values have a greater average, whatever the roundings and though
   sums may become infinite *)
Theorem C95_mono : forall f l l', IEEE f -> Forall2 (fun x y => Fin f x /\ Fin f y /\ LessEq f x y) l l' -> LessEq f (fa_get f (averaged f l)) (fa_get f (averaged f l')).
Proof.
  intros f l l' I FL. pose proof (ieee_sane f I) as W. assert (LEN : length l = length l') by (induction FL; cbn; [reflexivity|f_equal; assumption]).
  assert (M : forall a a', Valid f (fa_v a) -> Valid f (fa_v a') -> LessEq f (fa_v a) (fa_v a') -> let b := fold_left (fa_add1 f) l a in let b' := fold_left (fa_add1 f) l' a' in LessEq f (fa_v b) (fa_v b') /\ Valid f (fa_v b) /\ Valid f (fa_v b')).
  { clear LEN. induction FL as [|x y l l' (FX & FY & L) FL IH]; intros a a' VA VA' LA; cbn [fold_left]; [auto|]. destruct (add_mono_fin f (fa_v a) (fa_v a') x y W VA VA' LA FX FY L) as (A & B & C). apply IH; cbn [fa_add1 fa_add fa_v]; rewrite !(mul_one f _ W) by (apply fin_valid; assumption); assumption. }
  destruct (M fa_new fa_new) as (A & B & C); [apply (zero_finite f W)|apply (zero_finite f W)|apply lesseq_refl; discriminate|]. fold (averaged f l) in A, B. fold (averaged f l') in A, C.
  pose proof W as [W1 W2]. pose proof (pow_pos_ (fm_prec f) ltac:(lia)) as P. pose proof (averaged_weight f l I fa_new 0 ltac:(lia) eq_refl) as E1. pose proof (averaged_weight f l' I fa_new 0 ltac:(lia) eq_refl) as E2. fold (averaged f l) in E1. fold (averaged f l') in E2. rewrite <- LEN, <- E1 in E2. unfold fa_get. rewrite E2, E1. unfold f_gt, f_zero. cbn [f_lt signed]. destruct (Z.ltb_spec 0 (Z.min (0 + Z.of_nat (length l)) (2 ^ fm_prec f) * 2 ^ fm_low f)) as [WP|WP]; [|apply lesseq_refl; discriminate]. apply div_mono; assumption.
Qed.
Print Assumptions C95_mono.
(* one value is its own average; no values have the average zero *)
Theorem C95_one : forall f v, IEEE f -> Valid f v -> Num v -> Same f (fa_get f (averaged f [v])) v /\ fa_empty (averaged f [v]) = false /\ fa_get f (averaged f []) = f_zero /\ fa_empty (averaged f []) = true.
Proof.
  intros f v I V N. pose proof (ieee_sane f I) as W. pose proof W as [W1 W2]. pose proof (pow_pos_ (fm_low f) ltac:(lia)) as P. assert (E : averaged f [v] = mkFa (f_add f f_zero v) (f_one f)).
  { unfold averaged. cbn [fold_left]. unfold fa_add1, fa_add, fa_new. cbn [fa_v fa_w]. rewrite (mul_one f v W V). f_equal. pose proof (count_step f 0 I ltac:(split; [lia|apply pow_pos_; lia])) as S. rewrite Z.mul_0_l, Z.add_0_l, Z.mul_1_l in S. exact S. }
  rewrite E. split; [|split; [cbn; apply Z.eqb_neq; lia|split; reflexivity]]. unfold fa_get. cbn [fa_w fa_v]. replace (f_gt (f_one f) f_zero) with true by (symmetry; apply Z.ltb_lt; cbn; lia).
  destruct v as [|a|a n]; [exfalso; apply N; reflexivity|cbn; rewrite xorb_false_r; destruct a; eexists; split; reflexivity|]. pose proof (add_correct f false 0 a n W) as C. rewrite val_zero, Rplus_0_l in C. unfold f_zero. rewrite (div_one f _ W (correct_valid f _ _ C)). apply (correct_same f (val f a n) _ _ W C). apply correct_fin; [exact W|exact V].
Qed.
Print Assumptions C95_one.

(* after 2^24 or 2^53 values more are counted as if they were none: as many
   zeros and then as many ones have the average one *)
Lemma add_zeros f k : IEEE f -> forall a, fa_v a = f_zero -> fa_v (fold_left (fa_add1 f) (repeat f_zero k) a) = f_zero.
Proof. intros I. pose proof (ieee_sane f I) as W. induction k as [|k IH]; intros a E; cbn [repeat fold_left]; [exact E|]. apply IH. cbn [fa_add1 fa_add fa_v]. rewrite E, (mul_one f f_zero W) by (apply (zero_finite f W)). reflexivity. Qed.
Lemma add_ones f k : IEEE f -> forall a j, (0 <= j)%Z -> (j + Z.of_nat k <= 2 ^ fm_prec f)%Z -> fa_v a = FFin false (j * 2 ^ fm_low f) -> fa_v (fold_left (fa_add1 f) (repeat (f_one f) k) a) = FFin false ((j + Z.of_nat k) * 2 ^ fm_low f).
Proof.
  intros I. pose proof (ieee_sane f I) as W. induction k as [|k IH]; intros a j J B E; cbn [repeat fold_left]; [rewrite E; f_equal; f_equal; lia|]. rewrite (IH _ (j + 1)%Z); [f_equal; f_equal; lia|lia|lia|]. cbn [fa_add1 fa_add fa_v]. rewrite E, (mul_one f (f_one f) W); [apply count_step; [exact I|lia]|]. pose proof W as [W1 W2]. pose proof (count_fin f 1 W ltac:(lia)) as F. rewrite Z.mul_1_l in F. apply F. pose proof (pow_pos_ (fm_prec f) ltac:(lia)). lia.
Qed.
Theorem C95_frozen_refuted : forall f, IEEE f -> let k := Z.to_nat (2 ^ fm_prec f) in let l := repeat f_zero k ++ repeat (f_one f) k in
  total f l / INR (length l) = / 2 /\ fa_get f (averaged f l) = f_one f.
Proof.
  intros f I k l. pose proof (ieee_sane f I) as W. pose proof W as [W1 W2]. pose proof (pow_pos_ (fm_prec f) ltac:(lia)) as P. assert (KZ : Z.of_nat k = (2 ^ fm_prec f)%Z) by (unfold k; rewrite Z2Nat.id; lia). split.
  - assert (T : total f l = INR k).
    { unfold l. assert (A : forall x y, total f (x ++ y) = total f x + total f y) by (clear; intros x y; unfold total; induction x as [|z x IH]; cbn [app fold_right]; [ring|rewrite IH; ring]). rewrite A.
      assert (B : forall j, total f (repeat f_zero j) = 0) by (clear; unfold total; induction j as [|j IH]; cbn [repeat fold_right]; [reflexivity|rewrite IH; unfold f_zero; cbn [number]; rewrite val_zero; ring]).
      assert (C : forall j, total f (repeat (f_one f) j) = INR j) by (intros j; unfold total; induction j as [|j IH]; cbn [repeat fold_right]; [reflexivity|rewrite IH, S_INR; unfold f_one; cbn [number]; rewrite (one_val f W); ring]). rewrite B, C. ring. }
    rewrite T. unfold l. rewrite app_length, !repeat_length, plus_INR. assert (0 < INR k) by (apply lt_0_INR; lia). field. lra.
  - assert (V : fa_v (averaged f l) = FFin false (2 ^ fm_prec f * 2 ^ fm_low f)).
    { unfold averaged, l. rewrite fold_left_app. rewrite (add_ones f k I _ 0); [f_equal; f_equal; lia|lia|lia|]. rewrite (add_zeros f k I); reflexivity. }
    pose proof (averaged_weight f l I fa_new 0 ltac:(lia) eq_refl) as EW. fold (averaged f l) in EW. rewrite Z.min_r in EW by (unfold l; rewrite app_length, !repeat_length; lia). unfold fa_get. rewrite V, EW. clear - I. destruct I as [->| ->]; vm_compute; reflexivity.
Qed.
Print Assumptions C95_frozen_refuted.
(* the average of equal values need not be that value: it may be greater than
   all of them *)
Theorem C95_bounded_refuted : exists v, Valid float_fmt v /\ Less float_fmt v (fa_get float_fmt (averaged float_fmt [v; v; v])).
Proof.
  assert (I : IEEE float_fmt) by (right; reflexivity). pose proof (ieee_sane _ I) as W. exists (to_fnum float_fmt false (VNum 17 10)). split; [apply (correct_valid _ _ _ (round_correct float_fmt false 17 10 W ltac:(lia) ltac:(lia)))|]. apply (lt_less _ _ _ W). vm_compute. reflexivity.
Qed.
Print Assumptions C95_bounded_refuted.

(* delta *)
Theorem C95_delta : forall f p v, IEEE f -> let (d, p') := fd_call f p v in p' = v /\
  (Less f p v -> Less f f_zero d) /\ (Less f v p -> Less f d f_zero) /\
  (forall a n b m, p = FFin a n -> v = FFin b m -> Correct f (val f b m - val f a n) d) /\ (Fin f p -> Fin f v -> (Same f d f_zero <-> Same f p v)).
Proof.
  intros f p v I. pose proof (ieee_sane f I) as W. cbn [fd_call]. split; [reflexivity|]. split; [apply sub_positive, W|]. split; [apply sub_negative, W|]. split; [intros a n b m -> ->; apply sub_correct, W|]. intros (a & n & -> & F) (b & m & -> & F'). split.
  - intros S. apply lesseq_antisym; apply not_less; try discriminate; intros L; [apply (less_not_same f _ _ (sub_negative f _ _ W L) S)|apply (less_not_same f _ _ (sub_positive f _ _ W L)), same_sym, S].
  - intros (q & P & Q). cbn in P, Q. subst q. injection Q as Q. apply (val_eq f a n b m W) in Q. unfold f_sub. cbn [f_neg f_add]. replace (signed (negb a) n) with (- signed a n)%Z by (destruct a; cbn; lia). rewrite Q, Z.add_opp_diag_r. cbn [Z.eqb]. eexists. cbn. rewrite !val_zero. split; reflexivity.
Qed.
Print Assumptions C95_delta.
(* no change at infinity is not zero, and the changes do not add up *)
Theorem C95_delta_refuted : (forall f a, fst (fd_call f (FInf a) (FInf a)) = FNan) /\
  let d := float_fmt in let x := to_fnum d false (VNum (2 ^ 24 + 2) 1) in let y := f_add d (f_add d f_zero (fst (fd_call d f_zero (f_one d)))) (fst (fd_call d (f_one d) x)) in ~ Same d y (fst (fd_call d f_zero x)) /\ snd (fd_call d (f_one d) x) = x.
Proof. split; [intros f []; reflexivity|]. assert (W : Sane float_fmt) by (apply ieee_sane; right; reflexivity). cbv zeta. split; [|reflexivity]. intros S. apply (eq_same _ _ _ W) in S. vm_compute in S. discriminate. Qed.
Print Assumptions C95_delta_refuted.

Local Open Scope Z_scope.
Example C95_nonvacuous : let d := float_fmt in let i := fun k : Z => to_fnum d (k <? 0)%Z (VNum (Z.abs k) 1) in let q := fun a b => to_fnum d false (VNum a b) in
  fa_get d (averaged d [i 1; i 2; i 6]) = i 3 /\ fa_get d (averaged d [i 1; i 2; i (-5); i 4]) = q 1 2 /\ fa_get d (averaged d [i 1; FNan; i 4]) = FNan /\
  fst (fd_call d (i 4) (i 1)) = i (-3) /\ fa_get d (fa_add d (fa_add d fa_new (i 5) (i 3)) (i 1) (i 1)) = i 4 /\ fa_get float_fmt (mkFa (FFin false (2 ^ 24 * 2 ^ 149)) (FFin false (2 ^ 24 * 2 ^ 149))) = f_one float_fmt.
Proof. vm_compute. repeat split. Qed.
