(* C110: Catmull-Rom segments of float and double *)
From Coq Require Import Reals ZArith List Lra Lia Bool.
From Verif Require Import Model.Base Model.FloatText Model.Ieee Model.FloatMath Model.FloatInterp Model.FloatFilter Model.FloatVec Model.FloatSpline Spec.FloatText Spec.Ieee Spec.FloatSpline.
From Verif Require Import Proofs.BaseFacts Proofs.FloatTextProofs Proofs.IeeeProofs Proofs.IeeeErrorProofs Proofs.FloatOpsProofs Props.FloatAverage Proofs.RoundingProofs Proofs.ReportProofs Props.FloatTable Props.FloatPoly Props.FloatVec Props.FloatFilter Props.FloatQuat Props.FloatStats.
From Verif Require Import Props.FloatPoly.
Import ListNotations.
Local Open Scope R_scope.

Lemma ulp_tiny f : IEEE f -> 0 < ulp f <= / 16777216.
Proof.
  intros I. split; [apply (ulp_small f I)|]. unfold ulp. apply Rinv_le_contravar; [lra|]. apply IZR_le. destruct I as [-> | ->]; vm_compute; discriminate.
Qed.
(* x stands for r, |r| <= B M, up to k roundings of M *)
Section approx.
  Variables (f : fmt) (M : R).
  Hypothesis I : IEEE f.
  Hypothesis MU : unit_of f <= ulp f * M.
  Hypothesis MR : 32 * M <= room f.
  Definition Ap (x : fnum) (r k B : R) : Prop := Fin f x /\ Rabs (number f x - r) <= k * (ulp f * M) /\ Rabs r <= B * M.
  Lemma m_pos : 0 < M.
  Proof. destruct (ulp_tiny f I) as [U _]. pose proof (unit_pos f (ieee_sane f I)). destruct (Rlt_le_dec 0 M); [assumption|]. assert (ulp f * M <= ulp f * 0) by (apply Rmult_le_compat_l; lra). lra. Qed.
  Lemma um_small : 0 < ulp f * M <= / 16777216 * M.
  Proof. pose proof m_pos. destruct (ulp_tiny f I) as [U V]. split; [apply Rmult_lt_0_compat; lra|apply Rmult_le_compat_r; lra]. Qed.
  Lemma ap_size x r k B : Ap x r k B -> 0 <= k <= 400 -> Rabs (number f x) <= (B + / 16) * M.
  Proof.
    intros (_ & E & R) K. destruct um_small as [U V]. pose proof m_pos. assert (k * (ulp f * M) <= 400 * (/ 16777216 * M)) by (apply Rmult_le_compat; lra). apply abs_inv in E. apply abs_inv in R. apply Rabs_le. split; lra.
  Qed.
  Lemma ap_add x r k B y s l C : Ap x r k B -> Ap y s l C -> 0 <= k <= 400 -> 0 <= l <= 400 -> 0 <= B -> 0 <= C -> B + C <= 30 -> Ap (f_add f x y) (r + s) (k + l + B + C + / 8) (B + C).
  Proof.
    intros AX AY K L B0 C0 S. pose proof (ap_size _ _ _ _ AX K) as SX. pose proof (ap_size _ _ _ _ AY L) as SY. destruct AX as (FX & EX & RX). destruct AY as (FY & EY & RY). pose proof m_pos as MP. destruct um_small as [U V]. destruct (ulp_tiny f I) as [u0 _].
    assert (Z : Rabs (number f x + number f y) <= (B + C + / 8) * M) by (eapply Rle_trans; [apply Rabs_triang|]; lra).
    assert (T : (B + C + / 8) * M <= 31 * M) by (apply Rmult_le_compat_r; lra).
    destruct (add_fin f x y I FX FY ltac:(lra)) as (F & _ & E). split; [exact F|]. assert (E' : ulp f * Rabs (number f x + number f y) <= ulp f * ((B + C + / 8) * M)) by (apply Rmult_le_compat_l; lra).
    replace (ulp f * ((B + C + / 8) * M)) with ((B + C + / 8) * (ulp f * M)) in E' by ring. split; [|eapply Rle_trans; [apply Rabs_triang|]; lra].
    set (e := ulp f * M) in *. clearbody e. assert (E2 : Rabs (number f (f_add f x y) - (number f x + number f y)) <= (B + C + / 8) * e) by lra. clear E E'. apply abs_inv in E2. apply abs_inv in EX. apply abs_inv in EY. apply Rabs_le. split; lra.
  Qed.
  Lemma ap_neg x r k B : Ap x r k B -> Ap (f_neg x) (- r) k B.
  Proof. intros (F & E & R). destruct (neg_fin f x F) as [FN EN]. split; [exact FN|]. rewrite EN, Rabs_Ropp. split; [|exact R]. replace (- number f x - - r) with (- (number f x - r)) by ring. rewrite Rabs_Ropp. exact E. Qed.
  Lemma ap_sub x r k B y s l C : Ap x r k B -> Ap y s l C -> 0 <= k <= 400 -> 0 <= l <= 400 -> 0 <= B -> 0 <= C -> B + C <= 30 -> Ap (f_sub f x y) (r - s) (k + l + B + C + / 8) (B + C).
  Proof. intros AX AY. apply (ap_add x r k B (f_neg y) (- s) l C AX (ap_neg _ _ _ _ AY)). Qed.
  (* a factor that is not rounded *)
  Lemma ap_mul c x r k B q : Fin f c -> Rabs (number f c) <= q -> Ap x r k B -> 0 <= k <= 400 -> 0 <= B -> q * (B + / 16) <= 30 -> Ap (f_mul f c x) (number f c * r) (q * k + q * (B + / 16) + / 2) (q * B).
  Proof.
    intros FC Q AX K B0 S. pose proof (ap_size _ _ _ _ AX K) as SX. destruct AX as (FX & EX & RX). pose proof m_pos as MP. destruct um_small as [U V]. destruct (ulp_tiny f I) as [u0 _]. pose proof (Rabs_pos (number f c)) as QP.
    assert (Z : Rabs (number f c * number f x) <= q * (B + / 16) * M) by (rewrite Rabs_mult, Rmult_assoc; apply Rmult_le_compat; auto using Rabs_pos).
    assert (T : q * (B + / 16) * M <= 30 * M) by (apply Rmult_le_compat_r; lra).
    destruct (mul_fin f c x I FC FX ltac:(lra)) as (F & _ & E). split; [exact F|]. assert (E' : ulp f * Rabs (number f c * number f x) <= ulp f * (q * (B + / 16) * M)) by (apply Rmult_le_compat_l; lra).
    replace (ulp f * (q * (B + / 16) * M)) with (q * (B + / 16) * (ulp f * M)) in E' by ring. split; [|rewrite Rabs_mult, Rmult_assoc; apply Rmult_le_compat; auto using Rabs_pos].
    assert (E1 : Rabs (number f c * number f x - number f c * r) <= q * k * (ulp f * M)). { replace (number f c * number f x - number f c * r) with (number f c * (number f x - r)) by ring. rewrite Rabs_mult, Rmult_assoc. apply Rmult_le_compat; auto using Rabs_pos. }
    set (e := ulp f * M) in *. clearbody e. assert (E2 : Rabs (number f (f_mul f c x) - number f c * number f x) <= q * (B + / 16) * e + / 2 * e) by lra. clear E E'. apply abs_inv in E2. apply abs_inv in E1. apply Rabs_le. split; lra.
  Qed.
End approx.

(* twice a number of the format *)
Lemma grid_twice f g : Grid f g -> Grid f (2 * g).
Proof.
  intros (s & n & (m & e & E0 & M & ->) & ->). exists s, (m * 2 ^ (e + 1))%Z. split; [exists m, (e + 1)%Z; split; [lia|auto]|]. unfold val. replace (m * 2 ^ (e + 1))%Z with (2 * (m * 2 ^ e))%Z by (rewrite Z.pow_add_r by lia; change (2 ^ 1)%Z with 2%Z; ring). rewrite (mult_IZR 2). destruct s; ring.
Qed.
Lemma factor_fin f z : IEEE f -> (0 <= z <= 5)%Z -> Fin f (f_of_int f z) /\ number f (f_of_int f z) = IZR z.
Proof. intros I B. apply (int_fin f z I). transitivity (2 ^ 3)%Z; [rewrite Z.abs_eq by lia; apply Z.le_trans with 5%Z; [apply B|discriminate]|]. apply Z.pow_le_mono_r; [lia|]. destruct I as [-> | ->]; cbn; lia. Qed.
Lemma room_top f : IEEE f -> 0 < room f /\ IZR (2 ^ fm_top f) = 2 * room f.
Proof. intros I. unfold room. pose proof (top_pos f (ieee_sane f I)). lra. Qed.
Lemma times_two f x : IEEE f -> Fin f x -> 2 * Rabs (number f x) <= room f -> Fin f (f_mul f (f_of_int f 2) x) /\ number f (f_mul f (f_of_int f 2) x) = 2 * number f x.
Proof.
  intros I F B. destruct (factor_fin f 2 I ltac:(lia)) as [F2 E2]. pose proof (mul_correct' f _ x I F2 F) as C. rewrite E2 in C. destruct (room_top f I) as [R0 R]. apply (correct_exact f _ _ I C); [apply grid_twice, fin_grid, F|]. rewrite Rabs_mult, (Rabs_right 2) by lra. lra.
Qed.
Lemma times_four f x : IEEE f -> Fin f x -> 4 * Rabs (number f x) <= room f -> Fin f (f_mul f (f_of_int f 4) x) /\ number f (f_mul f (f_of_int f 4) x) = 4 * number f x.
Proof.
  intros I F B. destruct (factor_fin f 4 I ltac:(lia)) as [F2 E2]. pose proof (mul_correct' f _ x I F2 F) as C. rewrite E2 in C. destruct (room_top f I) as [R0 R]. apply (correct_exact f _ _ I C); [replace (4 * number f x) with (2 * (2 * number f x)) by ring; apply grid_twice, grid_twice, fin_grid, F|]. rewrite Rabs_mult, (Rabs_right 4) by lra. lra.
Qed.

Lemma ap_le f M x r k B k' : IEEE f -> unit_of f <= ulp f * M -> Ap f M x r k B -> k <= k' -> Ap f M x r k' B.
Proof. intros I MU (F & E & R) K. split; [exact F|]. split; [|exact R]. eapply Rle_trans; [exact E|]. apply Rmult_le_compat_r; [|exact K]. pose proof (unit_pos f (ieee_sane f I)). lra. Qed.
Lemma ap_eq f M x r k B r' k' B' : Ap f M x r k B -> r = r' -> k = k' -> B = B' -> Ap f M x r' k' B'.
Proof. intros A <- <- <-. exact A. Qed.

(* the coefficients *)
Lemma coefficients f p0 p1 p2 p3 M : IEEE f -> Forall (fun p => Fin f p /\ Rabs (number f p) <= M) [p0; p1; p2; p3] -> unit_of f <= ulp f * M -> 32 * M <= room f ->
  let q0 := number f p0 in let q1 := number f p1 in let q2 := number f p2 in let q3 := number f p3 in let s := fseg_make f p0 p1 p2 p3 in
  Ap f M (fs_a s) (2 * q1) 0 2 /\ Ap f M (fs_b s) (- q0 + q2) (17 / 8) 2 /\ Ap f M (fs_c s) (2 * q0 - 5 * q1 + 4 * q2 - q3) 37 12 /\ Ap f M (fs_d s) (- q0 + 3 * q1 - 3 * q2 + q3) 28 8.
Proof.
  intros I FP MU MR q0 q1 q2 q3 s. repeat match goal with H : Forall _ (_ :: _) |- _ => inversion H; clear H; subst end. repeat match goal with H : _ /\ _ |- _ => destruct H end.
  pose proof (m_pos f M I MU) as MP.
  assert (P : forall p, Fin f p -> Rabs (number f p) <= M -> Ap f M p (number f p) 0 1) by (intros p F B; split; [exact F|]; rewrite Rminus_eq_0, Rabs_R0; lra).
  assert (P2 : forall p, Fin f p -> Rabs (number f p) <= M -> Ap f M (f_mul f (f_of_int f 2) p) (2 * number f p) 0 2).
  { intros p F B. destruct (times_two f p I F ltac:(lra)) as [F2 E2]. split; [exact F2|]. rewrite E2, Rminus_eq_0, Rabs_R0, Rabs_mult, (Rabs_right 2) by lra. lra. }
  assert (P4 : forall p, Fin f p -> Rabs (number f p) <= M -> Ap f M (f_mul f (f_of_int f 4) p) (4 * number f p) 0 4).
  { intros p F B. destruct (times_four f p I F ltac:(lra)) as [F2 E2]. split; [exact F2|]. rewrite E2, Rminus_eq_0, Rabs_R0, Rabs_mult, (Rabs_right 4) by lra. lra. }
  assert (P3 : forall p, Fin f p -> Rabs (number f p) <= M -> Ap f M (f_mul f (f_of_int f 3) p) (3 * number f p) 4 3).
  { intros p F B. destruct (factor_fin f 3 I ltac:(lia)) as [FF EF]. pose proof (ap_mul f M I MU MR (f_of_int f 3) p _ 0 1 3 FF ltac:(rewrite EF, Rabs_right by lra; lra) (P p F B) ltac:(lra) ltac:(lra) ltac:(lra)) as A. rewrite EF in A. apply (ap_le f M _ _ _ _ 4 I MU (ap_eq f M _ _ _ _ _ _ 3 A eq_refl eq_refl ltac:(lra))). lra. }
  assert (P5 : forall p, Fin f p -> Rabs (number f p) <= M -> Ap f M (f_mul f (f_of_int f 5) p) (5 * number f p) 6 5).
  { intros p F B. destruct (factor_fin f 5 I ltac:(lia)) as [FF EF]. pose proof (ap_mul f M I MU MR (f_of_int f 5) p _ 0 1 5 FF ltac:(rewrite EF, Rabs_right by lra; lra) (P p F B) ltac:(lra) ltac:(lra) ltac:(lra)) as A. rewrite EF in A. apply (ap_le f M _ _ _ _ 6 I MU (ap_eq f M _ _ _ _ _ _ 5 A eq_refl eq_refl ltac:(lra))). lra. }
  pose proof (P2 p1 ltac:(assumption) ltac:(assumption)) as A. fold q1 in A.
  pose proof (ap_add f M I MU MR _ _ _ _ _ _ _ _ (ap_neg f M _ _ _ _ (P p0 ltac:(assumption) ltac:(assumption))) (P p2 ltac:(assumption) ltac:(assumption)) ltac:(lra) ltac:(lra) ltac:(lra) ltac:(lra) ltac:(lra)) as B. fold q0 q2 in B.
  pose proof (ap_sub f M I MU MR _ _ _ _ _ _ _ _ (P2 p0 ltac:(assumption) ltac:(assumption)) (P5 p1 ltac:(assumption) ltac:(assumption)) ltac:(lra) ltac:(lra) ltac:(lra) ltac:(lra) ltac:(lra)) as C1.
  pose proof (ap_add f M I MU MR _ _ _ _ _ _ _ _ C1 (P4 p2 ltac:(assumption) ltac:(assumption)) ltac:(lra) ltac:(lra) ltac:(lra) ltac:(lra) ltac:(lra)) as C2.
  pose proof (ap_sub f M I MU MR _ _ _ _ _ _ _ _ C2 (P p3 ltac:(assumption) ltac:(assumption)) ltac:(lra) ltac:(lra) ltac:(lra) ltac:(lra) ltac:(lra)) as C. fold q0 q1 q2 q3 in C. clear C1 C2.
  pose proof (ap_add f M I MU MR _ _ _ _ _ _ _ _ (ap_neg f M _ _ _ _ (P p0 ltac:(assumption) ltac:(assumption))) (P3 p1 ltac:(assumption) ltac:(assumption)) ltac:(lra) ltac:(lra) ltac:(lra) ltac:(lra) ltac:(lra)) as D1.
  pose proof (ap_sub f M I MU MR _ _ _ _ _ _ _ _ D1 (P3 p2 ltac:(assumption) ltac:(assumption)) ltac:(lra) ltac:(lra) ltac:(lra) ltac:(lra) ltac:(lra)) as D2.
  pose proof (ap_add f M I MU MR _ _ _ _ _ _ _ _ D2 (P p3 ltac:(assumption) ltac:(assumption)) ltac:(lra) ltac:(lra) ltac:(lra) ltac:(lra) ltac:(lra)) as D. fold q0 q1 q2 q3 in D. clear D1 D2.
  split; [exact A|]. split; [apply (ap_eq f M _ _ _ _ _ _ _ B); [reflexivity|lra|lra]|].
  split; [apply (ap_le f M _ _ _ _ _ I MU (ap_eq f M _ _ _ _ _ _ 12 C eq_refl eq_refl ltac:(lra))); lra|].
  apply (ap_le f M _ _ _ _ _ I MU (ap_eq f M _ _ _ _ _ _ 8 D eq_refl eq_refl ltac:(lra))); lra.
Qed.
(* The value for t in [0, 1] is within 100 roundings of M of the exact curve, M
   a bound of the points, at least the smallest normal number. *)
Theorem C110_error : forall f p0 p1 p2 p3 t M, IEEE f -> Forall (fun p => Fin f p /\ Rabs (number f p) <= M) [p0; p1; p2; p3] -> Fin f t -> 0 <= number f t <= 1 ->
  unit_of f <= ulp f * M -> 32 * M <= room f ->
  Fin f (f_catmull f p0 p1 p2 p3 t) /\ Rabs (number f (f_catmull f p0 p1 p2 p3 t) - catmull_rom (number f p0) (number f p1) (number f p2) (number f p3) (number f t)) <= 100 * (ulp f * M).
Proof.
  intros f p0 p1 p2 p3 t M I FP FT BT MU MR.
  assert (PT : forall x r k B, Ap f M x r k B -> 0 <= k <= 400 -> 0 <= B <= 29 -> Ap f M (f_mul f x t) (r * number f t) (k + B + 9 / 16) B).
  { intros x r k B A K BB. rewrite mul_comm. pose proof (ap_mul f M I MU MR t x r k B 1 FT ltac:(rewrite Rabs_right by lra; lra) A K ltac:(lra) ltac:(lra)) as Q. apply (ap_eq f M _ _ _ _ _ _ _ Q); lra. }
  destruct (coefficients f p0 p1 p2 p3 M I FP MU MR) as (A & B & C & D). cbv zeta in A, B, C, D.
  unfold f_catmull, fseg_eval. set (s := fseg_make f p0 p1 p2 p3) in *. clearbody s.
  set (tt := number f t) in *. set (q0 := number f p0) in *. set (q1 := number f p1) in *. set (q2 := number f p2) in *. set (q3 := number f p3) in *.
  pose proof (PT _ _ _ _ B ltac:(lra) ltac:(lra)) as B1. pose proof (PT _ _ _ _ C ltac:(lra) ltac:(lra)) as C1. pose proof (PT _ _ _ _ C1 ltac:(lra) ltac:(lra)) as C2. pose proof (PT _ _ _ _ D ltac:(lra) ltac:(lra)) as D1. pose proof (PT _ _ _ _ D1 ltac:(lra) ltac:(lra)) as D2. pose proof (PT _ _ _ _ D2 ltac:(lra) ltac:(lra)) as D3.
  pose proof (ap_add f M I MU MR _ _ _ _ _ _ _ _ A B1 ltac:(lra) ltac:(lra) ltac:(lra) ltac:(lra) ltac:(lra)) as S1.
  pose proof (ap_add f M I MU MR _ _ _ _ _ _ _ _ S1 C2 ltac:(lra) ltac:(lra) ltac:(lra) ltac:(lra) ltac:(lra)) as S2.
  pose proof (ap_add f M I MU MR _ _ _ _ _ _ _ _ S2 D3 ltac:(lra) ltac:(lra) ltac:(lra) ltac:(lra) ltac:(lra)) as S3.
  destruct (half_fin f I) as [FH EH].
  pose proof (ap_mul f M I MU MR _ _ _ _ _ (1 / 2) FH ltac:(rewrite EH, Rabs_right by lra; lra) S3 ltac:(lra) ltac:(lra) ltac:(lra)) as V. rewrite EH in V. destruct V as (FV & EV & _). split; [exact FV|].
  match type of EV with Rabs (_ - ?r) <= _ => replace (catmull_rom q0 q1 q2 q3 tt) with r by (unfold catmull_rom, hermite; field) end. eapply Rle_trans; [exact EV|]. apply Rmult_le_compat_r; [|lra]. pose proof (unit_pos f (ieee_sane f I)). lra.
Qed.
Print Assumptions C110_error.

(* The segment starts exactly in p1, and ends near p2, where the next one
   starts. *)
Lemma zero_fin f a : IEEE f -> Fin f (FFin a 0).
Proof. intros I. exists a, 0%Z. split; [reflexivity|apply (zero_finite f (ieee_sane f I))]. Qed.
Theorem C110_start : forall f p0 p1 p2 p3 a M, IEEE f -> Forall (fun p => Fin f p /\ Rabs (number f p) <= M) [p0; p1; p2; p3] ->
  unit_of f <= ulp f * M -> 32 * M <= room f -> Same f (f_catmull f p0 p1 p2 p3 (FFin a 0)) p1.
Proof.
  intros f p0 p1 p2 p3 a M I FP MU MR. pose proof (ieee_sane f I) as W. destruct (coefficients f p0 p1 p2 p3 M I FP MU MR) as (_ & (FB & _) & (FC & _) & (FD & _)). cbv zeta in *.
  inversion FP as [|? ? _ FP1]; subst. inversion FP1 as [|? ? [F1 B1] _]; subst. pose proof (m_pos f M I MU) as MP. destruct (times_two f p1 I F1 ltac:(lra)) as [FA EA]. change (f_mul f (f_of_int f 2) p1) with (fs_a (fseg_make f p0 p1 p2 p3)) in FA, EA.
  unfold f_catmull, fseg_eval. set (s := fseg_make f p0 p1 p2 p3) in *. clearbody s. pose proof (zero_fin f a I) as FZ.
  rewrite (mul_comm f (fs_b s)), (mul_comm f (fs_c s)), (mul_comm f (fs_d s)). destruct (zero_mul f a (fs_b s) W FB) as [zb ->]. destruct (zero_mul f a (fs_c s) W FC) as [zc ->]. destruct (zero_mul f a (fs_d s) W FD) as [zd ->].
  destruct (zero_mul f zc (FFin a 0) W FZ) as [yc ->]. destruct (zero_mul f zd (FFin a 0) W FZ) as [yd ->]. destruct (zero_mul f yd (FFin a 0) W FZ) as [xd ->].
  destruct (add_zero f (fs_a s) zb W FA) as [F2 E2]. destruct (add_zero f _ yc W F2) as [F3 E3]. destruct (add_zero f _ xd W F3) as [F4 E4]. set (x := f_add f (f_add f (f_add f (fs_a s) (FFin zb 0)) (FFin yc 0)) (FFin xd 0)) in *. destruct (half_fin f I) as [FH EH].
  pose proof (mul_correct' f _ x I FH F4) as C. rewrite EH, E4, E3, E2, EA in C. destruct (correct_number f _ _ p1 W C F1 ltac:(lra)) as [FR ER]. apply (same_number f _ _ W FR F1). rewrite ER. lra.
Qed.
Print Assumptions C110_start.
Theorem C110_end : forall f p0 p1 p2 p3 p4 M, IEEE f -> Forall (fun p => Fin f p /\ Rabs (number f p) <= M) [p0; p1; p2; p3; p4] ->
  unit_of f <= ulp f * M -> 32 * M <= room f ->
  Rabs (number f (f_catmull f p0 p1 p2 p3 (f_one f)) - number f p2) <= 100 * (ulp f * M) /\
  Rabs (number f (f_catmull f p0 p1 p2 p3 (f_one f)) - number f (f_catmull f p1 p2 p3 p4 f_zero)) <= 100 * (ulp f * M).
Proof.
  intros f p0 p1 p2 p3 p4 M I FP MU MR. pose proof (ieee_sane f I) as W. pose proof FP as FQ. apply Forall_inv_tail in FQ. assert (F4 : Forall (fun p => Fin f p /\ Rabs (number f p) <= M) [p0; p1; p2; p3]).
  { apply Forall_forall. intros p H. apply (proj1 (Forall_forall _ _) FP). cbn in H |- *. tauto. }
  destruct (one_fin_ f I) as [FO EO]. assert (X : Rabs (number f (f_catmull f p0 p1 p2 p3 (f_one f)) - number f p2) <= 100 * (ulp f * M)).
  { destruct (C110_error f p0 p1 p2 p3 (f_one f) M I F4 FO ltac:(rewrite EO; lra) MU MR) as [_ E]. rewrite EO in E. replace (number f p2) with (catmull_rom (number f p0) (number f p1) (number f p2) (number f p3) 1) by (unfold catmull_rom, hermite; field). exact E. }
  split; [exact X|]. pose proof (C110_start f p1 p2 p3 p4 false M I FQ MU MR) as S. destruct (C110_error f p1 p2 p3 p4 f_zero M I FQ (zero_fin f false I)) as [FR _]; [unfold f_zero; cbn [number]; rewrite val_zero; lra|exact MU|exact MR|].
  apply (same_number f _ _ W FR) in S; [|inversion FQ as [|? ? _ FQ1]; inversion FQ1 as [|? ? [HF _] _]; exact HF]. rewrite S. exact X.
Qed.
Print Assumptions C110_end.

(* Whole points and a parameter j / 2^s that are small enough give the exact
   point of the curve. *)
Definition Dy (f : fmt) (x : fnum) (z : Z) (k : nat) : Prop := Fin f x /\ number f x = IZR z * / 2 ^ k.
Lemma two_pow k : 0 < 2 ^ k. Proof. apply pow_lt. lra. Qed.
Lemma two_pow_Z k : 2 ^ k = IZR (2 ^ Z.of_nat k).
Proof. induction k as [|k IH]; [reflexivity|]. cbn [pow]. rewrite IH, Nat2Z.inj_succ, Z.pow_succ_r, mult_IZR by lia. reflexivity. Qed.
Lemma dy_rounded f z k x : IEEE f -> (Z.abs z <= 2 ^ fm_prec f)%Z -> (Z.of_nat k <= fm_low f)%Z -> Correct f (IZR z * / 2 ^ k) x -> Dy f x z k.
Proof.
  intros I B K C. pose proof (ieee_sane f I) as W. pose proof (two_pow k) as P. apply (correct_exact f _ _ I C).
  - replace (IZR z * / 2 ^ k) with (IZR (z * 2 ^ (fm_low f - Z.of_nat k)) * unit_of f); [apply grid_int; [exact W|lia|exact B]|]. rewrite mult_IZR. unfold unit_of. rewrite two_pow_Z. replace (2 ^ fm_low f)%Z with (2 ^ (fm_low f - Z.of_nat k) * 2 ^ Z.of_nat k)%Z by (rewrite <- Z.pow_add_r by lia; f_equal; lia).
    rewrite mult_IZR. assert (0 < IZR (2 ^ Z.of_nat k)) by (apply IZR_lt, Z.pow_pos_nonneg; lia). assert (0 < IZR (2 ^ (fm_low f - Z.of_nat k))) by (apply IZR_lt, Z.pow_pos_nonneg; lia). field. lra.
  - rewrite Rabs_mult, (Rabs_right (/ 2 ^ k)) by (left; apply Rinv_0_lt_compat; exact P). apply Rle_lt_trans with (Rabs (IZR z) * 1); [apply Rmult_le_compat_l; [apply Rabs_pos|]|].
    + rewrite <- Rinv_1. apply Rinv_le_contravar; [lra|]. apply pow_R1_Rle. lra.
    + rewrite Rmult_1_r, <- abs_IZR. eapply Rle_lt_trans; [apply IZR_le, B|]. apply (prec_top f I).
Qed.
Lemma dy_int f x z : Int f x z -> Dy f x z 0.
Proof. intros [F E]. split; [exact F|]. rewrite E. cbn [pow]. field. Qed.
Lemma dy_add f x y a b k d : IEEE f -> Dy f x a k -> Dy f y b (k + d) -> (Z.abs (a * 2 ^ Z.of_nat d + b) <= 2 ^ fm_prec f)%Z -> (Z.of_nat (k + d) <= fm_low f)%Z -> Dy f (f_add f x y) (a * 2 ^ Z.of_nat d + b) (k + d).
Proof.
  intros I [FX EX] [FY EY] B K. apply dy_rounded; try assumption. replace (IZR (a * 2 ^ Z.of_nat d + b) * / 2 ^ (k + d)) with (number f x + number f y); [apply add_correct'; assumption|]. rewrite EX, EY, plus_IZR, mult_IZR, <- two_pow_Z, pow_add. pose proof (two_pow k). pose proof (two_pow d). field. lra.
Qed.
Lemma dy_mul f x y a b k l : IEEE f -> Dy f x a k -> Dy f y b l -> (Z.abs (a * b) <= 2 ^ fm_prec f)%Z -> (Z.of_nat (k + l) <= fm_low f)%Z -> Dy f (f_mul f x y) (a * b) (k + l).
Proof.
  intros I [FX EX] [FY EY] B K. apply dy_rounded; try assumption. replace (IZR (a * b) * / 2 ^ (k + l)) with (number f x * number f y); [apply mul_correct'; assumption|]. rewrite EX, EY, mult_IZR, pow_add. pose proof (two_pow k). pose proof (two_pow l). field. lra.
Qed.
Lemma int_neg f x z : Int f x z -> Int f (f_neg x) (- z).
Proof. intros [F E]. destruct (neg_fin f x F) as [FN EN]. split; [exact FN|]. rewrite EN, E, opp_IZR. reflexivity. Qed.
Lemma scaled_abs x X j S : (Z.abs x <= X -> 0 <= j <= S -> Z.abs (x * j) <= X * S)%Z.
Proof. intros A B. apply abs_mul_le; [exact A|lia]. Qed.
Theorem C110_exact : forall f p0 p1 p2 p3 z0 z1 z2 z3 t j s Z, IEEE f -> Int f p0 z0 -> Int f p1 z1 -> Int f p2 z2 -> Int f p3 z3 ->
  (Z.abs z0 <= Z)%Z -> (Z.abs z1 <= Z)%Z -> (Z.abs z2 <= Z)%Z -> (Z.abs z3 <= Z)%Z -> (1 <= Z)%Z -> (0 <= j <= 2 ^ Z.of_nat s)%Z -> (24 * Z * 2 ^ (3 * Z.of_nat s) <= 2 ^ fm_prec f)%Z ->
  Fin f t -> number f t = IZR j / 2 ^ s ->
  Fin f (f_catmull f p0 p1 p2 p3 t) /\ number f (f_catmull f p0 p1 p2 p3 t) = catmull_rom (IZR z0) (IZR z1) (IZR z2) (IZR z3) (IZR j / 2 ^ s).
Proof.
  intros f p0 p1 p2 p3 z0 z1 z2 z3 t j s Z I I0 I1 I2 I3 B0 B1 B2 B3 Z1 J T FT ET.
  assert (K : (Z.of_nat (s + s + s + 1) <= fm_low f)%Z).
  { assert (X : (2 ^ (3 * Z.of_nat s) < 2 ^ fm_prec f)%Z). { assert (Y : (0 < 2 ^ (3 * Z.of_nat s))%Z) by (apply Z.pow_pos_nonneg; lia). revert T Y. generalize (2 ^ (3 * Z.of_nat s))%Z (2 ^ fm_prec f)%Z. intros a b T Y. nia. }
    apply Z.pow_lt_mono_r_iff in X; [|lia|destruct I as [-> | ->]; cbn; lia]. assert (PL : (fm_prec f < fm_low f)%Z) by (destruct I as [-> | ->]; reflexivity). lia. }
  set (S := (2 ^ Z.of_nat s)%Z) in *. assert (S1 : (1 <= S)%Z) by (pose proof (Z.pow_pos_nonneg 2 (Z.of_nat s) ltac:(lia) ltac:(lia)); unfold S; lia).
  assert (S3 : (2 ^ (3 * Z.of_nat s) = S * S * S)%Z) by (unfold S; rewrite <- !Z.pow_add_r by lia; f_equal; lia). rewrite S3 in T. clear S3.
  assert (Q1 : (S <= S * S)%Z) by (clear - S1; nia). assert (Q2 : (S * S <= S * S * S)%Z) by (clear - S1; nia). assert (TZ : forall y, (y <= 24 * Z * (S * S * S) -> y <= 2 ^ fm_prec f)%Z) by (intros; lia). set (P := (2 ^ fm_prec f)%Z) in *.
  assert (ZS : (Z <= Z * S)%Z) by (clear - S1 Z1; nia). assert (ZSS : (Z * S <= Z * (S * S))%Z) by (apply Z.mul_le_mono_nonneg_l; lia). assert (ZSSS : (Z * (S * S) <= Z * (S * S * S))%Z) by (apply Z.mul_le_mono_nonneg_l; lia). 
  assert (TB : forall n y, (0 <= n <= 24 -> y <= n * (Z * (S * S * S)) -> y <= P)%Z) by (intros n y N Y; assert ((n * (Z * (S * S * S)) <= 24 * (Z * (S * S * S)))%Z) by (apply Z.mul_le_mono_nonneg_r; lia); lia).
  assert (IK : forall n, (0 <= n <= 5)%Z -> Int f (f_of_int f n) n) by (intros n N; exact (factor_fin f n I N)).
  unfold f_catmull, fseg_eval, fseg_make. cbn [fs_a fs_b fs_c fs_d].
  pose proof (int_mul f _ _ _ _ I (IK 2%Z ltac:(lia)) I1 ltac:(apply (TB 2%Z); lia)) as A.
  pose proof (int_add f _ _ _ _ I (int_neg f _ _ I0) I2 ltac:(apply (TB 2%Z); lia)) as B.
  pose proof (int_mul f _ _ _ _ I (IK 2%Z ltac:(lia)) I0 ltac:(apply (TB 2%Z); lia)) as C1. pose proof (int_mul f _ _ _ _ I (IK 5%Z ltac:(lia)) I1 ltac:(apply (TB 5%Z); lia)) as C2. pose proof (int_mul f _ _ _ _ I (IK 4%Z ltac:(lia)) I2 ltac:(apply (TB 4%Z); lia)) as C3.
  pose proof (int_sub f _ _ _ _ I C1 C2 ltac:(apply (TB 7%Z); lia)) as C4. pose proof (int_add f _ _ _ _ I C4 C3 ltac:(apply (TB 11%Z); lia)) as C5. pose proof (int_sub f _ _ _ _ I C5 I3 ltac:(apply (TB 12%Z); lia)) as C. clear C1 C2 C3 C4 C5.
  pose proof (int_mul f _ _ _ _ I (IK 3%Z ltac:(lia)) I1 ltac:(apply (TB 3%Z); lia)) as D1. pose proof (int_mul f _ _ _ _ I (IK 3%Z ltac:(lia)) I2 ltac:(apply (TB 3%Z); lia)) as D2.
  pose proof (int_add f _ _ _ _ I (int_neg f _ _ I0) D1 ltac:(apply (TB 4%Z); lia)) as D3. pose proof (int_sub f _ _ _ _ I D3 D2 ltac:(apply (TB 7%Z); lia)) as D4. pose proof (int_add f _ _ _ _ I D4 I3 ltac:(apply (TB 8%Z); lia)) as D. clear D1 D2 D3 D4.
  set (fa := f_mul f (f_of_int f 2) p1) in *. set (fb := f_add f (f_neg p0) p2) in *. set (fc := f_sub f (f_add f (f_sub f (f_mul f (f_of_int f 2) p0) (f_mul f (f_of_int f 5) p1)) (f_mul f (f_of_int f 4) p2)) p3) in *. set (fd := f_add f (f_sub f (f_add f (f_neg p0) (f_mul f (f_of_int f 3) p1)) (f_mul f (f_of_int f 3) p2)) p3) in *. clearbody fa fb fc fd.
  set (a := (2 * z1)%Z) in *. set (b := (- z0 + z2)%Z) in *. set (c := (2 * z0 - 5 * z1 + 4 * z2 - z3)%Z) in *. set (d := (- z0 + 3 * z1 - 3 * z2 + z3)%Z) in *.
  assert (BA : (Z.abs a <= 2 * Z)%Z) by (unfold a; lia). assert (BB : (Z.abs b <= 2 * Z)%Z) by (unfold b; lia). assert (BC : (Z.abs c <= 12 * Z)%Z) by (unfold c; lia). assert (BD : (Z.abs d <= 8 * Z)%Z) by (unfold d; lia).
  assert (DT : Dy f t j s) by (split; [exact FT|exact ET]).
  pose proof (scaled_abs _ _ _ _ BB J) as Bb. pose proof (scaled_abs _ _ _ _ BC J) as Bc. pose proof (scaled_abs _ _ _ _ Bc J) as Bcc. pose proof (scaled_abs _ _ _ _ BD J) as Bd. pose proof (scaled_abs _ _ _ _ Bd J) as Bdd. pose proof (scaled_abs _ _ _ _ Bdd J) as Bddd.
  pose proof (scaled_abs _ _ S S BA ltac:(lia)) as Ba.
  assert (W1 : forall n, (0 <= n -> n * Z * S <= n * (Z * (S * S * S)))%Z) by (clear - ZSS ZSSS; intros n N; rewrite <- Z.mul_assoc; apply Z.mul_le_mono_nonneg_l; lia).
  assert (W2 : forall n, (0 <= n -> n * Z * S * S <= n * (Z * (S * S * S)))%Z) by (clear - ZSSS; intros n N; replace (n * Z * S * S)%Z with (n * (Z * (S * S)))%Z by ring; apply Z.mul_le_mono_nonneg_l; lia).
  assert (W3 : forall n, (0 <= n -> n * Z * S * S * S <= n * (Z * (S * S * S)))%Z) by (clear; intros n N; apply Z.eq_le_incl; ring).
  assert (K1 : (Z.of_nat (0 + s) <= fm_low f)%Z) by (clear - K; lia). assert (K2 : (Z.of_nat (s + s) <= fm_low f)%Z) by (clear - K; lia). assert (K3 : (Z.of_nat (s + s + s) <= fm_low f)%Z) by (clear - K; lia). assert (K4 : (Z.of_nat (1 + (s + s + s)) <= fm_low f)%Z) by (clear - K; lia).
  pose proof (dy_mul f _ _ _ _ _ _ I (dy_int f _ _ B) DT (TB 2%Z _ ltac:(clear; lia) (Z.le_trans _ _ _ Bb (W1 2%Z ltac:(clear; lia)))) K1) as XB.
  pose proof (dy_mul f _ _ _ _ _ _ I (dy_int f _ _ C) DT (TB 12%Z _ ltac:(clear; lia) (Z.le_trans _ _ _ Bc (W1 12%Z ltac:(clear; lia)))) K1) as XC.
  pose proof (dy_mul f _ _ _ _ _ _ I XC DT (TB 12%Z _ ltac:(clear; lia) (Z.le_trans _ _ _ Bcc (W2 12%Z ltac:(clear; lia)))) K2) as XCC.
  pose proof (dy_mul f _ _ _ _ _ _ I (dy_int f _ _ D) DT (TB 8%Z _ ltac:(clear; lia) (Z.le_trans _ _ _ Bd (W1 8%Z ltac:(clear; lia)))) K1) as XD.
  pose proof (dy_mul f _ _ _ _ _ _ I XD DT (TB 8%Z _ ltac:(clear; lia) (Z.le_trans _ _ _ Bdd (W2 8%Z ltac:(clear; lia)))) K2) as XDD.
  pose proof (dy_mul f _ _ _ _ _ _ I XDD DT (TB 8%Z _ ltac:(clear; lia) (Z.le_trans _ _ _ Bddd (W3 8%Z ltac:(clear; lia)))) K3) as XDDD.
  cbn [Nat.add] in XB, XC, XCC, XD, XDD, XDDD.
  assert (M1 : (Z.abs (a * S + b * j) <= 4 * Z * S)%Z) by (clear - Ba Bb; lia).
  pose proof (dy_add f _ _ _ _ 0 s I (dy_int f _ _ A) XB (TB 4%Z _ ltac:(clear; lia) (Z.le_trans _ _ _ M1 (W1 4%Z ltac:(clear; lia)))) K1) as S1'. fold S in S1'. cbn [Nat.add] in S1'.
  pose proof (scaled_abs _ _ S S M1 ltac:(clear - S1; lia)) as M1'. assert (M2 : (Z.abs ((a * S + b * j) * S + c * j * j) <= 16 * Z * S * S)%Z) by (clear - M1' Bcc; revert M1' Bcc; generalize ((a * S + b * j) * S)%Z (c * j * j)%Z; intros; lia).
  pose proof (dy_add f _ _ _ _ s s I S1' XCC (TB 16%Z _ ltac:(clear; lia) (Z.le_trans _ _ _ M2 (W2 16%Z ltac:(clear; lia)))) K2) as S2'. fold S in S2'.
  pose proof (scaled_abs _ _ S S M2 ltac:(clear - S1; lia)) as M2'. assert (M3 : (Z.abs (((a * S + b * j) * S + c * j * j) * S + d * j * j * j) <= 24 * Z * S * S * S)%Z) by (clear - M2' Bddd; revert M2' Bddd; generalize (((a * S + b * j) * S + c * j * j) * S)%Z (d * j * j * j)%Z; intros; lia).
  pose proof (dy_add f _ _ _ _ (s + s) s I S2' XDDD (TB 24%Z _ ltac:(clear; lia) (Z.le_trans _ _ _ M3 (W3 24%Z ltac:(clear; lia)))) K3) as S3'. fold S in S3'.
  assert (DH : Dy f (f_half f) 1 1) by (destruct (half_fin f I) as [FH EH]; split; [exact FH|]; rewrite EH; cbn [pow]; field).
  pose proof (dy_mul f _ _ _ _ _ _ I DH S3' ltac:(rewrite Z.mul_1_l; exact (TB 24%Z _ ltac:(clear; lia) (Z.le_trans _ _ _ M3 (W3 24%Z ltac:(clear; lia))))) K4) as [FV EV]. split; [exact FV|]. rewrite EV. unfold a, b, c, d, S, catmull_rom, hermite. rewrite Z.mul_1_l, !pow_add.
  repeat rewrite ?plus_IZR, ?minus_IZR, ?mult_IZR, ?opp_IZR. rewrite <- two_pow_Z. pose proof (two_pow s). cbn [pow]. field. lra.
Qed.
Print Assumptions C110_exact.

(* nan goes through, even where its weight is zero *)
Lemma nan_add f x : f_add f FNan x = FNan. Proof. reflexivity. Qed.
Lemma nan_mul f x : f_mul f FNan x = FNan. Proof. reflexivity. Qed.
Theorem C110_nan : forall f p0 p1 p2 p3 t, In FNan [p0; p1; p2; p3; t] -> f_catmull f p0 p1 p2 p3 t = FNan.
Proof.
  intros f p0 p1 p2 p3 t H. unfold f_catmull, fseg_eval, fseg_make, f_sub. cbn [fs_a fs_b fs_c fs_d]. destruct H as [->|[->|[->|[->|[->|[]]]]]]; cbn [f_neg]; repeat (rewrite ?mul_nan, ?add_nan, ?nan_mul, ?nan_add; cbn [f_neg]); reflexivity.
Qed.
Print Assumptions C110_nan.
(* The curve of the negated points is the negated curve. *)
Definition Neg (x y : fnum) : Prop := Alike x (f_neg y).
Lemma n_neg x y : Neg x y -> Neg (f_neg x) (f_neg y). Proof. apply alike_neg. Qed.
Lemma n_add f x y x' y' : Neg x x' -> Neg y y' -> Neg (f_add f x y) (f_add f x' y').
Proof. intros A B. eapply alike_trans; [apply alike_add; [exact A|exact B]|apply add_neg]. Qed.
Lemma n_mul f c x x' : IEEE f -> Neg x x' -> Neg (f_mul f c x) (f_mul f c x').
Proof. intros I A. unfold Neg. rewrite <- mul_neg_r. apply alike_mul; [apply (ieee_sane f I)|exact A]. Qed.
Lemma n_mul_l f c x x' : IEEE f -> Neg x x' -> Neg (f_mul f x c) (f_mul f x' c).
Proof. intros I A. rewrite !(mul_comm f _ c). apply n_mul; assumption. Qed.
Theorem C110_negative : forall f p0 p1 p2 p3 t, IEEE f -> let r := f_catmull f p0 p1 p2 p3 t in let r' := f_catmull f (f_neg p0) (f_neg p1) (f_neg p2) (f_neg p3) t in
  Same f r' (f_neg r) \/ r = FNan /\ r' = FNan.
Proof.
  intros f p0 p1 p2 p3 t I r r'. assert (R : forall x, Neg (f_neg x) x) by (intros x; left; reflexivity). assert (A : Neg r' r).
  { unfold r, r', f_catmull, fseg_eval, fseg_make, f_sub. cbn [fs_a fs_b fs_c fs_d]. repeat first [apply n_mul; [exact I|]|apply n_mul_l; [exact I|]|apply n_add|apply n_neg|apply R]. }
  destruct (alike_same f _ _ A) as [S|[E1 E2]]; [left; exact S|right]. split; [|exact E1]. destruct r; try discriminate. reflexivity.
Qed.
Print Assumptions C110_negative.
Lemma component f (pi : f_vec -> fnum) p0 p1 p2 p3 t : (forall a b, pi (fv_add f a b) = f_add f (pi a) (pi b)) -> (forall a b, pi (fv_sub f a b) = f_sub f (pi a) (pi b)) -> (forall a, pi (fv_neg a) = f_neg (pi a)) -> (forall a s, pi (fv_scale f a s) = f_mul f (pi a) s) ->
  pi (fvseg_eval f (fvseg_make f p0 p1 p2 p3) t) = f_catmull f (pi p0) (pi p1) (pi p2) (pi p3) t.
Proof.
  intros HA HS HN HM. unfold fvseg_eval, fvseg_make, f_catmull, fseg_eval, fseg_make. cbn [fvs_a fvs_b fvs_c fvs_d fs_a fs_b fs_c fs_d]. repeat rewrite ?HM, ?HA, ?HS, ?HN.
  rewrite !(mul_comm f (f_half f)), !(mul_comm f (f_of_int f 2)), !(mul_comm f (f_of_int f 3)), !(mul_comm f (f_of_int f 4)), !(mul_comm f (f_of_int f 5)). reflexivity.
Qed.
(* A curve in space has these curves as components. *)
Theorem C110_vector : forall f p0 p1 p2 p3 t, let v := fvseg_eval f (fvseg_make f p0 p1 p2 p3) t in
  fv_x v = f_catmull f (fv_x p0) (fv_x p1) (fv_x p2) (fv_x p3) t /\ fv_y v = f_catmull f (fv_y p0) (fv_y p1) (fv_y p2) (fv_y p3) t /\ fv_z v = f_catmull f (fv_z p0) (fv_z p1) (fv_z p2) (fv_z p3) t.
Proof.
  intros f p0 p1 p2 p3 t v. unfold v. clear v. split; [|split]; apply component; reflexivity.
Qed.
Print Assumptions C110_vector.

(* The segment need not end in p2, *)
Theorem C110_end_refuted : let t := float_fmt in f_catmull t (flt 1039002 0) (flt 15082417 0) (flt 7 0) (flt 12737773 0) (f_one t) = flt 8 0.
Proof. vm_compute. reflexivity. Qed.
(* equal points need not give a constant, *)
Theorem C110_constant_refuted : let t := float_fmt in let p := flt (2 ^ 23 + 1) (-23) in f_catmull t p p p p (f_one t) = flt (2 ^ 23 + 2) (-23).
Proof. vm_compute. reflexivity. Qed.
(* and large points give nan where the curve is finite. *)
Theorem C110_large_refuted : let t := float_fmt in let p := flt 1 127 in f_catmull t f_zero p f_zero f_zero f_zero = FNan /\ catmull_rom 0 (number t p) 0 0 0 = number t p.
Proof. split; [vm_compute; reflexivity|]. unfold catmull_rom, hermite. field. Qed.

Example C110_example : let t := float_fmt in f_catmull t (flt 0 0) (flt 16 0) (flt 48 0) (flt 32 0) (flt 1 (-1)) = flt 34 0 /\ f_catmull t (flt 1 (-1)) (flt 1 0) (flt 3 0) (flt 5 0) f_zero = flt 1 0.
Proof. split; vm_compute; reflexivity. Qed.
