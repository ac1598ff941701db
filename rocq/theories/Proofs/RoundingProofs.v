(* The error of sums and products of floating point numbers. *)
From Coq Require Import Reals Lra Lia ZArith List Bool.
From Verif Require Import Model.Base Model.FloatText Model.Ieee Spec.FloatText Spec.Ieee Spec.Rounding Proofs.FloatTextProofs Proofs.IeeeProofs Proofs.IeeeErrorProofs Proofs.FloatInterpProofs Proofs.FloatOpsProofs Props.FloatAverage Props.FloatVec.
Local Open Scope R_scope.

Lemma abs_inv x a : Rabs x <= a -> - a <= x <= a.
Proof. unfold Rabs. destruct (Rcase_abs x); lra. Qed.
Lemma valid_neg f x : Valid f x -> Valid f (f_neg x).
Proof. destruct x; intros V; exact V. Qed.
Lemma add_correct' f x y : IEEE f -> Fin f x -> Fin f y -> Correct f (number f x + number f y) (f_add f x y).
Proof. intros I (a & n & -> & FN) (b & m & -> & FM). apply add_correct, ieee_sane, I. Qed.
Lemma mul_correct' f x y : IEEE f -> Fin f x -> Fin f y -> Correct f (number f x * number f y) (f_mul f x y).
Proof. intros I (a & n & -> & FN) (b & m & -> & FM). apply (mul_correct f a n b m (ieee_sane f I) (rep_nonneg f _ (proj1 FN)) (rep_nonneg f _ (proj1 FM))). Qed.
Lemma correct_fin_near f r x : Correct f r x -> Fin f x -> Near f r (number f x).
Proof. intros C (a & n & -> & FN). exact (proj2 (correct_parts f r a n C)). Qed.
Lemma near_fin_sum f x y g : IEEE f -> Fin f x -> Fin f y -> Near f (number f x + number f y) g -> Rabs (g - (number f x + number f y)) <= ulp f * Rabs (number f x + number f y).
Proof. intros I (a & n & -> & FN) (b & m & -> & FM) N. rewrite Rmult_comm. exact (near_sum f a n b m g (ieee_sane f I) N). Qed.

(* a finite result has finite parts *)
Lemma add_step f x y : IEEE f -> Valid f x -> Valid f y -> Fin f (f_add f x y) -> Fin f x /\ Fin f y /\ Rabs (number f (f_add f x y) - (number f x + number f y)) <= ulp f * Rabs (number f x + number f y).
Proof.
  intros I VX VY F. assert (P : Fin f x /\ Fin f y) by (destruct F as (s & k & E & F); destruct (add_fin_inv f x y s k E) as (b & n & c & m & -> & ->); split; eexists _, _; split; reflexivity || assumption).
  destruct P as [FX FY]. split; [exact FX|]. split; [exact FY|]. apply (near_fin_sum f x y _ I FX FY), correct_fin_near; [apply (add_correct' f x y I FX FY)|exact F].
Qed.
Lemma sub_step f x y : IEEE f -> Valid f x -> Valid f y -> Fin f (f_sub f x y) -> Fin f x /\ Fin f y /\ Rabs (number f (f_sub f x y) - (number f x - number f y)) <= ulp f * Rabs (number f x - number f y).
Proof.
  intros I VX VY F. destruct (add_step f x (f_neg y) I VX (valid_neg f y VY) F) as (FX & FN & E). assert (FY : Fin f y) by (destruct FN as (s & k & Q & FK); destruct y as [|b|b m]; try discriminate; eexists _, _; split; [reflexivity|exact VY]).
  split; [exact FX|]. split; [exact FY|]. rewrite (proj2 (neg_fin f y FY)) in E. exact E.
Qed.
Lemma mul_step f x y : IEEE f -> Valid f x -> Valid f y -> Fin f (f_mul f x y) -> Fin f x /\ Fin f y /\ Rabs (number f (f_mul f x y) - number f x * number f y) <= ulp f * Rabs (number f x * number f y) + unit_of f / 2.
Proof.
  intros I VX VY F. assert (P : Fin f x /\ Fin f y).
  { pose proof F as (s & k & E & _). destruct x as [|a|a n], y as [|b|b m]; cbn in E; try discriminate; [destruct (Z.eqb m 0); discriminate|destruct (Z.eqb n 0); discriminate|]. split; eexists _, _; split; reflexivity || assumption. }
  destruct P as [FX FY]. split; [exact FX|]. split; [exact FY|]. pose proof (near_bound f _ _ (ieee_sane f I) (correct_fin_near f _ _ (mul_correct' f x y I FX FY) F)) as N. rewrite (Rmult_comm (ulp f)). exact N.
Qed.
Lemma valid_add f x y : IEEE f -> Valid f x -> Valid f y -> Valid f (f_add f x y).
Proof.
  intros I VX VY. destruct x as [|a|a n], y as [|b|b m]; try exact Logic.I; [cbn; destruct (Bool.eqb a b); exact Logic.I|]. exact (correct_valid f _ _ (add_correct f a n b m (ieee_sane f I))).
Qed.
Lemma valid_mul f x y : IEEE f -> Valid f x -> Valid f y -> Valid f (f_mul f x y).
Proof.
  intros I VX VY. destruct x as [|a|a n], y as [|b|b m]; try exact Logic.I; [cbn; destruct (Z.eqb m 0); exact Logic.I|cbn; destruct (Z.eqb n 0); exact Logic.I|].
  apply (correct_valid f (number f (FFin a n) * number f (FFin b m))). apply (mul_correct' f _ _ I); eexists _, _; split; reflexivity || assumption.
Qed.
Lemma computed_valid f e : IEEE f -> Over (Valid f) e -> Valid f (computed f e).
Proof.
  intros I. induction e as [x|a IA b IB|a IA b IB|a IA b IB|a IA]; cbn [Over computed]; intros O; [exact O| | | |].
  - apply valid_add; [exact I|apply IA|apply IB]; apply O.
  - apply valid_add; [exact I|apply IA; apply O|apply valid_neg, IB, O].
  - apply valid_mul; [exact I|apply IA|apply IB]; apply O.
  - apply valid_neg, IA, O.
Qed.

Lemma extent_nonneg f e : 0 <= extent f e.
Proof. induction e; cbn [extent]; [apply Rabs_pos|lra|lra|apply Rmult_le_pos; assumption|assumption]. Qed.
Lemma exact_extent f e : Rabs (exact f e) <= extent f e.
Proof.
  induction e as [x|a IA b IB|a IA b IB|a IA b IB|a IA]; cbn [exact extent].
  - lra.
  - eapply Rle_trans; [apply Rabs_triang|lra].
  - unfold Rminus. eapply Rle_trans; [apply Rabs_triang|]. rewrite Rabs_Ropp. lra.
  - rewrite Rabs_mult. apply Rmult_le_compat; try apply Rabs_pos; assumption.
  - rewrite Rabs_Ropp. exact IA.
Qed.
Lemma grow_pos f n : IEEE f -> 1 <= (1 + ulp f) ^ n.
Proof. intros I. destruct (ulp_small f I) as [U _]. apply pow_R1_Rle. lra. Qed.
Lemma grow_le f n m : IEEE f -> (n <= m)%nat -> (1 + ulp f) ^ n <= (1 + ulp f) ^ m.
Proof. intros I L. destruct (ulp_small f I) as [U _]. apply Rle_pow; [lra|exact L]. Qed.
Lemma lost_nonneg f e : IEEE f -> 0 <= lost f e.
Proof.
  intros I. destruct (ulp_small f I) as [U _]. pose proof (unit_pos f (ieee_sane f I)) as UP.
  induction e as [x|a IA b IB|a IA b IB|a IA b IB|a IA]; cbn [lost]; fold (ulp f); [lra|apply Rmult_le_pos; lra|apply Rmult_le_pos; lra| |exact IA].
  pose proof (extent_nonneg f a). pose proof (extent_nonneg f b). pose proof (grow_pos f (roundings a) I). pose proof (grow_pos f (roundings b) I).
  assert (0 <= (1 + ulp f) ^ roundings a * extent f a * lost f b) by (repeat apply Rmult_le_pos; lra). assert (0 <= (1 + ulp f) ^ roundings b * extent f b * lost f a) by (repeat apply Rmult_le_pos; lra). assert (0 <= lost f a * lost f b) by (apply Rmult_le_pos; lra).
  assert (0 <= (1 + ulp f) * ((1 + ulp f) ^ roundings a * extent f a * lost f b + (1 + ulp f) ^ roundings b * extent f b * lost f a + lost f a * lost f b)) by (apply Rmult_le_pos; lra). lra.
Qed.

Lemma sum_R u p pa pb Sa Sb La Lb xa xb a b r : 0 <= u -> 1 <= pa <= p -> 1 <= pb <= p -> 0 <= Sa -> 0 <= Sb -> 0 <= La -> 0 <= Lb ->
  Rabs xa <= Sa -> Rabs xb <= Sb -> Rabs (a - xa) <= (pa - 1) * Sa + La -> Rabs (b - xb) <= (pb - 1) * Sb + Lb -> Rabs (r - (a + b)) <= u * Rabs (a + b) ->
  Rabs (r - (xa + xb)) <= (p * (1 + u) - 1) * (Sa + Sb) + (1 + u) * (La + Lb).
Proof.
  intros U PA PB SA SB LA LB XA XB EA EB ER. assert (EA' : Rabs (a - xa) <= (p - 1) * Sa + La) by (assert ((pa - 1) * Sa <= (p - 1) * Sa) by (apply Rmult_le_compat_r; lra); lra). assert (EB' : Rabs (b - xb) <= (p - 1) * Sb + Lb) by (assert ((pb - 1) * Sb <= (p - 1) * Sb) by (apply Rmult_le_compat_r; lra); lra).
  assert (D : Rabs ((a + b) - (xa + xb)) <= (p - 1) * (Sa + Sb) + (La + Lb)) by (replace ((a + b) - (xa + xb)) with ((a - xa) + (b - xb)) by ring; eapply Rle_trans; [apply Rabs_triang|]; lra).
  assert (M : Rabs (a + b) <= p * (Sa + Sb) + (La + Lb)). { replace (a + b) with ((xa + xb) + ((a + b) - (xa + xb))) by ring. eapply Rle_trans; [apply Rabs_triang|]. pose proof (Rabs_triang xa xb). lra. }
  replace (r - (xa + xb)) with ((r - (a + b)) + ((a + b) - (xa + xb))) by ring. eapply Rle_trans; [apply Rabs_triang|]. assert (u * Rabs (a + b) <= u * (p * (Sa + Sb) + (La + Lb))) by (apply Rmult_le_compat_l; lra). lra.
Qed.
Lemma product_R u h pa pb Sa Sb La Lb xa xb a b r : 0 <= u -> 1 <= pa -> 1 <= pb -> 0 <= Sa -> 0 <= Sb -> 0 <= La -> 0 <= Lb ->
  Rabs xa <= Sa -> Rabs xb <= Sb -> Rabs (a - xa) <= (pa - 1) * Sa + La -> Rabs (b - xb) <= (pb - 1) * Sb + Lb -> Rabs (r - a * b) <= u * Rabs (a * b) + h ->
  Rabs (r - xa * xb) <= (pa * pb * (1 + u) - 1) * (Sa * Sb) + ((1 + u) * (pa * Sa * Lb + pb * Sb * La + La * Lb) + h).
Proof.
  intros U PA PB SA SB LA LB XA XB EA EB ER. assert (MA : Rabs a <= pa * Sa + La) by (replace a with (xa + (a - xa)) by ring; eapply Rle_trans; [apply Rabs_triang|]; lra). assert (MB : Rabs b <= pb * Sb + Lb) by (replace b with (xb + (b - xb)) by ring; eapply Rle_trans; [apply Rabs_triang|]; lra).
  assert (D : Rabs (a * b - xa * xb) <= (pa * pb - 1) * (Sa * Sb) + (pa * Sa * Lb + pb * Sb * La + La * Lb)).
  { replace (a * b - xa * xb) with (a * (b - xb) + xb * (a - xa)) by ring. eapply Rle_trans; [apply Rabs_triang|]. rewrite !Rabs_mult. assert (Rabs a * Rabs (b - xb) <= (pa * Sa + La) * ((pb - 1) * Sb + Lb)) by (apply Rmult_le_compat; try apply Rabs_pos; assumption). assert (Rabs xb * Rabs (a - xa) <= Sb * ((pa - 1) * Sa + La)) by (apply Rmult_le_compat; try apply Rabs_pos; assumption). lra. }
  assert (M : Rabs (a * b) <= (pa * Sa + La) * (pb * Sb + Lb)) by (rewrite Rabs_mult; apply Rmult_le_compat; try apply Rabs_pos; assumption).
  replace (r - xa * xb) with ((r - a * b) + (a * b - xa * xb)) by ring. eapply Rle_trans; [apply Rabs_triang|]. assert (u * Rabs (a * b) <= u * ((pa * Sa + La) * (pb * Sb + Lb))) by (apply Rmult_le_compat_l; lra). lra.
Qed.
Lemma computed_error f e : IEEE f -> Over (Valid f) e -> Fin f (computed f e) ->
  Rabs (number f (computed f e) - exact f e) <= ((1 + ulp f) ^ roundings e - 1) * extent f e + lost f e.
Proof.
  intros I. destruct (ulp_small f I) as [U _]. induction e as [x|a IA b IB|a IA b IB|a IA b IB|a IA]; intros O F.
  - cbn [computed exact extent roundings lost pow]. change (fin_val f x) with (number f x). rewrite Rminus_diag_eq, Rabs_R0 by reflexivity. lra.
  - destruct O as [OA OB]. destruct (add_step f _ _ I (computed_valid f a I OA) (computed_valid f b I OB) F) as (FA & FB & E). cbn [computed exact extent roundings lost]. fold (ulp f). rewrite <- tech_pow_Rmult, (Rmult_comm (1 + ulp f) (_ ^ _)).
    apply (sum_R (ulp f) _ _ _ _ _ _ _ _ _ _ _ _ ltac:(lra) (conj (grow_pos f _ I) (grow_le f _ _ I (Nat.le_max_l _ _))) (conj (grow_pos f _ I) (grow_le f _ _ I (Nat.le_max_r _ _))) (extent_nonneg f a) (extent_nonneg f b) (lost_nonneg f a I) (lost_nonneg f b I) (exact_extent f a) (exact_extent f b) (IA OA FA) (IB OB FB) E).
  - destruct O as [OA OB]. destruct (sub_step f _ _ I (computed_valid f a I OA) (computed_valid f b I OB) F) as (FA & FB & E). cbn [computed exact extent roundings lost]. fold (ulp f). rewrite <- tech_pow_Rmult, (Rmult_comm (1 + ulp f) (_ ^ _)). unfold Rminus at 2.
    assert (XB : Rabs (- exact f b) <= extent f b) by (rewrite Rabs_Ropp; apply exact_extent). assert (EB : Rabs (- number f (computed f b) - - exact f b) <= ((1 + ulp f) ^ roundings b - 1) * extent f b + lost f b) by (replace (- number f (computed f b) - - exact f b) with (- (number f (computed f b) - exact f b)) by ring; rewrite Rabs_Ropp; apply (IB OB FB)).
    apply (sum_R (ulp f) _ _ _ _ _ _ _ _ _ _ _ _ ltac:(lra) (conj (grow_pos f _ I) (grow_le f _ _ I (Nat.le_max_l _ _))) (conj (grow_pos f _ I) (grow_le f _ _ I (Nat.le_max_r _ _))) (extent_nonneg f a) (extent_nonneg f b) (lost_nonneg f a I) (lost_nonneg f b I) (exact_extent f a) XB (IA OA FA) EB E).
  - destruct O as [OA OB]. destruct (mul_step f _ _ I (computed_valid f a I OA) (computed_valid f b I OB) F) as (FA & FB & E). cbn [computed exact extent roundings lost]. fold (ulp f). rewrite <- tech_pow_Rmult, (Rmult_comm (1 + ulp f) (_ ^ _)), pow_add.
    apply (product_R (ulp f) (unit_of f / 2) _ _ _ _ _ _ _ _ _ _ _ ltac:(lra) (grow_pos f _ I) (grow_pos f _ I) (extent_nonneg f a) (extent_nonneg f b) (lost_nonneg f a I) (lost_nonneg f b I) (exact_extent f a) (exact_extent f b) (IA OA FA) (IB OB FB) E).
  - cbn [computed exact extent roundings lost Over] in *. assert (FA : Fin f (computed f a)) by (pose proof (computed_valid f a I O) as V; destruct F as (s & k & Q & FK); destruct (computed f a) as [|b|b m]; try discriminate; eexists _, _; split; [reflexivity|exact V]).
    rewrite (proj2 (neg_fin f _ FA)). replace (- number f (computed f a) - - exact f a) with (- (number f (computed f a) - exact f a)) by ring. rewrite Rabs_Ropp. apply (IA O FA).
Qed.
(* nan stays, and infinite values never become finite *)
Lemma computed_nan f e : Inside FNan e -> computed f e = FNan.
Proof.
  induction e as [x|a IA b IB|a IA b IB|a IA b IB|a IA]; cbn [Inside computed]; intros N.
  - congruence.
  - destruct N as [N|N]; [rewrite (IA N); reflexivity|rewrite (IB N); destruct (computed f a) as [|[]|]; reflexivity].
  - destruct N as [N|N]; [rewrite (IA N); reflexivity|unfold f_sub; rewrite (IB N); destruct (computed f a) as [|[]|]; reflexivity].
  - destruct N as [N|N]; [rewrite (IA N); reflexivity|rewrite (IB N); destruct (computed f a); reflexivity].
  - rewrite (IA N). reflexivity.
Qed.
Lemma computed_inside f e x : IEEE f -> Over (Valid f) e -> Fin f (computed f e) -> Inside x e -> Fin f x.
Proof.
  intros I. induction e as [y|a IA b IB|a IA b IB|a IA b IB|a IA]; intros O F N.
  - cbn in N. subst y. exact F.
  - destruct O as [OA OB]. destruct (add_step f _ _ I (computed_valid f a I OA) (computed_valid f b I OB) F) as (FA & FB & _). destruct N; auto.
  - destruct O as [OA OB]. destruct (sub_step f _ _ I (computed_valid f a I OA) (computed_valid f b I OB) F) as (FA & FB & _). destruct N; auto.
  - destruct O as [OA OB]. destruct (mul_step f _ _ I (computed_valid f a I OA) (computed_valid f b I OB) F) as (FA & FB & _). destruct N; auto.
  - cbn [computed Over Inside] in *. apply IA; [exact O| |exact N]. pose proof (computed_valid f a I O) as V. destruct F as (s & k & Q & FK). destruct (computed f a) as [|b|b m]; try discriminate. eexists _, _; split; [reflexivity|exact V].
Qed.
Lemma over_valid f e : Over (Fin f) e -> Over (Valid f) e.
Proof. induction e; cbn [Over]; try tauto. apply fin_valid. Qed.
(* exact steps *)
Lemma correct_exact f r x : IEEE f -> Correct f r x -> Grid f r -> Rabs r < IZR (2 ^ fm_top f) -> Fin f x /\ number f x = r.
Proof.
  intros I (g & N & C) G B. pose proof (near_exact f r g N G) as ->. destruct x as [|s|s n]; [contradiction|lra|]. destruct C as (F & E & _). split; [eexists _, _; split; [reflexivity|exact F]|]. symmetry. exact E.
Qed.
Lemma computed_exact f e : IEEE f -> Over (Fin f) e -> Fits f e -> Fin f (computed f e) /\ number f (computed f e) = exact f e.
Proof.
  intros I. induction e as [x|a IA b IB|a IA b IB|a IA b IB|a IA]; intros O F.
  - split; [exact O|reflexivity].
  - destruct O as [OA OB], F as (FA & FB & G & B). destruct (IA OA FA) as [PA EA], (IB OB FB) as [PB EB]. cbn [computed exact] in *. apply (correct_exact f _ _ I); [|exact G|exact B]. rewrite <- EA, <- EB. apply add_correct'; assumption.
  - destruct O as [OA OB], F as (FA & FB & G & B). destruct (IA OA FA) as [PA EA], (IB OB FB) as [PB EB]. destruct (neg_fin f _ PB) as [PN EN]. cbn [computed exact] in *. apply (correct_exact f _ _ I); [|exact G|exact B]. unfold Rminus. rewrite <- EA, <- EB, <- EN. apply add_correct'; assumption.
  - destruct O as [OA OB], F as (FA & FB & G & B). destruct (IA OA FA) as [PA EA], (IB OB FB) as [PB EB]. cbn [computed exact] in *. apply (correct_exact f _ _ I); [|exact G|exact B]. rewrite <- EA, <- EB. apply mul_correct'; assumption.
  - cbn [Over] in O. destruct (IA O F) as [PA EA]. cbn [computed exact]. rewrite <- EA. apply neg_fin, PA.
Qed.
(* no overflow *)
Lemma roomy_sum u p pa pb Sa Sb La Lb : 0 <= u -> 1 <= pa <= p -> 1 <= pb <= p -> 0 <= Sa -> 0 <= Sb -> 0 <= La -> 0 <= Lb -> (pa * Sa + La) + (pb * Sb + Lb) <= (1 + u) * p * (Sa + Sb) + (1 + u) * (La + Lb).
Proof.
  intros U PA PB SA SB LA LB. assert (pa * Sa <= p * Sa) by (apply Rmult_le_compat_r; lra). assert (pb * Sb <= p * Sb) by (apply Rmult_le_compat_r; lra). assert (0 <= p * (Sa + Sb)) by (apply Rmult_le_pos; lra). assert (0 <= u * (p * (Sa + Sb))) by (apply Rmult_le_pos; lra). assert (0 <= u * (La + Lb)) by (apply Rmult_le_pos; lra). lra.
Qed.
Lemma computed_roomy f e : IEEE f -> Over (Fin f) e -> Roomy f e -> Fin f (computed f e).
Proof.
  intros I. destruct (ulp_small f I) as [U _]. pose proof (unit_pos f (ieee_sane f I)) as UP. assert (BIG : forall e, Over (Fin f) e -> Fin f (computed f e) -> Rabs (number f (computed f e)) <= (1 + ulp f) ^ roundings e * extent f e + lost f e).
  { intros c O F. pose proof (computed_error f c I (over_valid f c O) F) as E. pose proof (exact_extent f c) as X. replace (number f (computed f c)) with (exact f c + (number f (computed f c) - exact f c)) by ring. eapply Rle_trans; [apply Rabs_triang|]. lra. }
  assert (SUM : forall a b, ((1 + ulp f) ^ roundings a * extent f a + lost f a) + ((1 + ulp f) ^ roundings b * extent f b + lost f b) <= (1 + ulp f) ^ S (Nat.max (roundings a) (roundings b)) * (extent f a + extent f b) + (1 + ulp f) * (lost f a + lost f b)).
  { intros a b. rewrite <- tech_pow_Rmult. apply roomy_sum; [lra|split; [apply grow_pos, I|apply grow_le; [exact I|apply Nat.le_max_l]]|split; [apply grow_pos, I|apply grow_le; [exact I|apply Nat.le_max_r]]|apply extent_nonneg|apply extent_nonneg|apply lost_nonneg, I|apply lost_nonneg, I]. }
  induction e as [x|a IA b IB|a IA b IB|a IA b IB|a IA]; intros O R.
  - exact O.
  - destruct O as [OA OB], R as (RA & RB & B); unfold reach in B; fold (ulp f) in B. pose proof (IA OA RA) as FA. pose proof (IB OB RB) as FB. cbn [computed]. apply (add_fin f _ _ I FA FB). pose proof (BIG a OA FA) as BA. pose proof (BIG b OB FB) as BB. specialize (SUM a b).
    eapply Rle_trans; [apply Rabs_triang|]. unfold room. eapply Rle_trans; [|exact B]. cbn [roundings extent lost]. fold (ulp f). lra.
  - destruct O as [OA OB], R as (RA & RB & B); unfold reach in B; fold (ulp f) in B. pose proof (IA OA RA) as FA. pose proof (IB OB RB) as FB. cbn [computed]. apply (sub_fin f _ _ I FA FB). pose proof (BIG a OA FA) as BA. pose proof (BIG b OB FB) as BB. specialize (SUM a b).
    unfold Rminus. eapply Rle_trans; [apply Rabs_triang|]. rewrite Rabs_Ropp. unfold room. eapply Rle_trans; [|exact B]. cbn [roundings extent lost]. fold (ulp f). lra.
  - destruct O as [OA OB], R as (RA & RB & B); unfold reach in B; fold (ulp f) in B. pose proof (IA OA RA) as FA. pose proof (IB OB RB) as FB. cbn [computed]. apply (mul_fin f _ _ I FA FB). pose proof (BIG a OA FA) as BA. pose proof (BIG b OB FB) as BB.
    rewrite Rabs_mult. unfold room. eapply Rle_trans; [|exact B]. eapply Rle_trans; [apply Rmult_le_compat; [apply Rabs_pos|apply Rabs_pos|exact BA|exact BB]|]. cbn [roundings extent lost]. fold (ulp f). rewrite <- tech_pow_Rmult, pow_add.
    pose proof (grow_pos f (roundings a) I) as PA. pose proof (grow_pos f (roundings b) I) as PB. set (pa := (1 + ulp f) ^ roundings a) in *. set (pb := (1 + ulp f) ^ roundings b) in *. pose proof (extent_nonneg f a) as SA. pose proof (extent_nonneg f b) as SB. pose proof (lost_nonneg f a I) as LA. pose proof (lost_nonneg f b I) as LB.
    assert (Q : 0 <= ulp f * ((pa * extent f a + lost f a) * (pb * extent f b + lost f b))). { assert (0 <= pa * extent f a) by (apply Rmult_le_pos; lra). assert (0 <= pb * extent f b) by (apply Rmult_le_pos; lra). apply Rmult_le_pos; [lra|]. apply Rmult_le_pos; lra. } lra.
  - cbn [Over] in O. cbn [computed]. apply neg_fin, (IA O R).
Qed.

Lemma reach_sum f a b : IEEE f -> reach f a + reach f b <= reach f (Add a b) /\ reach f (Sub a b) = reach f (Add a b).
Proof.
  intros I. destruct (ulp_small f I) as [U _]. split; [|reflexivity]. unfold reach. cbn [roundings extent lost]. fold (ulp f). rewrite <- tech_pow_Rmult. apply roomy_sum; [lra|split; [apply grow_pos, I|apply grow_le; [exact I|apply Nat.le_max_l]]|split; [apply grow_pos, I|apply grow_le; [exact I|apply Nat.le_max_r]]|apply extent_nonneg|apply extent_nonneg|apply lost_nonneg, I|apply lost_nonneg, I].
Qed.
Lemma reach_nonneg f e : IEEE f -> 0 <= reach f e.
Proof. intros I. unfold reach. fold (ulp f). pose proof (grow_pos f (roundings e) I). pose proof (extent_nonneg f e). pose proof (lost_nonneg f e I). assert (0 <= (1 + ulp f) ^ roundings e * extent f e) by (apply Rmult_le_pos; lra). lra. Qed.
(* a sum has room if its terms have, and it reaches no further *)
Fixpoint Terms (P : expr -> Prop) (e : expr) : Prop := match e with Add a b | Sub a b => Terms P a /\ Terms P b | _ => P e end.
Lemma roomy_terms f e : IEEE f -> reach f e <= IZR (2 ^ fm_top f) / 2 -> Terms (fun t => reach f t <= IZR (2 ^ fm_top f) / 2 -> Roomy f t) e -> Roomy f e.
Proof.
  intros I. induction e as [x|a IA b IB|a IA b IB|a IA b IB|a IA]; intros B T; try (apply T, B).
  - destruct T as [TA TB]. destruct (reach_sum f a b I) as [S1 _]. pose proof (reach_nonneg f a I). pose proof (reach_nonneg f b I). cbn [Roomy]. split; [apply IA; [lra|exact TA]|]. split; [apply IB; [lra|exact TB]|exact B].
  - destruct T as [TA TB]. destruct (reach_sum f a b I) as [S1 S2]. rewrite <- S2 in S1. pose proof (reach_nonneg f a I). pose proof (reach_nonneg f b I). cbn [Roomy]. split; [apply IA; [lra|exact TA]|]. split; [apply IB; [lra|exact TB]|exact B].
Qed.
Lemma roomy_in f e : Roomy f e -> Terms (fun t => reach f t <= IZR (2 ^ fm_top f) / 2 -> Roomy f t) e.
Proof. induction e; cbn [Roomy Terms]; intros R; try (intros _; exact R); tauto. Qed.
(* whole numbers *)
Definition Whole (f : fmt) (x : fnum) : Prop := Fin f x /\ exists k, number f x = IZR k.
Fixpoint Small (f : fmt) (e : expr) : Prop :=
  match e with
  | Lit _ => True
  | Add a b | Sub a b | Mul a b => Small f a /\ Small f b /\ extent f e <= IZR (2 ^ fm_prec f)
  | Neg a => Small f a
  end.
Lemma exact_whole f e : Over (Whole f) e -> exists k, exact f e = IZR k.
Proof.
  induction e as [x|a IA b IB|a IA b IB|a IA b IB|a IA]; cbn [Over exact]; intros O.
  - apply O.
  - destruct (IA (proj1 O)) as [k ->], (IB (proj2 O)) as [m ->]. exists (k + m)%Z. rewrite plus_IZR. reflexivity.
  - destruct (IA (proj1 O)) as [k ->], (IB (proj2 O)) as [m ->]. exists (k - m)%Z. rewrite minus_IZR. reflexivity.
  - destruct (IA (proj1 O)) as [k ->], (IB (proj2 O)) as [m ->]. exists (k * m)%Z. rewrite mult_IZR. reflexivity.
  - destruct (IA O) as [k ->]. exists (- k)%Z. rewrite opp_IZR. reflexivity.
Qed.
Lemma prec_top f : IEEE f -> IZR (2 ^ fm_prec f) < IZR (2 ^ fm_top f).
Proof. intros I. apply IZR_lt, Z.pow_lt_mono_r; destruct I as [-> | ->]; cbn; lia. Qed.
Lemma fits_small f e : IEEE f -> Over (Whole f) e -> Small f e -> Fits f e.
Proof.
  intros I. assert (K : forall c, Over (Whole f) c -> extent f c <= IZR (2 ^ fm_prec f) -> Grid f (exact f c) /\ Rabs (exact f c) < IZR (2 ^ fm_top f)).
  { intros c O L. pose proof (exact_extent f c) as X. pose proof (prec_top f I). split; [|lra]. destruct (exact_whole f c O) as [k E]. rewrite E in *. apply grid_whole; [apply ieee_sane, I|]. apply le_IZR. rewrite abs_IZR. lra. }
  induction e as [x|a IA b IB|a IA b IB|a IA b IB|a IA]; intros O P; try exact Logic.I; [| | |apply (IA O P)].
  - destruct (K (Add a b) O) as [G B]; [apply P|]. destruct O as [OA OB], P as (PA & PB & _). cbn [Fits]. auto.
  - destruct (K (Sub a b) O) as [G B]; [apply P|]. destruct O as [OA OB], P as (PA & PB & _). cbn [Fits]. auto.
  - destruct (K (Mul a b) O) as [G B]; [apply P|]. destruct O as [OA OB], P as (PA & PB & _). cbn [Fits]. auto.
Qed.
Lemma small_terms f e : extent f e <= IZR (2 ^ fm_prec f) -> Terms (fun t => extent f t <= IZR (2 ^ fm_prec f) -> Small f t) e -> Small f e.
Proof.
  induction e as [x|a IA b IB|a IA b IB|a IA b IB|a IA]; intros B T; try (apply T, B).
  - destruct T as [TA TB]. cbn [extent] in B. pose proof (extent_nonneg f a). pose proof (extent_nonneg f b). cbn [Small]. split; [apply IA; [lra|exact TA]|]. split; [apply IB; [lra|exact TB]|exact B].
  - destruct T as [TA TB]. cbn [extent] in B. pose proof (extent_nonneg f a). pose proof (extent_nonneg f b). cbn [Small]. split; [apply IA; [lra|exact TA]|]. split; [apply IB; [lra|exact TB]|exact B].
Qed.
Lemma fin_top f x : IEEE f -> Fin f x -> Rabs (number f x) < IZR (2 ^ fm_top f).
Proof. intros I (a & n & -> & F). apply (finite_small f a n (ieee_sane f I) F). Qed.
Lemma zero_fits f : IEEE f -> Grid f 0 /\ Rabs 0 < IZR (2 ^ fm_top f).
Proof. intros I. split; [apply grid_zero, ieee_sane, I|]. rewrite Rabs_R0. apply top_pos, ieee_sane, I. Qed.
Lemma number_fits f x : IEEE f -> Fin f x -> Grid f (number f x) /\ Rabs (number f x) < IZR (2 ^ fm_top f).
Proof. intros I F. split; [apply fin_grid, F|apply fin_top; assumption]. Qed.
Lemma neg_fits f x : IEEE f -> Fin f x -> Grid f (- number f x) /\ Rabs (- number f x) < IZR (2 ^ fm_top f).
Proof. intros I F. split; [apply grid_opp, fin_grid, F|rewrite Rabs_Ropp; apply fin_top; assumption]. Qed.
