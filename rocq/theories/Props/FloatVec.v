(* C97: lengths, distances and products of vec3 on float and double *)
From Coq Require Import Reals ZArith List Bool Lia Lra.
From Verif Require Import Model.Base Model.FloatText Model.Math Model.Ieee Model.FloatMath Model.FloatVec Spec.FloatText Spec.Ieee Proofs.FloatTextProofs Proofs.IeeeProofs Proofs.IeeeErrorProofs Proofs.IeeeSqrtProofs Props.FloatEquals Props.FloatWrap Props.FloatAverage Props.FloatSqrt.
Local Open Scope R_scope.

(* the parts of a vector, and all parts having a property *)
Definition Part (v : f_vec) (x : fnum) : Prop := x = fv_x v \/ x = fv_y v \/ x = fv_z v.
Definition Each (P : fnum -> Prop) (v : f_vec) : Prop := forall x, Part v x -> P x.
(* the vector of real numbers that v stands for: the square of its length *)
Definition norm2 (f : fmt) (v : f_vec) : R := number f (fv_x v) * number f (fv_x v) + number f (fv_y v) * number f (fv_y v) + number f (fv_z v) * number f (fv_z v).

Lemma each_xyz P v : Each P v <-> P (fv_x v) /\ P (fv_y v) /\ P (fv_z v).
Proof. split; [intros H; repeat split; apply H; unfold Part; auto|]. intros (A & B & C) x [->|[->| ->]]; assumption. Qed.
(* not negative, not -0 *)
Definition NonNeg (f : fmt) (x : fnum) : Prop := x = FInf false \/ exists n, x = FFin false n /\ Finite f n.
Lemma nonneg_valid f x : NonNeg f x -> Valid f x.
Proof. intros [->|(n & -> & F)]; [exact I|exact F]. Qed.
Lemma nonneg_num f x : NonNeg f x -> Num x.
Proof. intros [->|(n & -> & F)]; discriminate. Qed.
Lemma nonneg_zero f x : Sane f -> NonNeg f x -> LessEq f f_zero x.
Proof.
  intros W [->|(n & -> & F)].
  - apply lesseq_iff. exists (Real (val f false 0)), Above. repeat split. left. exact I.
  - apply (correct_mono f (val f false 0) _ (val f false n) _ W); [apply correct_fin; [exact W|apply (zero_finite f W)]|apply correct_fin; assumption|]. apply val_le; [exact W|]. cbn. exact (rep_nonneg f n (proj1 F)).
Qed.
Lemma correct_nonneg f r x : Correct f r x -> 0 < r -> NonNeg f x.
Proof.
  intros (g & N & H) R. destruct x as [|a|a n]; [contradiction| |].
  - destruct H as [_ S]. destruct a; [lra|left; reflexivity].
  - destruct H as (F & _ & S). destruct a; [lra|right; exists n; auto].
Qed.
Lemma to_zero f neg den : Sane f -> (0 < den)%Z -> to_fnum f neg (VNum 0 den) = FFin neg 0.
Proof.
  intros W P. apply (to_fnum_fin f neg 0 den 0 0 W); [|apply (zero_finite f W)|rewrite val_zero; reflexivity]. pose proof (round_correct f neg 0 den W ltac:(lia) P) as R. unfold Rdiv in R. destruct neg; rewrite ?Ropp_0, Rmult_0_l in R; exact R.
Qed.
Lemma square_nonneg f x : Sane f -> Valid f x -> Num x -> NonNeg f (f_mul f x x).
Proof.
  intros W V N. destruct x as [|a|a n]; [exfalso; apply N; reflexivity|cbn; rewrite xorb_nilpotent; left; reflexivity|]. pose proof (fin_pos f a n V) as P. pose proof (mul_correct f a n a n W P P) as C. destruct (Z.eq_dec n 0) as [->|NZ].
  - cbn. rewrite xorb_nilpotent. right. exists 0%Z. split; [|apply (zero_finite f W)]. apply to_zero; [exact W|]. pose proof W as [W1 W2]. pose proof (pow_pos_ (fm_low f) ltac:(lia)). nia.
  - apply (correct_nonneg f _ _ C). rewrite (square_val f a n W P). assert (0 < val f false n) by (rewrite <- (val_zero f false); apply val_lt; [exact W|cbn; lia]). nra.
Qed.
Lemma add_nonneg f x y : Sane f -> NonNeg f x -> NonNeg f y -> NonNeg f (f_add f x y).
Proof.
  intros W [->|(n & -> & F)] [->|(m & -> & G)]; try (left; reflexivity). pose proof (rep_nonneg f n (proj1 F)). pose proof (rep_nonneg f m (proj1 G)). pose proof (add_correct f false n false m W) as C. destruct (Z.eq_dec (n + m) 0) as [Z0|Z0].
  - cbn [f_add signed]. rewrite (proj2 (Z.eqb_eq _ _) Z0). right. exists 0%Z. split; [reflexivity|apply (zero_finite f W)].
  - apply (correct_nonneg f _ _ C). rewrite !val_signed, <- Rmult_plus_distr_r, <- plus_IZR. cbn [signed]. apply Rmult_lt_0_compat; [apply (IZR_lt 0); lia|apply unit_pos, W].
Qed.
Lemma sqrt_nonneg_ f x : IEEE f -> NonNeg f x -> NonNeg f (f_sqrt f x).
Proof.
  intros I [->|(n & -> & F)]; [left; reflexivity|]. pose proof (ieee_deep f I) as D. pose proof (rep_nonneg f n (proj1 F)). destruct (Z.eq_dec n 0) as [->|N]; [right; exists 0%Z; split; [reflexivity|exact F]|]. destruct (sqrt_fin f n D F ltac:(lia)) as (m & -> & G & _). right. exists m. auto.
Qed.
Lemma squared_length_nonneg f v : IEEE f -> Each (Valid f) v -> Each Num v -> NonNeg f (fv_squared_length f v).
Proof.
  intros I V N. pose proof (ieee_sane f I) as W. apply each_xyz in V, N. destruct V as (V1 & V2 & V3). destruct N as (N1 & N2 & N3). unfold fv_squared_length. repeat apply add_nonneg; try exact W; apply square_nonneg; assumption.
Qed.
(* the length is a number, not negative, if all parts are *)
Theorem C97_length : forall f v, IEEE f -> Each (Valid f) v ->
  (NaN (fv_length f v) <-> ~ Each Num v) /\ (Each Num v -> LessEq f f_zero (fv_length f v)) /\
  (Each Num v -> ~ Each (Fin f) v -> fv_length f v = FInf false) /\ fv_length f (fv_neg v) = fv_length f v /\ fv_is_null v = Bool.eqb (fv_is_null (fv_neg v)) true.
Proof.
  intros f v I V. pose proof (ieee_sane f I) as W. assert (POS : Each Num v -> NonNeg f (fv_length f v)) by (intros N; apply sqrt_nonneg_; [exact I|apply squared_length_nonneg; assumption]).
  split; [|split; [|split; [|split]]].
  - split; [intros Z N; apply (nonneg_num f _ (POS N)), Z|]. intros N. assert (Q : fv_x v = FNan \/ fv_y v = FNan \/ fv_z v = FNan). { destruct (fv_x v) eqn:E1; [auto| |]; (destruct (fv_y v) eqn:E2; [auto| |]); (destruct (fv_z v) eqn:E3; [auto| |]); exfalso; apply N; apply each_xyz; rewrite E1, E2, E3; repeat split; discriminate. }
    unfold fv_length, fv_squared_length. destruct Q as [-> |[-> | ->]]; [reflexivity| |]; cbn [f_mul]; (destruct (f_mul f (fv_x v) (fv_x v)); reflexivity) || (destruct (f_add f (f_mul f (fv_x v) (fv_x v)) (f_mul f (fv_y v) (fv_y v))); reflexivity).
  - intros N. apply nonneg_zero; [exact W|apply POS, N].
  - intros N NF. apply each_xyz in V, N. destruct V as (V1 & V2 & V3), N as (N1 & N2 & N3).
    assert (SQ : forall x, Valid f x -> Num x -> NonNeg f (f_mul f x x) /\ (f_mul f x x = FInf false \/ Fin f x)). { intros x VX NX. split; [apply square_nonneg; assumption|]. destruct x as [|a|a n]; [exfalso; apply NX; reflexivity|left; cbn; rewrite xorb_nilpotent; reflexivity|right; exists a, n; split; [reflexivity|exact VX]]. }
    assert (AI : forall x, NonNeg f x -> f_add f (FInf false) x = FInf false /\ f_add f x (FInf false) = FInf false) by (intros x [->|(n & -> & _)]; split; reflexivity).
    destruct (SQ _ V1 N1) as [P1 Q1], (SQ _ V2 N2) as [P2 Q2], (SQ _ V3 N3) as [P3 Q3]. assert (Q : f_mul f (fv_x v) (fv_x v) = FInf false \/ f_mul f (fv_y v) (fv_y v) = FInf false \/ f_mul f (fv_z v) (fv_z v) = FInf false) by (destruct Q1 as [Q1|F1]; [auto|]; destruct Q2 as [Q2|F2]; [auto|]; destruct Q3 as [Q3|F3]; [auto|]; exfalso; apply NF; apply each_xyz; auto).
    unfold fv_length, fv_squared_length. pose proof (add_nonneg f _ _ W P1 P2) as P12. destruct Q as [Q|[Q|Q]]; rewrite Q in *; [rewrite (proj1 (AI _ P2)), (proj1 (AI _ P3))|rewrite (proj2 (AI _ P1)), (proj1 (AI _ P3))|rewrite (proj2 (AI _ P12))]; reflexivity.
  - unfold fv_length, fv_squared_length, fv_neg. cbn [fv_x fv_y fv_z]. assert (SQ : forall x, f_mul f (f_neg x) (f_neg x) = f_mul f x x) by (intros [|a|a n]; [reflexivity| |]; cbn; destruct a; reflexivity). rewrite !SQ. reflexivity.
  - assert (E : forall x, f_eq (f_neg x) f_zero = f_eq x f_zero). { intros [|a|a n]; [reflexivity|destruct a; reflexivity|]. unfold f_zero. cbn [f_neg f_eq signed]. destruct a; cbn; [destruct (Z.eqb_spec n 0), (Z.eqb_spec (- n) 0); try reflexivity; lia|destruct (Z.eqb_spec n 0), (Z.eqb_spec (- n) 0); try reflexivity; lia]. } unfold fv_is_null, fv_neg. cbn [fv_x fv_y fv_z]. rewrite !E. destruct (f_eq (fv_x v) f_zero && f_eq (fv_y v) f_zero && f_eq (fv_z v) f_zero); reflexivity.
Qed.
Print Assumptions C97_length.
Lemma correct_parts f r a n : Correct f r (FFin a n) -> Finite f n /\ Near f r (val f a n).
Proof. intros (g & N & F & -> & _). auto. Qed.
Lemma nonneg_fin f x a n : NonNeg f x -> x = FFin a n -> a = false /\ Finite f n.
Proof. intros [->|(m & -> & F)] E; [discriminate|injection E as <- <-; auto]. Qed.
Lemma square_parts f x a p : Sane f -> Fin f x -> f_mul f x x = FFin a p -> a = false /\ Finite f p /\ Near f (number f x * number f x) (val f false p).
Proof.
  intros W FX E. assert (V : Valid f x) by (apply fin_valid, FX). destruct (nonneg_fin f _ _ _ (square_nonneg f x W V ltac:(destruct FX as (b & m & -> & _); discriminate)) E) as [-> F]. split; [reflexivity|]. split; [exact F|]. pose proof (square_correct f x W FX) as C. unfold f_squared in C. rewrite E in C. apply correct_parts in C. apply C.
Qed.
Lemma add_parts f x y a s : Sane f -> NonNeg f x -> NonNeg f y -> f_add f x y = FFin a s -> exists n m, x = FFin false n /\ y = FFin false m /\ Finite f n /\ Finite f m /\ a = false /\ Finite f s /\ Near f (val f false n + val f false m) (val f false s).
Proof.
  intros W X Y E. destruct (nonneg_fin f _ _ _ (add_nonneg f x y W X Y) E) as [-> F]. destruct X as [->|(n & -> & FN)]; [destruct Y as [->|(m & -> & _)]; discriminate|]. destruct Y as [->|(m & -> & FM)]; [discriminate|]. exists n, m. pose proof (add_correct f false n false m W) as C. rewrite E in C. apply correct_parts in C. destruct C. auto 8.
Qed.
Lemma length_parts f v b l : IEEE f -> Each (Fin f) v -> fv_length f v = FFin b l -> exists p q r s k,
  (b = false /\ Finite f p /\ Finite f q /\ Finite f r /\ Finite f s /\ Finite f k /\ Finite f l) /\
  (f_mul f (fv_x v) (fv_x v) = FFin false p /\ f_mul f (fv_y v) (fv_y v) = FFin false q /\ f_mul f (fv_z v) (fv_z v) = FFin false r /\ f_add f (FFin false p) (FFin false q) = FFin false s /\ fv_squared_length f v = FFin false k) /\
  (Near f (number f (fv_x v) * number f (fv_x v)) (val f false p) /\ Near f (number f (fv_y v) * number f (fv_y v)) (val f false q) /\ Near f (number f (fv_z v) * number f (fv_z v)) (val f false r)) /\
  Near f (val f false p + val f false q) (val f false s) /\ Near f (val f false s + val f false r) (val f false k) /\ Near f (sqrt (val f false k)) (val f false l).
Proof.
  intros I FV E. pose proof (ieee_sane f I) as W. assert (V : Each (Valid f) v) by (intros x Q; apply fin_valid, FV, Q). assert (NV : Each Num v) by (intros x Q; destruct (FV x Q) as (a & n & -> & _); discriminate).
  pose proof (squared_length_nonneg f v I V NV) as QN. pose proof (sqrt_nonneg_ f _ I QN) as LN. destruct (nonneg_fin f _ _ _ LN E) as [-> FL]. unfold fv_length in E. destruct QN as [QI|(k & EK & FK)]; [rewrite QI in E; discriminate|]. rewrite EK in E.
  apply each_xyz in V, NV, FV. destruct V as (V1 & V2 & V3), NV as (N1 & N2 & N3), FV as (F1 & F2 & F3). pose proof (square_nonneg f _ W V1 N1) as S1. pose proof (square_nonneg f _ W V2 N2) as S2. pose proof (square_nonneg f _ W V3 N3) as S3.
  pose proof EK as EK'. unfold fv_squared_length in EK'. destruct (add_parts f _ _ _ _ W (add_nonneg f _ _ W S1 S2) S3 EK') as (s & r & ES & ER & FS & FR & _ & _ & NK). destruct (add_parts f _ _ _ _ W S1 S2 ES) as (p & q & EP & EQ & FP & FQ & _ & _ & NS).
  exists p, q, r, s, k. split; [auto 8|]. split; [rewrite EP, EQ in ES; auto 8|]. split; [split; [|split]; [apply (square_parts f _ _ _ W F1 EP)|apply (square_parts f _ _ _ W F2 EQ)|apply (square_parts f _ _ _ W F3 ER)]|]. split; [exact NS|]. split; [exact NK|].
  destruct (C96_sqrt f (FFin false k) I FK) as (C & _). destruct (C false k eq_refl) as [C1 _]; [rewrite <- (val_zero f false); apply val_le; [exact W|cbn; exact (rep_nonneg f k (proj1 FK))]|]. rewrite E in C1. apply (correct_parts f _ _ _ C1).
Qed.
Lemma val_nonneg f n : Sane f -> Finite f n -> 0 <= val f false n.
Proof. intros W F. rewrite <- (val_zero f false). apply val_le; [exact W|]. cbn. exact (rep_nonneg f n (proj1 F)). Qed.
Lemma near_up f a b g : Near f (a + b) g -> Grid f a -> 0 <= b -> a <= g.
Proof. intros N G B. apply (near_mono f a a (a + b) g (exact_near f a G) N). lra. Qed.
Lemma near_tiny f r g : Sane f -> 0 <= r -> Near f r g -> (g = 0 <-> r <= unit_of f / 2).
Proof.
  intros W P N. pose proof (unit_pos f W) as U. split; [intros ->|intros H; apply (near_half f r g W); [lra|exact N]].
  assert (G : Grid f (unit_of f)) by (exists false, 1%Z; split; [apply (unit_finite f W)|unfold val; lra]). pose proof (near_abs f r 0 _ N G) as A. rewrite Rminus_0_l, Rabs_Ropp, Rabs_right in A by lra. unfold Rabs in A. destruct (Rcase_abs (unit_of f - r)); lra.
Qed.
Lemma near_tiny2 f x g : Sane f -> Near f (x * x) g -> (g = 0 <-> x * x <= unit_of f / 2).
Proof. intros W. apply near_tiny; [exact W|]. nra. Qed.
(* the length is zero if, and only if, the squares of all parts are rounded to
   zero *)
Theorem C97_length_zero : forall f v, IEEE f -> Each (Fin f) v -> (fv_length f v = f_zero <-> Each (fun x => number f x * number f x <= unit_of f / 2) v).
Proof.
  intros f v I FV. pose proof (ieee_deep f I) as D. pose proof D as [W _]. pose proof (unit_pos f W) as U. split.
  - intros E. destruct (length_parts f v _ _ I FV E) as (p & q & r & s & k & (_ & FP & FQ & FR & FS & FK & FL) & (_ & _ & _ & _ & EK) & (NP & NQ & NR) & NS & NK & NL). rewrite val_zero in NL.
    assert (K0 : k = 0%Z). { destruct (Z.eq_dec k 0) as [|K]; [assumption|exfalso]. pose proof (rep_nonneg f k (proj1 FK)). destruct (sqrt_fin f k D FK ltac:(lia)) as (m & EM & _ & MP). unfold fv_length in E. rewrite EK, EM in E. injection E as ->. lia. }
    subst k. rewrite val_zero in NK. pose proof (val_nonneg f p W FP) as P1. pose proof (val_nonneg f q W FQ) as P2. pose proof (val_nonneg f r W FR) as P3. pose proof (val_nonneg f s W FS) as P4. assert (GR : forall n, Finite f n -> Grid f (val f false n)) by (intros n F; exists false, n; split; [apply F|reflexivity]).
    pose proof (near_up f _ _ _ NK (GR s FS) P3) as A1. rewrite Rplus_comm in NK. pose proof (near_up f _ _ _ NK (GR r FR) P4) as A2. pose proof (near_up f _ _ _ NS (GR p FP) P2) as A3. rewrite Rplus_comm in NS. pose proof (near_up f _ _ _ NS (GR q FQ) P1) as A4.
    apply each_xyz. split; [|split]; [apply (near_tiny2 f _ _ W NP); lra|apply (near_tiny2 f _ _ W NQ); lra|apply (near_tiny2 f _ _ W NR); lra].
  - intros H. apply each_xyz in H. destruct H as (H1 & H2 & H3). assert (SQ : forall x, Fin f x -> number f x * number f x <= unit_of f / 2 -> f_mul f x x = FFin false 0).
    { intros x FX B. assert (VX : Valid f x) by (apply fin_valid, FX). assert (NX : Num x) by (destruct FX as (a & n & -> & _); discriminate). pose proof (square_correct f x W FX) as C. unfold f_squared in C. pose proof (unit_finite f W) as UF. destruct (correct_le_fin f _ _ false 1 W C UF) as (a & n & E); [split; [nra|]; unfold val; lra|].
      destruct (square_parts f x a n W FX E) as (-> & F & N). rewrite E. f_equal. apply (near_tiny2 f _ _ W) in N. apply N in B. rewrite <- (val_zero f false) in B. apply (val_inj f false _ _ W B). }
    apply each_xyz in FV. destruct FV as (F1 & F2 & F3). unfold fv_length, fv_squared_length. rewrite (SQ _ F1 H1), (SQ _ F2 H2), (SQ _ F3 H3). reflexivity.
Qed.
Print Assumptions C97_length_zero.
(* the length is no less than any part, whatever the roundings *)
Lemma add_above f x y : Sane f -> NonNeg f x -> NonNeg f y -> LessEq f x (f_add f x y) /\ LessEq f y (f_add f x y).
Proof.
  intros W X Y. assert (TOP : forall z, NonNeg f z -> LessEq f z (FInf false)). { intros z NZ. destruct (num_place f z (nonneg_num f z NZ)) as [p HP]. apply lesseq_iff. exists p, Above. split; [exact HP|]. split; [reflexivity|]. unfold xle. destruct p; cbn; auto. }
  destruct (add_nonneg f x y W X Y) as [E|(s & E & FS)]; [rewrite E; auto|]. rewrite E. destruct (add_parts f x y false s W X Y E) as (n & m & -> & -> & FN & FM & _ & _ & N). pose proof (val_nonneg f n W FN). pose proof (val_nonneg f m W FM). pose proof (add_correct f false n false m W) as C. rewrite E in C. split; [apply (correct_mono f (val f false n) _ _ _ W (correct_fin f false n W FN) C)|apply (correct_mono f (val f false m) _ _ _ W (correct_fin f false m W FM) C)]; lra.
Qed.
Theorem C97_length_dominates : forall f v x, IEEE f -> Each (Fin f) v -> Part v x -> Full f x -> LessEq f (f_abs x) (fv_length f v).
Proof.
  intros f v x I FV P B. pose proof (ieee_sane f I) as W. assert (V : Each (Valid f) v) by (intros y Q; apply fin_valid, FV, Q). assert (NV : Each Num v) by (intros y Q; destruct (FV y Q) as (a & n & -> & _); discriminate). pose proof (FV x P) as FX. pose proof (V x P) as VX. pose proof (NV x P) as NX. pose proof (square_nonneg f x W VX NX) as SX.
  pose proof (squared_length_nonneg f v I V NV) as QN. assert (L : LessEq f (f_mul f x x) (fv_squared_length f v)).
  { apply each_xyz in V, NV. destruct V as (V1 & V2 & V3), NV as (N1 & N2 & N3). pose proof (square_nonneg f _ W V1 N1) as S1. pose proof (square_nonneg f _ W V2 N2) as S2. pose proof (square_nonneg f _ W V3 N3) as S3. destruct (add_above f _ _ W S1 S2) as [A1 A2]. destruct (add_above f _ _ W (add_nonneg f _ _ W S1 S2) S3) as [A3 A4]. unfold fv_squared_length. destruct P as [->|[->| ->]]; [apply (lesseq_trans f _ _ _ A1 A3)|apply (lesseq_trans f _ _ _ A2 A3)|exact A4]. }
  assert (NA : Num (f_abs x)) by (destruct FX as (a & n & -> & _); discriminate). destruct SX as [E|(p & E & FP)].
  - rewrite E in L. destruct QN as [EQ|(k & EK & _)]; [|exfalso; rewrite EK in L; destruct L as [(a & b & A & B' & L)|(a & A & B')]; cbn in *; subst; [contradiction|discriminate]]. unfold fv_length. rewrite EQ. cbn [f_sqrt]. destruct (num_place f _ NA) as [q HQ]. apply lesseq_iff. exists q, Above. split; [exact HQ|]. split; [reflexivity|]. unfold xle. destruct q; cbn; auto.
  - rewrite <- (C96_sqrt_square f x I FX B) by (unfold f_squared; rewrite E; discriminate). unfold f_squared, fv_length. apply sqrt_mono; [exact I|rewrite E; exact FP|apply nonneg_valid, QN|rewrite E; apply nonneg_zero; [exact W|right; exists p; auto]|exact L].
Qed.
Print Assumptions C97_length_dominates.
(* along an axis it is exact *)
Lemma add_zero_ f n : Sane f -> Finite f n -> f_add f (FFin false n) f_zero = FFin false n /\ f_add f f_zero (FFin false n) = FFin false n.
Proof.
  intros W F. rewrite (add_comm f f_zero). assert (E : f_add f (FFin false n) f_zero = FFin false n); [|auto]. unfold f_zero. pose proof (rep_nonneg f n (proj1 F)). cbn [f_add signed]. rewrite Z.add_0_r. destruct (Z.eqb_spec n 0) as [->|N]; [reflexivity|]. rewrite (proj2 (Z.ltb_ge n 0)), Z.abs_eq by lia. pose proof W as [W1 W2]. pose proof (round_correct f false n (2 ^ fm_low f) W ltac:(lia) (pow_pos_ (fm_low f) ltac:(lia))) as C. apply (to_fnum_fin f false n _ _ n W C F). reflexivity.
Qed.
Theorem C97_length_axis : forall f x o o', IEEE f -> Fin f x -> Full f x -> f_squared f x <> FInf false -> Fin f o -> Fin f o' -> number f o = 0 -> number f o' = 0 ->
  fv_length f (mkFv x o o') = f_abs x /\ fv_length f (mkFv o x o') = f_abs x /\ fv_length f (mkFv o o' x) = f_abs x.
Proof.
  intros f x o o' I FX B NI FO FO' O O'. pose proof (ieee_sane f I) as W. pose proof (C96_sqrt_square f x I FX B NI) as SQ.
  assert (ZZ : forall y, Fin f y -> number f y = 0 -> f_mul f y y = f_zero). { intros y (a & n & -> & F) Y. cbn [number] in Y. rewrite <- (val_zero f a) in Y. apply (val_inj f a _ _ W) in Y. subst n. cbn. rewrite xorb_nilpotent. apply to_zero; [exact W|]. pose proof W as [W1 W2]. pose proof (pow_pos_ (fm_low f) ltac:(lia)). nia. }
  assert (NX : Num x) by (destruct FX as (a & n & -> & _); discriminate). destruct (square_nonneg f x W (fin_valid f x FX) NX) as [E|(p & E & FP)]; [exfalso; apply NI, E|]. unfold f_squared in SQ. rewrite E in SQ. destruct (add_zero_ f p W FP) as [A1 A2]. unfold fv_length, fv_squared_length. cbn [fv_x fv_y fv_z]. rewrite (ZZ o FO O), (ZZ o' FO' O'), E. assert (A0 : f_add f f_zero f_zero = f_zero) by reflexivity.
  split; [rewrite A1, A1; exact SQ|]. split; [rewrite A2, A1; exact SQ|rewrite A0, A2; exact SQ].
Qed.
Print Assumptions C97_length_axis.
Lemma sqrt_full f n : Deep f -> (0 < n)%Z -> IZR (2 ^ (fm_prec f - 1)) * unit_of f <= Rabs (sqrt (val f false n)).
Proof.
  intros D P. pose proof D as [W DD]. pose proof W as [W1 W2]. pose proof (unit_pos f W) as U. pose proof (pow_pos_ (fm_low f) ltac:(lia)) as LP. rewrite Rabs_right by (apply Rle_ge, sqrt_pos). destruct (sqrt_root f n D P) as [_ R]. rewrite (sqrt_units f n W ltac:(lia)). apply Rmult_le_compat_r; [lra|]. destruct (Z.sqrt_spec (n * 2 ^ fm_low f) ltac:(nia)) as [S1 _]. apply Rle_trans with (IZR (Z.sqrt (n * 2 ^ fm_low f))); [apply IZR_le; pose proof (Z.pow_le_mono_r 2 (fm_prec f - 1) (fm_prec f + 1) ltac:(lia) ltac:(lia)); lia|]. rewrite <- (sqrt_square (IZR (Z.sqrt (n * 2 ^ fm_low f)))) by (apply (IZR_le 0), Z.sqrt_nonneg). rewrite <- mult_IZR. apply sqrt_le_1_alt, IZR_le, S1.
Qed.
Lemma length_R u h X Y Z P Q R s k l : 0 < u <= / 1000 -> 0 <= h -> 0 <= X -> 0 <= Y -> 0 <= Z -> 0 <= P -> 0 <= Q -> 0 <= R ->
  Rabs (P - X) <= u * X + h -> Rabs (Q - Y) <= u * Y + h -> Rabs (R - Z) <= u * Z + h -> Rabs (s - (P + Q)) <= u * (P + Q) -> Rabs (k - (s + R)) <= u * (s + R) -> Rabs (l - sqrt k) <= u * sqrt k ->
  (1 - u) * (1 - u) * ((1 - u) * (X + Y + Z) - 3 * h) <= k <= (1 + u) * (1 + u) * ((1 + u) * (X + Y + Z) + 3 * h) /\
  (16 * h <= u * (X + Y + Z) -> Rabs (l - sqrt (X + Y + Z)) <= 3 * u * sqrt (X + Y + Z)).
Proof.
  intros U H XP YP ZP PP QP RP HP HQ HR HS HK HL. assert (AB : forall a b, Rabs a <= b -> - b <= a <= b) by (intros a b; unfold Rabs; destruct (Rcase_abs a); lra). apply AB in HP, HQ, HR, HS, HK, HL. set (S := X + Y + Z). set (T := P + Q + R). assert (TS : (1 - u) * S - 3 * h <= T <= (1 + u) * S + 3 * h) by (unfold S, T; lra).
  assert (KT : (1 - u) * (1 - u) * T <= k <= (1 + u) * (1 + u) * T).
  { assert (A : (1 - u) * T <= s + R <= (1 + u) * T) by (unfold T; nra). split.
    - apply Rle_trans with ((1 - u) * (s + R)); [|lra]. rewrite Rmult_assoc. apply Rmult_le_compat_l; lra.
    - apply Rle_trans with ((1 + u) * (s + R)); [lra|]. rewrite Rmult_assoc. apply Rmult_le_compat_l; lra. }
  assert (KB : (1 - u) * (1 - u) * ((1 - u) * S - 3 * h) <= k <= (1 + u) * (1 + u) * ((1 + u) * S + 3 * h)).
  { split; [eapply Rle_trans; [|apply KT]; apply Rmult_le_compat_l; nra|eapply Rle_trans; [apply KT|]; apply Rmult_le_compat_l; nra]. }
  split; [exact KB|]. intros B. assert (SP : 0 <= S) by (unfold S; lra). pose proof (sqrt_pos S) as LP. pose proof (sqrt_sqrt S SP) as LL. set (L := sqrt S) in *.
  assert (U1 : sqrt k <= (1 + u) * (1 + 6 / 10 * u) * L).
  { rewrite <- (sqrt_square ((1 + u) * (1 + 6 / 10 * u) * L)) by (apply Rmult_le_pos; [nra|exact LP]). apply sqrt_le_1_alt. replace ((1 + u) * (1 + 6 / 10 * u) * L * ((1 + u) * (1 + 6 / 10 * u) * L)) with ((1 + u) * (1 + u) * ((1 + 6 / 10 * u) * (1 + 6 / 10 * u) * (L * L))) by ring. eapply Rle_trans; [apply KB|]. apply Rmult_le_compat_l; [nra|]. rewrite LL. apply Rle_trans with ((1 + 19 / 16 * u) * S); [lra|]. apply Rmult_le_compat_r; [exact SP|nra]. }
  assert (U2 : (1 - u) * (1 - 9 / 10 * u) * L <= sqrt k).
  { rewrite <- (sqrt_square ((1 - u) * (1 - 9 / 10 * u) * L)) by (apply Rmult_le_pos; [nra|exact LP]). apply sqrt_le_1_alt. replace ((1 - u) * (1 - 9 / 10 * u) * L * ((1 - u) * (1 - 9 / 10 * u) * L)) with ((1 - u) * (1 - u) * ((1 - 9 / 10 * u) * (1 - 9 / 10 * u) * (L * L))) by ring. eapply Rle_trans; [|apply KB]. apply Rmult_le_compat_l; [nra|]. rewrite LL. apply Rle_trans with ((1 - 19 / 16 * u) * S); [|lra]. apply Rmult_le_compat_r; [exact SP|nra]. }
  pose proof (sqrt_pos k) as KP. assert (V1 : l <= (1 + 3 * u) * L). { apply Rle_trans with ((1 + u) * ((1 + u) * (1 + 6 / 10 * u) * L)); [apply Rle_trans with ((1 + u) * sqrt k); [lra|apply Rmult_le_compat_l; lra]|]. rewrite <- !Rmult_assoc. apply Rmult_le_compat_r; [exact LP|nra]. }
  assert (V2 : (1 - 3 * u) * L <= l). { apply Rle_trans with ((1 - u) * ((1 - u) * (1 - 9 / 10 * u) * L)); [|apply Rle_trans with ((1 - u) * sqrt k); [apply Rmult_le_compat_l; lra|lra]]. rewrite <- !Rmult_assoc. apply Rmult_le_compat_r; [exact LP|nra]. }
  apply Rabs_le. lra.
Qed.
Lemma prec_small f : IEEE f -> 0 < / IZR (2 ^ fm_prec f) <= / 1000 /\ unit_of f * 1000 <= / IZR (2 ^ fm_prec f) /\ IZR (2 ^ fm_prec f) * / IZR (2 ^ fm_prec f) = 1.
Proof.
  intros I. assert (P : 1000 <= IZR (2 ^ fm_prec f)) by (apply (IZR_le 1000); destruct I as [-> | ->]; vm_compute; discriminate). split; [split; [apply Rinv_0_lt_compat; lra|apply Rinv_le_contravar; lra]|]. split; [|apply Rinv_r; lra]. unfold unit_of. assert (Q : 1000 * IZR (2 ^ fm_prec f) <= IZR (2 ^ fm_low f)) by (rewrite <- (mult_IZR 1000); apply IZR_le; destruct I as [-> | ->]; vm_compute; discriminate).
  apply (Rmult_le_reg_r (IZR (2 ^ fm_low f) * IZR (2 ^ fm_prec f))); [nra|]. replace (/ IZR (2 ^ fm_low f) * 1000 * (IZR (2 ^ fm_low f) * IZR (2 ^ fm_prec f))) with (1000 * IZR (2 ^ fm_prec f)) by (field; lra). replace (/ IZR (2 ^ fm_prec f) * (IZR (2 ^ fm_low f) * IZR (2 ^ fm_prec f))) with (IZR (2 ^ fm_low f)) by (field; lra). exact Q.
Qed.
Lemma length_bounds f v b l : IEEE f -> Each (Fin f) v -> fv_length f v = FFin b l -> let u := / IZR (2 ^ fm_prec f) in exists k, Finite f k /\ Finite f l /\ b = false /\
  Near f (sqrt (val f false k)) (val f false l) /\ Rabs (val f false l - sqrt (val f false k)) <= u * sqrt (val f false k) /\
  (1 - u) * (1 - u) * ((1 - u) * norm2 f v - 3 * (unit_of f / 2)) <= val f false k <= (1 + u) * (1 + u) * ((1 + u) * norm2 f v + 3 * (unit_of f / 2)) /\
  (8 * unit_of f <= u * norm2 f v -> Rabs (val f false l - sqrt (norm2 f v)) <= 3 * u * sqrt (norm2 f v)).
Proof.
  intros I FV E u. pose proof (ieee_deep f I) as D. pose proof D as [W _]. pose proof (unit_pos f W) as U. destruct (length_parts f v b l I FV E) as (p & q & r & s & k & (-> & FP & FQ & FR & FS & FK & FL) & _ & (NP & NQ & NR) & NS & NK & NL). exists k. split; [exact FK|]. split; [exact FL|]. split; [reflexivity|]. split; [exact NL|].
  destruct (prec_small f I) as (UB & _ & _). fold u in UB. assert (DIV : forall a, a / IZR (2 ^ fm_prec f) = u * a) by (intros a; unfold Rdiv, u; ring).
  assert (SQ : forall x g, Near f (x * x) g -> Rabs (g - x * x) <= u * (x * x) + unit_of f / 2). { intros x g N. pose proof (near_bound f _ g W N) as H. rewrite (Rabs_right (x * x)) in H by nra. rewrite DIV in H. exact H. }
  assert (LE : Rabs (val f false l - sqrt (val f false k)) <= u * sqrt (val f false k)). { destruct (Z.eq_dec k 0) as [->|KZ]; [rewrite val_zero, sqrt_0 in *; pose proof (near_fun f 0 _ _ NL (near_zero f W)) as ->; rewrite Rminus_0_r, Rabs_R0; lra|]. pose proof (rep_nonneg f k (proj1 FK)). pose proof (near_rel f _ _ W NL (sqrt_full f k D ltac:(lia))) as H'. rewrite (Rabs_right (sqrt (val f false k))) in H' by (apply Rle_ge, sqrt_pos). rewrite DIV in H'. exact H'. }
  split; [exact LE|]. pose proof (val_nonneg f p W FP) as P1. pose proof (val_nonneg f q W FQ) as P2. pose proof (val_nonneg f r W FR) as P3. pose proof (val_nonneg f s W FS) as P4. pose proof (near_sum f _ _ _ _ _ W NS) as ES. pose proof (near_sum f _ _ _ _ _ W NK) as EK. rewrite (Rabs_right (val f false p + val f false q)), DIV in ES by lra. rewrite (Rabs_right (val f false s + val f false r)), DIV in EK by lra.
  destruct (length_R u (unit_of f / 2) _ _ _ _ _ _ _ _ _ UB ltac:(lra) (Rle_0_sqr (number f (fv_x v))) (Rle_0_sqr (number f (fv_y v))) (Rle_0_sqr (number f (fv_z v))) P1 P2 P3 (SQ _ _ NP) (SQ _ _ NQ) (SQ _ _ NR) ES EK LE) as [A B]. unfold Rsqr in A, B. fold (norm2 f v) in A, B. split; [exact A|]. intros C. apply B. lra.
Qed.
Lemma norm2_nonneg f v : 0 <= norm2 f v.
Proof. unfold norm2. nra. Qed.
Lemma norm2_zero f v : norm2 f v = 0 -> number f (fv_x v) = 0 /\ number f (fv_y v) = 0 /\ number f (fv_z v) = 0.
Proof. unfold norm2. intros H. repeat split; nra. Qed.
(* the error of the length: three roundings to nearest, unless squares are too
   small or too large *)
Theorem C97_length_error : forall f v b l, IEEE f -> Each (Fin f) v -> fv_length f v = FFin b l -> norm2 f v = 0 \/ IZR (2 ^ (fm_prec f + 3)) * unit_of f <= norm2 f v ->
  Rabs (val f b l - sqrt (norm2 f v)) <= 3 / IZR (2 ^ fm_prec f) * sqrt (norm2 f v).
Proof.
  intros f v b l I FV E H. pose proof (ieee_sane f I) as W. pose proof (unit_pos f W) as U. destruct H as [H|H].
  - destruct (norm2_zero f v H) as (X & Y & Z). assert (E0 : fv_length f v = f_zero) by (apply (C97_length_zero f v I FV), each_xyz; rewrite X, Y, Z; repeat split; lra). rewrite E0 in E. injection E as <- <-. rewrite val_zero, H, sqrt_0, Rminus_0_r, Rabs_R0. lra.
  - destruct (length_bounds f v b l I FV E) as (k & _ & _ & -> & _ & _ & _ & B). unfold Rdiv. apply B. pose proof W as [W1 W2]. destruct (prec_small f I) as (UB & _ & QQ). rewrite Z.pow_add_r, mult_IZR in H by lia. change (IZR (2 ^ 3)) with 8 in H. pose proof (norm2_nonneg f v). set (u := / IZR (2 ^ fm_prec f)) in *. assert (u * (IZR (2 ^ fm_prec f) * 8 * unit_of f) <= u * norm2 f v) by (apply Rmult_le_compat_l; lra). replace (u * (IZR (2 ^ fm_prec f) * 8 * unit_of f)) with (IZR (2 ^ fm_prec f) * u * (8 * unit_of f)) in H1 by ring. rewrite QQ in H1. lra.
Qed.
Print Assumptions C97_length_error.
(* normalized *)
Lemma count_val f c : Sane f -> val f false (c * 2 ^ fm_low f) = IZR c.
Proof. intros W. pose proof (unit_scale f W). unfold val, unit_of. rewrite mult_IZR. field. lra. Qed.
Lemma near_one f : Sane f -> Near f (1 + / IZR (2 ^ fm_prec f)) 1.
Proof.
  intros W. pose proof W as [W1 W2]. pose proof (unit_pos f W) as U. pose proof (pow_scale f W) as Q. pose proof (Rinv_0_lt_compat _ Q) as QI. assert (G1 : Grid f 1) by (rewrite <- (one_val f W); exists false, (2 ^ fm_low f)%Z; split; [rewrite <- (Z.mul_1_l (2 ^ fm_low f)); apply rep_small; pose proof (pow_pos_ (fm_prec f) ltac:(lia)); lia|reflexivity]). split; [exact G1|]. intros g' G' D. set (u := / IZR (2 ^ fm_prec f)) in *. replace (1 - (1 + u)) with (- u) by ring. rewrite Rabs_Ropp, (Rabs_right u) by lra.
  destruct (Rlt_le_dec g' 1) as [L|L]; [left; rewrite Rabs_left by lra; lra|]. assert (GT : 1 < g') by lra. destruct G' as (s & n & R & EG). assert (s = false). { destruct s; [|reflexivity]. exfalso. unfold val in EG. pose proof (IZR_le _ _ (rep_nonneg f n R)). nra. } subst s. set (e := (fm_low f - fm_prec f + 1)%Z).
  assert (NB : (2 ^ fm_low f < n)%Z) by (rewrite <- (one_val f W), EG in GT; apply val_lt in GT; [exact GT|exact W]). destruct (rep_large f n e ltac:(lia) ltac:(unfold e; lia) R) as (k & K); [replace (fm_prec f - 1 + e)%Z with (fm_low f) by (unfold e; lia); lia|].
  assert (ED : (2 ^ fm_low f = 2 ^ (fm_prec f - 1) * 2 ^ e)%Z) by (rewrite <- Z.pow_add_r by (unfold e; lia); f_equal; unfold e; lia). assert (KB : (2 ^ (fm_prec f - 1) + 1 <= k)%Z) by (rewrite K, ED in NB; pose proof (pow_pos_ e ltac:(unfold e; lia)); nia).
  assert (STEP : IZR (2 ^ e) * unit_of f = 2 * u). { assert (EE : (2 ^ e * 2 ^ fm_prec f = 2 * 2 ^ fm_low f)%Z) by (rewrite <- Z.pow_add_r by (unfold e; lia); replace (e + fm_prec f)%Z with (1 + fm_low f)%Z by (unfold e; lia); rewrite Z.pow_add_r by lia; reflexivity). apply (f_equal IZR) in EE. rewrite !mult_IZR in EE. pose proof (unit_scale f W). unfold unit_of, u. apply (Rmult_eq_reg_r (IZR (2 ^ fm_low f) * IZR (2 ^ fm_prec f))); [|nra]. replace (IZR (2 ^ e) * / IZR (2 ^ fm_low f) * (IZR (2 ^ fm_low f) * IZR (2 ^ fm_prec f))) with (IZR (2 ^ e) * IZR (2 ^ fm_prec f)) by (field; lra). rewrite EE. field. lra. }
  assert (EV : g' = IZR k * (2 * u)) by (rewrite EG; unfold val; rewrite K, mult_IZR, Rmult_assoc, STEP; reflexivity). assert (PU : IZR (2 ^ (fm_prec f - 1)) * (2 * u) = 1). { rewrite <- STEP, <- Rmult_assoc, <- mult_IZR, <- ED. apply (one_val f W). }
  assert (GE : 1 + 2 * u <= g'). { rewrite EV, <- PU. replace (IZR (2 ^ (fm_prec f - 1)) * (2 * u) + 2 * u) with (IZR (2 ^ (fm_prec f - 1) + 1) * (2 * u)) by (rewrite plus_IZR; ring). apply Rmult_le_compat_r; [lra|apply IZR_le, KB]. }
  rewrite Rabs_right by lra. destruct (Rle_lt_or_eq_dec _ _ GE) as [LT|EQ]; [left; lra|right]. split; [lra|]. exists (- 2 ^ (fm_prec f - 2))%Z. rewrite <- EQ. assert (P2 : (2 ^ (fm_prec f - 1) = 2 * 2 ^ (fm_prec f - 2))%Z) by (replace (fm_prec f - 1)%Z with (1 + (fm_prec f - 2))%Z by lia; rewrite Z.pow_add_r by lia; reflexivity). rewrite P2, mult_IZR in PU. rewrite opp_IZR. replace (2 * - IZR (2 ^ (fm_prec f - 2)) * (1 - (1 + 2 * u))) with (2 * IZR (2 ^ (fm_prec f - 2)) * (2 * u)) by ring. lra.
Qed.
Lemma eps_unit f : IEEE f -> val f false (2 ^ (fm_low f - fm_prec f + 1)) = 2 / IZR (2 ^ fm_prec f) /\ Finite f (2 ^ (fm_low f - fm_prec f + 1)).
Proof.
  intros I. pose proof (ieee_sane f I) as W. pose proof W as [W1 W2]. pose proof (unit_scale f W) as US. pose proof (pow_scale f W) as Q. split.
  - assert (EE : (2 ^ (fm_low f - fm_prec f + 1) * 2 ^ fm_prec f = 2 * 2 ^ fm_low f)%Z) by (rewrite <- Z.pow_add_r by lia; replace (fm_low f - fm_prec f + 1 + fm_prec f)%Z with (1 + fm_low f)%Z by lia; rewrite Z.pow_add_r by lia; reflexivity). apply (f_equal IZR) in EE. rewrite !mult_IZR in EE. unfold val, unit_of. apply (Rmult_eq_reg_r (IZR (2 ^ fm_low f) * IZR (2 ^ fm_prec f))); [|nra]. replace (IZR (2 ^ (fm_low f - fm_prec f + 1)) * / IZR (2 ^ fm_low f) * (IZR (2 ^ fm_low f) * IZR (2 ^ fm_prec f))) with (IZR (2 ^ (fm_low f - fm_prec f + 1)) * IZR (2 ^ fm_prec f)) by (field; lra). rewrite EE. field. lra.
  - split; [rewrite <- (Z.mul_1_l (2 ^ _)); apply rep_small; pose proof (pow_pos_ (fm_prec f) ltac:(lia)); lia|apply Z.pow_lt_mono_r; lia].
Qed.
(* a length above epsilon is one without loss *)
Lemma long_norm f v b l : IEEE f -> Each (Fin f) v -> fv_length f v = FFin b l -> 2 / IZR (2 ^ fm_prec f) < val f false l -> 8 * unit_of f <= / IZR (2 ^ fm_prec f) * norm2 f v.
Proof.
  intros I FV E G. pose proof (ieee_deep f I) as D. pose proof D as [W (D1 & D2 & D3)]. pose proof W as [W1 W2]. pose proof (unit_pos f W) as U. destruct (length_bounds f v b l I FV E) as (k & FK & FL & -> & NL & LE & [_ KB] & _). destruct (prec_small f I) as (UB & UU & QQ). set (u := / IZR (2 ^ fm_prec f)) in *. unfold Rdiv in G. fold u in G.
  pose proof (val_nonneg f k W FK) as KP. pose proof (sqrt_pos (val f false k)) as SP. pose proof (sqrt_sqrt _ KP) as SS. set (r := sqrt (val f false k)) in *. assert (L1 : val f false l <= r + u * r) by (pose proof (Rle_abs (val f false l - r)); lra). assert (R1 : u <= r) by nra. assert (K1 : u * u <= val f false k) by (rewrite <- SS; nra).
  pose proof (norm2_nonneg f v) as NP. set (S := norm2 f v) in *.
  assert (CUBE : 32 * unit_of f <= u * u * u). { assert (EQ : (32 * (2 ^ fm_prec f * 2 ^ fm_prec f * 2 ^ fm_prec f) <= 2 ^ fm_low f)%Z) by (change 32%Z with (2 ^ 5)%Z; rewrite <- !Z.pow_add_r by lia; apply Z.pow_le_mono_r; lia). apply IZR_le in EQ. rewrite !mult_IZR in EQ. pose proof (unit_scale f W) as US. set (q := IZR (2 ^ fm_prec f)) in *. assert (QP : 0 < q) by (unfold q; apply pow_scale, W). apply (Rmult_le_reg_r (IZR (2 ^ fm_low f) * (q * q * q))); [apply Rmult_lt_0_compat; [exact US|nra]|]. unfold unit_of. replace (32 * / IZR (2 ^ fm_low f) * (IZR (2 ^ fm_low f) * (q * q * q))) with (32 * (q * q * q)) by (field; lra). replace (u * u * u * (IZR (2 ^ fm_low f) * (q * q * q))) with ((q * u) * (q * u) * (q * u) * IZR (2 ^ fm_low f)) by ring. rewrite QQ. lra. }
  assert (C1 : (1 + u) * (1 + u) * ((1 + u) * S + 3 * (unit_of f / 2)) <= 2 * S + 3 * unit_of f). { assert (M : (1 + u) * (1 + u) <= 11 / 10) by nra. assert (N : 0 <= (1 + u) * S + 3 * (unit_of f / 2)) by nra. apply Rle_trans with (11 / 10 * ((1 + u) * S + 3 * (unit_of f / 2))); [apply Rmult_le_compat_r; assumption|]. nra. }
  assert (C2 : u * u <= 2 * S + 3 * unit_of f) by lra. assert (C3 : u * (u * u) <= u * (2 * S + 3 * unit_of f)) by (apply Rmult_le_compat_l; lra). nra.
Qed.
Lemma inv_full f k l : Deep f -> Finite f k -> 0 < val f false l -> Rabs (val f false l - sqrt (val f false k)) <= / IZR (2 ^ fm_prec f) * sqrt (val f false k) -> IZR (2 ^ (fm_prec f - 1)) * unit_of f <= Rabs (/ val f false l).
Proof.
  intros D F VL E1. pose proof D as [W DD]. pose proof W as [W1 W2]. pose proof (unit_pos f W) as U. pose proof (val_nonneg f k W F) as VP. pose proof (sqrt_pos (val f false k)) as SP. pose proof (sqrt_sqrt _ VP) as SS. set (s := sqrt (val f false k)) in *. pose proof (pow_scale f W) as Q. assert (Q16 : 16 <= IZR (2 ^ fm_prec f)) by (apply (IZR_le 16); apply (Z.pow_le_mono_r 2 4); lia).
  pose proof (Rinv_0_lt_compat _ VL) as IP. rewrite Rabs_right by lra.
  assert (TL : val f false l * val f false l <= 4 * IZR (2 ^ fm_top f)). { assert (val f false l <= 2 * s). { assert (val f false l - s <= / IZR (2 ^ fm_prec f) * s) by (pose proof (Rle_abs (val f false l - s)); lra). assert (/ IZR (2 ^ fm_prec f) <= 1) by (rewrite <- Rinv_1; apply Rinv_le_contravar; lra). nra. } pose proof (finite_small f false k W F) as T. rewrite Rabs_right in T by lra. nra. }
  assert (K : IZR (2 ^ (fm_prec f - 1)) * unit_of f * (IZR (2 ^ (fm_prec f - 1)) * unit_of f) * (4 * IZR (2 ^ fm_top f)) <= 1).
  { assert (EQ : (2 ^ (fm_prec f - 1) * 2 ^ (fm_prec f - 1) * (4 * 2 ^ fm_top f) <= 2 ^ fm_low f * 2 ^ fm_low f)%Z) by (replace 4%Z with (2 ^ 2)%Z by reflexivity; rewrite <- !Z.pow_add_r by lia; apply Z.pow_le_mono_r; lia). apply IZR_le in EQ. rewrite !mult_IZR in EQ. pose proof (unit_scale f W) as US. apply (Rmult_le_reg_r (IZR (2 ^ fm_low f) * IZR (2 ^ fm_low f))); [nra|]. unfold unit_of. rewrite Rmult_1_l. eapply Rle_trans; [|exact EQ]. right. field. lra. }
  set (b := IZR (2 ^ (fm_prec f - 1)) * unit_of f) in *. assert (BP : 0 < b) by (unfold b; apply Rmult_lt_0_compat; [apply IZR_lt, pow_pos_; lia|exact U]). set (v := val f false l) in *. apply (Rmult_le_reg_r v); [exact VL|]. rewrite Rinv_l by lra. assert (b * v * (b * v) <= 1) by nra. nra.
Qed.
Lemma part_norm f v x : Part v x -> number f x * number f x <= norm2 f v.
Proof. unfold norm2. intros [->|[->| ->]]; nra. Qed.
Lemma normal_R u h x L l s n : 0 < u <= / 1000 -> 0 <= h -> 0 < L -> Rabs x <= L -> Rabs (l - L) <= 3 * u * L -> 0 < l -> Rabs (s - / l) <= u * / l -> Rabs (n - x * s) <= u * Rabs (x * s) + h -> Rabs (n - x / L) <= 6 * u * Rabs (x / L) + h /\ Rabs (x * s) <= 2.
Proof.
  intros U H LP XL HL lP HS HN. assert (AB : forall a b, Rabs a <= b -> - b <= a <= b) by (intros a b; unfold Rabs; destruct (Rcase_abs a); lra). apply AB in HL, HS. set (y := x / L). assert (XY : x = y * L) by (unfold y; field; lra). set (t := s * L). assert (XT : x * s = y * t) by (unfold t; rewrite XY; ring).
  assert (Y1 : Rabs y <= 1). { unfold y, Rdiv. rewrite Rabs_mult, (Rabs_right (/ L)) by (left; apply Rinv_0_lt_compat, LP). apply (Rmult_le_reg_r L); [exact LP|]. rewrite Rmult_assoc, Rinv_l by lra. lra. }
  pose proof (Rinv_0_lt_compat _ lP) as IP. assert (IL : / l * l = 1) by (apply Rinv_l; lra). assert (A1 : (1 - u) * L <= t * l <= (1 + u) * L). { unfold t. replace (s * L * l) with (s * l * L) by ring. assert (1 - u <= s * l <= 1 + u) by nra. nra. }
  assert (T1 : t <= 1 + 45 / 10 * u). { apply (Rmult_le_reg_r l); [exact lP|]. apply Rle_trans with ((1 + u) * L); [lra|]. apply Rle_trans with ((1 + 45 / 10 * u) * ((1 - 3 * u) * L)); [rewrite <- Rmult_assoc; apply Rmult_le_compat_r; [lra|nra]|apply Rmult_le_compat_l; lra]. }
  assert (T2 : 1 - 45 / 10 * u <= t). { apply (Rmult_le_reg_r l); [exact lP|]. apply Rle_trans with ((1 - u) * L); [|lra]. apply Rle_trans with ((1 - 45 / 10 * u) * ((1 + 3 * u) * L)); [apply Rmult_le_compat_l; lra|rewrite <- Rmult_assoc; apply Rmult_le_compat_r; [lra|nra]]. }
  rewrite XT in *. assert (YT : Rabs (y * t) = Rabs y * t) by (rewrite Rabs_mult, (Rabs_right t) by lra; reflexivity). rewrite YT in *. pose proof (Rabs_pos y) as YP. split; [|nra].
  replace (n - y) with ((n - y * t) + y * (t - 1)) by ring. eapply Rle_trans; [apply Rabs_triang|]. rewrite (Rabs_mult y). assert (T3 : Rabs (t - 1) <= 45 / 10 * u) by (apply Rabs_le; lra). assert (Rabs y * Rabs (t - 1) <= Rabs y * (45 / 10 * u)) by (apply Rmult_le_compat_l; assumption). assert (u * (Rabs y * t) <= Rabs y * (u * (15 / 10))) by (replace (u * (Rabs y * t)) with (Rabs y * (u * t)) by ring; apply Rmult_le_compat_l; [exact YP|apply Rmult_le_compat_l; lra]). nra.
Qed.
Theorem C97_normalized : forall f v b l, IEEE f -> Each (Fin f) v -> fv_length f v = FFin b l -> let w := fv_normalized f v in let u := / IZR (2 ^ fm_prec f) in let L := sqrt (norm2 f v) in
  (Less f (f_eps f) (FFin b l) -> Each (Fin f) w /\ fv_m_normalized f v = w /\ Each (fun x => -1 <= number f x <= 1) w /\ Rabs (norm2 f w - 1) <= 13 * u /\
    (Rabs (number f (fv_x w) - number f (fv_x v) / L) <= 6 * u * Rabs (number f (fv_x v) / L) + unit_of f / 2 /\
     Rabs (number f (fv_y w) - number f (fv_y v) / L) <= 6 * u * Rabs (number f (fv_y v) / L) + unit_of f / 2 /\
     Rabs (number f (fv_z w) - number f (fv_z v) / L) <= 6 * u * Rabs (number f (fv_z v) / L) + unit_of f / 2)) /\
  (~ Less f (f_eps f) (FFin b l) -> w = v).
Proof.
  intros f v b l I FV E w u L. pose proof (ieee_deep f I) as D. pose proof D as [W _]. pose proof W as [W1 W2]. pose proof (unit_pos f W) as U. split; [|intros N; unfold w, fv_normalized; rewrite E; unfold f_gt; destruct (lt_reflect f (f_eps f) (FFin b l) W) as [G|G]; [contradiction|reflexivity]].
  intros G. assert (WE : w = fv_scale f v (f_inv f (FFin b l))) by (unfold w, fv_normalized; rewrite E; unfold f_gt; rewrite (proj2 (lt_less f _ _ W) G); reflexivity). destruct (eps_unit f I) as [EV EF]. destruct (length_bounds f v b l I FV E) as (k & FK & FL & -> & NL & LE & _ & LB). fold u L in LE, LB.
  assert (VL : 2 * u < val f false l). { destruct G as (p & q & GP & GQ & G). unfold f_eps in GP. cbn in GP, GQ. subst p q. cbn in G. rewrite EV in G. exact G. } destruct (prec_small f I) as (UB & UU & QQ). fold u in UB, UU, QQ. assert (lP : 0 < val f false l) by lra. pose proof (long_norm f v _ _ I FV E) as LN. fold u in LN. unfold Rdiv in LN. fold u in LN. specialize (LN VL). specialize (LB LN).
  assert (SP : 0 < norm2 f v) by (pose proof (norm2_nonneg f v); nra). assert (LP : 0 < L) by (apply sqrt_lt_R0, SP). assert (LL : L * L = norm2 f v) by (apply sqrt_sqrt; lra).
  assert (lZ : (0 < l)%Z) by (rewrite <- (val_zero f false) in lP; apply val_lt in lP; [exact lP|exact W]). pose proof (div_correct f false (2 ^ fm_low f) false l W (Z.pow_nonneg 2 _ ltac:(lia)) lZ) as CI. rewrite (one_val f W) in CI. unfold Rdiv in CI. rewrite Rmult_1_l in CI. fold (f_one f) in CI. change (f_div f (f_one f) (FFin false l)) with (f_inv f (FFin false l)) in CI.
  pose proof (Rinv_0_lt_compat _ lP) as IP. assert (IB : / val f false l <= IZR (2 ^ fm_prec f)). { assert (UI : / u = IZR (2 ^ fm_prec f)) by (unfold u; apply Rinv_inv). rewrite <- UI. apply Rinv_le_contravar; lra. }
  destruct (correct_le_fin f _ _ false (2 ^ fm_prec f * 2 ^ fm_low f) W CI) as (sg & s & ES); [apply count_fin; [exact W|lia|pose proof (pow_pos_ (fm_prec f) ltac:(lia)); lia]|split; [lra|]; rewrite (count_val f _ W); exact IB|].
  rewrite ES in CI. destruct CI as (g & NI & FS & -> & SG). assert (sg = false) by (destruct sg; [lra|reflexivity]). subst sg. pose proof (near_rel f _ _ W NI (inv_full f k l D FK lP LE)) as EI. rewrite (Rabs_right (/ val f false l)) in EI by lra. unfold Rdiv in EI. fold u in EI. rewrite (Rmult_comm _ u) in EI. rewrite ES in WE. set (S := val f false s) in *.
  assert (sB : S <= (1 + u) * / val f false l) by (pose proof (Rle_abs (S - / val f false l)); lra). assert (s0 : 0 <= S) by (apply (val_nonneg f s W FS)).
  assert (PARTS : forall x, Part v x -> let n := f_mul f x (FFin false s) in Fin f n /\ (-1 <= number f n <= 1) /\ Rabs (number f n - number f x / L) <= 6 * u * Rabs (number f x / L) + unit_of f / 2).
  { intros x P n. pose proof (FV x P) as FX. assert (XL : Rabs (number f x) <= L). { pose proof (part_norm f v x P). apply Rsqr_incr_0; [unfold Rsqr; rewrite LL, <- Rabs_mult, Rabs_right by nra; assumption|apply Rabs_pos|lra]. }
    assert (Xl : Rabs (number f x) <= val f false l).
    { destruct (Rle_lt_dec (IZR (2 ^ (fm_prec f - 1)) * unit_of f) (number f x * number f x)) as [B|B].
      - pose proof (C97_length_dominates f v x I FV P (or_intror B)) as LD. rewrite E in LD. destruct FX as (a & m & -> & FM). cbn [f_abs number] in *. apply lesseq_fin in LD. rewrite <- (val_false f a m W (rep_nonneg f m (proj1 FM))). exact LD.
      - apply Rle_trans with (2 * u); [|lra]. apply Rsqr_incr_0; [|apply Rabs_pos|lra]. unfold Rsqr. rewrite <- Rabs_mult, Rabs_right by nra. apply Rle_trans with (1 := Rlt_le _ _ B). destruct D as (_ & D1 & D2 & D3). assert (EQ : (2 ^ (fm_prec f - 1) * (2 ^ fm_prec f * 2 ^ fm_prec f) <= 2 ^ fm_low f)%Z) by (rewrite <- !Z.pow_add_r by lia; apply Z.pow_le_mono_r; lia). apply IZR_le in EQ. rewrite !mult_IZR in EQ. pose proof (unit_scale f W) as US. set (q := IZR (2 ^ fm_prec f)) in *. assert (QP : 0 < q) by (unfold q; apply pow_scale, W). apply (Rmult_le_reg_r (IZR (2 ^ fm_low f) * (q * q))); [apply Rmult_lt_0_compat; [exact US|nra]|]. unfold unit_of. replace (IZR (2 ^ (fm_prec f - 1)) * / IZR (2 ^ fm_low f) * (IZR (2 ^ fm_low f) * (q * q))) with (IZR (2 ^ (fm_prec f - 1)) * (q * q)) by (field; lra). replace (2 * u * (2 * u) * (IZR (2 ^ fm_low f) * (q * q))) with (4 * ((q * u) * (q * u)) * IZR (2 ^ fm_low f)) by ring. rewrite QQ. lra. }
    assert (XS1 : Rabs (number f x * S) <= 1 + u). { rewrite Rabs_mult, (Rabs_right S) by lra. apply Rle_trans with (val f false l * S); [apply Rmult_le_compat_r; assumption|]. apply Rle_trans with (val f false l * ((1 + u) * / val f false l)); [apply Rmult_le_compat_l; lra|]. right. field. lra. }
    destruct FX as (a & m & EX & FM). assert (CM : Correct f (number f x * S) n) by (unfold n; rewrite EX; apply mul_correct; [exact W|exact (rep_nonneg f m (proj1 FM))|exact (rep_nonneg f s (proj1 FS))]).
    destruct (reach_fin f _ _ W CM) as (c & j & EN); [exists (2 * 2 ^ fm_low f)%Z; split; [apply count_fin; [exact W|lia|split; [lia|apply (Z.pow_le_mono_r 2 1); lia]]|]; rewrite (count_val f _ W); lra|].
    rewrite EN in CM. destruct CM as (g & NN & FJ & -> & _). rewrite EN. cbn [number]. split; [exists c, j; auto|]. split.
    - pose proof (near_rabs f _ _ W NN) as NA. pose proof (near_mono f _ _ _ _ NA (near_one f W) XS1) as LE1. unfold Rabs in LE1. destruct (Rcase_abs (val f c j)); lra.
    - pose proof (near_bound f _ _ W NN) as NB. unfold Rdiv at 1 in NB. fold u in NB. rewrite (Rmult_comm _ u) in NB. assert (HN : Rabs (val f c j - number f x * S) <= u * Rabs (number f x * S) + unit_of f / 2) by exact NB. apply (normal_R u (unit_of f / 2) (number f x) L (val f false l) S _ UB ltac:(lra) LP XL LB lP EI HN). }
  assert (EACH : forall P : fnum -> Prop, (forall x, Part v x -> P (f_mul f x (FFin false s))) -> Each P w) by (intros P HP; apply each_xyz; rewrite WE; cbn [fv_scale fv_x fv_y fv_z]; repeat split; apply HP; unfold Part; auto).
  split; [apply EACH; intros x P; apply (PARTS x P)|]. split; [unfold fv_m_normalized; rewrite E, ES, WE; reflexivity|]. split; [apply EACH; intros x P; apply (PARTS x P)|].
  assert (PX : Part v (fv_x v)) by (unfold Part; auto). assert (PY : Part v (fv_y v)) by (unfold Part; auto). assert (PZ : Part v (fv_z v)) by (unfold Part; auto). destruct (PARTS _ PX) as (_ & BX & CX). destruct (PARTS _ PY) as (_ & BY & CY). destruct (PARTS _ PZ) as (_ & BZ & CZ). rewrite WE. unfold norm2 at 1. cbn [fv_scale fv_x fv_y fv_z]. split; [|auto].
  assert (N1 : number f (fv_x v) / L * (number f (fv_x v) / L) + number f (fv_y v) / L * (number f (fv_y v) / L) + number f (fv_z v) / L * (number f (fv_z v) / L) = 1) by (transitivity (norm2 f v / (L * L)); [unfold norm2; field; lra|rewrite LL; field; lra]).
  assert (SQD : forall n c, -1 <= n <= 1 -> Rabs (n - c) <= 6 * u * Rabs c + unit_of f / 2 -> Rabs c <= 1 -> Rabs (n * n - c * c) <= 1205 / 100 * u * (c * c) + 3 / 2 * unit_of f).
  { intros n c NB NC CB. replace (n * n - c * c) with ((n - c) * (2 * c + (n - c))) by ring. rewrite Rabs_mult. pose proof (Rabs_pos c) as CP. pose proof (Rabs_pos (n - c)) as DP. assert (T : Rabs (2 * c + (n - c)) <= 2 * Rabs c + Rabs (n - c)) by (eapply Rle_trans; [apply Rabs_triang|rewrite Rabs_mult, (Rabs_right 2) by lra; lra]). assert (CC : c * c = Rabs c * Rabs c) by (rewrite <- Rabs_mult, Rabs_right by nra; reflexivity). rewrite CC. set (a := Rabs c) in *. set (d := Rabs (n - c)) in *. apply Rle_trans with (d * (2 * a + d)); [apply Rmult_le_compat_l; assumption|]. set (h := unit_of f / 2) in *. assert (HB : 0 < h <= / 2000 * u) by (unfold h; lra). replace (3 / 2 * unit_of f) with (3 * h) by (unfold h; field).
    apply Rle_trans with ((6 * u * a + h) * (2 * a + (6 * u * a + h))); [apply Rmult_le_compat; lra|]. assert (X1 : 36 * (u * u) * (a * a) <= 5 / 100 * u * (a * a)) by (apply Rmult_le_compat_r; nra). assert (X2 : h * (2 * a + 12 * u * a + h) <= 3 * h) by (rewrite (Rmult_comm 3); apply Rmult_le_compat_l; nra). nra. }
  assert (CB : forall x, Part v x -> Rabs (number f x / L) <= 1). { intros x P. unfold Rdiv. rewrite Rabs_mult, (Rabs_right (/ L)) by (left; apply Rinv_0_lt_compat, LP). apply (Rmult_le_reg_r L); [exact LP|]. rewrite Rmult_assoc, Rinv_l by lra. rewrite Rmult_1_r, Rmult_1_l. pose proof (part_norm f v x P). apply Rsqr_incr_0; [unfold Rsqr; rewrite LL, <- Rabs_mult, Rabs_right by nra; assumption|apply Rabs_pos|lra]. }
  pose proof (SQD _ _ BX CX (CB _ PX)) as QX. pose proof (SQD _ _ BY CY (CB _ PY)) as QY. pose proof (SQD _ _ BZ CZ (CB _ PZ)) as QZ. assert (AB : forall a b, Rabs a <= b -> - b <= a <= b) by (intros a b; unfold Rabs; destruct (Rcase_abs a); lra). apply AB in QX, QY, QZ.
  set (cx := number f (fv_x v) / L * (number f (fv_x v) / L)) in *. set (cy := number f (fv_y v) / L * (number f (fv_y v) / L)) in *. set (cz := number f (fv_z v) / L * (number f (fv_z v) / L)) in *. apply Rabs_le. assert (TT : 1205 / 100 * u * cx + 1205 / 100 * u * cy + 1205 / 100 * u * cz = 1205 / 100 * u) by (transitivity (1205 / 100 * u * (cx + cy + cz)); [ring|rewrite N1; ring]). lra.
Qed.
Print Assumptions C97_normalized.
(* distances *)
Lemma sub_square f x y : f_squared f (f_sub f x y) = f_squared f (f_sub f y x).
Proof.
  unfold f_squared, f_sub. destruct x as [|a|a n], y as [|b|b m]; try reflexivity; try (destruct a, b; reflexivity); try (destruct a; reflexivity); try (destruct b; reflexivity).
  cbn [f_neg f_add]. assert (S1 : (signed a n + signed (negb b) m = - (signed b m + signed (negb a) n))%Z) by (destruct a, b; cbn [signed negb]; lia). rewrite S1. set (z := (signed b m + signed (negb a) n)%Z). destruct (Z.eqb_spec z 0) as [->|N]; [cbn; rewrite !xorb_nilpotent; reflexivity|]. rewrite (proj2 (Z.eqb_neq (- z) 0)), Z.abs_opp by lia.
  assert (SQ : forall s t v, f_mul f (to_fnum f s v) (to_fnum f s v) = f_mul f (to_fnum f t v) (to_fnum f t v)). { intros s t v. unfold to_fnum. destruct v; try destruct (_ <=? _)%Z; cbn; rewrite ?xorb_nilpotent; reflexivity. }
  apply SQ.
Qed.
Theorem C97_distance : forall f a b, IEEE f -> fv_distance f a b = fv_distance f b a /\ fv_distance f a b = fv_length f (fv_sub f a b) /\ fv_distance f a b = fv_length f (fv_sub f b a) /\
  (Each (Fin f) a -> fv_distance f a a = f_zero) /\ (Each (Valid f) a -> ~ Each (Fin f) a -> NaN (fv_distance f a a)) /\ (Each (Fin f) a -> fv_eq a b = true -> fv_distance f a b = f_zero).
Proof.
  intros f a b I. pose proof (ieee_sane f I) as W. assert (SYM : forall a b, fv_distance f a b = fv_distance f b a) by (intros p q; unfold fv_distance; rewrite (sub_square f (fv_x p)), (sub_square f (fv_y p)), (sub_square f (fv_z p)); reflexivity).
  assert (LEN : forall a b, fv_distance f a b = fv_length f (fv_sub f a b)) by reflexivity. split; [apply SYM|]. split; [apply LEN|]. split; [rewrite SYM; apply LEN|].
  assert (EQ0 : forall x y, Fin f x -> f_eq x y = true -> f_squared f (f_sub f x y) = f_zero). { intros x y (s & n & -> & F) E. destruct y as [|t|t m]; try discriminate. cbn [f_eq] in E. apply Z.eqb_eq in E. unfold f_squared, f_sub. cbn [f_neg f_add]. assert (Z0 : (signed s n + signed (negb t) m = 0)%Z) by (destruct s, t; cbn [signed negb] in *; lia). rewrite Z0, Z.eqb_refl. cbn [f_mul]. rewrite xorb_nilpotent, Z.mul_0_l. apply to_zero; [exact W|]. pose proof W as [W1 W2]. pose proof (pow_pos_ (fm_low f) ltac:(lia)). nia. }
  assert (SAME : forall b, Each (Fin f) a -> fv_eq a b = true -> fv_distance f a b = f_zero). { intros c FA E. apply each_xyz in FA. destruct FA as (F1 & F2 & F3). unfold fv_eq in E. apply andb_prop in E. destruct E as [E E3]. apply andb_prop in E. destruct E as [E1 E2]. unfold fv_distance. rewrite (EQ0 _ _ F1 E1), (EQ0 _ _ F2 E2), (EQ0 _ _ F3 E3). reflexivity. }
  split; [intros FA; apply SAME; [exact FA|]; apply each_xyz in FA; destruct FA as ((s1 & n1 & E1 & _) & (s2 & n2 & E2 & _) & (s3 & n3 & E3 & _)); unfold fv_eq; rewrite E1, E2, E3; cbn; rewrite !Z.eqb_refl; reflexivity|]. split; [|apply SAME].
  intros VA NF. assert (Q : forall x, Valid f x -> Fin f x \/ f_squared f (f_sub f x x) = FNan). { intros [|s|s n] V; [right; reflexivity|right; destruct s; reflexivity|left; exists s, n; auto]. } apply each_xyz in VA. destruct VA as (V1 & V2 & V3). unfold NaN, fv_distance. destruct (Q _ V1) as [F1| ->]; [|reflexivity]. destruct (Q _ V2) as [F2| ->]; [|destruct (f_squared f (f_sub f (fv_x a) (fv_x a))); reflexivity]. destruct (Q _ V3) as [F3| ->]; [exfalso; apply NF, each_xyz; auto|]. destruct (f_add f (f_squared f (f_sub f (fv_x a) (fv_x a))) (f_squared f (f_sub f (fv_y a) (fv_y a)))); reflexivity.
Qed.
Print Assumptions C97_distance.

(* products *)
Lemma mul_comm_ f x y : f_mul f x y = f_mul f y x.
Proof. destruct x as [|a|a n], y as [|b|b m]; try reflexivity; cbn; rewrite ?(xorb_comm a b), ?(Z.mul_comm n m); reflexivity. Qed.
Lemma dot_R u h X Y Z P Q R s k : 0 < u <= / 1000 -> 0 <= h -> Rabs (P - X) <= u * Rabs X + h -> Rabs (Q - Y) <= u * Rabs Y + h -> Rabs (R - Z) <= u * Rabs Z + h -> Rabs (s - (P + Q)) <= u * Rabs (P + Q) -> Rabs (k - (s + R)) <= u * Rabs (s + R) ->
  Rabs (k - (X + Y + Z)) <= 4 * u * (Rabs X + Rabs Y + Rabs Z) + 4 * h.
Proof.
  intros U H HP HQ HR HS HK. pose proof (Rabs_pos X) as X0. pose proof (Rabs_pos Y) as Y0. pose proof (Rabs_pos Z) as Z0. assert (AT : forall a b, Rabs a <= Rabs b + Rabs (a - b)) by (intros a b; replace a with (b + (a - b)) at 1 by ring; apply Rabs_triang).
  pose proof (AT P X) as P1. pose proof (AT Q Y) as Q1. pose proof (AT R Z) as R1. assert (PQ : Rabs (P + Q) <= Rabs P + Rabs Q) by apply Rabs_triang. pose proof (AT s (P + Q)) as S1. assert (SR : Rabs (s + R) <= Rabs s + Rabs R) by apply Rabs_triang.
  set (ax := Rabs X) in *. set (ay := Rabs Y) in *. set (az := Rabs Z) in *. set (A := ax + ay + az). assert (PQB : Rabs (P + Q) <= (1 + u) * (ax + ay) + 2 * h) by lra. assert (SB : Rabs s <= (1 + u) * ((1 + u) * (ax + ay) + 2 * h)). { apply Rle_trans with ((1 + u) * Rabs (P + Q)); [lra|apply Rmult_le_compat_l; lra]. }
  assert (SRB : Rabs (s + R) <= (1 + 3 * u) * A + 4 * h). { unfold A. assert (M : (1 + u) * (1 + u) <= 1 + 3 * u) by nra. assert ((1 + u) * ((1 + u) * (ax + ay) + 2 * h) <= (1 + 3 * u) * (ax + ay) + 3 * h) by nra. nra. }
  replace (k - (X + Y + Z)) with ((k - (s + R)) + (s - (P + Q)) + (P - X) + (Q - Y) + (R - Z)) by ring. eapply Rle_trans; [apply Rabs_triang|]. eapply Rle_trans; [apply Rplus_le_compat_r, Rabs_triang|]. eapply Rle_trans; [apply Rplus_le_compat_r, Rplus_le_compat_r, Rabs_triang|]. eapply Rle_trans; [apply Rplus_le_compat_r, Rplus_le_compat_r, Rplus_le_compat_r, Rabs_triang|].
  assert (E1 : u * Rabs (s + R) <= u * ((1 + 3 * u) * A + 4 * h)) by (apply Rmult_le_compat_l; lra). assert (E2 : u * Rabs (P + Q) <= u * ((1 + u) * (ax + ay) + 2 * h)) by (apply Rmult_le_compat_l; lra). assert (A0 : 0 <= A) by (unfold A; lra). assert (E3 : u * ((1 + u) * (ax + ay) + 2 * h) <= u * ((1 + u) * A + 2 * h)) by (apply Rmult_le_compat_l; [lra|]; assert ((1 + u) * (ax + ay) <= (1 + u) * A) by (apply Rmult_le_compat_l; unfold A; lra); lra).
  apply Rle_trans with (u * ((1 + 3 * u) * A + 4 * h) + u * ((1 + u) * A + 2 * h) + u * A + 3 * h); [unfold A at 3; lra|]. fold A. assert (UA : u * u * A <= / 1000 * u * A) by (apply Rmult_le_compat_r; [exact A0|nra]). assert (UH : u * h <= / 1000 * h) by (apply Rmult_le_compat_r; lra). nra.
Qed.
Lemma add_fin_inv f x y a s : f_add f x y = FFin a s -> exists b n c m, x = FFin b n /\ y = FFin c m.
Proof. destruct x as [|b|b n], y as [|c|c m]; cbn; intros E; try discriminate; [destruct (Bool.eqb b c); discriminate|]. eauto 6. Qed.
Theorem C97_dot : forall f a b, IEEE f -> fv_dot f a b = fv_dot f b a /\ fv_dot f a a = fv_squared_length f a /\
  forall s k, Each (Fin f) a -> Each (Fin f) b -> fv_dot f a b = FFin s k -> let x := number f (fv_x a) * number f (fv_x b) in let y := number f (fv_y a) * number f (fv_y b) in let z := number f (fv_z a) * number f (fv_z b) in
    Rabs (val f s k - (x + y + z)) <= 4 / IZR (2 ^ fm_prec f) * (Rabs x + Rabs y + Rabs z) + 2 * unit_of f.
Proof.
  intros f a b I. pose proof (ieee_sane f I) as W. pose proof (unit_pos f W) as U. split; [unfold fv_dot; rewrite (mul_comm_ f (fv_x a)), (mul_comm_ f (fv_y a)), (mul_comm_ f (fv_z a)); reflexivity|]. split; [reflexivity|]. intros s k FA FB E x y z. apply each_xyz in FA, FB. destruct FA as (A1 & A2 & A3), FB as (B1 & B2 & B3). destruct (prec_small f I) as (UB & _ & _). set (u := / IZR (2 ^ fm_prec f)) in *. assert (DIV : forall r, r / IZR (2 ^ fm_prec f) = u * r) by (intros r; unfold Rdiv, u; ring).
  assert (ML : forall p q c n, Fin f p -> Fin f q -> f_mul f p q = FFin c n -> Rabs (val f c n - number f p * number f q) <= u * Rabs (number f p * number f q) + unit_of f / 2). { intros p q c n (s1 & n1 & -> & F1) (s2 & n2 & -> & F2) EM. pose proof (mul_correct f s1 n1 s2 n2 W (rep_nonneg f _ (proj1 F1)) (rep_nonneg f _ (proj1 F2))) as C. rewrite EM in C. apply correct_parts in C. destruct C as [_ C]. pose proof (near_bound f _ _ W C) as NB. rewrite DIV in NB. exact NB. }
  assert (AD : forall s1 n1 s2 n2 c n, f_add f (FFin s1 n1) (FFin s2 n2) = FFin c n -> Rabs (val f c n - (val f s1 n1 + val f s2 n2)) <= u * Rabs (val f s1 n1 + val f s2 n2)). { intros s1 n1 s2 n2 c n EA. pose proof (add_correct f s1 n1 s2 n2 W) as C. rewrite EA in C. apply correct_parts in C. destruct C as [_ C]. pose proof (near_sum f _ _ _ _ _ W C) as NB. rewrite DIV in NB. exact NB. }
  unfold fv_dot in E. destruct (add_fin_inv f _ _ _ _ E) as (c1 & m1 & c2 & m2 & E1 & E2). destruct (add_fin_inv f _ _ _ _ E1) as (c3 & m3 & c4 & m4 & E3 & E4). rewrite E1, E2 in E. rewrite E3, E4 in E1. replace (4 / IZR (2 ^ fm_prec f)) with (4 * u) by (unfold u, Rdiv; ring). replace (2 * unit_of f) with (4 * (unit_of f / 2)) by field.
  apply (dot_R u (unit_of f / 2) x y z _ _ _ _ _ UB ltac:(lra) (ML _ _ _ _ A1 B1 E3) (ML _ _ _ _ A2 B2 E4) (ML _ _ _ _ A3 B3 E2) (AD _ _ _ _ _ _ E1) (AD _ _ _ _ _ _ E)).
Qed.
Print Assumptions C97_dot.
(* equal, or both nan *)
Definition Alike (f : fmt) (x y : fnum) : Prop := NaN x /\ NaN y \/ Same f x y.
Lemma same_refl f x : Num x -> Same f x x.
Proof. intros N. destruct (num_place f x N) as [p P]. exists p. auto. Qed.
Lemma sub_anti f x y : Sane f -> Alike f (f_sub f x y) (f_neg (f_sub f y x)).
Proof.
  intros W. unfold f_sub. destruct x as [|a|a n], y as [|b|b m]; try (left; split; reflexivity); try (destruct a, b; cbn; (left; split; reflexivity) || (right; apply same_refl; discriminate)); try (destruct a; cbn; right; apply same_refl; discriminate); try (destruct b; cbn; right; apply same_refl; discriminate).
  right. cbn [f_neg f_add]. assert (S1 : (signed a n + signed (negb b) m = - (signed b m + signed (negb a) n))%Z) by (destruct a, b; cbn [signed negb]; lia). rewrite S1. set (z := (signed b m + signed (negb a) n)%Z). destruct (Z.eqb_spec z 0) as [->|N].
  - cbn. exists (Real 0). split; cbn; rewrite val_zero; reflexivity.
  - rewrite (proj2 (Z.eqb_neq (- z) 0)), Z.abs_opp by lia. replace (- z <? 0)%Z with (negb (z <? 0)%Z) by (destruct (Z.ltb_spec z 0), (Z.ltb_spec (- z) 0); cbn; try reflexivity; lia). unfold to_fnum. destruct (_ <=? _)%Z; apply same_refl; discriminate.
Qed.
Theorem C97_cross : forall f a b, IEEE f ->
  (Alike f (fv_x (fv_cross f a b)) (f_neg (fv_x (fv_cross f b a))) /\ Alike f (fv_y (fv_cross f a b)) (f_neg (fv_y (fv_cross f b a))) /\ Alike f (fv_z (fv_cross f a b)) (f_neg (fv_z (fv_cross f b a)))) /\
  (Each (fun x => Each (fun y => Valid f (f_mul f x y) /\ exists s n, f_mul f x y = FFin s n) a) a -> fv_cross f a a = mkFv f_zero f_zero f_zero).
Proof.
  intros f a b I. pose proof (ieee_sane f I) as W. split.
  - unfold fv_cross. cbn [fv_x fv_y fv_z]. rewrite (mul_comm_ f (fv_y b) (fv_z a)), (mul_comm_ f (fv_z b) (fv_y a)), (mul_comm_ f (fv_z b) (fv_x a)), (mul_comm_ f (fv_x b) (fv_z a)), (mul_comm_ f (fv_x b) (fv_y a)), (mul_comm_ f (fv_y b) (fv_x a)). repeat split; apply sub_anti, W.
  - intros H. assert (S0 : forall x y, Part a x -> Part a y -> f_sub f (f_mul f x y) (f_mul f y x) = f_zero). { intros x y PX PY. rewrite (mul_comm_ f y x). destruct (H x PX y PY) as (_ & s & n & ->). unfold f_sub. cbn [f_neg f_add]. replace (signed s n + signed (negb s) n)%Z with 0%Z by (destruct s; cbn; lia). rewrite Z.eqb_refl. destruct s; reflexivity. }
    unfold fv_cross. rewrite !S0 by (unfold Part; auto). reflexivity.
Qed.
Print Assumptions C97_cross.
Lemma minor_fin f p q r t s k : IEEE f -> Fin f p -> Fin f q -> Fin f r -> Fin f t -> f_sub f (f_mul f p q) (f_mul f r t) = FFin s k -> let x := number f p * number f q in let y := number f r * number f t in
  Rabs (val f s k - (x - y)) <= 3 / IZR (2 ^ fm_prec f) * (Rabs x + Rabs y) + 2 * unit_of f.
Proof.
  intros I FP FQ FR FT E x y. pose proof (ieee_sane f I) as W. pose proof (unit_pos f W) as U. destruct (prec_small f I) as (UB & _ & _). set (u := / IZR (2 ^ fm_prec f)) in *. assert (DIV : forall r, r / IZR (2 ^ fm_prec f) = u * r) by (intros r0; unfold Rdiv, u; ring).
  assert (ML : forall p q c n, Fin f p -> Fin f q -> f_mul f p q = FFin c n -> Rabs (val f c n - number f p * number f q) <= u * Rabs (number f p * number f q) + unit_of f / 2). { intros p' q' c n (s1 & n1 & -> & F1) (s2 & n2 & -> & F2) EM. pose proof (mul_correct f s1 n1 s2 n2 W (rep_nonneg f _ (proj1 F1)) (rep_nonneg f _ (proj1 F2))) as C. rewrite EM in C. apply correct_parts in C. destruct C as [_ C]. pose proof (near_bound f _ _ W C) as NB. rewrite DIV in NB. exact NB. }
  unfold f_sub in E. destruct (add_fin_inv f _ _ _ _ E) as (c1 & m1 & c2 & m2 & E1 & E2). rewrite E1, E2 in E. pose proof (ML _ _ _ _ FP FQ E1) as M1. assert (E2' : f_mul f r t = FFin (negb c2) m2) by (destruct (f_mul f r t) as [|b|b m]; cbn in E2; try discriminate; injection E2 as <- <-; rewrite Bool.negb_involutive; reflexivity). pose proof (ML _ _ _ _ FR FT E2') as M2. fold x in M1. fold y in M2.
  pose proof (add_correct f c1 m1 c2 m2 W) as C. rewrite E in C. apply correct_parts in C. destruct C as [_ C]. pose proof (near_sum f _ _ _ _ _ W C) as M3. rewrite DIV in M3. assert (VN : val f c2 m2 = - val f (negb c2) m2) by (rewrite <- val_neg, Bool.negb_involutive; reflexivity). rewrite VN in M3. set (P := val f c1 m1) in *. set (Q := val f (negb c2) m2) in *. set (g := val f s k) in *. set (h := unit_of f / 2) in *. rewrite DIV, (Rmult_comm u 3), Rmult_assoc. replace (2 * unit_of f) with (4 * h) by (unfold h; field).
  set (ax := Rabs x) in *. set (ay := Rabs y) in *. assert (A0 : 0 <= ax + ay) by (pose proof (Rabs_pos x); pose proof (Rabs_pos y); unfold ax, ay; lra). assert (H0 : 0 < h) by (unfold h; lra).
  assert (D1 : Rabs ((P + - Q) - (x - y)) <= u * (ax + ay) + 2 * h). { replace ((P + - Q) - (x - y)) with ((P - x) + - (Q - y)) by ring. eapply Rle_trans; [apply Rabs_triang|]. rewrite Rabs_Ropp. lra. }
  assert (D2 : Rabs (x - y) <= ax + ay) by (unfold Rminus; eapply Rle_trans; [apply Rabs_triang|]; rewrite Rabs_Ropp; unfold ax, ay; lra). assert (D3 : Rabs (P + - Q) <= (ax + ay) + (u * (ax + ay) + 2 * h)) by (replace (P + - Q) with ((x - y) + ((P + - Q) - (x - y))) by ring; eapply Rle_trans; [apply Rabs_triang|]; lra).
  replace (g - (x - y)) with ((g - (P + - Q)) + ((P + - Q) - (x - y))) by ring. eapply Rle_trans; [apply Rabs_triang|]. assert (D4 : u * Rabs (P + - Q) <= u * ((ax + ay) + (u * (ax + ay) + 2 * h))) by (apply Rmult_le_compat_l; lra). assert (UA0 : 0 <= u * (ax + ay)) by (apply Rmult_le_pos; lra). assert (UA : u * (u * (ax + ay)) <= 1 * (u * (ax + ay))) by (apply Rmult_le_compat_r; lra). assert (UH : u * h <= 1 * h) by (apply Rmult_le_compat_r; lra). lra.
Qed.
(* Each component lies close to that of the cross product of the vectors. *)
Theorem C97_cross_error : forall f a b s k, IEEE f -> Each (Fin f) a -> Each (Fin f) b ->
  let near (x : fnum) (p q r t : fnum) := x = FFin s k -> Rabs (val f s k - (number f p * number f q - number f r * number f t)) <= 3 / IZR (2 ^ fm_prec f) * (Rabs (number f p * number f q) + Rabs (number f r * number f t)) + 2 * unit_of f in
  near (fv_x (fv_cross f a b)) (fv_y a) (fv_z b) (fv_z a) (fv_y b) /\ near (fv_y (fv_cross f a b)) (fv_z a) (fv_x b) (fv_x a) (fv_z b) /\ near (fv_z (fv_cross f a b)) (fv_x a) (fv_y b) (fv_y a) (fv_x b).
Proof. intros f a b s k I FA FB near. apply each_xyz in FA, FB. destruct FA as (A1 & A2 & A3), FB as (B1 & B2 & B3). unfold near. repeat split; intros E; apply (minor_fin f _ _ _ _ s k I); assumption. Qed.
Print Assumptions C97_cross_error.
(* Sums, differences and multiples are rounded correctly in each direction. *)
Theorem C97_sums : forall f a b c, IEEE f -> Each (Fin f) a -> Each (Fin f) b -> Fin f c -> forall dir, In dir [fv_x; fv_y; fv_z] ->
  Correct f (number f (dir a) + number f (dir b)) (dir (fv_add f a b)) /\ Correct f (number f (dir a) - number f (dir b)) (dir (fv_sub f a b)) /\
  Correct f (number f (dir a) * number f c) (dir (fv_scale f a c)) /\ Correct f (- number f (dir a)) (dir (fv_neg a)).
Proof.
  intros f a b c I FA FB FC dir D. pose proof (ieee_sane f I) as W. apply each_xyz in FA, FB. destruct FA as (A1 & A2 & A3), FB as (B1 & B2 & B3).
  assert (K : forall x y, Fin f x -> Fin f y -> Correct f (number f x + number f y) (f_add f x y) /\ Correct f (number f x - number f y) (f_sub f x y) /\ Correct f (number f x * number f c) (f_mul f x c) /\ Correct f (- number f x) (f_neg x)).
  { intros x y (s1 & n1 & -> & F1) (s2 & n2 & -> & F2). destruct FC as (s3 & n3 & -> & F3). cbn [number]. split; [apply add_correct, W|]. split; [unfold f_sub, Rminus; cbn [f_neg]; rewrite <- val_neg; apply add_correct, W|]. split; [apply (mul_correct f s1 n1 s3 n3 W (rep_nonneg f _ (proj1 F1)) (rep_nonneg f _ (proj1 F3)))|]. cbn [f_neg]. rewrite <- val_neg. apply (correct_fin f _ _ W F1). }
  destruct D as [<-|[<-|[<-|[]]]]; unfold fv_add, fv_sub, fv_scale, fv_neg; cbn [fv_x fv_y fv_z]; apply K; assumption.
Qed.
Print Assumptions C97_sums.
(* == compares all of them, and null vectors have all of them zero. *)
Theorem C97_equal : forall f a b, IEEE f -> (fv_eq a b = true <-> forall dir, In dir [fv_x; fv_y; fv_z] -> Same f (dir a) (dir b)) /\ (fv_is_null a = true <-> Each (fun x => Same f x f_zero) a).
Proof.
  intros f a b I. pose proof (ieee_sane f I) as W. unfold fv_eq, fv_is_null. rewrite !andb_true_iff, !(eq_same f _ _ W), each_xyz. split.
  - split; [intros [[X Y] Z] dir [<-|[<-|[<-|[]]]]; assumption|intros H; repeat split; apply H; cbn; auto].
  - tauto.
Qed.
Print Assumptions C97_equal.
(* division by the reciprocal *)
Theorem C97_div : forall f v c m x, IEEE f -> Each (Fin f) v -> Finite f m -> (0 < m)%Z -> Part (fv_div f v (FFin c m)) x -> IZR (2 ^ (fm_prec f - 1)) * unit_of f <= / Rabs (val f c m) ->
  exists y, Part v y /\ forall s n, x = FFin s n -> Rabs (val f s n - number f y / val f c m) <= 3 / IZR (2 ^ fm_prec f) * Rabs (number f y / val f c m) + unit_of f / 2.
Proof.
  intros f v c m x I FV FM MP P B. pose proof (ieee_sane f I) as W. pose proof W as [W1 W2]. pose proof (unit_pos f W) as U. destruct (prec_small f I) as (UB & _ & _). set (u := / IZR (2 ^ fm_prec f)) in *. assert (DIV : forall r, r / IZR (2 ^ fm_prec f) = u * r) by (intros r; unfold Rdiv, u; ring).
  assert (Q : exists y, Part v y /\ x = f_mul f y (f_inv f (FFin c m))) by (destruct P as [->|[->| ->]]; eexists; (split; [|reflexivity]); unfold Part; auto). destruct Q as (y & PY & ->). exists y. split; [exact PY|]. intros s n E. destruct (FV y PY) as (d & j & -> & FJ). cbn [number]. pose proof (div_correct f false (2 ^ fm_low f) c m W (Z.pow_nonneg 2 _ ltac:(lia)) MP) as CI. rewrite (one_val f W) in CI. unfold Rdiv in CI. rewrite Rmult_1_l in CI. change (f_div f (FFin false (2 ^ fm_low f)) (FFin c m)) with (f_inv f (FFin c m)) in CI.
  destruct (f_inv f (FFin c m)) as [|t|t i] eqn:EI; [discriminate E|cbn in E; destruct (j =? 0)%Z; discriminate E|]. apply correct_parts in CI. destruct CI as [FI NI]. assert (VM : val f c m <> 0) by (intros Z0; rewrite <- (val_zero f c) in Z0; apply (val_inj f c _ _ W) in Z0; lia). assert (B' : IZR (2 ^ (fm_prec f - 1)) * unit_of f <= Rabs (/ val f c m)) by (rewrite Rabs_inv; exact B).
  pose proof (near_rel f _ _ W NI B') as E1. rewrite DIV in E1. pose proof (mul_correct f d j t i W (rep_nonneg f _ (proj1 FJ)) (rep_nonneg f _ (proj1 FI))) as C. rewrite E in C. apply correct_parts in C. destruct C as [_ NN]. pose proof (near_bound f _ _ W NN) as E2. rewrite DIV in E2. replace (3 / IZR (2 ^ fm_prec f)) with (3 * u) by (unfold u, Rdiv; ring). change (val f d j / val f c m) with (val f d j * / val f c m). set (y := val f d j) in *. set (q := / val f c m) in *. set (g := val f t i) in *. set (r := val f s n) in *.
  replace (r - y * q) with ((r - y * g) + y * (g - q)) by ring. eapply Rle_trans; [apply Rabs_triang|]. rewrite (Rabs_mult y (g - q)). pose proof (Rabs_pos y) as YP. pose proof (Rabs_pos q) as QP. assert (GB : Rabs g <= (1 + u) * Rabs q). { replace g with (q + (g - q)) by ring. eapply Rle_trans; [apply Rabs_triang|]. lra. }
  rewrite !Rabs_mult in *. assert (F1 : Rabs y * Rabs (g - q) <= Rabs y * (u * Rabs q)) by (apply Rmult_le_compat_l; assumption). assert (F2 : u * (Rabs y * Rabs g) <= u * (Rabs y * ((1 + u) * Rabs q))) by (apply Rmult_le_compat_l; [lra|]; apply Rmult_le_compat_l; assumption). assert (F3 : 0 <= Rabs y * Rabs q) by (apply Rmult_le_pos; assumption). assert (F4 : u * (Rabs y * ((1 + u) * Rabs q)) <= 2 * u * (Rabs y * Rabs q)) by (replace (u * (Rabs y * ((1 + u) * Rabs q))) with (u * (1 + u) * (Rabs y * Rabs q)) by ring; apply Rmult_le_compat_r; [exact F3|nra]). lra.
Qed.
Print Assumptions C97_div.

(* what does not hold: small vectors have the length zero, and stay as they
   are; long vectors have an infinite length, and are normalized to zero *)
Local Open Scope Z_scope.
Definition flt (m e : Z) : fnum := FFin (m <? 0) (Z.abs m * 2 ^ (149 + e)).
Lemma flt_fin m e : 0 <= m < 2 ^ 24 -> -149 <= e <= 104 -> Fin float_fmt (flt m e).
Proof.
  intros M E. unfold flt. rewrite (proj2 (Z.ltb_ge m 0)), Z.abs_eq by lia. exists false, (m * 2 ^ (149 + e)). split; [reflexivity|]. split; [exists m, (149 + e); cbn [fm_prec float_fmt]; lia|]. change (fm_top float_fmt + fm_low float_fmt) with 277. apply Z.lt_le_trans with (2 ^ 24 * 2 ^ (149 + e)); [apply Z.mul_lt_mono_pos_r; [apply pow_pos_; lia|lia]|]. rewrite <- Z.pow_add_r by lia. apply Z.pow_le_mono_r; lia.
Qed.
Lemma zero_fin : Fin float_fmt f_zero.
Proof. exists false, 0. split; [reflexivity|apply zero_finite, ieee_sane; right; reflexivity]. Qed.
Theorem C97_size_refuted : let d := float_fmt in let small := mkFv (flt 1 (-80)) (flt 3 (-81)) f_zero in let large := mkFv (flt 1 70) f_zero (flt 1 70) in
  Each (Fin d) small /\ fv_is_null small = false /\ fv_length d small = f_zero /\ fv_distance d small (mkFv f_zero f_zero f_zero) = f_zero /\ fv_normalized d small = small /\ fv_m_normalized d small = mkFv (FInf false) (FInf false) FNan /\
  Each (Fin d) large /\ fv_length d large = FInf false /\ fv_normalized d large = mkFv f_zero f_zero f_zero.
Proof.
  cbv zeta. split; [apply each_xyz; cbn [fv_x fv_y fv_z]; split; [apply flt_fin; lia|split; [apply flt_fin; lia|apply zero_fin]]|].
  do 5 (split; [vm_compute; reflexivity|]). split; [apply each_xyz; cbn [fv_x fv_y fv_z]; split; [apply flt_fin; lia|split; [apply zero_fin|apply flt_fin; lia]]|]. split; vm_compute; reflexivity.
Qed.
Print Assumptions C97_size_refuted.
(* the length depends on the order of the parts *)
Definition tenth : fnum := flt 13421773 (-27).
Definition four_tenths : fnum := flt 13421773 (-25).
Theorem C97_order_refuted : exists x y z, Each (Fin float_fmt) (mkFv x y z) /\ f_eq (fv_squared_length float_fmt (mkFv x y z)) (fv_squared_length float_fmt (mkFv z y x)) = false /\ f_eq (fv_length float_fmt (mkFv x y z)) (fv_length float_fmt (mkFv z y x)) = false.
Proof.
  exists tenth, tenth, four_tenths. split; [|split; vm_compute; reflexivity]. apply each_xyz. cbn [fv_x fv_y fv_z]. split; [apply flt_fin; lia|]. split; apply flt_fin; lia.
Qed.
Print Assumptions C97_order_refuted.
(* a detour may be shorter *)
Theorem C97_triangle_refuted : let d := float_fmt in let a := mkFv f_zero f_zero f_zero in let b := mkFv (flt 1 (-24)) f_zero f_zero in let c := mkFv (flt (2 ^ 23 + 1) (-23)) f_zero f_zero in
  Each (Fin d) b /\ Each (Fin d) c /\ Less d (f_add d (fv_distance d a b) (fv_distance d b c)) (fv_distance d a c).
Proof.
  cbv zeta. split; [apply each_xyz; cbn [fv_x fv_y fv_z]; split; [apply flt_fin; lia|split; apply zero_fin]|]. split; [apply each_xyz; cbn [fv_x fv_y fv_z]; split; [apply flt_fin; lia|split; apply zero_fin]|]. apply lt_less; [apply ieee_sane; right; reflexivity|]. vm_compute. reflexivity.
Qed.
Print Assumptions C97_triangle_refuted.
(* a vector divided by one of its parts need not have the part 1; divided by a
   tiny number it may be infinite though the quotient is 1 *)
Theorem C97_div_refuted : let d := float_fmt in f_div d (flt 41 0) (flt 41 0) = f_one d /\ f_eq (fv_x (fv_div d (mkFv (flt 41 0) f_zero f_zero) (flt 41 0))) (f_one d) = false /\
  f_div d (FFin false 1) (FFin false 1) = f_one d /\ fv_div d (mkFv (FFin false 1) f_zero f_zero) (FFin false 1) = mkFv (FInf false) FNan FNan.
Proof. cbv zeta. repeat match goal with |- _ /\ _ => split end; vm_compute; reflexivity. Qed.
Print Assumptions C97_div_refuted.
(* normalizing twice is not normalizing once; the member normalized is of no
   use for the zero vector *)
Theorem C97_again_refuted : exists v, Each (Fin float_fmt) v /\ fv_eq (fv_normalized float_fmt (fv_normalized float_fmt v)) (fv_normalized float_fmt v) = false /\ fv_is_normalized float_fmt (fv_normalized float_fmt v) = true /\
  fv_m_normalized float_fmt (mkFv f_zero f_zero f_zero) = mkFv FNan FNan FNan /\ fv_normalized float_fmt (mkFv f_zero f_zero f_zero) = mkFv f_zero f_zero f_zero.
Proof.
  exists (mkFv (flt 1 0) (flt 2 0) (flt 3 0)). split; [apply each_xyz; cbn [fv_x fv_y fv_z]; split; [|split]; apply flt_fin; lia|]. repeat match goal with |- _ /\ _ => split end; vm_compute; reflexivity.
Qed.
Print Assumptions C97_again_refuted.
(* (3, 4, 12) has the length 13; (-3, 4, 12) too; its square 169 *)
Example C97_example : let d := float_fmt in let v := mkFv (flt 3 0) (flt 4 0) (flt 12 0) in let w := mkFv (flt (-3) 0) (flt 4 0) (flt 12 0) in
  fv_length d v = flt 13 0 /\ fv_length d w = flt 13 0 /\ fv_distance d v w = flt 6 0 /\ fv_dot d v w = flt 151 0 /\ fv_cross d v w = mkFv f_zero (flt (-72) 0) (flt 24 0) /\
  fv_is_normalized d v = false /\ fv_is_normalized d (fv_normalized d v) = true /\ fv_x (fv_normalized d v) = f_mul d (flt 3 0) (f_div d (f_one d) (flt 13 0)) /\
  fv_add d v w = mkFv f_zero (flt 8 0) (flt 24 0) /\ fv_length d (mkFv (FInf true) f_zero f_zero) = FInf false /\ fv_length d (mkFv (flt 1 (-60)) (flt 1 60) f_zero) = flt 1 60.
Proof. cbv zeta. repeat match goal with |- _ /\ _ => split end; vm_compute; reflexivity. Qed.
