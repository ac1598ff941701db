(* C96: square roots on float and double *)
From Coq Require Import Reals ZArith List Bool Lia Lra.
From Verif Require Import Model.Base Model.FloatText Model.Math Model.Ieee Model.FloatMath Model.FloatVec Spec.FloatText Spec.Ieee Proofs.FloatTextProofs Proofs.IeeeProofs Proofs.IeeeErrorProofs Proofs.IeeeSqrtProofs Props.FloatEquals Props.FloatWrap Props.FloatAverage.
Local Open Scope R_scope.

(* the square of x has all its digits *)
Definition Full (f : fmt) (x : fnum) : Prop := number f x = 0 \/ IZR (2 ^ (fm_prec f - 1)) * unit_of f <= number f x * number f x.

Lemma fin_number f x : Fin f x -> exists a n, x = FFin a n /\ Finite f n /\ number f x = val f a n.
Proof. intros (a & n & -> & F). exists a, n. auto. Qed.
Lemma correct_eq f r x n : Sane f -> Correct f r x -> 0 < r -> Near f r (val f false n) -> Finite f n -> x = FFin false n.
Proof.
  intros W (g & N & H) R M F. pose proof (near_fun f r _ _ N M) as ->. destruct x as [|a|a k]; [contradiction| |].
  - destruct H as [H _]. pose proof (finite_small f false n W F). lra.
  - destruct H as (FK & E & S). destruct a; [lra|]. f_equal. apply (val_inj f false _ _ W). symmetry. exact E.
Qed.
Lemma sqrt_fin f n : Deep f -> Finite f n -> (0 < n)%Z -> exists m, f_sqrt f (FFin false n) = FFin false m /\ Finite f m /\ (0 < m)%Z.
Proof.
  intros D F P. pose proof D as [W _]. pose proof W as [W1 W2]. pose proof (sqrt_correct f n D P) as C. pose proof (unit_pos f W) as U. assert (V : 0 < val f false n) by (rewrite <- (val_zero f false); apply val_lt; [exact W|exact P]). pose proof (sqrt_lt_R0 _ V) as SP. pose proof (sqrt_sqrt (val f false n) ltac:(lra)) as SS.
  assert (L : exists k, Finite f k /\ sqrt (val f false n) <= val f false k).
  { destruct (Rle_lt_dec 1 (val f false n)) as [B|B]; [exists n; split; [exact F|]; nra|]. exists (2 ^ fm_low f)%Z. split; [rewrite <- (Z.mul_1_l (2 ^ fm_low f)); apply count_fin; [exact W|lia|pose proof (pow_pos_ (fm_prec f) ltac:(lia)); lia]|]. rewrite (one_val f W). nra. }
  destruct L as (k & FK & L). destruct (correct_le_fin f _ _ false k W C FK ltac:(lra)) as (a & m & E). rewrite E in *. destruct C as (g & N & FM & -> & S). assert (a = false) by (destruct a; [lra|reflexivity]). subst a. exists m. split; [reflexivity|]. split; [exact FM|].
  assert (M1 : val f false 1 <= val f false m). { apply (near_mono f (val f false 1) _ (sqrt (val f false n)) _); [apply exact_near; exists false, 1%Z; split; [apply (unit_finite f W)|reflexivity]|exact N|]. destruct (Rle_lt_dec 1 (val f false n)) as [B|B].
    - assert (val f false 1 <= 1) by (rewrite <- (one_val f W); apply val_le; [exact W|cbn; pose proof (pow_pos_ (fm_low f) ltac:(lia)); lia]). nra.
    - assert (val f false 1 <= val f false n) by (apply val_le; [exact W|cbn; lia]). nra. }
  apply (val_le f false 1 false m W) in M1. cbn in M1. lia.
Qed.
Theorem C96_sqrt : forall f x, IEEE f -> Valid f x ->
  (forall a n, x = FFin a n -> 0 <= val f a n -> Correct f (sqrt (val f a n)) (f_sqrt f x) /\ Fin f (f_sqrt f x)) /\
  (NaN (f_sqrt f x) <-> NaN x \/ Less f x f_zero) /\ f_sqrt f (FInf false) = FInf false.
Proof.
  intros f x I V. pose proof (ieee_deep f I) as D. pose proof D as [W _]. split; [|split; [|reflexivity]].
  - intros a n -> P. pose proof (fin_pos f a n V) as NP. destruct (Z.eq_dec n 0) as [->|N].
    + cbn. rewrite val_zero, sqrt_0. split; [|exists a, 0%Z; split; [reflexivity|apply (zero_finite f W)]]. exists 0. split; [apply near_zero, W|]. split; [apply (zero_finite f W)|]. rewrite val_zero. split; [reflexivity|destruct a; lra].
    + assert (a = false). { destruct a; [|reflexivity]. rewrite <- (val_zero f false) in P. apply val_le in P; [|exact W]. cbn in P. lia. } subst a. split; [apply sqrt_correct; [exact D|lia]|]. destruct (sqrt_fin f n D V ltac:(lia)) as (m & -> & F & _). exists false, m. auto.
  - rewrite <- (lt_less f x f_zero W). destruct x as [|a|a n]; cbn.
    + split; [left; reflexivity|reflexivity].
    + destruct a; cbn; split; intros H; try discriminate; try reflexivity; [right; reflexivity|destruct H; discriminate].
    + pose proof (fin_pos f a n V) as NP. destruct (Z.eqb_spec n 0) as [->|N]; [destruct a; cbn; (split; [discriminate|intros [H|H]; discriminate])|]. destruct a; cbn.
      * split; [right; apply Z.ltb_lt; lia|reflexivity].
      * split; [|intros [H|H]; [discriminate|apply Z.ltb_lt in H; lia]]. intros H. exfalso. destruct (sqrt_fin f n D V ltac:(lia)) as (m & E & _). cbn in E. rewrite (proj2 (Z.eqb_neq n 0) N) in E. cbn in H. rewrite E in H. discriminate.
Qed.
Print Assumptions C96_sqrt.
Lemma sqrt_mono f x y : IEEE f -> Valid f x -> Valid f y -> LessEq f f_zero x -> LessEq f x y -> LessEq f (f_sqrt f x) (f_sqrt f y).
Proof.
  intros I VX VY P L. pose proof (ieee_sane f I) as W. destruct (lesseq_num f x y L) as [NX NY]. pose proof (lesseq_trans f _ _ _ P L) as PY. destruct (C96_sqrt f x I VX) as (CX & ZX & _). destruct (C96_sqrt f y I VY) as (CY & ZY & _).
  assert (NSX : Num (f_sqrt f x)) by (intros Z; apply ZX in Z; destruct Z as [Z|Z]; [apply NX, Z|apply (less_not_lesseq f x f_zero Z P)]). assert (NSY : Num (f_sqrt f y)) by (intros Z; apply ZY in Z; destruct Z as [Z|Z]; [apply NY, Z|apply (less_not_lesseq f y f_zero Z PY)]).
  destruct y as [|b|b m]; [exfalso; apply NY; reflexivity| |].
  - destruct b; [exfalso; apply NSY; reflexivity|]. cbn. destruct (num_place f _ NSX) as [p HP]. apply lesseq_iff. exists p, Above. split; [exact HP|]. split; [reflexivity|]. unfold xle. destruct p; cbn; auto.
  - destruct x as [|a|a n]; [exfalso; apply NX; reflexivity| |].
    + destruct a; [exfalso; apply NSX; reflexivity|]. exfalso. destruct L as [(p & q & HP & HQ & L)|(p & HP & HQ)]; cbn in *; subst; [contradiction|discriminate].
    + apply lesseq_fin in P, PY, L. rewrite val_zero in P, PY. destruct (CX a n eq_refl P) as [A _]. destruct (CY b m eq_refl PY) as [B _]. apply (correct_mono f _ _ _ _ W A B). apply sqrt_le_1_alt, L.
Qed.
(* the square root keeps the order *)
Theorem C96_sqrt_mono : forall f x y, IEEE f -> Valid f x -> Valid f y -> LessEq f f_zero x -> LessEq f x y -> LessEq f (f_sqrt f x) (f_sqrt f y).
Proof. exact sqrt_mono. Qed.
Print Assumptions C96_sqrt_mono.
Theorem C96_signed_sqrt : forall f x, IEEE f -> Valid f x -> f_signed_sqrt f (f_neg x) = f_neg (f_signed_sqrt f x) /\ (NaN (f_signed_sqrt f x) <-> NaN x) /\
  (forall a n, x = FFin a n -> Correct f (sqrt (Rabs (val f a n))) (f_abs (f_signed_sqrt f x))) /\ (Less f x f_zero -> Less f (f_signed_sqrt f x) f_zero) /\ (Less f f_zero x -> Less f f_zero (f_signed_sqrt f x)).
Proof.
  intros f x I V. pose proof (ieee_deep f I) as D. pose proof D as [W _]. rewrite <- !(lt_less f _ _ W). destruct x as [|a|a n].
  - cbn. split; [reflexivity|]. split; [split; intros; reflexivity|]. split; [discriminate|split; discriminate].
  - destruct a; cbn; (split; [reflexivity|]); (split; [split; discriminate|]); (split; [discriminate|split; intros; try reflexivity; try discriminate]).
  - pose proof (fin_pos f a n V) as NP. destruct (Z.eq_dec n 0) as [->|N].
    + assert (Z0 : Correct f (sqrt (Rabs (val f a 0))) (FFin false 0)) by (rewrite val_zero, Rabs_R0, sqrt_0; exists 0; split; [apply near_zero, W|]; split; [apply (zero_finite f W)|]; rewrite val_zero; split; [reflexivity|lra]). destruct a; cbn; (split; [reflexivity|]); (split; [split; discriminate|]); (split; [intros a' n' E; injection E as <- <-; exact Z0|split; discriminate]).
    + destruct (sqrt_fin f n D V ltac:(lia)) as (m & E & F & M). pose proof (sqrt_correct f n D ltac:(lia)) as C. rewrite E in C.
      assert (SP : f_signed_sqrt f (FFin false n) = FFin false m). { unfold f_signed_sqrt, f_ge, f_le, f_zero. cbn [f_lt f_eq signed]. rewrite (proj2 (Z.ltb_lt 0 n)) by lia. exact E. }
      assert (SN : f_signed_sqrt f (FFin true n) = FFin true m). { unfold f_signed_sqrt, f_ge, f_le, f_zero. cbn [f_lt f_eq signed]. rewrite (proj2 (Z.ltb_ge 0 (- n))), (proj2 (Z.eqb_neq 0 (- n))) by lia. cbn [orb f_neg negb]. rewrite E. reflexivity. }
      assert (CA : forall b, Correct f (sqrt (Rabs (val f b n))) (FFin false m)) by (intros b; rewrite <- (val_false f b n W NP); exact C).
      destruct a; cbn [f_neg negb]; rewrite ?SP, ?SN; cbn [f_neg negb f_abs]; (split; [reflexivity|]); (split; [split; discriminate|]); (split; [intros b k X; injection X as <- <-; apply CA|]); unfold f_zero; cbn [f_lt signed]; rewrite !Z.ltb_lt; lia.
Qed.
Print Assumptions C96_signed_sqrt.

Lemma near_rel f r g : Sane f -> Near f r g -> IZR (2 ^ (fm_prec f - 1)) * unit_of f <= Rabs r -> Rabs (g - r) <= Rabs r / IZR (2 ^ fm_prec f).
Proof.
  intros W N B. destruct (near_error f r g W N) as [H|(H & _)]; [exact H|]. pose proof W as [W1 W2]. pose proof (unit_pos f W). pose proof (pow_scale f W) as P. apply Rle_trans with (unit_of f / 2); [exact H|]. apply (Rmult_le_reg_r (IZR (2 ^ fm_prec f))); [exact P|]. unfold Rdiv at 2. rewrite Rmult_assoc, Rinv_l, Rmult_1_r by lra.
  replace (2 ^ fm_prec f)%Z with (2 * 2 ^ (fm_prec f - 1))%Z by (replace (fm_prec f) with (1 + (fm_prec f - 1))%Z at 2 by lia; rewrite Z.pow_add_r by lia; lia). rewrite (mult_IZR 2). lra.
Qed.
Lemma normal_form f n : Sane f -> Rep f n -> (2 ^ (fm_prec f - 1) <= n)%Z -> exists m e, (0 <= e)%Z /\ (2 ^ (fm_prec f - 1) <= m < 2 ^ fm_prec f)%Z /\ n = (m * 2 ^ e)%Z.
Proof.
  intros [W1 W2] R B. pose proof (pow_pos_ (fm_prec f - 1) ltac:(lia)) as PP. destruct (Z.log2_spec n ltac:(lia)) as [L1 L2]. assert (LP : (fm_prec f - 1 <= Z.log2 n)%Z) by (rewrite <- (Z.log2_pow2 (fm_prec f - 1)) by lia; apply Z.log2_le_mono, B). set (e := (Z.log2 n - (fm_prec f - 1))%Z).
  replace (Z.succ (Z.log2 n)) with (fm_prec f + e)%Z in L2 by (unfold e; lia). replace (Z.log2 n) with (fm_prec f - 1 + e)%Z in L1 by (unfold e; lia). assert (E : (0 <= e)%Z) by (unfold e; lia). destruct (rep_large f n e ltac:(lia) E R L1) as (k & K). exists k, e. split; [exact E|]. split; [|exact K]. rewrite Z.pow_add_r in L1, L2 by lia. pose proof (pow_pos_ e E). nia.
Qed.
Lemma sqrt_of_square f n q : Deep f -> Finite f n -> (0 < n)%Z -> Finite f q -> IZR (2 ^ (fm_prec f - 1)) * unit_of f <= val f false n * val f false n -> Near f (val f false n * val f false n) (val f false q) -> f_sqrt f (FFin false q) = FFin false n.
Proof.
  intros D FN NP FQ B NR. pose proof D as [W DD]. pose proof W as [W1 W2]. pose proof (unit_pos f W) as U. pose proof (unit_scale f W) as US. pose proof (pow_pos_ (fm_low f) ltac:(lia)) as LP. pose proof (pow_pos_ (fm_prec f - 1) ltac:(lia)) as PP.
  assert (VP : 0 < val f false n) by (rewrite <- (val_zero f false); apply val_lt; [exact W|exact NP]).
  assert (UU : unit_of f = IZR (2 ^ fm_low f) * (unit_of f * unit_of f)) by (unfold unit_of; field; lra).
  assert (NN : (2 ^ (fm_prec f - 1) * 2 ^ fm_low f <= n * n)%Z). { apply le_IZR. rewrite !mult_IZR. apply (Rmult_le_reg_r (unit_of f * unit_of f)); [nra|]. unfold val in B. rewrite UU in B at 1. nra. }
  assert (NB : (2 ^ (fm_prec f - 1) <= n)%Z). { assert (2 ^ (fm_prec f - 1) <= 2 ^ fm_low f)%Z by (apply Z.pow_le_mono_r; lia). nia. }
  pose proof (near_rel f _ _ W NR) as REL. rewrite (Rabs_right (val f false n * val f false n)) in REL by nra. specialize (REL B).
  pose proof (pow_scale f W) as Q. assert (Q16 : 16 <= IZR (2 ^ fm_prec f)) by (apply (IZR_le 16); apply (Z.pow_le_mono_r 2 4); lia). set (qq := IZR (2 ^ fm_prec f)) in *.
  assert (QP : (0 < q)%Z). { assert (H0 : Rabs (val f false q - val f false n * val f false n) < val f false n * val f false n). { apply Rle_lt_trans with (1 := REL). unfold Rdiv. rewrite <- (Rmult_1_r (val f false n * val f false n)) at 2. apply Rmult_lt_compat_l; [nra|]. rewrite <- Rinv_1. apply Rinv_lt_contravar; lra. }
    apply Rabs_def2 in H0. assert (H : 0 < val f false q) by lra.
    rewrite <- (val_zero f false) in H. apply val_lt in H; [|exact W]. exact H. }
  pose proof (sqrt_correct f q D QP) as C. assert (QV : 0 < val f false q) by (rewrite <- (val_zero f false); apply val_lt; [exact W|exact QP]). apply (correct_eq f (sqrt (val f false q)) _ n W C); [apply sqrt_lt_R0, QV| |exact FN]. clear C.
  destruct (normal_form f n W (proj1 FN) NB) as (m & e & E & M & NE). destruct (Z.eq_dec m (2 ^ (fm_prec f - 1))) as [ME|ME].
  - assert (X : val f false q = val f false n * val f false n).
    { apply (near_exact f _ _ NR). rewrite ME, <- Z.pow_add_r in NE by lia. set (j := (fm_prec f - 1 + e)%Z) in *. assert (J : (fm_low f <= 2 * j)%Z). { apply (Z.pow_le_mono_r_iff 2); [lia|unfold j; lia|]. replace (2 * j)%Z with (j + j)%Z by lia. rewrite Z.pow_add_r, <- NE by (unfold j; lia). nia. }
      assert (EQ : (n * n = 1 * 2 ^ (2 * j - fm_low f) * 2 ^ fm_low f)%Z) by (rewrite NE, Z.mul_1_l, <- !Z.pow_add_r by (unfold j in *; lia); f_equal; lia). replace (val f false n * val f false n) with (IZR (1 * 2 ^ (2 * j - fm_low f)) * unit_of f); [apply grid_int; [exact W|lia|]; pose proof (pow_pos_ (fm_prec f) ltac:(lia)); lia|]. unfold val. rewrite UU at 1. transitivity (IZR (n * n) * (unit_of f * unit_of f)); [rewrite EQ, (mult_IZR _ (2 ^ fm_low f)); ring|rewrite (mult_IZR n n); ring]. }
    rewrite X, sqrt_square by lra. apply exact_near. exists false, n. split; [apply FN|reflexivity].
  - set (d := IZR (2 ^ e) * unit_of f / 2). pose proof (IZR_lt _ _ (pow_pos_ e E)) as EP. assert (DP : 0 < d) by (unfold d; nra).
    assert (VD : val f false n = IZR m * (2 * d)) by (unfold val, d; rewrite NE, mult_IZR; field). assert (M1 : IZR m <= qq - 1) by (unfold qq; rewrite <- minus_IZR; apply IZR_le; lia).
    assert (M2 : qq <= 2 * IZR m) by (unfold qq; rewrite <- (mult_IZR 2); apply IZR_le; replace (fm_prec f) with (1 + (fm_prec f - 1))%Z at 1 by lia; rewrite Z.pow_add_r by lia; lia).
    apply (near_gap f (val f false n) _ d); [exists false, n; split; [apply FN|reflexivity]| |].
    + intros g G NG. replace (2 * d) with (IZR (2 ^ e) * unit_of f) by (unfold d; field). rewrite NE in NG |- *. apply grid_gap; [exact W|exact E|lia|exact G|exact NG].
    + set (v := val f false n) in *. set (s := val f false q) in *. assert (VQ : v / qq * qq = v) by (field; lra). set (w := v / qq) in *. assert (R2 : Rabs (s - v * v) <= v * w) by (replace (v * w) with (v * v / qq) by (unfold w; field; lra); exact REL).
      assert (Rm : IZR m = v / (2 * d)) by (rewrite VD; field; lra). assert (W1' : w < 2 * d) by (apply (Rmult_lt_reg_r qq); [exact Q|]; rewrite VQ, VD; nra). assert (W0 : 0 < w) by (unfold w, Rdiv; apply Rmult_lt_0_compat; [exact VP|apply Rinv_0_lt_compat; exact Q]).
      assert (W2' : 2 * d <= qq * (2 * d - w)) by (rewrite Rmult_minus_distr_l, (Rmult_comm qq w), VQ, VD; nra). assert (VQ2 : qq * d <= v) by (rewrite VD; nra).
      assert (W3 : d * d < v * (2 * d - w)). { apply Rlt_le_trans with (2 * d * d); [nra|]. apply Rle_trans with (qq * (2 * d - w) * d); [apply Rmult_le_compat_r; lra|]. replace (qq * (2 * d - w) * d) with (qq * d * (2 * d - w)) by ring. apply Rmult_le_compat_r; lra. }
      assert (DV : d < v) by nra. apply Rabs_le_between in R2 || (assert (R3 : - (v * w) <= s - v * v <= v * w) by (split; [pose proof (Rle_abs (- (s - v * v))) as H; rewrite Rabs_Ropp in H; lra|pose proof (Rle_abs (s - v * v)); lra]); clear R2; rename R3 into R2).
      apply Rabs_def1.
      * assert (sqrt s < v + d); [|lra]. rewrite <- (sqrt_square (v + d)) by lra. apply sqrt_lt_1; [lra|nra|nra].
      * assert (v - d < sqrt s); [|lra]. rewrite <- (sqrt_square (v - d)) by lra. apply sqrt_lt_1; [nra|lra|nra].
Qed.
Lemma square_correct f x : Sane f -> Fin f x -> Correct f (number f x * number f x) (f_squared f x).
Proof. intros W (a & n & -> & F). apply mul_correct; [exact W|exact (fin_pos f a n F)|exact (fin_pos f a n F)]. Qed.
Lemma square_val f a n : Sane f -> (0 <= n)%Z -> val f a n * val f a n = val f false n * val f false n.
Proof. intros W P. rewrite (val_false f a n W P). unfold Rabs. destruct (Rcase_abs (val f a n)); ring. Qed.
(* the root of a square is the number again, in spite of two roundings *)
Theorem C96_sqrt_square : forall f x, IEEE f -> Fin f x -> Full f x -> f_squared f x <> FInf false -> f_sqrt f (f_squared f x) = f_abs x.
Proof.
  intros f x I FX B NI. pose proof (ieee_deep f I) as D. pose proof D as [W _]. pose proof (square_correct f x W FX) as C. destruct FX as (a & n & -> & F). pose proof (fin_pos f a n F) as P. cbn [number f_abs] in *. destruct (Z.eq_dec n 0) as [->|N].
  - unfold f_squared. cbn [f_mul]. rewrite xorb_nilpotent. rewrite Z.mul_0_l. assert (E : to_fnum f false (VNum 0 (2 ^ fm_low f * 2 ^ fm_low f)) = FFin false 0); [|rewrite E; reflexivity]. pose proof W as [W1 W2]. pose proof (pow_pos_ (fm_low f) ltac:(lia)) as LP. apply (to_fnum_fin f false 0 _ 0 0 W); [|apply (zero_finite f W)|rewrite val_zero; reflexivity]. pose proof (round_correct f false 0 (2 ^ fm_low f * 2 ^ fm_low f) W ltac:(lia) ltac:(nia)) as R. cbn match in R. unfold Rdiv in R. rewrite Rmult_0_l in R. exact R.
  - destruct B as [B|B]; cbn [number] in B; [exfalso; rewrite <- (val_zero f false) in B; apply val_eq in B; [|exact W]; unfold signed in B; destruct a; lia|]. rewrite (square_val f a n W P) in B, C. pose proof (unit_pos f W) as U. assert (VP : 0 < val f false n) by (rewrite <- (val_zero f false); apply val_lt; [exact W|cbn; lia]).
    destruct (f_squared f (FFin a n)) as [|s|s q]; [destruct C as (g & _ & []) | |].
    + destruct C as (g & _ & _ & S). destruct s; [nra|exfalso; apply NI; reflexivity].
    + destruct C as (g & NR & FQ & -> & S). assert (s = false) by (destruct s; [nra|reflexivity]). subst s. apply sqrt_of_square; [exact D|exact F|lia|exact FQ|exact B|exact NR].
Qed.
Print Assumptions C96_sqrt_square.
(* ... but not that of a small or a large number *)
Theorem C96_sqrt_square_refuted : let d := float_fmt in let small := FFin false (2 ^ 69) in let large := FFin false (2 ^ 229) in
  Fin d small /\ number d small = / IZR (2 ^ 80) /\ f_sqrt d (f_squared d small) = f_zero /\ Fin d large /\ number d large = IZR (2 ^ 80) /\ f_sqrt d (f_squared d large) = FInf false.
Proof.
  cbv zeta. split; [exists false, (2 ^ 69)%Z; split; [reflexivity|]; split; [exists 1%Z, 69%Z; cbn [fm_prec float_fmt]; split; [lia|split; [lia|reflexivity]]|reflexivity]|]. split.
  { cbn [number]. unfold val, unit_of. change (fm_low float_fmt) with 149%Z. assert (E : IZR (2 ^ 149) = IZR (2 ^ 69) * IZR (2 ^ 80)) by (rewrite <- mult_IZR; f_equal). rewrite E. assert (A : 0 < IZR (2 ^ 69)) by (apply IZR_lt; reflexivity). assert (B : 0 < IZR (2 ^ 80)) by (apply IZR_lt; reflexivity). set (x := IZR (2 ^ 69)) in *. set (y := IZR (2 ^ 80)) in *. field. split; lra. }
  split; [vm_compute; reflexivity|]. split; [exists false, (2 ^ 229)%Z; split; [reflexivity|]; split; [exists 1%Z, 229%Z; cbn [fm_prec float_fmt]; split; [lia|split; [lia|reflexivity]]|reflexivity]|]. split; [|vm_compute; reflexivity].
  cbn [number]. unfold val, unit_of. change (fm_low float_fmt) with 149%Z. assert (E : IZR (2 ^ 229) = IZR (2 ^ 149) * IZR (2 ^ 80)) by (rewrite <- mult_IZR; f_equal). rewrite E. assert (A : 0 < IZR (2 ^ 149)) by (apply IZR_lt; reflexivity). set (x := IZR (2 ^ 149)) in *. set (y := IZR (2 ^ 80)) in *. field. lra.
Qed.
Print Assumptions C96_sqrt_square_refuted.
(* inv: the reciprocal, correctly rounded; invsqrt: within two roundings *)
Theorem C96_inv : forall f a n, IEEE f -> Finite f n -> (0 < n)%Z -> Correct f (/ val f a n) (f_inv f (FFin a n)) /\
  forall m, f_invsqrt f (FFin false n) = FFin false m -> Rabs (val f false m - / sqrt (val f false n)) <= 3 / IZR (2 ^ fm_prec f) * / sqrt (val f false n).
Proof.
  intros f a n I F P. pose proof (ieee_deep f I) as D. pose proof D as [W DD]. pose proof W as [W1 W2]. pose proof (pow_pos_ (fm_low f) ltac:(lia)) as LP. pose proof (unit_pos f W) as U.
  assert (INV : forall b k, (0 < k)%Z -> Correct f (/ val f b k) (f_inv f (FFin b k))). { intros b k K. pose proof (div_correct f false (2 ^ fm_low f) b k W ltac:(lia) K) as C. rewrite (one_val f W) in C. unfold Rdiv in C. rewrite Rmult_1_l in C. exact C. }
  split; [apply INV, P|]. intros m E. unfold f_invsqrt in E. fold (f_inv f (f_sqrt f (FFin false n))) in E. destruct (sqrt_fin f n D F P) as (l & EL & FL & LPO). pose proof (sqrt_correct f n D P) as C. rewrite EL in C, E. pose proof (INV false l LPO) as CI. rewrite E in CI. destruct C as (g & NL & _ & -> & _). destruct CI as (g & NI & FM & -> & _).
  assert (VP : 0 < val f false n) by (rewrite <- (val_zero f false); apply val_lt; [exact W|exact P]). assert (VL : 0 < val f false l) by (rewrite <- (val_zero f false); apply val_lt; [exact W|exact LPO]). pose proof (sqrt_lt_R0 _ VP) as SP. set (s := sqrt (val f false n)) in *. pose proof (pow_scale f W) as Q. assert (Q16 : 16 <= IZR (2 ^ fm_prec f)) by (apply (IZR_le 16); apply (Z.pow_le_mono_r 2 4); lia).
  assert (SB : IZR (2 ^ (fm_prec f - 1)) * unit_of f <= Rabs s).
  { rewrite Rabs_right by lra. destruct (sqrt_root f n D P) as [_ R]. unfold s. rewrite (sqrt_units f n W ltac:(lia)). apply Rmult_le_compat_r; [lra|]. destruct (Z.sqrt_spec (n * 2 ^ fm_low f) ltac:(nia)) as [S1 _]. apply Rle_trans with (IZR (Z.sqrt (n * 2 ^ fm_low f))); [apply IZR_le; pose proof (Z.pow_le_mono_r 2 (fm_prec f - 1) (fm_prec f + 1) ltac:(lia) ltac:(lia)); lia|]. rewrite <- (sqrt_square (IZR (Z.sqrt (n * 2 ^ fm_low f)))) by (apply (IZR_le 0), Z.sqrt_nonneg). rewrite <- mult_IZR. apply sqrt_le_1_alt, IZR_le, S1. }
  pose proof (near_rel f _ _ W NL SB) as E1. rewrite (Rabs_right s) in E1 by lra. pose proof W as _.
  assert (LB : IZR (2 ^ (fm_prec f - 1)) * unit_of f <= Rabs (/ val f false l)).
  { pose proof (Rinv_0_lt_compat _ VL) as IP. rewrite Rabs_right by lra.
    assert (TL : val f false l * val f false l <= 4 * IZR (2 ^ fm_top f)). { assert (val f false l <= 2 * s). { assert (val f false l - s <= s / IZR (2 ^ fm_prec f)) by (pose proof (Rle_abs (val f false l - s)); lra). assert (s / IZR (2 ^ fm_prec f) <= s) by (unfold Rdiv; rewrite <- (Rmult_1_r s) at 2; apply Rmult_le_compat_l; [lra|]; rewrite <- Rinv_1; apply Rinv_le_contravar; lra). lra. } assert (s * s = val f false n) by (apply sqrt_sqrt; lra). pose proof (finite_small f false n W F) as T. rewrite Rabs_right in T by lra. nra. }
    assert (K : IZR (2 ^ (fm_prec f - 1)) * unit_of f * (IZR (2 ^ (fm_prec f - 1)) * unit_of f) * (4 * IZR (2 ^ fm_top f)) <= 1).
    { assert (EQ : (2 ^ (fm_prec f - 1) * 2 ^ (fm_prec f - 1) * (4 * 2 ^ fm_top f) <= 2 ^ fm_low f * 2 ^ fm_low f)%Z) by (replace 4%Z with (2 ^ 2)%Z by reflexivity; rewrite <- !Z.pow_add_r by lia; apply Z.pow_le_mono_r; lia). apply IZR_le in EQ. rewrite !mult_IZR in EQ. pose proof (unit_scale f W) as US. apply (Rmult_le_reg_r (IZR (2 ^ fm_low f) * IZR (2 ^ fm_low f))); [nra|]. unfold unit_of. rewrite Rmult_1_l. eapply Rle_trans; [|exact EQ]. right. field. lra. }
    set (b := IZR (2 ^ (fm_prec f - 1)) * unit_of f) in *. assert (BP : 0 < b) by (unfold b; apply Rmult_lt_0_compat; [apply IZR_lt, pow_pos_; lia|exact U]). set (v := val f false l) in *. apply (Rmult_le_reg_r v); [exact VL|]. rewrite Rinv_l by lra. assert (b * v * (b * v) <= 1) by nra. nra. }
  pose proof (near_rel f _ _ W NI LB) as E2. pose proof (Rinv_0_lt_compat _ VL) as IP. rewrite (Rabs_right (/ val f false l)) in E2 by lra.
  set (qq := IZR (2 ^ fm_prec f)) in *. set (L := val f false l) in *. set (M := val f false m) in *. assert (A1 : Rabs (/ L - / s) <= / L / qq). { replace (/ L - / s) with ((s - L) * (/ L * / s)) by (field; lra). rewrite Rabs_mult, (Rabs_right (/ L * / s)) by (pose proof (Rinv_0_lt_compat _ SP); nra). replace (/ L / qq) with (s / qq * (/ L * / s)) by (field; lra). apply Rmult_le_compat_r; [pose proof (Rinv_0_lt_compat _ SP); nra|]. rewrite Rabs_minus_sym. exact E1. }
  assert (A2 : / L * (1 - / qq) <= / s). { pose proof (Rle_abs (/ L - / s)). unfold Rdiv in A1. nra. }
  assert (A3 : / L <= (1 + 2 * / qq) * / s). { assert (QI : 0 < / qq <= / 16) by (split; [apply Rinv_0_lt_compat; lra|apply Rinv_le_contravar; lra]). assert (X : 1 <= (1 + 2 * / qq) * (1 - / qq)) by nra. apply Rle_trans with (/ L * ((1 + 2 * / qq) * (1 - / qq))); [rewrite <- (Rmult_1_r (/ L)) at 1; apply Rmult_le_compat_l; lra|]. nra. }
  replace (M - / s) with ((M - / L) + (/ L - / s)) by ring. eapply Rle_trans; [apply Rabs_triang|]. assert (QI : 0 < / qq <= / 16) by (split; [apply Rinv_0_lt_compat; lra|apply Rinv_le_contravar; lra]). unfold Rdiv in *. apply Rle_trans with (2 * / qq * ((1 + 2 * / qq) * / s)); [nra|]. pose proof (Rinv_0_lt_compat _ SP). replace (2 * / qq * ((1 + 2 * / qq) * / s)) with (/ qq * / s * (2 + 4 * / qq)) by ring. replace (3 * / qq * / s) with (/ qq * / s * 3) by ring. apply Rmult_le_compat_l; [nra|lra].
Qed.
Print Assumptions C96_inv.
Local Open Scope Z_scope.
(* the float closest to the root of 2; root and square do not cancel; a square
   with two roundings does; 2.25 has an exact root *)
Example C96_example : let d := float_fmt in let two := FFin false (2 * 2 ^ 149) in
  f_sqrt d two = FFin false (11863283 * 2 ^ 126) /\ f_eq (f_squared d (f_sqrt d two)) two = false /\ f_sqrt d (f_squared d (FFin true (11863283 * 2 ^ 126))) = FFin false (11863283 * 2 ^ 126) /\
  f_sqrt d (FFin false (9 * 2 ^ 147)) = FFin false (3 * 2 ^ 148) /\ f_signed_sqrt d (FFin true (9 * 2 ^ 147)) = FFin true (3 * 2 ^ 148) /\ f_sqrt d (FFin true (9 * 2 ^ 147)) = FNan /\ f_sqrt d (FFin true 0) = FFin true 0 /\
  f_invsqrt d (FFin false (9 * 2 ^ 147)) = f_div d (f_one d) (FFin false (3 * 2 ^ 148)) /\ f_inv d (FFin true 0) = FInf true /\ f_invsqrt d f_zero = FInf false.
Proof. cbv zeta. repeat match goal with |- _ /\ _ => split end; vm_compute; reflexivity. Qed.
