(* The error of a polynomial. *)
From Coq Require Import Reals Lra Lia ZArith List Bool.
From Verif Require Import Model.Base Model.FloatText Model.Ieee Model.FloatPoly Spec.FloatText Spec.Ieee Spec.Regression Proofs.FloatTextProofs Proofs.IeeeProofs Proofs.IeeeErrorProofs Proofs.FloatOpsProofs Proofs.FloatTableProofs Props.FloatAverage Props.FloatSqrt Props.FloatVec.
Import ListNotations.
Local Open Scope R_scope.

Lemma pow_growth u n : 0 <= u -> INR n * u <= 1 -> (1 + u) ^ n * (1 - INR n * u) <= 1.
Proof.
  intros U. induction n as [|n IH]; intros B; [cbn; lra|]. rewrite S_INR in *. assert (P : 0 <= (1 + u) ^ n) by (apply pow_le; lra). pose proof (pos_INR n). specialize (IH ltac:(nra)). cbn [pow].
  replace ((1 + u) * (1 + u) ^ n * (1 - (INR n + 1) * u)) with ((1 + u) ^ n * (1 - INR n * u) - (1 + u) ^ n * ((INR n + 1) * (u * u))) by ring. assert (0 <= (1 + u) ^ n * ((INR n + 1) * (u * u))) by (apply Rmult_le_pos; [exact P|]; apply Rmult_le_pos; nra). lra.
Qed.
Lemma pow_two u n : 0 <= u -> 2 * INR n * u <= 1 -> (1 + u) ^ n <= 2.
Proof. intros U B. pose proof (pow_growth u n U ltac:(pose proof (pos_INR n); nra)) as G. assert (P : 0 <= (1 + u) ^ n) by (apply pow_le; lra). nra. Qed.
Lemma pow_ge g n : 1 <= g -> 1 <= g ^ n.
Proof. intros G. apply pow_R1_Rle, G. Qed.

(* one rounding of a product of inexact factors *)
Lemma step_mul u h a b x p A : 0 <= u -> Rabs (p - a * b) <= u * Rabs (a * b) + h -> Rabs (a - x) <= A -> Rabs (p - x * b) <= (1 + u) * Rabs b * A + u * Rabs (x * b) + h.
Proof.
  intros U P Q. replace (p - x * b) with ((p - a * b) + (a - x) * b) by ring. eapply Rle_trans; [apply Rabs_triang|]. rewrite (Rabs_mult (a - x)). pose proof (Rabs_pos b) as B.
  assert (AB : Rabs (a * b) <= Rabs (x * b) + A * Rabs b). { replace (a * b) with (x * b + (a - x) * b) by ring. eapply Rle_trans; [apply Rabs_triang|]. rewrite (Rabs_mult (a - x)). apply Rplus_le_compat_l, Rmult_le_compat_r; assumption. }
  assert (Rabs (a - x) * Rabs b <= A * Rabs b) by (apply Rmult_le_compat_r; assumption). assert (u * Rabs (a * b) <= u * (Rabs (x * b) + A * Rabs b)) by (apply Rmult_le_compat_l; assumption). lra.
Qed.
Lemma step_add u s p r x y E E' : 0 <= u -> Rabs (r - (s + p)) <= u * Rabs (s + p) -> Rabs (s - x) <= E -> Rabs (p - y) <= E' -> Rabs (r - (x + y)) <= (1 + u) * (E + E') + u * Rabs (x + y).
Proof.
  intros U P Q R. replace (r - (x + y)) with ((r - (s + p)) + ((s - x) + (p - y))) by ring. eapply Rle_trans; [apply Rabs_triang|]. assert (D : Rabs ((s - x) + (p - y)) <= E + E') by (eapply Rle_trans; [apply Rabs_triang|lra]).
  assert (S : Rabs (s + p) <= Rabs (x + y) + (E + E')). { replace (s + p) with ((x + y) + ((s - x) + (p - y))) by ring. eapply Rle_trans; [apply Rabs_triang|lra]. }
  assert (u * Rabs (s + p) <= u * (Rabs (x + y) + (E + E'))) by (apply Rmult_le_compat_l; assumption). lra.
Qed.
Lemma near_size a b E B : Rabs (a - b) <= E -> Rabs b <= B -> Rabs a <= B + E.
Proof. intros H K. replace a with (b + (a - b)) by ring. eapply Rle_trans; [apply Rabs_triang|lra]. Qed.

Section Error.
Context (f : fmt) (I : IEEE f) (v : fnum) (FV : Fin f v) (V C : R) (VB : Rabs (number f v) <= V) (V1 : 1 <= V) (C0 : 0 <= C) (D : nat).
Let u := ulp f.
Let g := 1 + u.
Let h := unit_of f / 2.
Context (G2 : g ^ S D <= 2) (RM : 8 * ((C + 1) * (INR (S D) * INR (S D)) * V ^ D) <= room f).

Definition fac_err (j : nat) : R := (g ^ j - 1) * Rabs (number f v) ^ S j + INR j * (g ^ j * V ^ j) * h.
Definition sum_err (j : nat) : R := g ^ S j * V ^ j * (C + 1) * (INR j * INR j) * h.

Let U0 : 0 < u. Proof. destruct (ulp_small f I). unfold u. lra. Qed.
Let H0 : 0 < h <= / 2. Proof. destruct (ulp_small f I). pose proof (unit_pos f (ieee_sane f I)). unfold h. lra. Qed.
Let G1 : 1 <= g. Proof. unfold g. lra. Qed.
Let GJ j : (j <= S D)%nat -> 1 <= g ^ j <= 2.
Proof. intros J. split; [apply pow_ge, G1|]. eapply Rle_trans; [apply (Rle_pow g j (S D) G1 J)|exact G2]. Qed.
Let VJ j : (j <= D)%nat -> 1 <= V ^ j <= V ^ D.
Proof. intros J. split; [apply pow_ge, V1|apply Rle_pow; assumption]. Qed.
Let vJ j : 0 <= Rabs (number f v) ^ j <= V ^ j.
Proof. split; [apply pow_le, Rabs_pos|apply pow_incr; split; [apply Rabs_pos|exact VB]]. Qed.
Let DJ j : (j <= D)%nat -> 0 <= INR j <= INR (S D) - 1.
Proof. intros J. split; [apply pos_INR|]. rewrite S_INR. apply le_INR in J. lra. Qed.

Lemma fac_size F j : (S j <= D)%nat -> Rabs (number f F - number f v ^ S j) <= fac_err j -> Rabs (number f F) <= 2 * INR (S D) * V ^ S j.
Proof.
  intros J E. pose proof (vJ (S j)) as [A B]. pose proof (GJ j ltac:(lia)) as [P Q]. pose proof (VJ j ltac:(lia)) as [R T]. pose proof (DJ (S j) J) as [K L]. rewrite (S_INR j) in K, L. pose proof (pos_INR j) as JP.
  apply (near_size _ _ _ (Rabs (number f v) ^ S j)) in E; [|rewrite <- RPow_abs; lra]. eapply Rle_trans; [exact E|]. unfold fac_err. replace (Rabs (number f v) ^ S j + ((g ^ j - 1) * Rabs (number f v) ^ S j + INR j * (g ^ j * V ^ j) * h)) with (g ^ j * Rabs (number f v) ^ S j + INR j * (g ^ j * V ^ j) * h) by ring.
  assert (VS : V ^ j <= V ^ S j) by (apply Rle_pow; [exact V1|lia]).
  assert (X1 : g ^ j * Rabs (number f v) ^ S j <= 2 * V ^ S j) by (apply Rmult_le_compat; lra).
  assert (X2 : g ^ j * V ^ j <= 2 * V ^ S j) by (apply Rmult_le_compat; lra). assert (X3 : INR j * (g ^ j * V ^ j) * h <= INR j * (2 * V ^ S j)). { rewrite <- (Rmult_1_r (INR j * (2 * V ^ S j))). apply Rmult_le_compat; [|lra| |lra]. apply Rmult_le_pos; [lra|apply Rmult_le_pos; lra]. apply Rmult_le_compat_l; [lra|exact X2]. }
  apply Rle_trans with (2 * V ^ S j + INR j * (2 * V ^ S j)); [lra|]. replace (2 * V ^ S j + INR j * (2 * V ^ S j)) with (2 * (INR j + 1) * V ^ S j) by ring. apply Rmult_le_compat_r; [lra|]. lra.
Qed.
Lemma fac_next F j : (S (S j) <= D)%nat -> Fin f F -> Rabs (number f F - number f v ^ S j) <= fac_err j -> Fin f (f_mul f F v) /\ Rabs (number f (f_mul f F v) - number f v ^ S (S j)) <= fac_err (S j).
Proof.
  intros J FF E. pose proof (fac_size F j ltac:(lia) E) as SZ. pose proof (pos_INR j) as JP. pose proof (DJ _ (Nat.le_refl D)) as [DP _].
  assert (D1 : 1 <= INR (S D)) by (rewrite S_INR; pose proof (pos_INR D); lra).
  destruct (mul_fin f F v I FF FV) as (FM & _ & EM).
  { rewrite Rabs_mult. eapply Rle_trans; [|exact RM]. apply Rle_trans with (2 * INR (S D) * V ^ S j * V); [apply Rmult_le_compat; try apply Rabs_pos; assumption|]. replace (2 * INR (S D) * V ^ S j * V) with (2 * INR (S D) * V ^ S (S j)) by (cbn [pow]; ring).
    pose proof (VJ _ J) as [R T]. replace (8 * ((C + 1) * (INR (S D) * INR (S D)) * V ^ D)) with (8 * (C + 1) * INR (S D) * INR (S D) * V ^ D) by ring. apply Rmult_le_compat; [nra|lra| |lra]. apply Rmult_le_compat_r; [lra|]. nra. }
  split; [exact FM|]. pose proof (step_mul u h _ _ (number f v ^ S j) _ _ (Rlt_le _ _ U0) EM E) as X. replace (number f v ^ S (S j)) with (number f v ^ S j * number f v) by (cbn [pow]; ring). eapply Rle_trans; [exact X|]. rewrite Rabs_mult, <- RPow_abs. unfold fac_err. set (w := Rabs (number f v)) in *. pose proof (Rabs_pos (number f v)) as W0. fold w in W0. fold g. rewrite S_INR.
  replace (g * w * ((g ^ j - 1) * w ^ S j + INR j * (g ^ j * V ^ j) * h) + u * (w ^ S j * w) + h) with ((g * g ^ j - g + u) * (w ^ S j * w) + (INR j * (g * g ^ j * (w * V ^ j)) * h + 1 * h)) by ring.
  replace (g * g ^ j - g + u) with (g ^ S j - 1) by (unfold g at 4; cbn [pow]; ring). replace (w ^ S (S j)) with (w ^ S j * w) by (cbn [pow]; ring). apply Rplus_le_compat_l. change (g * g ^ j) with (g ^ S j). pose proof (GJ (S j) ltac:(lia)) as [P Q]. pose proof (VJ j ltac:(lia)) as [R T]. pose proof (VJ (S j) ltac:(lia)) as [R' T'].
  rewrite <- Rmult_plus_distr_r. apply Rmult_le_compat_r; [lra|]. rewrite Rmult_plus_distr_r, Rmult_1_l. apply Rplus_le_compat; [apply Rmult_le_compat_l; [lra|]; apply Rmult_le_compat_l; [lra|]; cbn [pow]; apply Rmult_le_compat_r; [lra|exact VB]|]. rewrite <- (Rmult_1_r 1) at 1. apply Rmult_le_compat; lra.
Qed.
Lemma sum_next r F c j s B : (S j <= D)%nat -> Fin f c -> Rabs (number f c) <= C -> Fin f r -> Rabs (number f r - s) <= (g ^ S j - 1) * B + sum_err j -> Rabs s <= B -> B <= INR (S j) * C * V ^ j ->
  Fin f F -> Rabs (number f F - number f v ^ S j) <= fac_err j ->
  let r' := f_add f r (f_mul f F c) in let s' := s + number f c * number f v ^ S j in let B' := B + Rabs (number f c) * Rabs (number f v) ^ S j in
  Fin f r' /\ Rabs (number f r' - s') <= (g ^ S (S j) - 1) * B' + sum_err (S j) /\ Rabs s' <= B' /\ B' <= INR (S (S j)) * C * V ^ S j.
Proof.
  intros J FC CB FR ER SB BB FF EF r' s' B'. pose proof (fac_size F j J EF) as SZ. pose proof (pos_INR j) as JP. pose proof (DJ (S j) J) as [JP' JD]. pose proof (GJ (S j) ltac:(lia)) as [P Q]. pose proof (GJ (S (S j)) ltac:(lia)) as [P' Q']. pose proof (VJ j ltac:(lia)) as [R T]. pose proof (VJ (S j) J) as [R' T']. pose proof (vJ (S j)) as [A A']. pose proof (Rabs_pos (number f c)) as CP. pose proof (Rabs_pos s) as SP.
  assert (VS : V ^ j <= V ^ S j) by (apply Rle_pow; [exact V1|lia]). set (N := INR (S D)) in *. assert (N1 : 1 <= N) by lra. set (Q0 := V ^ D) in *.
  set (K := (C + 1) * (N * N) * Q0) in *. assert (KP : 0 <= K) by (unfold K; apply Rmult_le_pos; [apply Rmult_le_pos; nra|lra]).
  assert (K1 : C * (N * Q0) <= K). { unfold K. replace ((C + 1) * (N * N) * Q0) with ((C + 1) * (N * (N * Q0))) by ring. apply Rmult_le_compat; [lra|apply Rmult_le_pos; lra|lra|]. rewrite <- (Rmult_1_l (N * Q0)) at 1. apply Rmult_le_compat_r; [apply Rmult_le_pos; lra|lra]. }
  assert (K2 : 1 <= K). { unfold K. replace 1 with (1 * (1 * 1) * 1) by ring. apply Rmult_le_compat; [lra|lra| |lra]. apply Rmult_le_compat; [lra|lra|lra|]. apply Rmult_le_compat; lra. }
  assert (FCB : Rabs (number f F * number f c) <= 2 * K). { rewrite Rabs_mult. apply Rle_trans with (2 * N * V ^ S j * C); [apply Rmult_le_compat; try apply Rabs_pos; assumption|]. replace (2 * N * V ^ S j * C) with (2 * (C * (N * V ^ S j))) by ring. apply Rmult_le_compat_l; [lra|]. eapply Rle_trans; [|exact K1]. apply Rmult_le_compat_l; [lra|]. apply Rmult_le_compat_l; lra. }
  destruct (mul_fin f F c I FF FC) as (FM & _ & EM); [lra|]. set (p := f_mul f F c) in *.
  assert (PB : Rabs (number f p) <= 5 * K). { apply (near_size _ _ _ _ EM) in FCB. fold u h in FCB. assert (u * Rabs (number f F * number f c) <= 1 * (2 * K)). { apply Rmult_le_compat; [lra|apply Rabs_pos| |]. { destruct (ulp_small f I). unfold u. lra. } rewrite Rabs_mult. apply Rle_trans with (2 * N * V ^ S j * C); [apply Rmult_le_compat; try apply Rabs_pos; assumption|]. replace (2 * N * V ^ S j * C) with (2 * (C * (N * V ^ S j))) by ring. apply Rmult_le_compat_l; [lra|]. eapply Rle_trans; [|exact K1]. apply Rmult_le_compat_l; [lra|]. apply Rmult_le_compat_l; lra. } lra. }
  assert (B0 : 0 <= B) by lra. assert (BK : B <= K). { eapply Rle_trans; [exact BB|]. eapply Rle_trans; [|exact K1]. replace (INR (S j) * C * V ^ j) with (C * (INR (S j) * V ^ j)) by ring. apply Rmult_le_compat_l; [lra|]. apply Rmult_le_compat; lra. }
  assert (SE : sum_err j <= K). { unfold sum_err. replace (g ^ S j * V ^ j * (C + 1) * (INR j * INR j) * h) with ((C + 1) * (INR j * INR j) * V ^ j * (g ^ S j * h)) by ring. rewrite <- (Rmult_1_r K). unfold K. rewrite S_INR in JD. assert (0 <= g ^ S j * h <= 1) by (split; [apply Rmult_le_pos; lra|]; replace 1 with (2 * / 2) by lra; apply Rmult_le_compat; lra). apply Rmult_le_compat; [|lra| |lra]. apply Rmult_le_pos; [apply Rmult_le_pos; nra|lra]. apply Rmult_le_compat; [apply Rmult_le_pos; nra|lra| |lra]. apply Rmult_le_compat_l; [lra|]. apply Rmult_le_compat; lra. }
  assert (RB : Rabs (number f r) <= 3 * K). { apply (near_size _ _ _ _ ER) in SB. assert ((g ^ S j - 1) * B <= 1 * K) by (apply Rmult_le_compat; lra). lra. }
  destruct (add_fin f r p I FR FM) as (FA & _ & EA); [eapply Rle_trans; [apply Rabs_triang|lra]|]. fold r' in FA, EA. fold u h in EM, EA. split; [exact FA|].
  pose proof (step_mul u h _ _ (number f v ^ S j) _ _ (Rlt_le _ _ U0) EM EF) as EP. rewrite (Rmult_comm (number f v ^ S j)) in EP. pose proof (step_add u _ _ _ s (number f c * number f v ^ S j) _ _ (Rlt_le _ _ U0) EA ER EP) as X.
  assert (SB' : Rabs s' <= B'). { unfold s', B'. eapply Rle_trans; [apply Rabs_triang|]. rewrite Rabs_mult, <- RPow_abs. lra. }
  split; [|split; [exact SB'|]].
  - eapply Rle_trans; [exact X|]. fold s'. fold g. rewrite Rabs_mult, <- RPow_abs. unfold fac_err. set (w := Rabs (number f v)) in *. set (cc := Rabs (number f c)) in *. unfold B' at 1. fold w cc. assert (u * Rabs s' <= u * (B + cc * w ^ S j)) by (apply Rmult_le_compat_l; [lra|exact SB']).
    assert (LHS : g * ((g ^ S j - 1) * B + sum_err j + (g * cc * ((g ^ j - 1) * w ^ S j + INR j * (g ^ j * V ^ j) * h) + u * (cc * w ^ S j) + h)) + u * (B + cc * w ^ S j) = (g ^ S (S j) - 1) * (B + cc * w ^ S j) + (g * sum_err j + g ^ S (S j) * V ^ j * cc * INR j * h + g * h)).
    { unfold g. cbn [pow]. ring. }
    assert (E1 : g * sum_err j <= g ^ S (S j) * V ^ S j * (C + 1) * (INR j * INR j) * h). { unfold sum_err. replace (g * (g ^ S j * V ^ j * (C + 1) * (INR j * INR j) * h)) with (g ^ S (S j) * V ^ j * ((C + 1) * (INR j * INR j) * h)) by (cbn [pow]; ring). replace (g ^ S (S j) * V ^ S j * (C + 1) * (INR j * INR j) * h) with (g ^ S (S j) * V ^ S j * ((C + 1) * (INR j * INR j) * h)) by ring. apply Rmult_le_compat_r; [apply Rmult_le_pos; [apply Rmult_le_pos; nra|lra]|]. apply Rmult_le_compat_l; lra. }
    assert (E2 : g ^ S (S j) * V ^ j * cc * INR j * h <= g ^ S (S j) * V ^ S j * (C + 1) * INR j * h). { apply Rmult_le_compat_r; [lra|]. apply Rmult_le_compat_r; [lra|]. apply Rmult_le_compat; [apply Rmult_le_pos; lra|exact CP| |lra]. apply Rmult_le_compat_l; lra. }
    assert (E3 : g * h <= g ^ S (S j) * V ^ S j * (C + 1) * 1 * h). { apply Rmult_le_compat_r; [lra|]. replace (g ^ S (S j) * V ^ S j * (C + 1) * 1) with (g * (g ^ S j * (V ^ S j * (C + 1)))) by (cbn [pow]; ring). rewrite <- (Rmult_1_r g) at 1. apply Rmult_le_compat_l; [lra|]. replace 1 with (1 * (1 * 1)) by ring. apply Rmult_le_compat; [lra|lra|lra|]. apply Rmult_le_compat; lra. }
    assert (E4 : 0 <= g ^ S (S j) * V ^ S j * (C + 1) * INR j * h) by (apply Rmult_le_pos; [apply Rmult_le_pos; [apply Rmult_le_pos; [apply Rmult_le_pos; lra|lra]|lra]|lra]).
    unfold sum_err at 2. rewrite (S_INR j). replace (g ^ S (S j) * V ^ S j * (C + 1) * ((INR j + 1) * (INR j + 1)) * h) with (g ^ S (S j) * V ^ S j * (C + 1) * (INR j * INR j) * h + 2 * (g ^ S (S j) * V ^ S j * (C + 1) * INR j * h) + g ^ S (S j) * V ^ S j * (C + 1) * 1 * h) by ring. lra.
  - unfold B'. rewrite (S_INR (S j)). replace ((INR (S j) + 1) * C * V ^ S j) with (INR (S j) * C * V ^ S j + C * V ^ S j) by ring. apply Rplus_le_compat; [eapply Rle_trans; [exact BB|]; apply Rmult_le_compat_l; [apply Rmult_le_pos; lra|exact VS]|apply Rmult_le_compat; lra].
Qed.
Lemma loop_error cs : forall j r F s B, (j + length cs <= D)%nat -> Forall (fun c => Fin f c /\ Rabs (number f c) <= C) cs -> Fin f r -> Rabs (number f r - s) <= (g ^ S j - 1) * B + sum_err j -> Rabs s <= B -> B <= INR (S j) * C * V ^ j ->
  (cs <> [] -> Fin f F /\ Rabs (number f F - number f v ^ S j) <= fac_err j) ->
  let x := f_poly_loop f v r F cs in
  Fin f x /\ Rabs (number f x - (s + powers (map (number f) cs) (number f v) (S j))) <= (g ^ S (j + length cs) - 1) * (B + powers (map (fun c => Rabs (number f c)) cs) (Rabs (number f v)) (S j)) + sum_err (j + length cs).
Proof.
  induction cs as [|c cs IH]; intros j r F s B L FC FR ER SB BB FF; cbn [f_poly_loop map powers length]; cbv zeta.
  - split; [exact FR|]. rewrite Nat.add_0_r, !Rplus_0_r. exact ER.
  - destruct (FF ltac:(discriminate)) as [FF0 EF]. cbn [length] in L. inversion FC as [|c_ cs_ [FC1 CB] FC2]; subst c_ cs_. destruct (sum_next r F c j s B ltac:(lia) FC1 CB FR ER SB BB FF0 EF) as (A1 & A2 & A3 & A4).
    destruct (IH (S j) _ (f_mul f F v) _ _ ltac:(lia) FC2 A1 A2 A3 A4) as [X1 X2]. { intros NE. destruct cs; [contradiction|]. apply fac_next; [cbn [length] in L; lia|exact FF0|exact EF]. }
    split; [exact X1|]. rewrite !Rplus_assoc in X2. replace (S j + length cs)%nat with (j + S (length cs))%nat in X2 by lia. exact X2.
Qed.
End Error.
