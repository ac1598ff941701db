(* Proofs about the text of floating point numbers in streams. *)
From Coq Require Import String Reals Lra.
From Verif Require Import Model.Base Model.StdString Model.Strings Model.Number Model.FloatText Model.Ieee Model.FloatStream Spec.Strings Spec.Decimal Spec.FloatText Spec.Ieee Spec.FloatStream Proofs.NumberProofs Proofs.FloatScanProofs Proofs.FloatTextProofs Proofs.IeeeProofs Proofs.IeeeErrorProofs.
Local Open Scope list_scope.
Local Open Scope R_scope.

(* powers of ten *)
Lemma p10_pos k : 0 < powerRZ 10 k. Proof. apply powerRZ_lt. lra. Qed.
Lemma p10_add a b : powerRZ 10 (a + b) = powerRZ 10 a * powerRZ 10 b. Proof. apply powerRZ_add. lra. Qed.
Lemma p10_Z k : (0 <= k)%Z -> powerRZ 10 k = IZR (10 ^ k).
Proof. intros K. destruct k as [|k|k]; [reflexivity| |lia]. rewrite <- (positive_nat_Z k), <- pow_IZR. symmetry. apply pow_powerRZ. Qed.
Lemma p10_succ k : powerRZ 10 (k + 1) = 10 * powerRZ 10 k. Proof. rewrite p10_add, powerRZ_1. ring. Qed.
Lemma p10_le a b : (a <= b)%Z -> powerRZ 10 a <= powerRZ 10 b.
Proof.
  intros L. replace b with (a + (b - a))%Z by lia. rewrite p10_add, (p10_Z (b - a)) by lia. pose proof (p10_pos a). assert (1 <= IZR (10 ^ (b - a))) by (apply IZR_le; pose proof (Z.pow_pos_nonneg 10 (b - a) ltac:(lia) ltac:(lia)); lia). nra.
Qed.
Lemma p10_lt_inv a b : powerRZ 10 a < powerRZ 10 b -> (a < b)%Z.
Proof. intros L. destruct (Z.lt_ge_cases a b) as [|G]; [assumption|]. pose proof (p10_le b a G). lra. Qed.
Lemma p10_decade a b r : powerRZ 10 a <= r < powerRZ 10 (a + 1) -> powerRZ 10 b <= r < powerRZ 10 (b + 1) -> a = b.
Proof. intros A B. assert (a < b + 1)%Z by (apply p10_lt_inv; lra). assert (b < a + 1)%Z by (apply p10_lt_inv; lra). lia. Qed.
Lemma p10_inv k : powerRZ 10 (- k) = / powerRZ 10 k.
Proof. assert (E : powerRZ 10 (- k) * powerRZ 10 k = 1) by (rewrite <- p10_add; replace (- k + k)%Z with 0%Z by lia; reflexivity). pose proof (p10_pos k). apply (Rmult_eq_reg_r (powerRZ 10 k)); [rewrite E; field|]; lra. Qed.
Lemma p10_frac k : powerRZ 10 k = IZR (10 ^ Z.max 0 k) / IZR (10 ^ Z.max 0 (- k)).
Proof.
  destruct (Z.le_gt_cases 0 k) as [L|L].
  - rewrite Z.max_r, (Z.max_l 0 (- k)) by lia. rewrite p10_Z by lia. rewrite Z.pow_0_r. field.
  - rewrite Z.max_l, (Z.max_r 0 (- k)) by lia. rewrite Z.pow_0_r, <- p10_Z by lia. rewrite p10_inv. pose proof (p10_pos k). field. lra.
Qed.
Lemma pow10_pos k : (0 <= k)%Z -> 0 < IZR (10 ^ k).
Proof. intros K. apply IZR_lt, Z.pow_pos_nonneg; lia. Qed.

(* whole numbers closest to a real *)
Definition Rnd (x : R) (m : Z) : Prop := Rabs (IZR m - x) <= / 2 /\ (Rabs (IZR m - x) = / 2 -> Z.Even m).
Lemma rnd_of a b m : (0 < b)%Z -> Rounds a b m -> Rnd (IZR a / IZR b) m.
Proof.
  intros B [H1 H2]. assert (BP : 0 < IZR b) by (apply IZR_lt; exact B).
  assert (E : Rabs (IZR m - IZR a / IZR b) = IZR (Z.abs (m * b - a)) / IZR b).
  { replace (IZR m - IZR a / IZR b) with (IZR (m * b - a) / IZR b) by (rewrite minus_IZR, mult_IZR; field; lra). unfold Rdiv. rewrite Rabs_mult, (Rabs_right (/ IZR b)) by (left; apply Rinv_0_lt_compat; exact BP). rewrite abs_IZR. reflexivity. }
  unfold Rnd. rewrite E. assert (X : IZR (Z.abs (m * b - a)) = IZR (2 * Z.abs (m * b - a)) / 2) by (rewrite mult_IZR; field). split.
  - apply (Rmult_le_reg_r (IZR b)); [exact BP|]. unfold Rdiv. rewrite Rmult_assoc, Rinv_l, Rmult_1_r by lra. apply IZR_le in H1. lra.
  - intros T. apply H2. apply eq_IZR. assert (Y : IZR (Z.abs (m * b - a)) = / 2 * IZR b) by (rewrite <- T; field; lra). lra.
Qed.
Lemma rnd_tie x m j : Rnd x m -> j <> m -> Rabs (IZR m - x) < Rabs (IZR j - x) \/ Rabs (IZR m - x) = Rabs (IZR j - x) /\ (j = m + 1 \/ j = m - 1)%Z /\ Z.Even m.
Proof.
  intros [H1 H2] N. assert (C : (j <= m - 2 \/ j = m - 1 \/ j = m + 1 \/ m + 2 <= j)%Z) by lia. destruct C as [C|[C|[C|C]]].
  - left. apply IZR_le in C. rewrite minus_IZR in C. unfold Rabs in *. destruct (Rcase_abs (IZR m - x)), (Rcase_abs (IZR j - x)); lra.
  - subst j. rewrite minus_IZR. destruct (Req_dec (Rabs (IZR m - x)) (/ 2)) as [E|E].
    + pose proof (H2 E) as EV. unfold Rabs in *. destruct (Rcase_abs (IZR m - x)), (Rcase_abs (IZR m - 1 - x)); try (left; lra); right; (split; [lra|auto]).
    + left. unfold Rabs in *. destruct (Rcase_abs (IZR m - x)), (Rcase_abs (IZR m - 1 - x)); lra.
  - subst j. rewrite plus_IZR. destruct (Req_dec (Rabs (IZR m - x)) (/ 2)) as [E|E].
    + pose proof (H2 E) as EV. unfold Rabs in *. destruct (Rcase_abs (IZR m - x)), (Rcase_abs (IZR m + 1 - x)); try (left; lra); right; (split; [lra|auto]).
    + left. unfold Rabs in *. destruct (Rcase_abs (IZR m - x)), (Rcase_abs (IZR m + 1 - x)); lra.
  - left. apply IZR_le in C. rewrite plus_IZR in C. unfold Rabs in *. destruct (Rcase_abs (IZR m - x)), (Rcase_abs (IZR j - x)); lra.
Qed.
Lemma rnd_fun x m j : Rnd x m -> Rnd x j -> m = j.
Proof.
  intros A B. destruct (Z.eq_dec m j) as [|N]; [assumption|exfalso]. destruct (rnd_tie x m j A ltac:(congruence)) as [L|[L [D [a EA]]]]; destruct (rnd_tie x j m B N) as [L'|[L' [D' [b EB]]]]; try lra. lia.
Qed.
Lemma rnd_range x m lo hi : Rnd x m -> IZR lo <= x <= IZR hi -> (lo <= m <= hi)%Z.
Proof.
  intros [H _] [L U]. split.
  - destruct (Z.le_gt_cases lo m) as [|G]; [assumption|exfalso]. assert (m + 1 <= lo)%Z as G' by lia. apply IZR_le in G'. rewrite plus_IZR in G'. unfold Rabs in H. destruct (Rcase_abs (IZR m - x)); lra.
  - destruct (Z.le_gt_cases m hi) as [|G]; [assumption|exfalso]. assert (hi + 1 <= m)%Z as G' by lia. apply IZR_le in G'. rewrite plus_IZR in G'. unfold Rabs in H. destruct (Rcase_abs (IZR m - x)); lra.
Qed.
Lemma rnd_close x m : Rabs (IZR m - x) < / 2 -> Rnd x m.
Proof. intros H. split; lra. Qed.
Lemma rnd_exists x : exists m, Rnd x m.
Proof.
  pose proof (archimed x) as [A1 A2]. set (u := up x) in *. destruct (Rlt_le_dec (IZR u - x) (/ 2)) as [L|L].
  - exists u. split; unfold Rabs; destruct (Rcase_abs (IZR u - x)); lra.
  - destruct (Req_dec (IZR u - x) (/ 2)) as [E|E].
    + destruct (Z.Even_or_Odd u) as [EV|OD]; [exists u|exists (u - 1)%Z]; (split; [rewrite ?minus_IZR; unfold Rabs; destruct (Rcase_abs _); lra|]); [auto|]. intros _. destruct OD as [q ->]. exists q. lia.
    + exists (u - 1)%Z. apply rnd_close. rewrite minus_IZR. unfold Rabs; destruct (Rcase_abs _); lra.
Qed.

(* the choice of digits and exponent *)
Definition Picks (P : nat) (r : R) (d X : Z) : Prop :=
  exists e m, powerRZ 10 e <= r < powerRZ 10 (e + 1) /\ Rnd (r * powerRZ 10 (Z.of_nat P - 1 - e)) m /\
    ((m < 10 ^ Z.of_nat P)%Z /\ d = m /\ X = e \/ m = (10 ^ Z.of_nat P)%Z /\ d = (10 ^ (Z.of_nat P - 1))%Z /\ X = (e + 1)%Z).
Lemma picks_fun P r d X d' X' : Picks P r d X -> Picks P r d' X' -> d = d' /\ X = X'.
Proof.
  intros (e & m & E & M & C) (e' & m' & E' & M' & C'). pose proof (p10_decade _ _ _ E E') as <-. pose proof (rnd_fun _ _ _ M M') as <-. destruct C as [C|C], C' as [C'|C']; intuition (subst; try reflexivity; try lia).
Qed.
Lemma decade_digits P e r : (1 <= P)%nat -> powerRZ 10 e <= r < powerRZ 10 (e + 1) ->
  IZR (10 ^ (Z.of_nat P - 1)) <= r * powerRZ 10 (Z.of_nat P - 1 - e) < IZR (10 ^ Z.of_nat P).
Proof.
  intros P1 [L U]. rewrite <- !p10_Z by lia. pose proof (p10_pos (Z.of_nat P - 1 - e)) as H.
  assert (A : powerRZ 10 (Z.of_nat P - 1) = powerRZ 10 e * powerRZ 10 (Z.of_nat P - 1 - e)) by (rewrite <- p10_add; f_equal; lia).
  assert (B : powerRZ 10 (Z.of_nat P) = powerRZ 10 (e + 1) * powerRZ 10 (Z.of_nat P - 1 - e)) by (rewrite <- p10_add; f_equal; lia).
  rewrite A, B. split; [apply Rmult_le_compat_r; lra|apply Rmult_lt_compat_r; lra].
Qed.
Lemma picks_digits P r d X : (1 <= P)%nat -> Picks P r d X -> digits P d.
Proof.
  intros P1 (e & m & E & M & C). unfold digits. pose proof (decade_digits P e r P1 E) as [L U]. pose proof (rnd_range _ _ _ _ M (conj L (Rlt_le _ _ U))) as R. destruct C as [(B & -> & _)|(B & -> & _)]; [lia|]. split; [lia|]. apply Z.pow_lt_mono_r; lia.
Qed.
Lemma picks_exists P r : (1 <= P)%nat -> (exists e, powerRZ 10 e <= r < powerRZ 10 (e + 1)) -> exists d X, Picks P r d X.
Proof.
  intros P1 (e & E). destruct (rnd_exists (r * powerRZ 10 (Z.of_nat P - 1 - e))) as [m M]. pose proof (decade_digits P e r P1 E) as [L U]. pose proof (rnd_range _ _ _ _ M (conj L (Rlt_le _ _ U))) as R.
  destruct (Z.eq_dec m (10 ^ Z.of_nat P)) as [Q|Q]; [exists (10 ^ (Z.of_nat P - 1))%Z, (e + 1)%Z|exists m, e]; exists e, m; (split; [exact E|split; [exact M|]]); [right; auto|left; split; [lia|auto]].
Qed.
(* the chosen number as a multiple of the last place of r *)
Lemma picks_value P d X e m : (1 <= P)%nat -> (m < 10 ^ Z.of_nat P)%Z /\ d = m /\ X = e \/ m = (10 ^ Z.of_nat P)%Z /\ d = (10 ^ (Z.of_nat P - 1))%Z /\ X = (e + 1)%Z ->
  scaled10 P d X = IZR m * powerRZ 10 (e - Z.of_nat P + 1).
Proof.
  intros P1 [(_ & -> & ->)|(-> & -> & ->)]; unfold scaled10; [reflexivity|]. rewrite <- !p10_Z by lia. rewrite <- !p10_add. f_equal. lia.
Qed.
Lemma last_place P e (r : R) : r = r * powerRZ 10 (Z.of_nat P - 1 - e) * powerRZ 10 (e - Z.of_nat P + 1).
Proof. rewrite Rmult_assoc, <- p10_add. replace (Z.of_nat P - 1 - e + (e - Z.of_nat P + 1))%Z with 0%Z by lia. cbn. ring. Qed.
Lemma picks_near P r d X : (1 <= P)%nat -> Picks P r d X -> NearDecimal P r d X.
Proof.
  intros P1 PK. split; [apply (picks_digits P r d X P1 PK)|]. destruct PK as (e & m & E & M & C). rewrite (picks_value P d X e m P1 C). clear C. set (y := r * powerRZ 10 (Z.of_nat P - 1 - e)) in *. set (u := powerRZ 10 (e - Z.of_nat P + 1)). assert (U : 0 < u) by apply p10_pos. assert (RY : r = y * u) by apply last_place.
  pose proof (decade_digits P e r P1 E) as [L _]. fold y in L. intros d' X' [D1 D2] N. destruct (Z.le_gt_cases e X') as [G|G].
  - assert (Q : scaled10 P d' X' = IZR (d' * 10 ^ (X' - e)) * u) by (unfold scaled10, u; rewrite mult_IZR, <- p10_Z by lia; rewrite Rmult_assoc, <- p10_add; do 2 f_equal; lia). rewrite Q in *. set (j := (d' * 10 ^ (X' - e))%Z) in *.
    assert (J : j <> m) by (intros ->; apply N; reflexivity). assert (A : forall i, Rabs (IZR i * u - r) = Rabs (IZR i - y) * u) by (intros i; rewrite RY, <- Rmult_minus_distr_r, Rabs_mult, (Rabs_right u) by lra; reflexivity). rewrite !A. destruct (rnd_tie y m j M J) as [T|(T & S1 & [t ->])]; [left; nra|]. right. split; [nra|].
    destruct S1 as [-> | ->]; [exists (- t)%Z|exists t]; rewrite ?opp_IZR, ?plus_IZR, ?minus_IZR, !mult_IZR; ring.
  - left. assert (B : scaled10 P d' X' < powerRZ 10 e).
    { unfold scaled10. apply Rlt_le_trans with (powerRZ 10 (Z.of_nat P) * powerRZ 10 (X' - Z.of_nat P + 1)); [apply Rmult_lt_compat_r; [apply p10_pos|]; rewrite p10_Z by lia; apply IZR_lt; exact D2|]. rewrite <- p10_add. apply p10_le. lia. }
    rewrite (Rabs_left (scaled10 P d' X' - r)) by lra. apply Rle_lt_trans with (r - powerRZ 10 e); [|lra].
    assert (W : powerRZ 10 e = IZR (10 ^ (Z.of_nat P - 1)) * u) by (rewrite <- p10_Z by lia; unfold u; rewrite <- p10_add; f_equal; lia).
    replace (IZR m * u - r) with ((IZR m - y) * u) by (rewrite RY; ring). rewrite Rabs_mult, (Rabs_right u) by lra. replace (r - powerRZ 10 e) with ((y - IZR (10 ^ (Z.of_nat P - 1))) * u) by (rewrite W, RY; ring). apply Rmult_le_compat_r; [lra|].
    set (t := (10 ^ (Z.of_nat P - 1))%Z) in *. destruct (Z.eq_dec t m) as [<-|NE]; [rewrite Rabs_left1; lra|]. replace (y - IZR t) with (Rabs (IZR t - y)) by (rewrite Rabs_left1; lra). destruct (rnd_tie y m t M NE) as [|[]]; lra.
Qed.
(* the same digits are chosen for everything close to them *)
Lemma round_back P v d X : (1 <= P)%nat -> digits P d -> Rabs (v - scaled10 P d X) < powerRZ 10 (X - Z.of_nat P + 1) / 2 ->
  (d = (10 ^ (Z.of_nat P - 1))%Z -> Rabs (v - scaled10 P d X) < powerRZ 10 (X - Z.of_nat P) / 2) -> Picks P v d X.
Proof.
  intros P1 [D1 D2] A B. unfold scaled10 in *. set (u := powerRZ 10 (X - Z.of_nat P + 1)) in *. assert (U : 0 < u) by apply p10_pos. assert (TX : powerRZ 10 X = IZR (10 ^ (Z.of_nat P - 1)) * u) by (rewrite <- p10_Z by lia; unfold u; rewrite <- p10_add; f_equal; lia).
  assert (TX1 : powerRZ 10 (X + 1) = IZR (10 ^ Z.of_nat P) * u) by (rewrite <- p10_Z by lia; unfold u; rewrite <- p10_add; f_equal; lia). apply Rabs_def2 in A. destruct (Rle_lt_dec (powerRZ 10 X) v) as [L|L].
  - assert (D3 : (d + 1 <= 10 ^ Z.of_nat P)%Z) by lia. apply IZR_le in D3. rewrite plus_IZR in D3. exists X, d. split; [split; [exact L|rewrite TX1; nra]|]. split; [|left; auto].
    apply rnd_close. pose proof (last_place P X v) as Y. fold u in Y. set (y := v * powerRZ 10 (Z.of_nat P - 1 - X)) in *. apply Rabs_def1; nra.
  - assert (DE : d = (10 ^ (Z.of_nat P - 1))%Z).
    { destruct (Z.eq_dec d (10 ^ (Z.of_nat P - 1))) as [|N]; [assumption|exfalso]. assert (D3 : (10 ^ (Z.of_nat P - 1) + 1 <= d)%Z) by lia. apply IZR_le in D3. rewrite plus_IZR in D3. nra. }
    specialize (B DE). rewrite DE in *. rewrite <- TX in *. set (w := powerRZ 10 (X - Z.of_nat P)) in *. assert (W : 0 < w) by apply p10_pos. assert (WX : powerRZ 10 X = IZR (10 ^ Z.of_nat P) * w) by (rewrite <- p10_Z by lia; unfold w; rewrite <- p10_add; f_equal; lia).
    assert (WX1 : powerRZ 10 (X - 1) = IZR (10 ^ (Z.of_nat P - 1)) * w) by (rewrite <- p10_Z by lia; unfold w; rewrite <- p10_add; f_equal; lia). apply Rabs_def2 in B. assert (TEN : powerRZ 10 X = 10 * powerRZ 10 (X - 1)) by (rewrite <- p10_succ; f_equal; lia).
    assert (ONE : 1 <= IZR (10 ^ (Z.of_nat P - 1))) by (apply IZR_le; pose proof (Z.pow_pos_nonneg 10 (Z.of_nat P - 1) ltac:(lia) ltac:(lia)); lia).
    exists (X - 1)%Z, (10 ^ Z.of_nat P)%Z. split; [split; [nra|replace (X - 1 + 1)%Z with X by lia; exact L]|]. split; [|right; repeat split; lia].
    apply rnd_close. pose proof (last_place P (X - 1) v) as Y. replace (X - 1 - Z.of_nat P + 1)%Z with (X - Z.of_nat P)%Z in Y by lia. fold w in Y. set (y := v * powerRZ 10 (Z.of_nat P - 1 - (X - 1))) in *. apply Rabs_def1; nra.
Qed.

(* the model makes that choice *)
Lemma pow10_le_spec e num den : (0 < den)%Z -> (pow10_le e num den = true <-> powerRZ 10 e <= IZR num / IZR den).
Proof.
  intros D. unfold pow10_le. rewrite Z.leb_le, p10_frac. pose proof (pow10_pos (Z.max 0 e) ltac:(lia)) as A. pose proof (pow10_pos (Z.max 0 (- e)) ltac:(lia)) as B. apply IZR_lt in D.
  set (a := (10 ^ Z.max 0 e)%Z) in *. set (b := (10 ^ Z.max 0 (- e))%Z) in *. split; intros H.
  - apply IZR_le in H. rewrite !mult_IZR in H. apply (Rmult_le_reg_r (IZR b * IZR den)); [nra|]. replace (IZR a / IZR b * (IZR b * IZR den)) with (IZR den * IZR a) by (field; lra). replace (IZR num / IZR den * (IZR b * IZR den)) with (IZR num * IZR b) by (field; lra). exact H.
  - apply le_IZR. rewrite !mult_IZR. apply (Rmult_le_compat_r (IZR b * IZR den)) in H; [|nra]. replace (IZR a / IZR b * (IZR b * IZR den)) with (IZR den * IZR a) in H by (field; lra). replace (IZR num / IZR den * (IZR b * IZR den)) with (IZR num * IZR b) in H by (field; lra). exact H.
Qed.
Lemma exp_up_spec num den : (0 < den)%Z -> forall fuel e, powerRZ 10 e <= IZR num / IZR den < powerRZ 10 (e + Z.of_nat fuel + 1) ->
  powerRZ 10 (exp_up fuel e num den) <= IZR num / IZR den < powerRZ 10 (exp_up fuel e num den + 1).
Proof.
  intros D. induction fuel as [|k IH]; intros e H; cbn [exp_up]; [replace (e + Z.of_nat 0 + 1)%Z with (e + 1)%Z in H by lia; exact H|]. destruct (pow10_le (e + 1) num den) eqn:L.
  - apply (pow10_le_spec _ num den D) in L. apply IH. replace (e + 1 + Z.of_nat k + 1)%Z with (e + Z.of_nat (S k) + 1)%Z by lia. lra.
  - split; [lra|]. apply Rnot_le_lt. intros N. apply (pow10_le_spec _ num den D) in N. congruence.
Qed.
Lemma exp_down_spec num den : (0 < den)%Z -> forall fuel e, powerRZ 10 (e - Z.of_nat fuel) <= IZR num / IZR den < powerRZ 10 (e + 1) ->
  powerRZ 10 (exp_down fuel e num den) <= IZR num / IZR den < powerRZ 10 (exp_down fuel e num den + 1).
Proof.
  intros D. induction fuel as [|k IH]; intros e H; cbn [exp_down]; [replace (e - Z.of_nat 0)%Z with e in H by lia; exact H|]. destruct (pow10_le e num den) eqn:L.
  - apply (pow10_le_spec e num den D) in L. lra.
  - apply IH. replace (e - 1 - Z.of_nat k)%Z with (e - Z.of_nat (S k))%Z by lia. split; [lra|]. replace (e - 1 + 1)%Z with e by lia. apply Rnot_le_lt. intros N. apply (pow10_le_spec e num den D) in N. congruence.
Qed.
Lemma dec_exp_spec num den : (0 < den)%Z -> powerRZ 10 (-400) <= IZR num / IZR den < powerRZ 10 401 -> powerRZ 10 (dec_exp num den) <= IZR num / IZR den < powerRZ 10 (dec_exp num den + 1).
Proof.
  intros D H. unfold dec_exp. destruct (pow10_le 0 num den) eqn:L.
  - apply (pow10_le_spec 0 num den D) in L. apply (exp_up_spec num den D 400 0). split; [exact L|]. change (0 + Z.of_nat 400 + 1)%Z with 401%Z. lra.
  - assert (B : IZR num / IZR den < powerRZ 10 0) by (apply Rnot_le_lt; intros N; apply (pow10_le_spec 0 num den D) in N; congruence). apply (exp_down_spec num den D 400 0). change (0 - Z.of_nat 400)%Z with (-400)%Z. split; [lra|]. apply Rlt_le_trans with (1 := B). apply p10_le. lia.
Qed.
Lemma dec_round_picks P num den : (1 <= P)%nat -> (0 < den)%Z -> powerRZ 10 (-400) <= IZR num / IZR den < powerRZ 10 401 ->
  Picks P (IZR num / IZR den) (fst (dec_round P num den)) (snd (dec_round P num den)).
Proof.
  intros P1 D H. unfold dec_round. pose proof (dec_exp_spec num den D H) as E. set (e := dec_exp num den) in *. set (k := (Z.of_nat P - 1 - e)%Z).
  assert (B : (0 < den * 10 ^ Z.max 0 (- k))%Z) by (apply Z.mul_pos_pos; [exact D|apply Z.pow_pos_nonneg; lia]).
  pose proof (rnd_of _ _ _ B (rhe_rounds (num * 10 ^ Z.max 0 k) _ B)) as M. set (m := rhe (num * 10 ^ Z.max 0 k) (den * 10 ^ Z.max 0 (- k))) in *.
  replace (IZR (num * 10 ^ Z.max 0 k) / IZR (den * 10 ^ Z.max 0 (- k))) with (IZR num / IZR den * powerRZ 10 k) in M.
  2: { rewrite p10_frac, !mult_IZR. pose proof (pow10_pos (Z.max 0 (- k)) ltac:(lia)). apply IZR_lt in D. field. lra. }
  pose proof (decade_digits P e _ P1 E) as [L U]. fold k in L, U. pose proof (rnd_range _ _ _ _ M (conj L (Rlt_le _ _ U))) as R. exists e, m.
  destruct (10 ^ Z.of_nat P <=? m)%Z eqn:C; [apply Z.leb_le in C|apply Z.leb_gt in C]; cbn [fst snd]; (split; [exact E|split; [exact M|]]); [right; split; [lia|auto]|left; auto].
Qed.
Lemma ieee_range f n : IEEE f -> Finite f n -> (0 < n)%Z -> powerRZ 10 (-400) <= IZR n / IZR (2 ^ fm_low f) < powerRZ 10 401.
Proof.
  intros I [_ F] N. pose proof (ieee_sane f I) as W. pose proof (unit_scale f W) as U. split.
  - rewrite p10_frac. change (10 ^ Z.max 0 (-400))%Z with 1%Z. change (Z.max 0 (- -400))%Z with 400%Z. assert (A : (2 ^ fm_low f <= 10 ^ 400)%Z) by (destruct I as [->| ->]; vm_compute; discriminate). apply IZR_le in A.
    pose proof (pow10_pos 400 ltac:(lia)). assert (1 <= n)%Z as N1 by lia. apply IZR_le in N1. apply Rle_trans with (1 / IZR (2 ^ fm_low f)); unfold Rdiv; [rewrite !Rmult_1_l; apply Rinv_le_contravar; assumption|]. apply Rmult_le_compat_r; [left; apply Rinv_0_lt_compat; exact U|exact N1].
  - apply (val_top f n W) in F. unfold unit_of in F. assert (A : (2 ^ fm_top f <= 10 ^ 401)%Z) by (destruct I as [->| ->]; vm_compute; discriminate). apply IZR_le in A. rewrite p10_Z by lia. unfold Rdiv. lra.
Qed.
Lemma val_frac f n : val f false n = IZR n / IZR (2 ^ fm_low f). Proof. reflexivity. Qed.

(* the text *)
Lemma strip_zeros_spec s : exists z, s = strip_zeros s ++ z /\ Zeros z /\ (strip_zeros s = [] \/ exists a c, strip_zeros s = a ++ [c] /\ c <> "0"%char).
Proof.
  induction s as [|c s (z & E & Z1 & C)]; cbn [strip_zeros]; [exists []; repeat split; [constructor|left; reflexivity]|]. destruct (strip_zeros s) as [|x r] eqn:R.
  - destruct (Ascii.eqb c "0") eqn:Q; [apply Ascii.eqb_eq in Q as ->|apply Ascii.eqb_neq in Q].
    + exists ("0"%char :: z). cbn in *. subst s. repeat split; [constructor; [reflexivity|exact Z1]|left; reflexivity].
    + exists z. cbn in *. subst s. repeat split; [exact Z1|right; exists [], c; auto].
  - exists z. cbn [app] in *. split; [f_equal; exact E|]. split; [exact Z1|right]. destruct C as [C|(a & y & C & N)]; [discriminate|]. exists (c :: a), y. split; [cbn; f_equal; exact C|exact N].
Qed.
Lemma fraction_decimals s : Decimals s (fraction s).
Proof.
  unfold fraction. destruct (strip_zeros_spec s) as (z & E & Z1 & C). destruct (strip_zeros s) as [|x r] eqn:R.
  - cbn in E. subst z. constructor. exact Z1.
  - destruct C as [C|(a & c & C & N)]; [discriminate|]. rewrite E, C. rewrite <- app_assoc. cbn [app]. constructor; assumption.
Qed.
Lemma exp_text_exponent X : (Z.abs X < 1000)%Z -> Exponent X (exp_text X).
Proof.
  intros H. unfold exp_text. destruct (Z.abs X <? 100)%Z eqn:B; [apply Z.ltb_lt in B|apply Z.ltb_ge in B].
  - destruct (last_digits_spec 2 (Z.abs X)) as (L & F & V); [cbn; lia|]. constructor; [exact F|exact V|left; exact L].
  - destruct (last_digits_spec 3 (Z.abs X)) as (L & F & V); [cbn; lia|]. constructor; [exact F|exact V|right]. rewrite L. split; [lia|]. destruct (last_digits 3 (Z.abs X)) as [|a [|b [|c [|? ?]]]]; try discriminate. cbn [nth]. intros ->.
    inversion F as [|? ? _ F1]; subst. inversion F1 as [|? ? F2 F3]; subst. inversion F3 as [|? ? F4 _]; subst. unfold IsDigit in F2, F4. cbn [digits_value List.length] in V. change (dval "0") with 0%Z in V. change (10 ^ Z.of_nat 1)%Z with 10%Z in V. change (10 ^ Z.of_nat 0)%Z with 1%Z in V. lia.
Qed.
Lemma zeros_repeat n : Zeros (repeat "0"%char n). Proof. induction n; constructor; auto. Qed.
Definition body (P : nat) (d X : Z) : str :=
  let ds := last_digits P d in
  if ((-4 <=? X) && (X <? Z.of_nat P))%Z then
    if (0 <=? X)%Z then firstn (Z.to_nat (X + 1)) ds ++ fraction (skipn (Z.to_nat (X + 1)) ds)
    else "0"%char :: fraction (repeat "0"%char (Z.to_nat (- X - 1)) ++ ds)
  else firstn 1 ds ++ fraction (skipn 1 ds) ++ exp_text X.
Lemma body_general P d X : (1 <= P)%nat -> digits P d -> (Z.abs X < 1000)%Z -> General P d X (body P d X).
Proof.
  intros P1 [D1 D2] XB. assert (D0 : (0 <= d)%Z) by (pose proof (Z.pow_nonneg 10 (Z.of_nat P - 1) ltac:(lia)); lia). destruct (last_digits_spec P d (conj D0 D2)) as (L & F & V). unfold body. set (ds := last_digits P d) in *.
  destruct ((-4 <=? X) && (X <? Z.of_nat P))%Z eqn:C.
  - apply andb_true_iff in C as [C1 C2]. apply Z.leb_le in C1. apply Z.ltb_lt in C2. destruct (0 <=? X)%Z eqn:C3; [apply Z.leb_le in C3|apply Z.leb_gt in C3].
    + apply (Gen_whole P d X _ (skipn (Z.to_nat (X + 1)) ds)); rewrite ?firstn_skipn; auto; [rewrite firstn_length, L; lia|apply fraction_decimals].
    + apply (Gen_small P d X ds (repeat "0"%char (Z.to_nat (- X - 1)))); auto; [apply zeros_repeat|rewrite repeat_length; lia|apply fraction_decimals].
  - assert (C' : (X < -4 \/ Z.of_nat P <= X)%Z) by (apply andb_false_iff in C as [C|C]; [apply Z.leb_gt in C|apply Z.ltb_ge in C]; lia). destruct ds as [|c fp]; [cbn in L; lia|]. cbn [firstn skipn app]. apply (Gen_exp P d X c fp); auto; [apply fraction_decimals|apply exp_text_exponent, XB].
Qed.
Lemma general_body P num den : (num <> 0)%Z -> general P num den = body P (fst (dec_round P num den)) (snd (dec_round P num den)).
Proof. intros N. unfold general. rewrite (proj2 (Z.eqb_neq _ _) N). destruct (dec_round P num den). reflexivity. Qed.
Lemma picks_exponent P r d X : powerRZ 10 (-400) <= r < powerRZ 10 401 -> Picks P r d X -> (Z.abs X < 1000)%Z.
Proof.
  intros [L U] (e & m & [E1 E2] & _ & C). assert (-400 < e + 1)%Z by (apply p10_lt_inv; lra). assert (e < 401)%Z by (apply p10_lt_inv; lra). destruct C as [(_ & _ & ->)|(_ & _ & ->)]; lia.
Qed.
(* what is written for n > 0 *)
Lemma put_spec f P n : IEEE f -> (1 <= P)%nat -> Finite f n -> (0 < n)%Z -> exists d X,
  Picks P (val f false n) d X /\ General P d X (general P n (2 ^ fm_low f)) /\ general P n (2 ^ fm_low f) = body P d X.
Proof.
  intros I P1 F N. pose proof (ieee_range f n I F N) as R. assert (D : (0 < 2 ^ fm_low f)%Z) by (apply pow_pos_; destruct I as [->| ->]; cbn; lia). pose proof (dec_round_picks P n (2 ^ fm_low f) P1 D R) as PK. rewrite <- val_frac in PK, R.
  exists (fst (dec_round P n (2 ^ fm_low f))), (snd (dec_round P n (2 ^ fm_low f))). split; [exact PK|]. rewrite general_body by lia. split; [|reflexivity]. apply body_general; [exact P1|apply (picks_digits _ _ _ _ P1 PK)|apply (picks_exponent _ _ _ _ R PK)].
Qed.

(* the text as a numeral *)
Lemma zeros_digits z : Zeros z -> Forall IsDigit z.
Proof. intros H. eapply Forall_impl; [|exact H]. intros c <-. vm_compute. split; discriminate. Qed.
Lemma zeros_value z : Zeros z -> digits_value z = 0%Z.
Proof. induction 1 as [|c z <- H IH]; [reflexivity|]. cbn [digits_value]. rewrite IH. reflexivity. Qed.
Lemma decimals_mant ip fp s : ip <> [] -> Forall IsDigit (ip ++ fp) -> Decimals fp s ->
  exists fp', Mant IsDigit (ip ++ s) ip fp' /\ exists z, fp = fp' ++ z /\ Zeros z.
Proof.
  intros N F D. apply Forall_app in F as [F1 F2]. destruct D as [z Z1|a c z C Z1].
  - exists []. rewrite app_nil_r. split; [apply Mant_int; assumption|]. exists z. auto.
  - exists (a ++ [c]). apply Forall_app in F2 as [F2 F3]. inversion F3; subst. split; [|exists z; split; [rewrite <- app_assoc; reflexivity|exact Z1]].
    apply (Mant_frac IsDigit ip (a ++ [c])); [exact F1|apply Forall_app; auto|destruct ip; [congruence|discriminate]].
Qed.
Lemma power_value d e : exists num den, power 10 d e = VNum num den /\ (0 < den)%Z /\ IZR num / IZR den = IZR d * powerRZ 10 e.
Proof.
  unfold power. eexists _, _. split; [reflexivity|]. split; [apply Z.pow_pos_nonneg; lia|]. rewrite mult_IZR, p10_frac. unfold Rdiv. ring.
Qed.
Lemma trimmed_value ip fp' z e : Zeros z -> IZR (digits_value (ip ++ fp')) * powerRZ 10 (e - Z.of_nat (List.length fp')) = IZR (digits_value (ip ++ fp' ++ z)) * powerRZ 10 (e - Z.of_nat (List.length (fp' ++ z))).
Proof.
  intros Z1. rewrite app_assoc, (digits_value_app (ip ++ fp') z), (zeros_value z Z1), Z.add_0_r, mult_IZR, <- p10_Z, Rmult_assoc, <- p10_add by lia. rewrite app_length, Nat2Z.inj_add. do 2 f_equal. lia.
Qed.
Lemma exponent_expo X x : Exponent X x -> Expo (Letter "e") x X.
Proof.
  intros [X' ds F V L]. assert (N : ds <> []) by (intros ->; cbn in L; lia). destruct (Z.ltb_spec X' 0).
  - apply Expo_some; [left; reflexivity|]. replace X' with (- digits_value ds)%Z by lia. constructor; assumption.
  - apply Expo_some; [left; reflexivity|]. replace X' with (digits_value ds)%Z by lia. constructor; assumption.
Qed.
Lemma general_form P d X s : (1 <= P)%nat -> General P d X s -> exists num den, Form s (VNum num den) /\ (0 < den)%Z /\ IZR num / IZR den = scaled10 P d X.
Proof.
  intros P1 G.
  assert (K : forall ip fp s x z, ip <> [] -> Forall IsDigit (ip ++ fp) -> Decimals fp s -> Expo (Letter "e") x z -> exists num den, Form ((ip ++ s) ++ x) (VNum num den) /\ (0 < den)%Z /\ IZR num / IZR den = IZR (digits_value (ip ++ fp)) * powerRZ 10 (z - Z.of_nat (List.length fp))).
  { clear. intros ip fp s x z N F D E. destruct (decimals_mant ip fp s N F D) as (fp' & M & y & -> & Y). rewrite <- (trimmed_value ip fp' y z Y). destruct (power_value (digits_value (ip ++ fp')) (z - Z.of_nat (List.length fp'))) as (num & den & PW & Q & V). exists num, den. split; [|split; assumption]. rewrite <- PW. apply F_dec; assumption. }
  unfold scaled10. destruct G as [ip fp s XB F L V LI D|ds z s XB F L V Z1 LZ D|c fp s x XB F L V D E].
  - destruct (K ip fp s [] 0%Z) as (num & den & A & B & C); [intros ->; cbn in LI; lia|exact F|exact D|constructor|]. rewrite app_nil_r in A. exists num, den. split; [exact A|]. split; [exact B|]. rewrite C, V. do 2 f_equal. rewrite app_length in L. lia.
  - destruct (K ["0"%char] (z ++ ds) s [] 0%Z) as (num & den & A & B & C); [discriminate|constructor; [vm_compute; split; discriminate|apply Forall_app; split; [apply zeros_digits, Z1|exact F]]|exact D|constructor|]. rewrite app_nil_r in A. exists num, den. split; [exact A|]. split; [exact B|]. rewrite C. f_equal.
    + f_equal. cbn [app digits_value]. change (dval "0") with 0%Z. rewrite digits_value_app, (zeros_value z Z1). lia.
    + f_equal. rewrite app_length. lia.
  - destruct (K [c] fp s x X) as (num & den & A & B & C); [discriminate|exact F|exact D|apply exponent_expo, E|]. exists num, den. split; [exact A|]. split; [exact B|]. rewrite C. cbn [app]. rewrite V. do 2 f_equal. cbn in L. lia.
Qed.

(* reading *)
Lemma letter_black d c : small d -> Letter d c -> ~ White c.
Proof. intros S1 L. assert (N : (65 <= nat_of_ascii c)%nat) by (unfold small in S1; destruct L as [->|L]; lia). intros [->|W]; [cbn in N; lia|lia]. Qed.
Lemma word_black w s : Forall small w -> Word w s -> Forall (fun c => ~ White c) s.
Proof. intros F W. induction W as [|d c w s L W IH]; [constructor|]. inversion F; subst. constructor; [eapply letter_black; eassumption|apply IH; assumption]. Qed.
Lemma hex_black c : IsHex c -> ~ White c.
Proof. intros [v [H|H]]; do 16 (destruct v as [|v]; [cbn in H; injection H as <-; intros [W|W]; [discriminate|cbn in W; lia]|]); cbn in H; destruct v; discriminate. Qed.
Lemma mant_black (D : ascii -> Prop) m ip fp : (forall c, D c -> ~ White c) -> Mant D m ip fp -> Forall (fun c => ~ White c) m.
Proof.
  intros H [ip' F N|ip' fp' F F' N]; [eapply Forall_impl; eassumption|]. apply Forall_app. split; [eapply Forall_impl; eassumption|]. constructor; [intros [W|W]; [discriminate|cbn in W; lia]|eapply Forall_impl; eassumption].
Qed.
Lemma expo_black l x z : small l -> Expo (Letter l) x z -> Forall (fun c => ~ White c) x.
Proof.
  intros S1 [|c n z' L [ds N F|ds N F|ds N F]]; [constructor| | | ]; (constructor; [eapply letter_black; eassumption|]); try (constructor; [intros [W|W]; [discriminate|cbn in W; lia]|]); (eapply Forall_impl; [|exact F]; intros; apply digit_not_white; assumption).
Qed.
Lemma form_black b v : Form b v -> Forall (fun c => ~ White c) b.
Proof.
  destruct words_small as (S1 & S2 & S3). intros [m ip fp x z M X|p m ip fp h x z P M H X|w W|w W|w W|w a W A].
  - apply Forall_app. split; [apply (mant_black _ _ _ _ digit_not_white M)|apply (expo_black _ _ _ small_e X)].
  - apply Forall_app. split; [constructor; [intros [W|W]; [discriminate|cbn in W; lia]|constructor]|]. apply Forall_app. split; [constructor; [apply (letter_black _ _ small_x P)|constructor]|]. apply Forall_app. split; [apply (mant_black _ _ _ _ hex_black M)|apply (expo_black _ _ _ small_p X)].
  - apply (word_black _ _ S1 W).
  - apply (word_black _ _ S2 W).
  - apply (word_black _ _ S3 W).
  - apply Forall_app. split; [apply (word_black _ _ S3 W)|]. constructor; [intros [Q|Q]; [discriminate|cbn in Q; lia]|]. apply Forall_app. split; [|constructor; [intros [Q|Q]; [discriminate|cbn in Q; lia]|constructor]]. eapply Forall_impl; [|exact A]. intros c B [->|Q]; unfold Alnum in B; [cbn in B; intuition (try lia; try discriminate)|]. destruct B as [B|[B|[B| ->]]]; cbn in *; lia.
Qed.
Lemma form_number b v t : Form b v -> Apart t -> number (b ++ t) = Some (v, t).
Proof.
  intros F A. destruct (number_max b v t F) as (v' & r & E & [L|[-> ->]]); [exfalso|exact E]. destruct (number_sound _ _ _ E) as (b' & Q & F'). destruct t as [|c t]; [cbn in L; lia|]. cbn in A.
  assert (IN : In c b').
  { pose proof (f_equal (fun l => nth_error l (List.length b)) Q) as N. cbn beta in N. rewrite nth_error_app2, Nat.sub_diag in N by lia. cbn in N. assert (LB : (List.length b < List.length b')%nat) by (pose proof (f_equal (@List.length ascii) Q) as LL; rewrite !app_length in LL; lia).
    rewrite nth_error_app1 in N by exact LB. symmetry in N. apply nth_error_In in N. exact N. }
  pose proof (form_black b' v' F') as B. rewrite Forall_forall in B. apply (B c IN A).
Qed.
Lemma form_begins b v neg t : Form b v -> Apart t -> parse (minus neg ++ b ++ t) = (neg, Some (v, t)).
Proof.
  intros F A. pose proof (form_number b v t F A) as N. destruct (form_head b v F) as (c & u & -> & W & M & Q). unfold parse. destruct neg; cbn [minus app] in *.
  - rewrite skip_ws_head by (intros [X|X]; [discriminate|cbn in X; lia]). cbn [take_sign]. change (Ascii.eqb "-" "-") with true. cbv iota. rewrite N. reflexivity.
  - rewrite skip_ws_head by exact W. cbn [take_sign]. rewrite (proj2 (Ascii.eqb_neq _ _) M), (proj2 (Ascii.eqb_neq _ _) Q). rewrite N. reflexivity.
Qed.
Lemma strtod_parse f under s : strtod f under s = let '(neg, o) := parse s in match o with Some (v, r) => Some (to_fnum f neg v, erange f under v, r) | None => None end.
Proof. unfold strtod, parse. destruct (take_sign (skip_ws s)). reflexivity. Qed.
Lemma scaled10_pos P d X : (1 <= P)%nat -> digits P d -> 0 < scaled10 P d X.
Proof. intros P1 [D _]. pose proof (Z.pow_pos_nonneg 10 (Z.of_nat P - 1) ltac:(lia) ltac:(lia)). apply Rmult_lt_0_compat; [apply IZR_lt; lia|apply p10_pos]. Qed.
Lemma general_read f under P d X s neg t : IEEE f -> (1 <= P)%nat -> digits P d -> General P d X s -> Apart t -> exists x e,
  strtod f under (minus neg ++ s ++ t) = Some (x, e, t) /\ Correct f (sided neg (scaled10 P d X)) x /\
  (e = true -> x = FInf neg \/ scaled10 P d X < IZR (2 ^ (fm_prec f - 1)) * unit_of f /\ exists a b, under a b = true) /\ (x = FInf neg -> e = true).
Proof.
  intros I P1 D G A. pose proof (ieee_sane f I) as W. destruct (general_form P d X s P1 G) as (num & den & F & Q & V). pose proof (scaled10_pos P d X P1 D) as DP. assert (QR : 0 < IZR den) by (apply IZR_lt, Q).
  assert (NP : (0 < num)%Z) by (apply lt_IZR; replace (IZR num) with (IZR num / IZR den * IZR den) by (field; lra); rewrite V; nra). exists (to_fnum f neg (VNum num den)), (erange f under (VNum num den)). split; [rewrite strtod_parse, (form_begins s (VNum num den) neg t F A); reflexivity|]. split.
  - pose proof (round_correct f neg num den W ltac:(lia) Q) as C. replace (sided neg (scaled10 P d X)) with ((if neg then - IZR num else IZR num) / IZR den); [exact C|]. unfold sided. destruct neg; rewrite <- V; unfold Rdiv; ring.
  - cbn [erange to_fnum]. destruct (2 ^ (fm_top f + fm_low f) <=? round_units f num den)%Z; [split; [left; reflexivity|reflexivity]|]. cbn [orb]. split; [|discriminate]. intros H. right. apply andb_true_iff in H as [H U]. apply andb_true_iff in H as [_ H]. split; [|eauto]. apply Z.ltb_lt in H. apply IZR_lt in H. rewrite !mult_IZR in H. rewrite <- V. unfold unit_of. pose proof (unit_scale f W).
    apply (Rmult_lt_reg_r (IZR den * IZR (2 ^ fm_low f))); [nra|]. replace (IZR num / IZR den * (IZR den * IZR (2 ^ fm_low f))) with (IZR num * IZR (2 ^ fm_low f)) by (field; lra). replace (IZR (2 ^ (fm_prec f - 1)) * / IZR (2 ^ fm_low f) * (IZR den * IZR (2 ^ fm_low f))) with (IZR den * IZR (2 ^ (fm_prec f - 1))) by (field; lra). exact H.
Qed.
Lemma zero_read f under neg t : IEEE f -> Apart t -> strtod f under (minus neg ++ lit "0" ++ t) = Some (FFin neg 0, false, t).
Proof.
  intros I A. assert (F : Form (lit "0") (VNum 0 1)).
  { apply (F_dec (lit "0") (lit "0") [] [] 0); [apply Mant_int; [constructor; [vm_compute; split; discriminate|constructor]|discriminate]|constructor]. }
  rewrite strtod_parse, (form_begins (lit "0") (VNum 0 1) neg t F A). cbn [to_fnum erange]. replace (round_units f 0 1) with 0%Z; [|unfold round_units; cbn [Z.mul]; rewrite Z.div_0_l by lia; cbn [Z.log2]; destruct I as [->| ->]; reflexivity].
  assert (T : (0 < 2 ^ (fm_top f + fm_low f))%Z) by (apply pow_pos_; destruct I as [->| ->]; cbn; lia). rewrite (proj2 (Z.leb_gt _ _) T). reflexivity.
Qed.

(* distances of the numbers of a format *)
Lemma rep_gap f n n' : Sane f -> Rep f n -> Rep f n' -> n <> n' -> (n <= 2 ^ fm_prec f * Z.abs (n - n'))%Z.
Proof.
  intros [W1 W2] (m & e & E & M & ->) (m' & e' & E' & M' & ->) N. pose proof (pow_pos_ (fm_prec f) ltac:(lia)) as PP. set (q := (2 ^ fm_prec f)%Z) in *. destruct (Z.le_gt_cases e e') as [L|L].
  - replace e' with (e + (e' - e))%Z in * by lia. rewrite Z.pow_add_r in * by lia. pose proof (pow_pos_ e E) as PE. set (a := (2 ^ e)%Z) in *. set (b := (2 ^ (e' - e))%Z) in *. replace (m * a - m' * (a * b))%Z with ((m - m' * b) * a)%Z in * by ring. assert (m - m' * b <> 0)%Z by (intros Z0; apply N; replace m with (m' * b)%Z by lia; ring). rewrite Z.abs_mul, (Z.abs_eq a) by lia. assert (1 <= Z.abs (m - m' * b))%Z by lia. assert (m * a <= q * a)%Z by nia. assert (q * a <= q * (Z.abs (m - m' * b) * a))%Z by nia. lia.
  - replace e with (e' + (e - e'))%Z in * by lia. rewrite Z.pow_add_r in * by lia. pose proof (pow_pos_ e' E') as PE. set (a := (2 ^ e')%Z) in *. set (b := (2 ^ (e - e'))%Z) in *. assert (K : (a <= Z.abs (m * (a * b) - m' * a))%Z).
    { replace (m * (a * b) - m' * a)%Z with ((m * b - m') * a)%Z by ring. assert (m * b - m' <> 0)%Z by (intros Z0; apply N; replace m' with (m * b)%Z by lia; ring). rewrite Z.abs_mul, (Z.abs_eq a) by lia. assert (1 <= Z.abs (m * b - m'))%Z by lia. nia. }
    set (n := (m * (a * b))%Z) in *. assert (m' * a <= (q - 1) * a)%Z by nia. destruct (Z.le_gt_cases n (m' * a)); nia.
Qed.
Lemma grid_gap_rel f n g : Sane f -> Rep f n -> Grid f g -> g <> val f false n -> val f false n <= IZR (2 ^ fm_prec f) * Rabs (g - val f false n).
Proof.
  intros W R (s & n' & R' & ->) N. pose proof (unit_pos f W) as U. pose proof (rep_nonneg f n R) as P. pose proof (rep_nonneg f n' R') as P'. pose proof (pow_scale f W) as Q.
  assert (Q1 : 1 <= IZR (2 ^ fm_prec f)) by (apply IZR_le; apply lt_IZR in Q; lia). unfold val in *. destruct s.
  - apply IZR_le in P, P'. rewrite (Rabs_left1 (- IZR n' * unit_of f - IZR n * unit_of f)) by nra. assert (0 <= IZR n * unit_of f) by nra. assert (0 <= IZR n' * unit_of f) by nra. nra.
  - assert (NN : n <> n') by congruence. pose proof (rep_gap f n n' W R R' NN) as G. apply IZR_le in G. rewrite mult_IZR, abs_IZR, minus_IZR in G. rewrite <- Rmult_minus_distr_r, Rabs_mult, (Rabs_right (unit_of f)), (Rabs_minus_sym (IZR n') (IZR n)) by lra. nra.
Qed.
(* the distance of the text to the number *)
Lemma picks_error P r d X : (1 <= P)%nat -> Picks P r d X -> Rabs (scaled10 P d X - r) <= powerRZ 10 (X - Z.of_nat P + 1) / 2 /\ Rabs (scaled10 P d X - r) * IZR (2 * 10 ^ (Z.of_nat P - 1)) <= r.
Proof.
  intros P1 (e & m & E & M & C). rewrite (picks_value P d X e m P1 C). pose proof (last_place P e r) as Y. set (y := r * powerRZ 10 (Z.of_nat P - 1 - e)) in *. set (u := powerRZ 10 (e - Z.of_nat P + 1)) in *. assert (U : 0 < u) by apply p10_pos.
  destruct M as [M _]. assert (A : Rabs (IZR m * u - r) <= u / 2) by (rewrite Y, <- Rmult_minus_distr_r, Rabs_mult, (Rabs_right u) by lra; nra). split.
  - apply Rle_trans with (1 := A). assert (u <= powerRZ 10 (X - Z.of_nat P + 1)) by (apply p10_le; destruct C as [(_ & _ & ->)|(_ & _ & ->)]; lia). lra.
  - assert (T : powerRZ 10 e = IZR (10 ^ (Z.of_nat P - 1)) * u) by (rewrite <- p10_Z by lia; unfold u; rewrite <- p10_add; f_equal; lia). rewrite mult_IZR. pose proof (pow10_pos (Z.of_nat P - 1) ltac:(lia)). set (t := IZR (10 ^ (Z.of_nat P - 1))) in *. apply Rle_trans with (u / 2 * (2 * t)); [apply Rmult_le_compat_r; lra|]. lra.
Qed.
Lemma exact_back f P n d X g : Sane f -> (1 <= P)%nat -> (2 ^ fm_prec f < 10 ^ (Z.of_nat P - 1))%Z -> Rep f n -> (0 < n)%Z -> Picks P (val f false n) d X -> Near f (scaled10 P d X) g -> g = val f false n.
Proof.
  intros W P1 PB R N PK NR. destruct (Req_dec g (val f false n)) as [|NE]; [assumption|exfalso]. destruct (picks_error P _ d X P1 PK) as [_ E]. pose proof (grid_gap_rel f n g W R (proj1 NR) NE) as G. assert (GN : Grid f (val f false n)) by (exists false, n; auto). pose proof (near_abs f _ _ _ NR GN) as A.
  assert (T : Rabs (g - val f false n) <= 2 * Rabs (scaled10 P d X - val f false n)).
  { replace (g - val f false n) with ((g - scaled10 P d X) + (scaled10 P d X - val f false n)) by ring. eapply Rle_trans; [apply Rabs_triang|]. rewrite (Rabs_minus_sym (val f false n) (scaled10 P d X)) in A. lra. }
  assert (X0 : 0 < val f false n) by (unfold val; apply Rmult_lt_0_compat; [apply IZR_lt; exact N|apply unit_pos, W]). rewrite mult_IZR in E. apply IZR_lt in PB. pose proof (pow_scale f W) as Q. set (q := IZR (2 ^ fm_prec f)) in *. set (t := IZR (10 ^ (Z.of_nat P - 1))) in *. set (x := val f false n) in *. set (a := Rabs (scaled10 P d X - x)) in *. set (b := Rabs (g - x)) in *. assert (0 <= a) by apply Rabs_pos. assert (0 <= b) by apply Rabs_pos. assert (q * b <= q * (2 * a)) by (apply Rmult_le_compat_l; lra). destruct (Req_dec a 0) as [Z0|Z0]; nra.
Qed.
Lemma stable_back f P n d X g : Sane f -> (1 <= P)%nat -> (10 ^ Z.of_nat P + 5 < 2 ^ (fm_prec f - 1))%Z -> (2 ^ (fm_prec f - 1) <= n)%Z -> Picks P (val f false n) d X -> Near f (scaled10 P d X) g -> Picks P g d X.
Proof.
  intros W P1 PB N PK NR. pose proof (picks_digits P _ d X P1 PK) as D. pose proof D as [D1 D2]. destruct (picks_error P _ d X P1 PK) as [E _]. pose proof (scaled10_pos P d X P1 D) as DP. pose proof (unit_pos f W) as U. pose proof W as [W1 W2].
  assert (Q2 : IZR (2 ^ fm_prec f) = 2 * IZR (2 ^ (fm_prec f - 1))) by (rewrite <- mult_IZR, <- Z.pow_succ_r by lia; do 2 f_equal; lia). assert (Q0 : 0 < IZR (2 ^ (fm_prec f - 1))) by (apply IZR_lt, pow_pos_; lia). set (q := IZR (2 ^ (fm_prec f - 1))) in *. assert (NX : q * unit_of f <= val f false n) by (unfold val; apply Rmult_le_compat_r; [lra|apply IZR_le, N]).
  set (u := powerRZ 10 (X - Z.of_nat P + 1)) in *. assert (UP : 0 < u) by apply p10_pos. set (x := val f false n) in *.
  assert (ER : Rabs (g - scaled10 P d X) * (2 * q) <= scaled10 P d X + u / 2).
  { destruct (near_error f _ g W NR) as [A|(A & B & _)].
    - rewrite Q2, (Rabs_right (scaled10 P d X)) in A by lra. apply (Rmult_le_compat_r (2 * q)) in A; [|lra]. replace (scaled10 P d X / (2 * q) * (2 * q)) with (scaled10 P d X) in A by (field; lra). lra.
    - apply Rle_trans with (q * unit_of f); [|apply Rle_trans with x; [exact NX|]; unfold Rabs in E; destruct (Rcase_abs (scaled10 P d X - x)); lra]. assert (2 * q * Rabs (g - scaled10 P d X) <= 2 * q * (unit_of f / 2)) by (apply Rmult_le_compat_l; lra). lra. }
  apply IZR_lt in PB. fold q in PB. rewrite plus_IZR in PB. assert (D3 : (d + 1 <= 10 ^ Z.of_nat P)%Z) by lia. apply IZR_le in D3. rewrite plus_IZR in D3. apply round_back; [exact P1|exact D| |].
  - fold u. unfold scaled10 at 2 in ER. fold u in ER. set (a := Rabs (g - scaled10 P d X)) in *. assert (0 <= a) by apply Rabs_pos. assert (IZR d * u + u / 2 < q * u) by nra. nra.
  - intros ->. unfold scaled10 at 2 in ER. fold u in ER. set (a := Rabs (g - scaled10 P (10 ^ (Z.of_nat P - 1)) X)) in *. set (w := powerRZ 10 (X - Z.of_nat P)). assert (UW : u = 10 * w) by (unfold u, w; apply p10_succ). assert (0 < w) by apply p10_pos. assert (TEN : IZR (10 ^ Z.of_nat P) = 10 * IZR (10 ^ (Z.of_nat P - 1))) by (rewrite <- mult_IZR, <- Z.pow_succ_r by lia; do 2 f_equal; lia). rewrite TEN in PB. set (t := IZR (10 ^ (Z.of_nat P - 1))) in *. rewrite UW in ER. 
    assert (0 <= a) by apply Rabs_pos. assert (t * (10 * w) + 10 * w / 2 < q * w) by nra. nra.
Qed.

(* the closest number with P digits *)
Lemma nd_mono P r d X r' d' X' : NearDecimal P r d X -> NearDecimal P r' d' X' -> r <= r' -> scaled10 P d X <= scaled10 P d' X'.
Proof.
  intros [D N] [D' N'] L. apply Rnot_lt_le. intros G. set (a := scaled10 P d X) in *. set (b := scaled10 P d' X') in *. assert (NE : a <> b) by lra. specialize (N d' X' D'). specialize (N' d X D). fold a in N, N'. fold b in N, N'. specialize (N ltac:(lra)). specialize (N' ltac:(lra)).
  assert (A : Rabs (a - r) <= Rabs (b - r)) by (destruct N as [|[]]; lra). assert (B : Rabs (b - r') <= Rabs (a - r')) by (destruct N' as [|[]]; lra).
  assert (M : r = r' /\ Rabs (a - r) = Rabs (b - r)) by (unfold Rabs in *; destruct (Rcase_abs (a - r)), (Rcase_abs (b - r)), (Rcase_abs (a - r')), (Rcase_abs (b - r')); lra). destruct M as [<- M]. destruct N as [|[_ [k K]]]; [lra|]. destruct N' as [|[_ [k' K']]]; [lra|].
  apply (even_odd_R (k + k') 0 (a - b)); [lra|]. rewrite plus_IZR. lra.
Qed.
Lemma nd_fun P r d X d' X' : NearDecimal P r d X -> NearDecimal P r d' X' -> scaled10 P d X = scaled10 P d' X'.
Proof. intros A B. apply Rle_antisym; eapply nd_mono; try eassumption; lra. Qed.
Lemma scaled10_decade P d X : (1 <= P)%nat -> digits P d -> powerRZ 10 X <= scaled10 P d X < powerRZ 10 (X + 1).
Proof.
  intros P1 [D1 D2]. unfold scaled10. pose proof (p10_pos (X - Z.of_nat P + 1)) as U. assert (A : powerRZ 10 X = IZR (10 ^ (Z.of_nat P - 1)) * powerRZ 10 (X - Z.of_nat P + 1)) by (rewrite <- p10_Z by lia; rewrite <- p10_add; f_equal; lia).
  assert (B : powerRZ 10 (X + 1) = IZR (10 ^ Z.of_nat P) * powerRZ 10 (X - Z.of_nat P + 1)) by (rewrite <- p10_Z by lia; rewrite <- p10_add; f_equal; lia). rewrite A, B. apply IZR_le in D1. apply IZR_lt in D2. split; [apply Rmult_le_compat_r; lra|apply Rmult_lt_compat_r; lra].
Qed.
Lemma scaled10_inj P d X d' X' : (1 <= P)%nat -> digits P d -> digits P d' -> scaled10 P d X = scaled10 P d' X' -> d = d' /\ X = X'.
Proof.
  intros P1 D D' E. pose proof (scaled10_decade P d X P1 D) as A. pose proof (scaled10_decade P d' X' P1 D') as B. rewrite E in A. pose proof (p10_decade _ _ _ A B) as <-. split; [|reflexivity]. unfold scaled10 in E. pose proof (p10_pos (X - Z.of_nat P + 1)). apply eq_IZR. apply Rmult_eq_reg_r in E; [exact E|lra].
Qed.
Lemma near_picks P r d X d' X' : (1 <= P)%nat -> Picks P r d X -> NearDecimal P r d' X' -> d' = d /\ X' = X.
Proof. intros P1 A B. pose proof (picks_near P r d X P1 A) as C. apply (scaled10_inj P); [exact P1|apply B|apply C|apply (nd_fun P r); assumption]. Qed.
Lemma general_unique P d X d' X' s : (1 <= P)%nat -> digits P d -> digits P d' -> General P d X s -> General P d' X' s -> d = d' /\ X = X'.
Proof.
  intros P1 D D' G G'. destruct (general_form P d X s P1 G) as (a & b & F & _ & V). destruct (general_form P d' X' s P1 G') as (a' & b' & F' & _ & V'). pose proof (form_fun _ _ _ F F') as E. injection E as <- <-. apply (scaled10_inj P); [exact P1|exact D|exact D'|congruence].
Qed.

(* what is written is read *)
Lemma put_read f under p neg n t : IEEE f -> Finite f n -> Apart t -> exists x' e,
  strtod f under (put_real f p (FFin neg n) ++ t) = Some (x', e, t) /\ Rewritten f (Nat.max 1 p) (FFin neg n) x' /\
  (e = true -> x' = FInf neg \/ (n < 2 ^ fm_prec f)%Z /\ exists a b, under a b = true) /\ (x' = FInf neg -> e = true).
Proof.
  intros I F A. set (P := Nat.max 1 p). assert (P1 : (1 <= P)%nat) by lia. pose proof (ieee_sane f I) as W. pose proof W as [W1 W2]. pose proof (rep_nonneg f n (proj1 F)) as N0. cbn [put_real]. fold P. rewrite <- app_assoc. destruct (Z.eq_dec n 0) as [->|NZ].
  - exists (FFin neg 0), false. split; [apply (zero_read f under neg t I A)|]. split; [left; auto|]. split; discriminate.
  - destruct (put_spec f P n I P1 F ltac:(lia)) as (d & X & PK & G & _). pose proof (picks_digits P _ d X P1 PK) as D. destruct (general_read f under P d X _ neg t I P1 D G A) as (x' & e & R & C & E1 & E2). exists x', e. split; [exact R|]. split; [right; split; [lia|]; exists d, X; split; [apply picks_near; assumption|exact C]|]. split; [|exact E2].
    intros T. destruct (E1 T) as [Q|[Q U]]; [left; exact Q|right; split; [|exact U]]. destruct (picks_error P _ d X P1 PK) as [_ E]. set (x := val f false n) in *. set (a := Rabs (scaled10 P d X - x)) in *. assert (0 <= a) by apply Rabs_pos. rewrite mult_IZR in E.
    assert (ONE : 1 <= IZR (10 ^ (Z.of_nat P - 1))) by (apply IZR_le; pose proof (Z.pow_pos_nonneg 10 (Z.of_nat P - 1) ltac:(lia) ltac:(lia)); lia). assert (E' : 2 * a <= x) by nra. assert (HX : x <= 2 * scaled10 P d X) by (subst a; unfold Rabs in E'; destruct (Rcase_abs (scaled10 P d X - x)); lra).
    assert (Q2 : IZR (2 ^ fm_prec f) = 2 * IZR (2 ^ (fm_prec f - 1))) by (rewrite <- mult_IZR, <- Z.pow_succ_r by lia; do 2 f_equal; lia). apply lt_IZR. rewrite Q2. apply (Rmult_lt_reg_r (unit_of f)); [apply unit_pos, W|]. change (IZR n * unit_of f) with x. lra.
Qed.
Lemma correct_side f neg D x : Sane f -> 0 < D -> Correct f (sided neg D) x -> x = FInf neg \/ exists n, x = FFin neg n /\ Finite f n /\ Near f D (val f false n).
Proof.
  intros W DP (g & N & C). destruct x as [|s|s n]; [contradiction| |].
  - destruct C as [_ C]. left. destruct neg, s; cbn in C; try reflexivity; lra.
  - destruct C as (F & -> & C). right. exists n. assert (s = neg) as -> by (destruct neg, s; cbn in C; try reflexivity; lra). split; [reflexivity|]. split; [exact F|]. destruct neg; cbn [sided] in N; [|exact N]. apply near_opp in N. rewrite Ropp_involutive in N. replace (val f false n) with (- val f true n); [exact N|]. rewrite <- val_neg. reflexivity.
Qed.
Lemma rewritten_exact f p neg n x' : IEEE f -> (2 ^ fm_prec f < 10 ^ (Z.of_nat (Nat.max 1 p) - 1))%Z -> Finite f n -> Rewritten f (Nat.max 1 p) (FFin neg n) x' -> x' = FFin neg n.
Proof.
  intros I PB F R. set (P := Nat.max 1 p) in *. assert (P1 : (1 <= P)%nat) by lia. pose proof (ieee_sane f I) as W. destruct R as [[_ ->]|(N & d & X & ND & C)]; [reflexivity|]. destruct (put_spec f P n I P1 F N) as (d0 & X0 & PK & _). destruct (near_picks P _ d0 X0 d X P1 PK ND) as [-> ->]. pose proof (picks_digits P _ d0 X0 P1 PK) as D. pose proof (scaled10_pos P d0 X0 P1 D) as DP.
  destruct (correct_side f neg _ x' W DP C) as [-> | (n' & -> & F' & NR)].
  - exfalso. destruct C as (g & NR & G & _). assert (NR' : Near f (scaled10 P d0 X0) (sided neg g)) by (destruct neg; cbn [sided] in *; [apply near_opp in NR; rewrite Ropp_involutive in NR|]; exact NR). pose proof (exact_back f P n d0 X0 _ W P1 PB (proj1 F) N PK NR') as E. pose proof (finite_small f false n W F) as S1. rewrite <- E in S1. destruct neg; cbn [sided] in S1; rewrite ?Rabs_Ropp in S1; lra.
  - pose proof (exact_back f P n d0 X0 _ W P1 PB (proj1 F) N PK NR) as E. apply (val_eq f false n' false n W) in E. cbn in E. congruence.
Qed.
Lemma rewritten_stable f p neg n x' : IEEE f -> (10 ^ Z.of_nat (Nat.max 1 p) + 5 < 2 ^ (fm_prec f - 1))%Z -> Finite f n -> (n = 0 \/ 2 ^ (fm_prec f - 1) <= n)%Z -> x' <> FInf neg -> Rewritten f (Nat.max 1 p) (FFin neg n) x' -> put_real f p x' = put_real f p (FFin neg n) /\ Valid f x'.
Proof.
  intros I PB F NB NI R. pose proof (ieee_sane f I) as W. destruct R as [[_ ->]|(N & d & X & ND & C)]; [split; [reflexivity|exact F]|]. destruct NB as [->|NB]; [lia|]. cbn [put_real]. set (P := Nat.max 1 p) in *. assert (P1 : (1 <= P)%nat) by lia. destruct (put_spec f P n I P1 F N) as (d0 & X0 & PK & _ & B). destruct (near_picks P _ d0 X0 d X P1 PK ND) as [-> ->]. pose proof (picks_digits P _ d0 X0 P1 PK) as D. pose proof (scaled10_pos P d0 X0 P1 D) as DP.
  destruct (correct_side f neg _ x' W DP C) as [-> | (n' & -> & F' & NR)]; [congruence|]. split; [|exact F']. cbn [put_real]. fold P. f_equal. pose proof (stable_back f P n d0 X0 _ W P1 PB NB PK NR) as PK'. assert (N' : (0 < n')%Z).
  { destruct PK' as (e & m & [E _] & _). pose proof (p10_pos e). assert (V : 0 < val f false n') by lra. unfold val in V. pose proof (unit_pos f W). apply lt_IZR. apply (Rmult_lt_reg_r (unit_of f)); lra. }
  destruct (put_spec f P n' I P1 F' N') as (d1 & X1 & PK1 & _ & B1). destruct (picks_fun P _ _ _ _ _ PK' PK1) as [<- <-]. rewrite B, B1. reflexivity.
Qed.
(* the largest number rounds down to six digits *)
Lemma largest_six f : IEEE f -> exists n d X, Finite f n /\ (forall n', Finite f n' -> n' <= n)%Z /\ Picks 6 (val f false n) d X /\ scaled10 6 d X <= val f false n.
Proof.
  assert (K : forall f d X, IEEE f -> (let n := ((2 ^ fm_prec f - 1) * 2 ^ (fm_top f + fm_low f - fm_prec f))%Z in (100000 < d < 1000000)%Z /\ (5 < X)%Z /\ (d * 10 ^ (X - 5) * 2 ^ fm_low f <= n)%Z /\ (2 * (n - d * 10 ^ (X - 5) * 2 ^ fm_low f) < 10 ^ (X - 5) * 2 ^ fm_low f)%Z) ->
    exists n d X, Finite f n /\ (forall n', Finite f n' -> n' <= n)%Z /\ Picks 6 (val f false n) d X /\ scaled10 6 d X <= val f false n).
  { clear. intros f d X I (D & XB & L & U). pose proof (ieee_sane f I) as W. pose proof W as [W1 W2]. set (n := ((2 ^ fm_prec f - 1) * 2 ^ (fm_top f + fm_low f - fm_prec f))%Z) in *. exists n, d, X.
    pose proof (pow_pos_ (fm_prec f) ltac:(lia)) as PP. pose proof (pow_pos_ (fm_top f + fm_low f - fm_prec f) ltac:(lia)) as PT.
    assert (TOP : (2 ^ (fm_top f + fm_low f) = 2 ^ fm_prec f * 2 ^ (fm_top f + fm_low f - fm_prec f))%Z) by (rewrite <- Z.pow_add_r by lia; f_equal; lia).
    assert (FN : Finite f n) by (split; [exists (2 ^ fm_prec f - 1)%Z, (fm_top f + fm_low f - fm_prec f)%Z; repeat split; lia|subst n; lia]). split; [exact FN|]. split.
    - intros n' [(m & e & E & M & ->) T]. destruct (Z.le_gt_cases e (fm_top f + fm_low f - fm_prec f)) as [G|G].
      + assert (2 ^ e <= 2 ^ (fm_top f + fm_low f - fm_prec f))%Z by (apply Z.pow_le_mono_r; lia). pose proof (pow_pos_ e E). subst n. nia.
      + rewrite TOP in T. replace e with (e - (fm_top f + fm_low f - fm_prec f) + (fm_top f + fm_low f - fm_prec f))%Z in * by lia. rewrite Z.pow_add_r in * by lia. set (q := (2 ^ (fm_top f + fm_low f - fm_prec f))%Z) in *. set (b := (2 ^ (e - (fm_top f + fm_low f - fm_prec f)))%Z) in *. subst n. assert (m * b < 2 ^ fm_prec f)%Z by nia. nia.
    - assert (V : scaled10 6 d X = IZR (d * 10 ^ (X - 5) * 2 ^ fm_low f) * unit_of f) by (unfold scaled10, unit_of; replace (X - Z.of_nat 6 + 1)%Z with (X - 5)%Z by lia; rewrite p10_Z, !mult_IZR by lia; field; pose proof (unit_scale f W); lra).
      pose proof (unit_pos f W) as UP. assert (LE : scaled10 6 d X <= val f false n) by (rewrite V; unfold val; apply Rmult_le_compat_r; [lra|apply IZR_le, L]). split; [|exact LE]. apply round_back; [lia|unfold digits; cbn; lia| |intros E; cbn in E; lia].
      rewrite (Rabs_right (val f false n - scaled10 6 d X)) by lra. apply IZR_lt in U. rewrite !mult_IZR, minus_IZR in U. rewrite V. unfold val. replace (X - Z.of_nat 6 + 1)%Z with (X - 5)%Z by lia. rewrite p10_Z by lia.
      assert (Q : IZR (10 ^ (X - 5)) = IZR (10 ^ (X - 5)) * IZR (2 ^ fm_low f) * unit_of f) by (unfold unit_of; field; pose proof (unit_scale f W); lra). rewrite Q. clear Q. rewrite !mult_IZR in *. apply (Rmult_lt_compat_r (unit_of f)) in U; [|exact UP]. lra. }
  intros I. destruct I as [->| ->]; [apply (K _ 179769 308)%Z; [left; reflexivity|]|apply (K _ 340282 38)%Z; [right; reflexivity|]]; vm_compute; repeat split; discriminate || reflexivity.
Qed.
Lemma rewritten_finite f neg n x' : IEEE f -> Finite f n -> Rewritten f 6 (FFin neg n) x' -> x' <> FInf neg.
Proof.
  intros I F R. pose proof (ieee_sane f I) as W. destruct R as [[_ ->]|(N & d & X & ND & C)]; [discriminate|]. intros ->. destruct (largest_six f I) as (m & dm & Xm & FM & MAX & PM & LM). assert (LE : val f false n <= val f false m) by (unfold val; apply Rmult_le_compat_r; [left; apply unit_pos, W|apply IZR_le, MAX, F]).
  pose proof (nd_mono 6 _ d X _ dm Xm ND (picks_near 6 _ dm Xm ltac:(lia) PM) LE) as B. assert (NG : exists g, Near f (scaled10 6 d X) g /\ IZR (2 ^ fm_top f) <= g).
  { pose proof (scaled10_pos 6 d X ltac:(lia) (proj1 ND)). destruct C as (g & NR & G & _). destruct neg; cbn [sided] in NR; [exists (- g)|exists g].
    - split; [apply near_opp in NR; rewrite Ropp_involutive in NR; exact NR|]. pose proof (correct_inf_low f _ g W NR G ltac:(lra)). lra.
    - split; [exact NR|apply (correct_inf_high f _ g W NR G); lra]. }
  destruct NG as (g & NR & G). assert (GM : Grid f (val f false m)) by (exists false, m; split; [apply FM|reflexivity]). pose proof (near_mono f _ _ _ _ NR (exact_near f _ GM) ltac:(lra)) as Q. pose proof (finite_small f false m W FM) as S1. pose proof (Rle_abs (val f false m)). lra.
Qed.

(* std::istream *)
Lemma digit_atom c : IsDigit c -> is_atom c = true.
Proof. intros D. apply isdigit_spec in D. unfold is_atom. rewrite D. reflexivity. Qed.
Lemma white_atom c : White c -> is_atom c = false.
Proof.
  intros [->|W]; [reflexivity|]. assert (Q : c = ascii_of_nat (nat_of_ascii c)) by (symmetry; apply ascii_nat_embedding). assert (X : (nat_of_ascii c = 9 \/ nat_of_ascii c = 10 \/ nat_of_ascii c = 11 \/ nat_of_ascii c = 12 \/ nat_of_ascii c = 13)%nat) by lia.
  destruct X as [X|[X|[X|[X|X]]]]; rewrite X in Q; rewrite Q; reflexivity.
Qed.
Lemma decimals_chars fp s : Forall IsDigit fp -> Decimals fp s -> Forall (fun c => is_atom c = true) s.
Proof.
  intros F D. revert F. destruct D as [z Z1|a c z C Z1]; intros F; [constructor|]. constructor; [reflexivity|]. apply Forall_app in F as [F1 F2]. inversion F2; subst. apply Forall_app. split; [eapply Forall_impl; [|exact F1]; apply digit_atom|constructor; [apply digit_atom; assumption|constructor]].
Qed.
Lemma general_chars P d X s : General P d X s -> Forall (fun c => is_atom c = true) s.
Proof.
  intros [ip fp s' XB F L V LI D|ds z s' XB F L V Z1 LZ D|c fp s' x XB F L V D E].
  - apply Forall_app in F as [F1 F2]. apply Forall_app. split; [eapply Forall_impl; [|exact F1]; apply digit_atom|apply (decimals_chars _ _ F2 D)].
  - constructor; [reflexivity|]. apply (decimals_chars (z ++ ds)); [|exact D]. apply Forall_app. split; [apply zeros_digits, Z1|exact F].
  - inversion F; subst. constructor; [apply digit_atom; assumption|]. apply Forall_app. split; [apply (decimals_chars fp); assumption|]. destruct E as [X' ds F' _ _]. constructor; [reflexivity|]. constructor; [destruct (X' <? 0)%Z; reflexivity|]. eapply Forall_impl; [|exact F']; apply digit_atom.
Qed.
Lemma put_chars f p neg n : IEEE f -> Finite f n -> Forall (fun c => is_atom c = true) (put_real f p (FFin neg n)) /\ put_real f p (FFin neg n) <> [].
Proof.
  intros I F. pose proof (rep_nonneg f n (proj1 F)) as N0. set (P := Nat.max 1 p). assert (K : Forall (fun c => is_atom c = true) (general P n (2 ^ fm_low f)) /\ general P n (2 ^ fm_low f) <> []).
  { destruct (Z.eq_dec n 0) as [->|NZ]; [split; [repeat constructor|discriminate]|]. destruct (put_spec f P n I ltac:(lia) F ltac:(lia)) as (d & X & PK & G & _). split; [apply (general_chars _ _ _ _ G)|]. destruct (general_form P d X _ ltac:(lia) G) as (a & b & FM & _). destruct (form_head _ _ FM) as (c & u & -> & _). discriminate. }
  cbn [put_real]. fold P. split; [apply Forall_app; split; [destruct neg; repeat constructor|apply K]|]. destruct neg; [discriminate|apply K].
Qed.
Lemma atom_black c : is_atom c = true -> ~ White c.
Proof. intros A W. rewrite (white_atom c W) in A. discriminate. Qed.
Lemma get_put f under bad p neg n w t old : IEEE f -> Finite f n -> Forall White w -> Apart t -> exists (x' : fnum) (e : bool),
  is_get f under bad (mkIs false (w ++ put_real f p (FFin neg n) ++ t)) old = (if e then bad x' else x', mkIs e t) /\ Rewritten f (Nat.max 1 p) (FFin neg n) x' /\
  (e = true -> x' = FInf neg \/ (n < 2 ^ fm_prec f)%Z /\ exists a b, under a b = true) /\ (x' = FInf neg -> e = true).
Proof.
  intros I F W A. destruct (put_read f under p neg n [] I F Logic.I) as (x' & e & R & K). exists x', e. split; [|exact K]. destruct (put_chars f p neg n I F) as [CH NE]. rewrite app_nil_r in R. set (s := put_real f p (FFin neg n)) in *.
  unfold is_get. cbn [is_fail is_rest]. rewrite skip_ws_app by exact W. destruct s as [|c s']; [congruence|]. cbn [app]. inversion CH as [|? ? C1 C2]; subst. rewrite skip_ws_head by (apply atom_black; exact C1). change (c :: s' ++ t) with ((c :: s') ++ t).
  assert (T : take is_atom ((c :: s') ++ t) = (c :: s', t)).
  { rewrite take_app by exact CH. destruct t as [|b t]; [cbn; rewrite app_nil_r; reflexivity|]. rewrite (take_stop _ b t (white_atom b A)). cbn [fst snd]. rewrite app_nil_r. reflexivity. }
  rewrite T. rewrite R. reflexivity.
Qed.
