(* Rounding, and the text of floating point numbers. *)
From Coq Require Import String.
From Verif Require Import Model.Base Proofs.BaseFacts Model.StdString Model.Strings Model.Number Model.FloatText
  Spec.Strings Spec.Decimal Spec.FloatText Proofs.NumberProofs Proofs.FloatScanProofs.
Local Open Scope list_scope.
Local Open Scope Z_scope.

(* rounding to integers *)
Lemma rhe_rounds a b : 0 < b -> Rounds a b (rhe a b).
Proof.
  intros B. pose proof (Z.div_mod a b ltac:(lia)) as E. pose proof (Z.mod_pos_bound a b B) as M. unfold Rounds, rhe.
  set (q := a / b) in *. set (r := a mod b) in *.
  destruct (2 * r <? b) eqn:C1; [apply Z.ltb_lt in C1; replace (q * b - a) with (- r) by lia; lia|]. apply Z.ltb_ge in C1.
  destruct (b <? 2 * r) eqn:C2; [apply Z.ltb_lt in C2; replace ((q + 1) * b - a) with (b - r) by lia; lia|]. apply Z.ltb_ge in C2.
  destruct (Z.even q) eqn:EV.
  - replace (q * b - a) with (- r) by lia. split; [lia|]. intros _. apply Z.even_spec. exact EV.
  - replace ((q + 1) * b - a) with (b - r) by lia. split; [lia|]. intros _. apply Z.even_spec. rewrite Z.add_1_r, Z.even_succ, <- Z.negb_even, EV. reflexivity.
Qed.
Lemma rounds_fun a b k k' : 0 < b -> Rounds a b k -> Rounds a b k' -> k = k'.
Proof.
  intros B [H1 E1] [H2 E2]. assert (A : Z.abs ((k - k') * b) <= b) by lia. rewrite Z.abs_mul, (Z.abs_eq b) in A by lia.
  assert (A2 : Z.abs (k - k') <= 1) by nia. destruct (Z.eq_dec k k') as [|N]; [assumption|exfalso].
  assert (D : k' = k + 1 \/ k' = k - 1) by lia. destruct D as [-> | ->].
  - destruct (E1 ltac:(lia)) as [x X]. destruct (E2 ltac:(lia)) as [y Y]. lia.
  - destruct (E1 ltac:(lia)) as [x X]. destruct (E2 ltac:(lia)) as [y Y]. lia.
Qed.
Lemma rounds_near a b k j : 0 < b -> Rounds a b k -> Z.abs (k * b - a) <= Z.abs (j * b - a).
Proof.
  intros B [H _]. destruct (Z.eq_dec j k) as [->|N]; [lia|]. assert (A : b <= Z.abs ((j - k) * b)) by (rewrite Z.abs_mul, (Z.abs_eq b) by lia; nia). lia.
Qed.
Lemma rounds_tie a b k j : 0 < b -> Rounds a b k -> j <> k ->
  Z.abs (k * b - a) < Z.abs (j * b - a) \/ Z.abs (k * b - a) = Z.abs (j * b - a) /\ Z.abs (k - j) = 1 /\ Z.Even k.
Proof.
  intros B [H E] N. assert (A : Z.abs (j - k) * b <= Z.abs (j * b - a) + Z.abs (k * b - a)) by (rewrite <- (Z.abs_eq b) at 1 by lia; rewrite <- Z.abs_mul; lia).
  destruct (Z.eq_dec (Z.abs (k - j)) 1) as [O|O].
  - destruct (Z.eq_dec (2 * Z.abs (k * b - a)) b) as [T|T].
    + destruct (Z.eq_dec (Z.abs (k * b - a)) (Z.abs (j * b - a))) as [X|X]; [right; split; [exact X|split; [exact O|exact (E T)]]|left]. nia.
    + left. nia.
  - left. assert (2 <= Z.abs (j - k)) by lia. nia.
Qed.
Lemma rounds_nonneg a b k : 0 < b -> 0 <= a -> Rounds a b k -> 0 <= k.
Proof. intros B A [H E]. destruct (Z.lt_ge_cases k 0) as [L|]; [exfalso|assumption]. nia. Qed.
Lemma rounds_exact k b : 0 < b -> Rounds (k * b) b k.
Proof. intros B. split; [rewrite Z.sub_diag; cbn; lia|]. rewrite Z.sub_diag; cbn; lia. Qed.
Lemma rounds_mono a b k a' b' k' : 0 < b -> 0 < b' -> Rounds a b k -> Rounds a' b' k' -> a * b' <= a' * b -> k <= k'.
Proof.
  intros B B' R R' L. destruct (Z.le_gt_cases k k') as [|G]; [assumption|exfalso].
  destruct (rounds_tie a b k k' B R ltac:(lia)) as [T|[T [_ [x X]]]]; destruct (rounds_tie a' b' k' k B' R' ltac:(lia)) as [T'|[T' [O [y Y]]]].
  1-3: assert (S1 : a * 2 >= (k + k') * b) by nia; assert (S2 : a' * 2 <= (k + k') * b') by nia; nia.
  lia.
Qed.

(* the grid of a format *)
Lemma pow_pos_ a : 0 <= a -> 0 < 2 ^ a. Proof. intros. apply Z.pow_pos_nonneg; lia. Qed.
Lemma rep_zero f : 0 < fm_prec f -> Rep f 0.
Proof. intros P. exists 0, 0. pose proof (pow_pos_ (fm_prec f) ltac:(lia)). repeat split; try lia. Qed.
Lemma rep_nonneg f n : Rep f n -> 0 <= n.
Proof. intros (m & e & E & M & ->). pose proof (pow_pos_ e E). nia. Qed.
Lemma rep_small f k e : 0 < fm_prec f -> 0 <= e -> 0 <= k <= 2 ^ fm_prec f -> Rep f (k * 2 ^ e).
Proof.
  intros P E [K1 K2]. destruct (Z.eq_dec k (2 ^ fm_prec f)) as [->|N].
  - exists 1, (fm_prec f + e). rewrite Z.pow_add_r by lia. assert (1 < 2 ^ fm_prec f) by (apply Z.pow_gt_1; lia). lia.
  - exists k, e. lia.
Qed.
(* large numbers are on a coarser grid *)
Lemma rep_large f n e : 0 < fm_prec f -> 0 <= e -> Rep f n -> 2 ^ (fm_prec f - 1 + e) <= n -> exists k, n = k * 2 ^ e.
Proof.
  intros P E (m & e' & E' & M & ->) L. destruct (Z.le_gt_cases e e') as [G|G].
  - exists (m * 2 ^ (e' - e)). rewrite <- Z.mul_assoc, <- Z.pow_add_r by lia. f_equal. f_equal. lia.
  - exfalso. assert (X : m * 2 ^ e' < 2 ^ fm_prec f * 2 ^ e') by (pose proof (pow_pos_ e' E'); nia). rewrite <- Z.pow_add_r in X by lia.
    assert (Y : 2 ^ (fm_prec f + e') <= 2 ^ (fm_prec f - 1 + e)) by (apply Z.pow_le_mono_r; lia). lia.
Qed.

Lemma round_closest f num den : 0 < fm_prec f -> 0 <= fm_low f -> 0 <= num -> 0 < den -> Closest f num den (round_units f num den).
Proof.
  intros P U N D. unfold round_units. set (x := num * 2 ^ fm_low f). assert (X : 0 <= x) by (subst x; pose proof (pow_pos_ _ U); nia).
  set (e := Z.max 0 (Z.log2 (x / den) - fm_prec f + 1)). assert (E : 0 <= e) by lia. pose proof (pow_pos_ e E) as PE.
  pose proof (rhe_rounds x (den * 2 ^ e) ltac:(nia)) as R. set (k := rhe x (den * 2 ^ e)) in *.
  assert (QN : 0 <= x / den) by (apply Z.div_pos; lia). pose proof (Z.div_mod x den ltac:(lia)) as DM. pose proof (Z.mod_pos_bound x den D) as MB.
  (* the size of x / den *)
  assert (UP : x < den * 2 ^ (fm_prec f + e)).
  { assert (Y : x / den < 2 ^ (fm_prec f + e)).
    { destruct (Z.eq_dec (x / den) 0) as [->|NZ]; [apply pow_pos_; lia|]. apply Z.log2_lt_pow2; [lia|]. subst e. lia. }
    nia. }
  assert (LO : e = 0 \/ den * 2 ^ (fm_prec f - 1 + e) <= x).
  { destruct (Z.eq_dec e 0) as [|NE]; [left; assumption|right]. assert (Y : 2 ^ (fm_prec f - 1 + e) <= x / den).
    { assert (0 < x / den) by (destruct (Z.eq_dec (x / den) 0) as [Z0|]; [exfalso; apply NE; subst e; rewrite Z0; change (Z.log2 0) with 0; lia|lia]). apply Z.log2_le_pow2; [lia|]. subst e. lia. }
    nia. }
  assert (K0 : 0 <= k) by (eapply rounds_nonneg; [| |exact R]; nia).
  assert (K1 : k <= 2 ^ fm_prec f).
  { eapply (rounds_mono x (den * 2 ^ e) k (2 ^ fm_prec f * (den * 2 ^ e)) (den * 2 ^ e)); [nia|nia|exact R|apply rounds_exact; nia|]. rewrite Z.pow_add_r in UP by lia. nia. }
  split; [apply rep_small; lia|]. intros n' RN NN. fold x.
  assert (AB : forall j, Z.abs (j * 2 ^ e * den - x) = Z.abs (j * (den * 2 ^ e) - x)) by (intros j; f_equal; ring).
  assert (GRID : forall j, n' = j * 2 ^ e -> Z.abs (k * 2 ^ e * den - x) < Z.abs (n' * den - x) \/ Z.abs (k * 2 ^ e * den - x) = Z.abs (n' * den - x) /\ exists i, k * 2 ^ e = 2 * i * Z.abs (k * 2 ^ e - n')).
  { intros j ->. rewrite !AB. destruct (rounds_tie x (den * 2 ^ e) k j ltac:(nia) R ltac:(intros ->; apply NN; reflexivity)) as [T|[T [O [i I]]]]; [left; exact T|right; split; [exact T|]].
    exists i. rewrite <- Z.mul_sub_distr_r, Z.abs_mul, O, (Z.abs_eq (2 ^ e)) by lia. rewrite I. ring. }
  destruct LO as [LO|LO]; [apply (GRID n'); rewrite LO; cbn; lia|].
  destruct (Z.le_gt_cases (2 ^ (fm_prec f - 1 + e)) n') as [G|G].
  - destruct (rep_large f n' e P E RN G) as [j J]. apply (GRID j J).
  - left. pose proof (rounds_near x (den * 2 ^ e) k (2 ^ (fm_prec f - 1)) ltac:(nia) R) as NR. rewrite AB. rewrite Z.pow_add_r in G, LO by lia.
    rewrite (Z.abs_neq (n' * den - x)) by nia. rewrite (Z.abs_neq (2 ^ (fm_prec f - 1) * (den * 2 ^ e) - x)) in NR by nia. nia.
Qed.
Lemma closest_fun f num den n n' : Closest f num den n -> Closest f num den n' -> n = n'.
Proof.
  intros [R1 H1] [R2 H2]. destruct (Z.eq_dec n n') as [|N]; [assumption|exfalso]. destruct (H1 n' R2 ltac:(congruence)) as [L|[E [k K]]]; destruct (H2 n R1 N) as [L'|[E' [k' K']]]; try lia.
  rewrite <- (Z.abs_opp (n' - n)) in K'. replace (- (n' - n)) with (n - n') in K' by lia. clear - K K' N.
  set (d := Z.abs (n - n')) in *. assert (X : d = 2 * (k - k') * d \/ - d = 2 * (k - k') * d) by lia. assert (0 < d) by lia. destruct X as [X|X].
  - assert (Y : d * (2 * (k - k') - 1) = 0) by lia. apply Z.mul_eq_0 in Y. lia.
  - assert (Y : d * (2 * (k - k') + 1) = 0) by lia. apply Z.mul_eq_0 in Y. lia.
Qed.
Lemma closest_near f num den n n' : Closest f num den n -> Rep f n' -> Z.abs (n * den - num * 2 ^ fm_low f) <= Z.abs (n' * den - num * 2 ^ fm_low f).
Proof. intros [R H] R'. destruct (Z.eq_dec n' n) as [->|N]; [lia|]. destruct (H n' R' N) as [|[]]; lia. Qed.
Lemma closest_mono f num den n num' den' n' : 0 <= fm_low f -> 0 < den -> 0 < den' -> Closest f num den n -> Closest f num' den' n' -> num * den' <= num' * den -> n <= n'.
Proof.
  intros U D D' C C' L. destruct (Z.le_gt_cases n n') as [|G]; [assumption|exfalso]. pose proof (pow_pos_ _ U) as PU. set (u := 2 ^ fm_low f) in *.
  pose proof C as [R1 H1]. pose proof C' as [R2 H2]. destruct (H1 n' R2 ltac:(lia)) as [T|[T [k K]]]; destruct (H2 n R1 ltac:(lia)) as [T'|[T' [k' K']]]; fold u in T, T'.
  1-3: assert (S1 : num * u * 2 >= (n + n') * den) by nia; assert (S2 : num' * u * 2 <= (n + n') * den') by nia; assert (S3 : num * u * den' <= num' * u * den) by nia; nia.
  rewrite (Z.abs_eq (n - n')) in K by lia. rewrite (Z.abs_neq (n' - n)) in K' by lia. assert (Y : (n - n') * (2 * (k - k') - 1) = 0) by lia. apply Z.mul_eq_0 in Y. lia.
Qed.

(* six decimals *)
Definition Wide (f : fmt) : Prop := 20 < fm_prec f < fm_top f /\ fm_prec f + 19 <= fm_low f.
Definition edge (f : fmt) : Z := 2 ^ (fm_prec f + fm_low f - 20).
Lemma six_edge f : Wide f -> edge f = 2 ^ (fm_prec f - 20) * 2 ^ fm_low f.
Proof. intros [W1 W2]. unfold edge. rewrite <- Z.pow_add_r by lia. f_equal. lia. Qed.
Lemma closest_exact f num den n : 0 < den -> Rep f n -> n * den = num * 2 ^ fm_low f -> Closest f num den n.
Proof. intros D R E. split; [exact R|]. intros n' R' N. left. rewrite E, Z.sub_diag. cbn [Z.abs]. rewrite <- E, <- Z.mul_sub_distr_r, Z.abs_mul. assert (0 < Z.abs (n' - n)) by lia. nia. Qed.
Lemma six_big f n k : Wide f -> Rep f n -> edge f <= n -> Rounds (n * 10 ^ 6) (2 ^ fm_low f) k -> Closest f k (10 ^ 6) n.
Proof.
  intros W R B K. pose proof W as [[W1 W2] W3]. pose proof (pow_pos_ (fm_low f) ltac:(lia)) as PU.
  destruct (Z.eq_dec n (edge f)) as [E|NE].
  - apply closest_exact; [lia|exact R|]. rewrite E, (six_edge f W) in K |- *.
    replace (2 ^ (fm_prec f - 20) * 2 ^ fm_low f * 10 ^ 6) with (2 ^ (fm_prec f - 20) * 10 ^ 6 * 2 ^ fm_low f) in * by ring.
    rewrite (rounds_fun _ _ _ _ PU K (rounds_exact _ _ PU)). ring.
  - split; [exact R|]. intros n' R' N. left. destruct K as [K _].
    set (g := 2 ^ (fm_low f - 19)). assert (G : 2 ^ fm_low f = 524288 * g) by (subst g; replace 524288 with (2 ^ 19) by reflexivity; rewrite <- Z.pow_add_r by lia; f_equal; lia).
    assert (GP : 0 < g) by (apply pow_pos_; lia). assert (EG : edge f = 2 ^ (fm_prec f - 1) * g) by (unfold edge; subst g; rewrite <- Z.pow_add_r by lia; f_equal; lia).
    assert (EE : 2 ^ (fm_prec f - 1 + (fm_low f - 19)) = edge f) by (unfold edge; f_equal; lia).
    assert (ON : forall m, Rep f m -> edge f <= m -> exists j, m = j * g) by (intros m RM LM; apply (rep_large f m (fm_low f - 19)); [lia|lia|exact RM|rewrite EE; exact LM]).
    assert (FAR : g <= Z.abs (n' - n)).
    { destruct (ON n R B) as [j J]. destruct (Z.le_gt_cases (edge f) n') as [L|L].
      - destruct (ON n' R' L) as [j' J']. rewrite J, J', <- Z.mul_sub_distr_r, Z.abs_mul, (Z.abs_eq g) by lia. assert (j' <> j) by (intros ->; apply N; congruence). nia.
      - rewrite EG in *. assert (2 ^ (fm_prec f - 1) < j) by nia. nia. }
    assert (A : g * 10 ^ 6 <= Z.abs ((n' - n) * 10 ^ 6)) by (rewrite Z.abs_mul; change (Z.abs (10 ^ 6)) with (10 ^ 6); lia). rewrite G in K |- *. lia.
Qed.
Lemma six_fine f k y : Wide f -> 0 <= k -> k * 2 ^ fm_low f <= edge f * 10 ^ 6 -> Closest f k (10 ^ 6) y -> Rounds (y * 10 ^ 6) (2 ^ fm_low f) k.
Proof.
  intros W K0 B C. pose proof W as [[W1 W2] W3]. pose proof (pow_pos_ (fm_low f) ltac:(lia)) as PU. set (g := 2 ^ (fm_low f - 20)).
  assert (GP : 0 < g) by (apply pow_pos_; lia). assert (G : 2 ^ fm_low f = 1048576 * g) by (subst g; replace 1048576 with (2 ^ 20) by reflexivity; rewrite <- Z.pow_add_r by lia; f_equal; lia).
  assert (EG : edge f = 2 ^ fm_prec f * g) by (unfold edge; subst g; rewrite <- Z.pow_add_r by lia; f_equal; lia).
  pose proof (rhe_rounds (k * 2 ^ fm_low f) (10 ^ 6 * g) ltac:(lia)) as J. set (j := rhe (k * 2 ^ fm_low f) (10 ^ 6 * g)) in *.
  assert (J0 : 0 <= j) by (eapply rounds_nonneg; [| |exact J]; nia).
  assert (J1 : j <= 2 ^ fm_prec f).
  { eapply (rounds_mono _ (10 ^ 6 * g) j (2 ^ fm_prec f * (10 ^ 6 * g)) (10 ^ 6 * g)); [lia|lia|exact J|apply rounds_exact; lia|]. rewrite EG in B. nia. }
  pose proof (closest_near f k (10 ^ 6) y (j * g) C (rep_small f j (fm_low f - 20) ltac:(lia) ltac:(lia) ltac:(lia))) as NR. destruct J as [J _]. replace (j * (10 ^ 6 * g)) with (j * g * 10 ^ 6) in J by ring.
  assert (X : 2 * Z.abs (y * 10 ^ 6 - k * 2 ^ fm_low f) < 2 ^ fm_low f) by lia.
  replace (y * 10 ^ 6 - k * 2 ^ fm_low f) with (- (k * 2 ^ fm_low f - y * 10 ^ 6)) in X by lia. rewrite Z.abs_opp in X. split; lia.
Qed.
Lemma six_below f n k : Wide f -> n <= edge f -> Rounds (n * 10 ^ 6) (2 ^ fm_low f) k -> k * 2 ^ fm_low f <= edge f * 10 ^ 6.
Proof.
  intros W B K. pose proof W as [[W1 W2] W3]. pose proof (pow_pos_ (fm_low f) ltac:(lia)) as PU. rewrite (six_edge f W) in *.
  assert (X : k <= 2 ^ (fm_prec f - 20) * 10 ^ 6) by (eapply (rounds_mono _ (2 ^ fm_low f) k (2 ^ (fm_prec f - 20) * 10 ^ 6 * 2 ^ fm_low f) (2 ^ fm_low f)); [lia|lia|exact K|apply rounds_exact; lia|nia]). nia.
Qed.
(* the number read is printed like the one written *)
Lemma six_stable f n k y : Wide f -> Rep f n -> Rounds (n * 10 ^ 6) (2 ^ fm_low f) k -> Closest f k (10 ^ 6) y -> Rounds (y * 10 ^ 6) (2 ^ fm_low f) k.
Proof.
  intros W R K C. pose proof W as [[W1 W2] W3]. pose proof (pow_pos_ (fm_low f) ltac:(lia)) as PU. destruct (Z.le_gt_cases (edge f) n) as [L|L].
  - rewrite (closest_fun _ _ _ _ _ C (six_big f n k W R L K)). exact K.
  - apply (six_fine f k y W); [|apply (six_below f n k W ltac:(lia) K)|exact C]. pose proof (rep_nonneg f n R). eapply rounds_nonneg; [| |exact K]; lia.
Qed.
(* the numbers that are read back *)
Lemma six_exact f n k k' : Wide f -> 0 <= k' -> Rounds (n * 10 ^ 6) (2 ^ fm_low f) k -> Closest f k' (10 ^ 6) n -> Closest f k (10 ^ 6) n.
Proof.
  intros W K0 K C. pose proof W as [[W1 W2] W3]. pose proof (pow_pos_ (fm_low f) ltac:(lia)) as PU. pose proof C as [R _]. destruct (Z.le_gt_cases (edge f) n) as [L|L]; [apply (six_big f n k W R L K)|].
  assert (B : k' * 2 ^ fm_low f <= edge f * 10 ^ 6).
  { destruct (Z.le_gt_cases (k' * 2 ^ fm_low f) (edge f * 10 ^ 6)) as [|G]; [assumption|exfalso]. assert (RE : Rep f (edge f)).
    { unfold edge. replace (2 ^ (fm_prec f + fm_low f - 20)) with (1 * 2 ^ (fm_prec f + fm_low f - 20)) by lia. apply rep_small; [lia|lia|]. pose proof (pow_pos_ (fm_prec f) ltac:(lia)). lia. }
    pose proof (closest_near f k' (10 ^ 6) n (edge f) C RE). lia. }
  rewrite (rounds_fun _ _ _ _ PU K (six_fine f k' n W K0 B C)). exact C.
Qed.
Lemma six_error f n k y : 0 <= fm_low f -> Rep f n -> Rounds (n * 10 ^ 6) (2 ^ fm_low f) k -> Closest f k (10 ^ 6) y -> Z.abs (y - n) * 10 ^ 6 <= 2 ^ fm_low f.
Proof.
  intros U R [K _] C. pose proof (closest_near f k (10 ^ 6) y n C R) as N. replace (Z.abs (y - n) * 10 ^ 6) with (Z.abs (y * 10 ^ 6 - n * 10 ^ 6)) by (rewrite <- Z.mul_sub_distr_r, Z.abs_mul; reflexivity). lia.
Qed.
Lemma six_finite f n k y : Wide f -> Finite f n -> Rounds (n * 10 ^ 6) (2 ^ fm_low f) k -> Closest f k (10 ^ 6) y -> Finite f y.
Proof.
  intros W [R F] K C. split; [apply C|]. pose proof W as [[W1 W2] W3]. destruct (Z.le_gt_cases (edge f) n) as [L|L].
  - rewrite (closest_fun _ _ _ _ _ C (six_big f n k W R L K)). exact F.
  - pose proof (six_error f n k y ltac:(lia) R K C) as E. pose proof (pow_pos_ (fm_low f) ltac:(lia)) as PU.
    assert (X : y < edge f + 2 ^ fm_low f) by lia. assert (Y : edge f + 2 ^ fm_low f <= 2 ^ (fm_top f + fm_low f)); [|lia].
    rewrite (six_edge f W), Z.pow_add_r by lia. assert (Z1 : 2 ^ (fm_prec f - 20) + 1 <= 2 ^ fm_top f); [|nia].
    assert (2 ^ (fm_prec f - 20 + 1) <= 2 ^ fm_top f) by (apply Z.pow_le_mono_r; lia). rewrite Z.pow_add_r in H by lia. change (2 ^ 1) with 2 in H. pose proof (pow_pos_ (fm_prec f - 20) ltac:(lia)). lia.
Qed.

(* the text *)
Lemma ieee_wide f : IEEE f -> Wide f.
Proof. intros [->| ->]; unfold Wide; cbn; lia. Qed.
Lemma ieee_top f : IEEE f -> 2 ^ fm_top f < 10 ^ Z.of_nat 400.
Proof. intros [->| ->]; vm_compute; reflexivity. Qed.
Lemma last_digits_spec k : forall n, 0 <= n < 10 ^ Z.of_nat k -> List.length (last_digits k n) = k /\ Forall IsDigit (last_digits k n) /\ digits_value (last_digits k n) = n.
Proof.
  induction k as [|k IH]; intros n H; cbn [last_digits]; [repeat split; [constructor|cbn in *; lia]|]. rewrite Nat2Z.inj_succ, Z.pow_succ_r in H by lia.
  destruct (IH (n / 10)) as (L & F & V); [split; [apply Z.div_pos; lia|apply Z.div_lt_upper_bound; lia]|]. pose proof (Z.mod_pos_bound n 10 ltac:(lia)) as M. repeat split.
  - rewrite app_length, L. cbn. lia.
  - apply Forall_app. split; [exact F|]. constructor; [|constructor]. unfold IsDigit. rewrite digit_dval by lia. lia.
  - rewrite digits_value_snoc, V, digit_dval by lia. pose proof (Z.div_mod n 10 ltac:(lia)). lia.
Qed.
Lemma digits_canonical n : 0 <= n < 10 ^ Z.of_nat 400 -> Canonical (dec_digits 400 n) n.
Proof.
  intros H. destruct (Z.eq_dec n 0) as [->|N]; [change (dec_digits 400 0) with ["0"%char]; constructor|]. destruct (dec_digits_spec 400 n ltac:(lia)) as (d & ds & -> & F & D & V). inversion F; subst. apply Can_pos; assumption.
Qed.
Definition sixths (f : fmt) (n : Z) : Z := rhe (n * 10 ^ 6) (2 ^ fm_low f).
Lemma sixths_rounds f n : 0 <= fm_low f -> Rounds (n * 10 ^ 6) (2 ^ fm_low f) (sixths f n).
Proof. intros U. apply rhe_rounds, pow_pos_, U. Qed.
Lemma sixths_nonneg f n : 0 <= fm_low f -> 0 <= n -> 0 <= sixths f n.
Proof. intros U N. apply (rounds_nonneg (n * 10 ^ 6) (2 ^ fm_low f)); [apply pow_pos_, U|lia|apply sixths_rounds, U]. Qed.
Lemma text_fixed f neg n : IEEE f -> Finite f n -> Fixed6 neg (sixths f n) (to_text f (FFin neg n)).
Proof.
  intros I [R F]. pose proof (ieee_wide f I) as [[W1 W2] W3]. pose proof (rep_nonneg f n R) as N. pose proof (sixths_nonneg f n ltac:(lia) N) as K0. pose proof (sixths_rounds f n ltac:(lia)) as K. cbn [to_text]. fold (sixths f n). set (k := sixths f n) in *.
  pose proof (pow_pos_ (fm_low f) ltac:(lia)) as PU.
  assert (KB : k <= 2 ^ fm_top f * 10 ^ 6).
  { eapply (rounds_mono _ (2 ^ fm_low f) k (2 ^ fm_top f * 10 ^ 6 * 2 ^ fm_low f) (2 ^ fm_low f)); [lia|lia|exact K|apply rounds_exact; lia|]. rewrite Z.pow_add_r in F by lia. nia. }
  pose proof (Z.div_mod k (10 ^ 6) ltac:(lia)) as DM. pose proof (Z.mod_pos_bound k (10 ^ 6) ltac:(lia)) as MB. assert (DP : 0 <= k / 10 ^ 6) by (apply Z.div_pos; lia).
  destruct (last_digits_spec 6 (k mod 10 ^ 6) ltac:(exact MB)) as (L & FD & V). pose proof (ieee_top f I) as T.
  assert (E : k = (k / 10 ^ 6) * 10 ^ 6 + digits_value (last_digits 6 (k mod 10 ^ 6))) by lia. rewrite E at 1.
  replace (minus neg) with (if neg then lit "-" else []) by (destruct neg; reflexivity). apply (Fixed6_intro neg (dec_digits 400 (k / 10 ^ 6)) (k / 10 ^ 6)); [|exact DP|exact L|exact FD]. apply digits_canonical. lia.
Qed.

(* reading such text *)
Definition Ends (t : str) : Prop := nodigit t /\ exponent "e" t = (0, t).
Lemma digits_value_app a b : digits_value (a ++ b) = digits_value a * 10 ^ Z.of_nat (List.length b) + digits_value b.
Proof. induction a as [|c a IH]; cbn [app digits_value]; [lia|]. rewrite IH, app_length, Nat2Z.inj_add, Z.pow_add_r by lia. ring. Qed.
Lemma canonical_digits ip i : Canonical ip i -> 0 <= i -> ip <> [] /\ Forall IsDigit ip /\ digits_value ip = i /\ (forall u, ip <> "0"%char :: u \/ u = []).
Proof.
  intros C P. inversion C as [E1 E2|d ds D1 D2 D3 E1 E2|d ds D1 D2 D3 E1 E2]; subst.
  - repeat split; [discriminate|constructor; [vm_compute; split; discriminate|constructor]|]. intros [|]; [right; reflexivity|left; discriminate].
  - repeat split; [discriminate|constructor; assumption|]. intros u. left. intros E. injection E as -> _. congruence.
  - exfalso. pose proof (digits_value_lower d ds D1 D2 D3). assert (0 < 10 ^ Z.of_nat (List.length ds)) by (apply Z.pow_pos_nonneg; lia). lia.
Qed.
Lemma fixed_number ip i fp t : Canonical ip i -> 0 <= i -> List.length fp = 6%nat -> Forall IsDigit fp -> Ends t ->
  number ((ip ++ lit "." ++ fp) ++ t) = Some (VNum (i * 10 ^ 6 + digits_value fp) (10 ^ 6), t).
Proof.
  intros C P L F [T1 T2]. destruct (canonical_digits ip i C P) as (NE & FI & V & Z0). rewrite <- app_assoc. cbn [lit String.list_ascii_of_string app].
  assert (H : hexadecimal (ip ++ "."%char :: fp ++ t) = None).
  { destruct ip as [|c [|x ip]]; [congruence| |]; cbn [app hexadecimal].
    - destruct (Ascii.eqb c "0"); [|reflexivity]. change (Ascii.eqb (lower ".") "x") with false. reflexivity.
    - destruct (Ascii.eqb c "0") eqn:Q; [|reflexivity]. apply Ascii.eqb_eq in Q as ->. destruct (Z0 (x :: ip)); congruence. }
  assert (FD : forall ds, Forall IsDigit ds -> Forall (fun c => isdigit c = true) ds) by (intros ds X; eapply Forall_impl; [|exact X]; intros c; apply isdigit_spec).
  assert (TT : take isdigit t = ([], t)) by (destruct t as [|c t]; [reflexivity|apply take_stop; apply isdigit_false; exact T1]).
  unfold number. rewrite H. unfold decimal, mantissa. rewrite (take_app isdigit ip _ (FD _ FI)), take_stop by reflexivity. cbn [fst snd]. rewrite app_nil_r. change (Ascii.eqb "." ".") with true. cbv iota.
  rewrite (take_app isdigit fp _ (FD _ F)), TT. cbn [fst snd]. rewrite app_nil_r. destruct (ip ++ fp) as [|a u] eqn:Q; [destruct ip; [congruence|discriminate]|]. rewrite T2, L. rewrite acc_digits_value, digits_value_app, L, V. reflexivity.
Qed.
Lemma skip_ws_digits ip t : ip <> [] -> Forall IsDigit ip -> skip_ws (ip ++ t) = ip ++ t.
Proof. intros N F. destruct F as [|c ip D F]; [congruence|]. cbn [app]. apply skip_ws_head, digit_not_white, D. Qed.
Lemma fixed_parse neg k s t : Fixed6 neg k s -> Ends t -> parse (s ++ t) = (neg, Some (VNum k (10 ^ 6), t)).
Proof.
  intros [neg' ip i fp C P L F] T. pose proof (fixed_number ip i fp t C P L F T) as N. destruct (canonical_digits ip i C P) as (NE & FI & V & Z0). unfold parse. destruct neg'.
  - cbn [lit String.list_ascii_of_string app] in *. rewrite skip_ws_head by (intros [X|X]; [discriminate|cbn in X; lia]). cbn [take_sign]. change (Ascii.eqb "-" "-") with true. cbv iota. rewrite N. reflexivity.
  - cbn [app]. rewrite <- !app_assoc, skip_ws_digits, take_sign_digits by assumption. rewrite <- !app_assoc in N. rewrite N. reflexivity.
Qed.
Lemma ends_nil : Ends []. Proof. split; [exact I|reflexivity]. Qed.
Lemma fixed_chars neg k s : Fixed6 neg k s -> Forall (fun c => IsDigit c \/ c = "-"%char \/ c = "."%char) s /\ s <> [] .
Proof.
  intros [neg' ip i fp C P L F]. destruct (canonical_digits ip i C P) as (NE & FI & V & Z0). split.
  - apply Forall_app. split; [destruct neg'; [constructor; [right; left; reflexivity|constructor]|constructor]|]. apply Forall_app. split; [eapply Forall_impl; [|exact FI]; intros; left; assumption|]. cbn. constructor; [right; right; reflexivity|]. eapply Forall_impl; [|exact F]; intros; left; assumption.
  - destruct neg'; [discriminate|]. destruct ip; [congruence|discriminate].
Qed.
Lemma cstr_id s : Forall (fun c => c <> NUL) s -> cstr s = s.
Proof. induction 1 as [|c s C F IH]; [reflexivity|]. cbn [cstr]. rewrite (proj2 (Ascii.eqb_neq c NUL) C), IH. reflexivity. Qed.
Lemma fixed_cstr neg k s : Fixed6 neg k s -> cstr s = s.
Proof. intros F. apply cstr_id. eapply Forall_impl; [|apply (fixed_chars _ _ _ F)]. intros c [D|[->| ->]]; try discriminate. intros ->. absurd_digit D. Qed.
Lemma fixed_fun neg k neg' k' s : Fixed6 neg k s -> Fixed6 neg' k' s -> neg = neg' /\ k = k'.
Proof. intros F F'. pose proof (fixed_parse _ _ _ [] F ends_nil) as E. rewrite (fixed_parse _ _ _ [] F' ends_nil) in E. injection E as -> ->. auto. Qed.

(* numbers *)
Lemma hex_value_nonneg ds z : HexValue ds z -> 0 <= z.
Proof. induction 1; lia. Qed.
Lemma form_pos b num den : Form b (VNum num den) -> 0 <= num /\ 0 < den.
Proof.
  intros F. inversion F as [m ip fp x z M X E1 E2|p m ip fp h x z P M H X E1 E2| | | | ]; subst.
  - destruct (mant_parts _ _ _ _ M) as [D _]. pose proof (digits_value_nonneg _ D). split; [apply Z.mul_nonneg_nonneg; [assumption|apply Z.pow_nonneg; lia]|apply Z.pow_pos_nonneg; lia].
  - pose proof (hex_value_nonneg _ _ H). split; [apply Z.mul_nonneg_nonneg; [assumption|apply Z.pow_nonneg; lia]|apply Z.pow_pos_nonneg; lia].
Qed.
Definition valued (v : subject) : Prop := match v with VNum num den => 0 <= num /\ 0 < den | _ => True end.
Lemma begins_valued s neg v r : Begins s neg v r -> valued v.
Proof. intros (w & g & b & _ & _ & _ & F & _). destruct v; cbn; auto. apply (form_pos b). exact F. Qed.
Lemma stands_iff f neg v x : Wide f -> valued v -> (Stands f neg v x <-> to_fnum f neg v = x).
Proof.
  intros [[W1 W2] W3] P. destruct v as [num den| |]; cbn [to_fnum].
  - destruct P as [P1 P2]. pose proof (round_closest f num den ltac:(lia) ltac:(lia) P1 P2) as C. split.
    + intros S. inversion S as [| |? ? n C' L|? ? n C' L]; subst; rewrite (closest_fun _ _ _ _ _ C C'); [rewrite (proj2 (Z.leb_gt _ _) L)|rewrite (proj2 (Z.leb_le _ _) L)]; reflexivity.
    + intros <-. destruct (2 ^ (fm_top f + fm_low f) <=? round_units f num den) eqn:O; [apply Z.leb_le in O; eapply St_over; eassumption|apply Z.leb_gt in O; apply St_num; assumption].
  - split; [intros S; inversion S; reflexivity|intros <-; constructor].
  - split; [intros S; inversion S; reflexivity|intros <-; constructor].
Qed.
Lemma range_iff f under v : Wide f -> valued v -> (OutOfRange f under v <-> erange f under v = true).
Proof.
  intros [[W1 W2] W3] P. unfold OutOfRange. destruct v as [num den| |]; cbn [erange].
  - destruct P as [P1 P2]. pose proof (round_closest f num den ltac:(lia) ltac:(lia) P1 P2) as C. rewrite orb_true_iff, !andb_true_iff, Z.leb_le, !Z.ltb_lt. split.
    + intros (a & b & E & H). injection E as <- <-. destruct H as [(n & C' & L)|H]; [left; rewrite (closest_fun _ _ _ _ _ C C'); exact L|right; tauto].
    + intros H. exists num, den. split; [reflexivity|]. destruct H as [H|H]; [left; eauto|right; tauto].
  - split; [intros (a & b & E & _); discriminate|discriminate].
  - split; [intros (a & b & E & _); discriminate|discriminate].
Qed.
Lemma strtod_iff f under s x e r : Wide f -> (strtod f under s = Some (x, e, r) <-> exists neg v, Begins s neg v r /\ Stands f neg v x /\ (e = true <-> OutOfRange f under v)).
Proof.
  intros W. assert (EQ : strtod f under s = let '(neg, o) := parse s in match o with Some (v, r) => Some (to_fnum f neg v, erange f under v, r) | None => None end) by (unfold strtod, parse; destruct (take_sign (skip_ws s)); reflexivity).
  rewrite EQ. split.
  - destruct (parse s) as [neg o] eqn:P. destruct o as [[v r']|]; [|discriminate]. intros E. injection E as <- <- <-. apply begins_parse in P. pose proof (begins_valued _ _ _ _ P) as V. exists neg, v. split; [exact P|]. split; [apply stands_iff; auto|]. symmetry. apply range_iff; assumption.
  - intros (neg & v & B & S & R). pose proof (begins_valued _ _ _ _ B) as V. apply begins_parse in B. rewrite B. apply stands_iff in S; [|assumption..]. rewrite S. rewrite (range_iff f under v W V) in R. replace (erange f under v) with e; [reflexivity|]. destruct e, (erange f under v); auto; destruct R as [R1 R2]; [symmetry; apply R1; reflexivity|apply R2; reflexivity].
Qed.
Lemma strtod_none f under s : strtod f under s = None <-> forall neg v r, ~ Begins s neg v r.
Proof.
  assert (EQ : strtod f under s = let '(neg, o) := parse s in match o with Some (v, r) => Some (to_fnum f neg v, erange f under v, r) | None => None end) by (unfold strtod, parse; destruct (take_sign (skip_ws s)); reflexivity).
  rewrite EQ. destruct (parse s) as [neg [[v r]|]] eqn:P; split; try discriminate; try reflexivity.
  - intros N. exfalso. apply (N neg v r). apply begins_parse. exact P.
  - intros _ neg' v r B. apply begins_parse in B. rewrite P in B. discriminate.
Qed.

(* what was written *)
Lemma fixed_strtod f under neg k s t n : Wide f -> Fixed6 neg k s -> Ends t -> 0 <= k -> Closest f k (10 ^ 6) n -> n < 2 ^ (fm_top f + fm_low f) ->
  strtod f under (s ++ t) = Some (FFin neg n, false, t).
Proof.
  intros W F T K C L. apply strtod_iff; [exact W|]. exists neg, (VNum k (10 ^ 6)). split; [apply begins_parse; apply fixed_parse; assumption|]. split; [apply St_num; assumption|]. split; [discriminate|]. intros (a & b & E & H). injection E as <- <-. exfalso. destruct H as [(n' & C' & G)|(G1 & G2 & _)].
  - rewrite (closest_fun _ _ _ _ _ C C') in L. lia.
  - destruct W as [[W1 W2] W3]. assert (X : 10 ^ 6 * 2 ^ (fm_prec f - 1) < 2 ^ fm_low f); [|pose proof (pow_pos_ (fm_low f) ltac:(lia)); nia].
    apply Z.lt_le_trans with (2 ^ 20 * 2 ^ (fm_prec f - 1)); [pose proof (pow_pos_ (fm_prec f - 1) ltac:(lia)); apply Z.mul_lt_mono_pos_r; [lia|reflexivity]|]. rewrite <- Z.pow_add_r by lia. apply Z.pow_le_mono_r; lia.
Qed.

(* every value *)
Definition Stop (t : str) : Prop := match t with [] => True | c :: _ => White c \/ c = "."%char end.
Lemma stop_head c t : Stop (c :: t) -> ~ IsDigit c /\ Ascii.eqb (lower c) "e" = false /\ Ascii.eqb (lower c) "i" = false /\ Ascii.eqb c "(" = false.
Proof.
  intros [[->|W]| ->]; try (repeat split; try reflexivity; intros D; absurd_digit D). assert (Q : c = ascii_of_nat (nat_of_ascii c)) by (symmetry; apply ascii_nat_embedding).
  assert (X : (nat_of_ascii c = 9 \/ nat_of_ascii c = 10 \/ nat_of_ascii c = 11 \/ nat_of_ascii c = 12 \/ nat_of_ascii c = 13)%nat) by lia.
  destruct X as [X|[X|[X|[X|X]]]]; rewrite X in Q; rewrite Q; repeat split; try reflexivity; intros D; absurd_digit D.
Qed.
Lemma stop_ends t : Stop t -> Ends t.
Proof. intros S. destruct t as [|c t]; [apply ends_nil|]. destruct (stop_head c t S) as (D & E & _). split; [exact D|]. unfold exponent. rewrite E. reflexivity. Qed.
Lemma inf_named t : Stop t -> number (lit "inf" ++ t) = Some (VInf, t).
Proof.
  intros S. unfold number. destruct (name_only "i" "i" (lit "nf" ++ t) ltac:(unfold small; cbn; lia) (or_introl eq_refl)) as [H D]. change (lit "inf" ++ t) with ("i"%char :: lit "nf" ++ t). rewrite H, D. unfold named.
  destruct t as [|c t]; [reflexivity|]. destruct (stop_head c t S) as (_ & _ & I & _). cbn [lit String.list_ascii_of_string app map prefixb]. change (lower "i") with "i"%char. change (lower "n") with "n"%char. change (lower "f") with "f"%char. rewrite !Ascii.eqb_refl. cbn [andb].
  rewrite (Ascii.eqb_sym "i" (lower c)), I. reflexivity.
Qed.
Lemma nan_named t : Stop t -> number (lit "nan" ++ t) = Some (VNan, t).
Proof.
  intros S. unfold number. destruct (name_only "n" "n" (lit "an" ++ t) ltac:(unfold small; cbn; lia) (or_introl eq_refl)) as [H D]. change (lit "nan" ++ t) with ("n"%char :: lit "an" ++ t). rewrite H, D. unfold named.
  destruct t as [|c t]; [reflexivity|]. destruct (stop_head c t S) as (_ & _ & _ & I). cbn [lit String.list_ascii_of_string app map prefixb skipn]. change (lower "n") with "n"%char. change (lower "a") with "a"%char. change (Ascii.eqb "i" "n") with false. rewrite !Ascii.eqb_refl. cbn [andb]. rewrite I. reflexivity.
Qed.
Lemma text_strtod f under x t : IEEE f -> Six f x -> Stop t -> strtod f under (to_text f x ++ t) = Some (x, false, t).
Proof.
  intros I S T. pose proof (ieee_wide f I) as W. pose proof W as [[W1 W2] W3]. destruct x as [|neg|neg n].
  - apply strtod_iff; [exact W|]. exists false, VNan. split; [|split; [constructor|split; [discriminate|intros (a & b & E & _); discriminate]]]. apply begins_parse. cbn [to_text]. unfold parse.
    change (take_sign (skip_ws (lit "nan" ++ t))) with (false, lit "nan" ++ t). cbv iota beta. rewrite nan_named by exact T. reflexivity.
  - apply strtod_iff; [exact W|]. exists neg, VInf. split; [|split; [constructor|split; [discriminate|intros (a & b & E & _); discriminate]]]. apply begins_parse. cbn [to_text]. unfold parse. destruct neg.
    + change (take_sign (skip_ws ((minus true ++ lit "inf") ++ t))) with (true, lit "inf" ++ t). cbv iota beta. rewrite inf_named by exact T. reflexivity.
    + change (take_sign (skip_ws ((minus false ++ lit "inf") ++ t))) with (false, lit "inf" ++ t). cbv iota beta. rewrite inf_named by exact T. reflexivity.
  - destruct S as [F (k & K & C)]. pose proof F as [R L]. pose proof (rep_nonneg f n R) as N. eapply (fixed_strtod f under neg (sixths f n)); [exact W|apply text_fixed; assumption|apply stop_ends; exact T|apply sixths_nonneg; lia| |exact L].
    apply (six_exact f n (sixths f n) k W K (sixths_rounds f n ltac:(lia)) C).
Qed.
Lemma text_chars f x : IEEE f -> Valid f x -> Forall (fun c => IsDigit c \/ c = "-"%char \/ c = "."%char \/ In c (lit "infa")) (to_text f x) /\ to_text f x <> [].
Proof.
  intros I V. destruct x as [|neg|neg n].
  - split; [|discriminate]. apply Forall_forall. intros c C. right. right. right. cbn in C |- *. tauto.
  - split; [|destruct neg; discriminate]. cbn [to_text]. apply Forall_app. split; [destruct neg; [constructor; [right; left; reflexivity|constructor]|constructor]|]. apply Forall_forall. intros c C. right. right. right. cbn in C |- *. tauto.
  - destruct (fixed_chars _ _ _ (text_fixed f neg n I V)) as [F N]. split; [|exact N]. eapply Forall_impl; [|exact F]. intros c [D|[D|D]]; auto.
Qed.
Lemma text_cstr f x : IEEE f -> Valid f x -> cstr (to_text f x) = to_text f x.
Proof.
  intros I V. apply cstr_id. eapply Forall_impl; [|apply (text_chars f x I V)]. intros c [D|[->|[->|D]]]; try discriminate; intros ->; [absurd_digit D|]. cbn in D. intuition discriminate.
Qed.
