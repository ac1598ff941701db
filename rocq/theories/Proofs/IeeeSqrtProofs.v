From Coq Require Import Reals ZArith Lra Lia Bool.
From Verif Require Import Model.Base Model.FloatText Model.Math Model.Ieee Model.FloatMath Model.FloatVec Spec.FloatText Spec.Ieee Proofs.FloatTextProofs Proofs.IeeeProofs Proofs.IeeeErrorProofs.
Local Open Scope R_scope.

(* the formats are deep: the root of the smallest number is far from it *)
Definition Deep (f : fmt) : Prop := (Sane f /\ 4 <= fm_prec f /\ 6 * fm_prec f + 4 <= fm_low f /\ fm_top f <= fm_low f)%Z.
Lemma ieee_deep f : IEEE f -> Deep f.
Proof. intros I. split; [apply ieee_sane, I|]. destruct I as [-> | ->]; cbn; lia. Qed.
Lemma grid_integer f g : Grid f g -> exists s n, Rep f n /\ g = IZR (signed s n) * unit_of f.
Proof. intros (s & n & R & ->). exists s, n. split; [exact R|apply val_signed]. Qed.
Lemma odd_small f n : Sane f -> Rep f n -> Z.odd n = true -> (n < 2 ^ fm_prec f)%Z.
Proof.
  intros [W1 W2] (m & e & E & M & ->) O. destruct (Z.eq_dec e 0) as [->|N]; [rewrite Z.pow_0_r; lia|]. rewrite Z.odd_mul, Z.odd_pow in O by lia. cbn in O. rewrite andb_false_r in O. discriminate.
Qed.
Lemma sqrt_transfer f r y g : Sane f -> (2 ^ (fm_prec f + 1) <= r)%Z -> IZR r < y < IZR (r + 1) -> Near f ((IZR r + / 2) * unit_of f) g -> Near f (y * unit_of f) g.
Proof.
  intros W RB Y N. pose proof (unit_pos f W) as U. pose proof W as [W1 W2]. destruct N as [G N]. pose proof (conj G N : Near f ((IZR r + / 2) * unit_of f) g) as NN. split; [exact G|]. intros g' G' D. destruct (grid_integer f g G) as (s & n & RN & EN). destruct (grid_integer f g' G') as (t & m & RM & EM).
  set (A := signed s n) in *. set (B := signed t m) in *. assert (AB : A <> B) by (intros E; apply D; rewrite EN, EM, E; reflexivity). rewrite plus_IZR in Y.
  assert (SH : forall a b c : R, Rabs (a * unit_of f - c * unit_of f) = Rabs (a - c) * unit_of f) by (intros a b c; rewrite <- (Rmult_minus_distr_r), Rabs_mult, (Rabs_right (unit_of f)) by lra; reflexivity).
  specialize (N g' G' D). rewrite EN, EM in N |- *. rewrite !(SH _ 0) in N |- *. left. apply Rmult_lt_compat_r; [exact U|].
  assert (CMP : forall c : R, Rabs (IZR A - c) < Rabs (IZR B - c) <-> ((A < B)%Z /\ 2 * c < IZR (A + B)) \/ ((B < A)%Z /\ IZR (A + B) < 2 * c)).
  { intros c. rewrite plus_IZR. split.
    - intros L. apply Rsqr_lt_abs_1 in L. unfold Rsqr in L. destruct (Z.lt_total A B) as [X|[X|X]]; [left|contradiction|right]; (split; [exact X|]); apply IZR_lt in X; nra.
    - intros [[X L]|[X L]]; apply IZR_lt in X; apply Rsqr_lt_abs_0; unfold Rsqr; nra. }
  destruct N as [L|[L _]].
  - apply Rmult_lt_reg_r in L; [|exact U]. apply CMP. apply CMP in L. destruct L as [[X L]|[X L]]; [left|right]; (split; [exact X|]).
    + assert (LL : IZR (2 * r + 1) < IZR (A + B)) by (rewrite plus_IZR, mult_IZR; lra). apply lt_IZR in LL. assert (Q : IZR (2 * r + 2) <= IZR (A + B)) by (apply IZR_le; lia). rewrite (plus_IZR (2 * r)), (mult_IZR 2 r) in Q. lra.
    + assert (LL : IZR (A + B) < IZR (2 * r + 1)) by (rewrite (plus_IZR (2 * r)), (mult_IZR 2 r); lra). apply lt_IZR in LL. assert (Q : IZR (A + B) <= IZR (2 * r)) by (apply IZR_le; lia). rewrite (mult_IZR 2 r) in Q. lra.
  - exfalso. apply Rmult_eq_reg_r in L; [|lra]. assert (S : (A + B = 2 * r + 1)%Z).
    { apply eq_IZR. rewrite (plus_IZR (2 * r)), (mult_IZR 2 r), plus_IZR. assert (XR : IZR A <> IZR B) by (intros E; apply AB, eq_IZR, E). apply Rsqr_eq_abs_0 in L || (assert (LS : Rsqr (IZR A - (IZR r + / 2)) = Rsqr (IZR B - (IZR r + / 2))) by (rewrite (Rsqr_abs (IZR A - _)), (Rsqr_abs (IZR B - _)), L; reflexivity); clear L; rename LS into L). unfold Rsqr in L.
      assert (Z0 : (IZR A - IZR B) * (IZR A + IZR B - 2 * IZR r - 1) = 0) by nra. apply Rmult_integral in Z0. destruct Z0; lra. }
    assert (P1 : (2 ^ (fm_prec f + 1) = 2 * 2 ^ fm_prec f)%Z) by (rewrite Z.pow_add_r by lia; lia). pose proof (pow_pos_ (fm_prec f) ltac:(lia)) as PP. pose proof (IZR_lt _ _ PP) as PPR.
    assert (SM : Z.odd A = true -> (Z.abs A < 2 ^ fm_prec f)%Z) by (intros O; assert (On : Z.odd n = true) by (unfold A, signed in O; destruct s; [rewrite Z.odd_opp in O|]; exact O); pose proof (odd_small f n W RN On); pose proof (rep_nonneg f n RN); unfold A, signed; destruct s; lia).
    assert (SB : Z.odd B = true -> (Z.abs B < 2 ^ fm_prec f)%Z) by (intros O; assert (On : Z.odd m = true) by (unfold B, signed in O; destruct t; [rewrite Z.odd_opp in O|]; exact O); pose proof (odd_small f m W RM On); pose proof (rep_nonneg f m RM); unfold B, signed; destruct t; lia).
    assert (OD : Z.odd A = true \/ Z.odd B = true). { assert (O : Z.odd (A + B) = true) by (rewrite S, Z.add_comm, Z.odd_add_mul_2; reflexivity). rewrite Z.odd_add in O. destruct (Z.odd A), (Z.odd B); auto; discriminate. }
    assert (FAR : IZR r / 2 < Rabs (IZR A - (IZR r + / 2))).
    { assert (RR : 2 * IZR (2 ^ fm_prec f) <= IZR r) by (rewrite <- (mult_IZR 2); apply IZR_le; lia). destruct OD as [O|O]; [specialize (SM O)|specialize (SB O); rewrite L].
      - assert (IZR A < IZR (2 ^ fm_prec f)) by (apply IZR_lt; lia). rewrite Rabs_left by lra. lra.
      - assert (IZR B < IZR (2 ^ fm_prec f)) by (apply IZR_lt; lia). rewrite Rabs_left by lra. lra. }
    pose proof (near_error f _ g W NN) as NE. rewrite EN, (SH _ 0) in NE. assert (RR : 8 <= IZR r). { apply (IZR_le 8). pose proof (Z.pow_le_mono_r 2 3 (fm_prec f + 1) ltac:(lia) ltac:(lia)). lia. } assert (P4 : 4 <= IZR (2 ^ fm_prec f)) by (apply (IZR_le 4); apply (Z.pow_le_mono_r 2 2 (fm_prec f)); lia).
    rewrite Rabs_mult, (Rabs_right (unit_of f)), (Rabs_right (IZR r + / 2)) in NE by lra. destruct NE as [NE|(NE & _)].
    + assert (Rabs (IZR A - (IZR r + / 2)) <= (IZR r + / 2) / IZR (2 ^ fm_prec f)) by (apply (Rmult_le_reg_r (unit_of f)); [exact U|]; replace ((IZR r + / 2) / IZR (2 ^ fm_prec f) * unit_of f) with ((IZR r + / 2) * unit_of f / IZR (2 ^ fm_prec f)) by (field; lra); exact NE).
      assert ((IZR r + / 2) / IZR (2 ^ fm_prec f) <= (IZR r + / 2) / 4) by (apply Rmult_le_compat_l; [lra|]; apply Rinv_le_contravar; lra). lra.
    + assert (Rabs (IZR A - (IZR r + / 2)) <= / 2) by (apply (Rmult_le_reg_r (unit_of f)); [exact U|]; lra). lra.
Qed.
Lemma correct_near f r x y : Correct f r x -> 0 < r -> 0 < y -> (forall g, Near f r g -> Near f y g) -> Correct f y x.
Proof.
  intros (g & N & H) R Y T. exists g. split; [apply T, N|]. destruct x as [|a|a n]; [exact H| |]; destruct a; intuition lra.
Qed.
Lemma sqrt_units f n : Sane f -> (0 <= n)%Z -> sqrt (val f false n) = sqrt (IZR (n * 2 ^ fm_low f)) * unit_of f.
Proof.
  intros W P. pose proof (unit_pos f W) as U. pose proof (unit_scale f W) as S. rewrite <- (sqrt_square (unit_of f)) by lra. rewrite <- sqrt_mult by (try nra; apply (IZR_le 0); pose proof W as [W1 W2]; pose proof (pow_pos_ (fm_low f) ltac:(lia)); nia). f_equal. rewrite mult_IZR. unfold val, unit_of. field. lra.
Qed.
Lemma sqrt_root f n : Deep f -> (0 < n)%Z -> (2 ^ (2 * (fm_prec f + 1)) <= n * 2 ^ fm_low f)%Z /\ (2 ^ (fm_prec f + 1) <= Z.sqrt (n * 2 ^ fm_low f))%Z.
Proof.
  intros ([W1 W2] & P & L & T) N. assert (A : (2 ^ (2 * (fm_prec f + 1)) <= n * 2 ^ fm_low f)%Z). { pose proof (Z.pow_le_mono_r 2 (2 * (fm_prec f + 1)) (fm_low f) ltac:(lia) ltac:(lia)). nia. } split; [exact A|]. apply Z.sqrt_le_square; [lia|apply Z.pow_nonneg; lia|]. rewrite <- Z.pow_add_r by lia. replace (fm_prec f + 1 + (fm_prec f + 1))%Z with (2 * (fm_prec f + 1))%Z by lia. exact A.
Qed.
Lemma sqrt_correct f n : Deep f -> (0 < n)%Z -> Correct f (sqrt (val f false n)) (f_sqrt f (FFin false n)).
Proof.
  intros DF N. pose proof DF as [W _]. pose proof W as [W1 W2]. pose proof (pow_pos_ (fm_low f) ltac:(lia)) as LP. pose proof (unit_pos f W) as U. destruct (sqrt_root f n DF N) as [B1 B2]. unfold f_sqrt. rewrite (proj2 (Z.eqb_neq n 0)) by lia. set (M := (n * 2 ^ fm_low f)%Z) in *. destruct (Z.sqrt_spec M ltac:(lia)) as [S1 S2]. set (r := Z.sqrt M) in *.
  rewrite (sqrt_units f n W ltac:(lia)). fold M. assert (RP : (0 < r)%Z) by (pose proof (pow_pos_ (fm_prec f + 1) ltac:(lia)); lia). assert (RR : 0 < IZR r) by (apply (IZR_lt 0); exact RP).
  destruct (Z.eqb_spec (r * r) M) as [E|E].
  - rewrite <- E, mult_IZR, sqrt_square by lra. rewrite Z.add_0_r. pose proof (round_correct f false (2 * r) (2 * 2 ^ fm_low f) W ltac:(lia) ltac:(lia)) as C. cbn match in C. replace (IZR r * unit_of f) with (IZR (2 * r) / IZR (2 * 2 ^ fm_low f)); [exact C|]. rewrite !(mult_IZR 2). unfold unit_of. field. pose proof (unit_scale f W). lra.
  - pose proof (round_correct f false (2 * r + 1) (2 * 2 ^ fm_low f) W ltac:(lia) ltac:(lia)) as C. cbn match in C. replace (IZR (2 * r + 1) / IZR (2 * 2 ^ fm_low f)) with ((IZR r + / 2) * unit_of f) in C by (rewrite (plus_IZR (2 * r)), !(mult_IZR 2); unfold unit_of; field; pose proof (unit_scale f W); lra).
    assert (Y : IZR r < sqrt (IZR M) < IZR (r + 1)). { split; [rewrite <- (sqrt_square (IZR r)) by lra|rewrite <- (sqrt_square (IZR (r + 1))) by (apply (IZR_le 0); lia)]; rewrite <- mult_IZR; apply sqrt_lt_1; try (apply (IZR_le 0); nia); apply IZR_lt; nia. }
    apply (correct_near f _ _ _ C); [nra|apply Rmult_lt_0_compat; lra|]. intros g. apply sqrt_transfer; assumption.
Qed.
(* numbers of the format with no other within d are the result of rounding
   anything closer than half of it *)
Lemma near_gap f x y d : Grid f x -> (forall g, Grid f g -> g <> x -> 2 * d <= Rabs (g - x)) -> Rabs (y - x) < d -> Near f y x.
Proof.
  intros G H Y. split; [exact G|]. intros g' G' D. left. specialize (H g' G' D). replace (x - y) with (- (y - x)) by ring. rewrite Rabs_Ropp. assert (Rabs (g' - x) <= Rabs (g' - y) + Rabs (y - x)) by (replace (g' - x) with ((g' - y) + (y - x)) by ring; apply Rabs_triang). lra.
Qed.
Lemma grid_gap f m e g : Sane f -> (0 <= e)%Z -> (2 ^ (fm_prec f - 1) < m < 2 ^ fm_prec f)%Z -> Grid f g -> g <> val f false (m * 2 ^ e) -> IZR (2 ^ e) * unit_of f <= Rabs (g - val f false (m * 2 ^ e)).
Proof.
  intros W E M (s & n & R & ->) D. pose proof (unit_pos f W) as U. pose proof W as [W1 W2]. rewrite !val_signed in *. cbn [signed] in *. set (A := signed s n) in *. rewrite <- Rmult_minus_distr_r, Rabs_mult, (Rabs_right (unit_of f)) by lra. apply Rmult_le_compat_r; [lra|]. rewrite <- minus_IZR, <- abs_IZR. apply IZR_le.
  assert (X : A <> (m * 2 ^ e)%Z) by (intros X; apply D; rewrite X; reflexivity). pose proof (pow_pos_ e E) as EP. pose proof (pow_pos_ (fm_prec f - 1) ltac:(lia)) as PP. assert (PD : (2 ^ fm_prec f = 2 * 2 ^ (fm_prec f - 1))%Z) by (replace (fm_prec f) with (1 + (fm_prec f - 1))%Z at 1 by lia; rewrite Z.pow_add_r by lia; lia).
  destruct (Z.le_gt_cases A (2 ^ (fm_prec f - 1) * 2 ^ e)) as [C|C]; [rewrite Z.abs_neq by nia; nia|]. assert (s = false) by (destruct s; [exfalso; pose proof (rep_nonneg f n R); unfold A, signed in C; nia|reflexivity]). subst s. unfold A, signed in *.
  destruct (rep_large f n e ltac:(lia) E R) as (k & ->); [rewrite Z.pow_add_r by lia; lia|]. assert (KM : k <> m) by (intros ->; apply X; reflexivity). rewrite <- Z.mul_sub_distr_r, Z.abs_mul, (Z.abs_eq (2 ^ e)) by lia. nia.
Qed.
