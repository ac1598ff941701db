From Coq Require Import Reals ZArith Lra Lia Bool.
From Verif Require Import Model.Base Model.FloatText Model.Ieee Spec.FloatText Spec.Ieee Proofs.FloatTextProofs Proofs.IeeeProofs.
Local Open Scope R_scope.

(* the error of rounding *)
Lemma near_between f r g lo hi : Near f r g -> Grid f lo -> Grid f hi -> lo <= r <= hi -> Rabs (g - r) <= (hi - lo) / 2.
Proof.
  intros N L H B. pose proof (near_abs f r g lo N L) as A1. pose proof (near_abs f r g hi N H) as A2. rewrite (Rabs_left1 (lo - r)) in A1 by lra. rewrite (Rabs_right (hi - r)) in A2 by lra. lra.
Qed.
Lemma grid_int f k e : Sane f -> (0 <= e)%Z -> (Z.abs k <= 2 ^ fm_prec f)%Z -> Grid f (IZR (k * 2 ^ e) * unit_of f).
Proof.
  intros [W1 W2] E K. exists (k <? 0)%Z, (Z.abs k * 2 ^ e)%Z. split; [apply rep_small; lia|]. rewrite val_signed. f_equal. f_equal. unfold signed. destruct (Z.ltb_spec k 0); [rewrite Z.abs_neq by lia|rewrite Z.abs_eq by lia]; ring.
Qed.
Lemma grid_small f k : Sane f -> (Z.abs k <= 2 ^ fm_prec f)%Z -> Grid f (IZR k * unit_of f).
Proof. intros W K. pose proof (grid_int f k 0 W ltac:(lia) K) as G. rewrite Z.pow_0_r, Z.mul_1_r in G. exact G. Qed.
Lemma pow_scale f : Sane f -> 0 < IZR (2 ^ fm_prec f).
Proof. intros [W1 W2]. apply IZR_lt, pow_pos_. lia. Qed.
Lemma near_error_pos f r g : Sane f -> 0 <= r -> Near f r g ->
  Rabs (g - r) <= r / IZR (2 ^ fm_prec f) \/ Rabs (g - r) <= unit_of f / 2 /\ r < IZR (2 ^ fm_prec f) * unit_of f /\ forall k : Z, r = IZR k * unit_of f -> g = r.
Proof.
  intros W P N. pose proof (unit_pos f W) as U. set (x := r / unit_of f). assert (X : r = x * unit_of f) by (unfold x; field; lra). assert (XP : 0 <= x) by (unfold x, Rdiv; apply Rmult_le_pos; [exact P|left; apply Rinv_0_lt_compat, U]).
  destruct (base_Int_part x) as [B1 B2]. set (k := Int_part x) in *. assert (K : (0 <= k)%Z). { destruct (Z.le_gt_cases 0 k) as [|C]; [assumption|exfalso]. assert (IZR k <= -1) by (apply (IZR_le k (-1)); lia). lra. }
  destruct W as [W1 W2]. assert (W : Sane f) by (split; assumption). destruct (Z.le_gt_cases (2 ^ fm_prec f) k) as [C|C].
  - left. assert (KP : (0 < k)%Z) by (pose proof (pow_pos_ (fm_prec f) ltac:(lia)); lia). destruct (Z.log2_spec k KP) as [L1 L2]. assert (LP : (fm_prec f <= Z.log2 k)%Z) by (rewrite <- (Z.log2_pow2 (fm_prec f)) by lia; apply Z.log2_le_mono, C).
    set (e := (Z.log2 k - (fm_prec f - 1))%Z). assert (E : (1 <= e)%Z) by (unfold e; lia). replace (Z.succ (Z.log2 k)) with (fm_prec f + e)%Z in L2 by (unfold e; lia). replace (Z.log2 k) with (fm_prec f - 1 + e)%Z in L1 by (unfold e; lia).
    rewrite Z.pow_add_r in L1, L2 by lia. pose proof (pow_pos_ e ltac:(lia)) as EP. pose proof (pow_pos_ (fm_prec f - 1) ltac:(lia)) as PP. pose proof (Z.div_mod k (2 ^ e) ltac:(lia)) as D. pose proof (Z.mod_pos_bound k (2 ^ e) EP) as M. set (m := (k / 2 ^ e)%Z) in *.
    assert (MB : (0 <= m < 2 ^ fm_prec f)%Z) by (split; [apply Z.div_pos; lia|apply Z.div_lt_upper_bound; lia]).
    assert (LO : Grid f (IZR (m * 2 ^ e) * unit_of f)) by (apply grid_int; [exact W|lia|lia]). assert (HI : Grid f (IZR ((m + 1) * 2 ^ e) * unit_of f)) by (apply grid_int; [exact W|lia|lia]).
    assert (Q1 : IZR (m * 2 ^ e) <= x) by (apply Rle_trans with (IZR k); [apply IZR_le; nia|exact B1]). assert (Q2 : x <= IZR ((m + 1) * 2 ^ e)) by (apply Rle_trans with (IZR (k + 1)); [rewrite plus_IZR; lra|apply IZR_le; nia]).
    pose proof (near_between f r g _ _ N LO HI) as NB. apply Rle_trans with ((IZR ((m + 1) * 2 ^ e) * unit_of f - IZR (m * 2 ^ e) * unit_of f) / 2); [apply NB; rewrite X; split; apply Rmult_le_compat_r; lra|].
    replace (IZR ((m + 1) * 2 ^ e) * unit_of f - IZR (m * 2 ^ e) * unit_of f) with (IZR (2 ^ e) * unit_of f) by (rewrite (mult_IZR (m + 1)), (mult_IZR m), plus_IZR; ring).
    assert (PR : 0 < IZR (2 ^ fm_prec f)) by (apply pow_scale, W). apply (Rmult_le_reg_r (IZR (2 ^ fm_prec f))); [exact PR|]. unfold Rdiv at 2. rewrite Rmult_assoc, Rinv_l, Rmult_1_r by lra.
    assert (Q3 : IZR (2 ^ fm_prec f * 2 ^ e) <= 2 * x). { apply Rle_trans with (2 * IZR k); [|lra]. rewrite <- mult_IZR. apply IZR_le. replace (fm_prec f) with (1 + (fm_prec f - 1))%Z at 1 by lia. rewrite Z.pow_add_r by lia. lia. }
    rewrite mult_IZR in Q3. rewrite X. nra.
  - right. assert (Q : IZR (k + 1) <= IZR (2 ^ fm_prec f)) by (apply IZR_le; lia). assert (A : x < IZR (k + 1)) by (rewrite plus_IZR; lra). split; [|split].
    + replace (unit_of f / 2) with ((IZR (k + 1) * unit_of f - IZR k * unit_of f) / 2) by (rewrite plus_IZR; field). apply (near_between f r g _ _ N); [apply grid_small; [exact W|lia]|apply grid_small; [exact W|lia]|]. rewrite X. split; apply Rmult_le_compat_r; lra.
    + rewrite X. apply Rmult_lt_compat_r; lra.
    + intros k' K'. apply (near_exact f r g N). rewrite K'. apply grid_small; [exact W|]. assert (X' : x = IZR k') by (unfold x; rewrite K'; field; lra). rewrite X' in *. apply lt_IZR in A. apply le_IZR in B1. lia.
Qed.
Lemma near_error f r g : Sane f -> Near f r g ->
  Rabs (g - r) <= Rabs r / IZR (2 ^ fm_prec f) \/ Rabs (g - r) <= unit_of f / 2 /\ Rabs r < IZR (2 ^ fm_prec f) * unit_of f /\ forall k : Z, r = IZR k * unit_of f -> g = r.
Proof.
  intros W N. destruct (Rle_lt_dec 0 r) as [P|P]; [rewrite (Rabs_right r) by lra; apply near_error_pos; assumption|].
  rewrite (Rabs_left r) by lra. destruct (near_error_pos f (- r) (- g) W ltac:(lra) (near_opp f r g N)) as [H|(H1 & H2 & H3)]; replace (- g - - r) with (- (g - r)) in * by ring; rewrite Rabs_Ropp in *; [left; exact H|right].
  split; [exact H1|]. split; [exact H2|]. intros k K. assert (X : - g = - r) by (apply (H3 (- k)%Z); rewrite opp_IZR, K; ring). lra.
Qed.
(* relative to the exact result, with one half of the smallest number added *)
Lemma near_bound f r g : Sane f -> Near f r g -> Rabs (g - r) <= Rabs r / IZR (2 ^ fm_prec f) + unit_of f / 2.
Proof.
  intros W N. pose proof (unit_pos f W). pose proof (pow_scale f W). assert (0 <= Rabs r / IZR (2 ^ fm_prec f)) by (unfold Rdiv; apply Rmult_le_pos; [apply Rabs_pos|left; apply Rinv_0_lt_compat; assumption]). destruct (near_error f r g W N) as [|(A & _)]; lra.
Qed.
(* sums and differences have no such remainder *)
Lemma near_units f k g : Sane f -> Near f (IZR k * unit_of f) g -> Rabs (g - IZR k * unit_of f) <= Rabs (IZR k * unit_of f) / IZR (2 ^ fm_prec f).
Proof.
  intros W N. pose proof (pow_scale f W). destruct (near_error f _ g W N) as [|(_ & _ & A)]; [assumption|]. rewrite (A k eq_refl). replace (IZR k * unit_of f - IZR k * unit_of f) with 0 by ring. rewrite Rabs_R0. unfold Rdiv. apply Rmult_le_pos; [apply Rabs_pos|left; apply Rinv_0_lt_compat; assumption].
Qed.
Lemma near_sum f a n b m g : Sane f -> Near f (val f a n + val f b m) g -> Rabs (g - (val f a n + val f b m)) <= Rabs (val f a n + val f b m) / IZR (2 ^ fm_prec f).
Proof. intros W. rewrite !val_signed. replace (IZR (signed a n) * unit_of f + IZR (signed b m) * unit_of f) with (IZR (signed a n + signed b m) * unit_of f) by (rewrite plus_IZR; ring). apply near_units, W. Qed.
