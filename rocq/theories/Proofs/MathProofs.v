From Coq Require Import Reals Lra Psatz.
From Coq Require Import Floats.SpecFloat.
From Verif Require Import Model.Base Model.Math Spec.Math.
Local Open Scope R_scope.

Lemma Rltb_lt x y : Rltb x y = true <-> x < y.
Proof. unfold Rltb. destruct (Rlt_dec x y); split; auto; discriminate. Qed.
Lemma Rltb_ge x y : Rltb x y = false <-> y <= x.
Proof. unfold Rltb. destruct (Rlt_dec x y); split; auto; try discriminate; intros; lra. Qed.
Lemma Rleb_le x y : Rleb x y = true <-> x <= y.
Proof. unfold Rleb. destruct (Rle_dec x y); split; auto; discriminate. Qed.
Lemma Rleb_gt x y : Rleb x y = false <-> y < x.
Proof. unfold Rleb. destruct (Rle_dec x y); split; auto; try discriminate; intros; lra. Qed.
Ltac rcases :=
  repeat match goal with
  | |- context[Rltb ?x ?y] => let E := fresh "E" in destruct (Rltb x y) eqn:E; [apply Rltb_lt in E|apply Rltb_ge in E]
  | |- context[Rleb ?x ?y] => let E := fresh "E" in destruct (Rleb x y) eqn:E; [apply Rleb_le in E|apply Rleb_gt in E]
  | H : context[Rltb ?x ?y] |- _ => let E := fresh "E" in destruct (Rltb x y) eqn:E; [apply Rltb_lt in E|apply Rltb_ge in E]
  | H : context[Rleb ?x ?y] |- _ => let E := fresh "E" in destruct (Rleb x y) eqn:E; [apply Rleb_le in E|apply Rleb_gt in E]
  end.

(* clamp *)
Lemma clampR_range v lo hi : lo <= hi -> lo <= clampR v lo hi <= hi.
Proof. intros H. unfold clampR, clamp. rcases; lra. Qed.
Lemma clampR_id v lo hi : lo <= v <= hi -> clampR v lo hi = v.
Proof. intros H. unfold clampR, clamp. rcases; lra. Qed.
Lemma clampR_mono v w lo hi : lo <= hi -> v <= w -> clampR v lo hi <= clampR w lo hi.
Proof. intros H L. unfold clampR, clamp. rcases; lra. Qed.
Lemma clampR_nearest v lo hi : lo <= hi -> Nearest lo hi v (clampR v lo hi).
Proof.
  intros H. split; [apply clampR_range; exact H|]. intros u U. unfold clampR, clamp. rcases.
  - rewrite !Rabs_left1 by lra. lra.
  - rewrite !Rabs_right by lra. lra.
  - replace (v - v) with 0 by ring. rewrite Rabs_R0. apply Rabs_pos.
Qed.
Lemma nearest_unique lo hi v w w' : Nearest lo hi v w -> Nearest lo hi v w' -> w = w'.
Proof.
  intros [A B] [A' B']. destruct (Rtotal_order w w') as [C|[C|C]]; [|exact C|].
  - exfalso. pose proof (B w' A'). pose proof (B' w A).
    assert (E : Rabs (v - w) = Rabs (v - w')) by lra. pose proof (B ((w + w') / 2) ltac:(lra)) as D.
    unfold Rabs in *. repeat destruct Rcase_abs in *; lra.
  - exfalso. pose proof (B w' A'). pose proof (B' w A).
    assert (E : Rabs (v - w) = Rabs (v - w')) by lra. pose proof (B ((w + w') / 2) ltac:(lra)) as D.
    unfold Rabs in *. repeat destruct Rcase_abs in *; lra.
Qed.

(* soft clamp *)
Lemma transfer_form x r : 0 <= x -> 0 < r -> limit_transfer x r = r * x / (x + r).
Proof. intros. unfold limit_transfer. field. lra. Qed.
Lemma transfer_diff x y r : 0 <= x -> 0 <= y -> 0 < r -> limit_transfer y r - limit_transfer x r = r * r * (y - x) / ((x + r) * (y + r)).
Proof. intros. unfold limit_transfer. field. split; lra. Qed.
Lemma transfer_bound x r : 0 <= x -> 0 < r -> 0 <= limit_transfer x r < r /\ limit_transfer x r <= x.
Proof.
  intros. rewrite transfer_form by assumption. assert (0 < x + r) by lra. assert (0 < / (x + r)) by (apply Rinv_0_lt_compat; lra).
  assert (x / (x + r) < 1). { apply (Rmult_lt_reg_r (x + r)); [lra|]. unfold Rdiv. rewrite Rmult_assoc, Rinv_l by lra. lra. }
  assert (r / (x + r) <= 1). { apply (Rmult_le_reg_r (x + r)); [lra|]. unfold Rdiv. rewrite Rmult_assoc, Rinv_l by lra. lra. }
  assert (0 <= x / (x + r)). { unfold Rdiv. nra. }
  replace (r * x / (x + r)) with (r * (x / (x + r))) by (unfold Rdiv; ring).
  split; [nra|]. replace (r * (x / (x + r))) with (x * (r / (x + r))) by (unfold Rdiv; ring). nra.
Qed.
Lemma transfer_lip x y r : 0 <= x -> x < y -> 0 < r -> 0 < limit_transfer y r - limit_transfer x r <= y - x.
Proof.
  intros. rewrite transfer_diff by lra. assert (0 < (x + r) * (y + r)) by nra. assert (0 < / ((x + r) * (y + r))) by (apply Rinv_0_lt_compat; lra).
  assert (0 < y - x) by lra. assert (0 < r * r) by nra. split.
  - unfold Rdiv. apply Rmult_lt_0_compat; [nra|assumption].
  - apply (Rmult_le_reg_r ((x + r) * (y + r))); [assumption|]. unfold Rdiv. rewrite Rmult_assoc, Rinv_l by lra. 
    assert (r * r <= (x + r) * (y + r)) by nra. nra.
Qed.
Lemma transfer_0 r : 0 < r -> limit_transfer 0 r = 0.
Proof. intros. unfold limit_transfer. field. lra. Qed.

Definition soft (lo hi r v : R) : R :=
  if Rltb (hi - r) v then hi - r + limit_transfer (v - hi + r) r else if Rltb v (lo + r) then lo + r - limit_transfer (lo + r - v) r else v.
Lemma soft_clamp_soft v lo hi b : soft_clamp v lo hi b = soft lo hi (b * (hi - lo)) v.
Proof. reflexivity. Qed.
Lemma soft_range lo hi r v : 0 < r -> 2 * r <= hi - lo -> lo < soft lo hi r v < hi.
Proof.
  intros R L. unfold soft. rcases.
  - pose proof (transfer_bound (v - hi + r) r ltac:(lra) R). lra.
  - pose proof (transfer_bound (lo + r - v) r ltac:(lra) R). lra.
  - lra.
Qed.
Lemma soft_id lo hi r v : 0 < r -> lo + r <= v <= hi - r -> soft lo hi r v = v.
Proof. intros R L. unfold soft. rcases; try lra. Qed.
Lemma soft_lip lo hi r v w : 0 < r -> 2 * r <= hi - lo -> v < w -> 0 < soft lo hi r w - soft lo hi r v <= w - v.
Proof.
  intros R L V. unfold soft. rcases; try lra;
    repeat match goal with
    | |- context[limit_transfer ?x r] => lazymatch goal with H : 0 <= limit_transfer x r < r /\ _ |- _ => fail | _ => pose proof (transfer_bound x r ltac:(lra) R) end
    end; try lra.
  - pose proof (transfer_lip (v - hi + r) (w - hi + r) r ltac:(lra) ltac:(lra) R). lra.
  - assert (X : 0 < limit_transfer (w - hi + r) r - limit_transfer 0 r <= w - hi + r - 0) by (apply transfer_lip; lra). rewrite transfer_0 in X by exact R. 
    assert (Y : 0 < limit_transfer (lo + r - v) r - limit_transfer 0 r <= lo + r - v - 0) by (apply transfer_lip; lra). rewrite transfer_0 in Y by exact R. lra.
  - assert (X : 0 < limit_transfer (w - hi + r) r - limit_transfer 0 r <= w - hi + r - 0) by (apply transfer_lip; lra). rewrite transfer_0 in X by exact R. lra.
  - pose proof (transfer_lip (lo + r - w) (lo + r - v) r ltac:(lra) ltac:(lra) R). lra.
  - assert (Y : 0 < limit_transfer (lo + r - v) r - limit_transfer 0 r <= lo + r - v - 0) by (apply transfer_lip; lra). rewrite transfer_0 in Y by exact R. lra.
Qed.
Lemma soft_mirror lo hi r v : 0 < r -> 2 * r <= hi - lo -> soft lo hi r (lo + hi - v) = lo + hi - soft lo hi r v.
Proof.
  intros R L. unfold soft. rcases; try lra.
  - replace (lo + hi - v - hi + r) with (lo + r - v) by ring. ring.
  - replace (lo + r - (lo + hi - v)) with (v - hi + r) by ring. ring.
Qed.

(* fmod *)
Lemma floor_spec x : IZR (floor x) <= x < IZR (floor x) + 1.
Proof. unfold floor. pose proof (base_Int_part x). lra. Qed.
Lemma floor_unique x n : IZR n <= x < IZR n + 1 -> floor x = n.
Proof.
  intros H. pose proof (floor_spec x). assert (IZR (floor x) < IZR (n + 1)) by (rewrite plus_IZR; lra). assert (IZR n < IZR (floor x + 1)) by (rewrite plus_IZR; lra).
  apply lt_IZR in H1, H2. lia.
Qed.
Lemma fmod_pos x y : 0 < y -> 0 <= x -> fmod x y = x - IZR (floor (x / y)) * y /\ 0 <= fmod x y < y.
Proof.
  intros Y X. assert (Q : 0 <= x / y). { unfold Rdiv. assert (0 < / y) by (apply Rinv_0_lt_compat; exact Y). nra. }
  unfold fmod, trunc. destruct (Rleb 0 (x / y)) eqn:E; [|apply Rleb_gt in E; lra]. split; [reflexivity|].
  pose proof (floor_spec (x / y)) as F. assert (V : x = (x / y) * y) by (field; lra). set (n := IZR (floor (x / y))) in *. nra.
Qed.
Lemma fmod_opp x y : 0 < y -> fmod (- x) y = - fmod x y.
Proof.
  intros Y. unfold fmod, trunc. replace (- x / y) with (- (x / y)) by (field; lra). rewrite Ropp_involutive.
  destruct (Rtotal_order 0 (x / y)) as [Q|[Q|Q]].
  - rewrite (proj2 (Rleb_gt 0 (- (x / y)))) by lra. rewrite (proj2 (Rleb_le 0 (x / y))) by lra. rewrite opp_IZR. ring.
  - rewrite <- Q. rewrite Ropp_0. rewrite (proj2 (Rleb_le 0 0)) by lra. rewrite (floor_unique 0 0) by lra. ring.
  - rewrite (proj2 (Rleb_le 0 (- (x / y)))) by lra. rewrite (proj2 (Rleb_gt 0 (x / y))) by lra. rewrite opp_IZR. ring.
Qed.
Lemma fmod_neg x y : 0 < y -> x < 0 -> - y < fmod x y <= 0 /\ exists n, (0 <= n)%Z /\ fmod x y = x + IZR n * y.
Proof.
  intros Y X. pose proof (fmod_opp (- x) y Y) as E. rewrite Ropp_involutive in E. destruct (fmod_pos (- x) y Y ltac:(lra)) as [F B].
  split; [lra|]. exists (floor (- x / y)). split; [|rewrite E, F; ring].
  assert (Q : 0 <= - x / y). { unfold Rdiv. assert (0 < / y) by (apply Rinv_0_lt_compat; exact Y). nra. }
  pose proof (floor_spec (- x / y)). assert (IZR (-1) < IZR (floor (- x / y))) by lra. apply lt_IZR in H0. lia.
Qed.
Lemma fmod_remainder x y : 0 < y -> Remainder x y (fmod x y).
Proof.
  intros Y. split; [exists (trunc (x / y)); unfold fmod; ring|]. rewrite (Rabs_right y) by lra. destruct (Rle_lt_dec 0 x) as [X|X].
  - destruct (fmod_pos x y Y X) as [_ B]. split; [rewrite Rabs_right; lra|nra].
  - destruct (fmod_neg x y Y X) as [B _]. split; [rewrite Rabs_left1; lra|nra].
Qed.
Lemma whole_zero n y e : 0 < y -> - y < e < y -> IZR n * y = e -> n = 0%Z /\ e = 0.
Proof.
  intros Y B E. destruct (Z.eq_dec n 0) as [->|N]; [split; [reflexivity|lra]|]. exfalso.
  destruct (Z_lt_le_dec n 0) as [L|L].
  - assert (H : IZR n <= IZR (-1)) by (apply IZR_le; lia). nra.
  - assert (H : IZR 1 <= IZR n) by (apply IZR_le; lia). nra.
Qed.
Lemma congruent_unique y a b : 0 < y -> 0 <= a < y -> 0 <= b < y -> Congruent y a b -> a = b.
Proof.
  intros Y A B (n & E). assert (X : IZR n * y = a - b) by lra. apply whole_zero in X; [|exact Y|lra]. lra.
Qed.

(* wrap *)
Lemma wrap_above v lo hi : lo < hi -> lo <= v -> lo <= wrap v lo hi < hi /\ Congruent (hi - lo) (wrap v lo hi) v.
Proof.
  intros H V. unfold wrap. rewrite (proj2 (Rleb_le 0 (v - lo))) by lra. destruct (fmod_pos (v - lo) (hi - lo) ltac:(lra) ltac:(lra)) as [F B].
  split; [lra|]. exists (- floor ((v - lo) / (hi - lo)))%Z. rewrite F, opp_IZR. ring.
Qed.
Lemma wrap_below v lo hi : lo < hi -> v < lo -> lo < wrap v lo hi <= hi /\ exists n, (1 <= n)%Z /\ wrap v lo hi = v + IZR n * (hi - lo).
Proof.
  intros H V. unfold wrap. rewrite (proj2 (Rleb_gt 0 (v - lo))) by lra. destruct (fmod_neg (v - lo) (hi - lo) ltac:(lra) ltac:(lra)) as [B (n & N & F)].
  split; [lra|]. exists (n + 1)%Z. split; [lia|]. rewrite F, plus_IZR. ring.
Qed.
Lemma wrap_hi v lo hi : lo < hi -> (wrap v lo hi = hi <-> exists n, (1 <= n)%Z /\ v = lo - IZR n * (hi - lo)).
Proof.
  intros H. split.
  - intros E. destruct (Rle_lt_dec lo v) as [V|V]; [destruct (wrap_above v lo hi H V); lra|].
    destruct (wrap_below v lo hi H V) as [B (n & N & F)]. exists (n - 1)%Z. rewrite minus_IZR. split; [|rewrite E in F; lra].
    destruct (Z.eq_dec n 1) as [->|]; [|lia]. exfalso. rewrite E in F. lra.
  - intros (n & N & E). assert (I : IZR 1 <= IZR n) by (apply IZR_le; exact N). assert (V : v < lo) by nra.
    destruct (wrap_below v lo hi H V) as [B (m & M & F)].
    assert (X : IZR (m - n - 1) * (hi - lo) = wrap v lo hi - hi). { rewrite F, E, !minus_IZR. ring. }
    apply whole_zero in X; [|lra|lra]. lra.
Qed.

(* powers of two *)
Lemma land_pow2 v : (0 < v)%Z -> (Z.land v (v - 1) = 0 <-> Power_of_two v)%Z.
Proof.
  intros V. set (k := Z.log2 v). pose proof (Z.log2_nonneg v) as K. pose proof (Z.log2_spec v V) as [L U]. fold k in K, L, U.
  split.
  - intros E. exists k. split; [exact K|]. destruct (Z.eq_dec v (2 ^ k)) as [|N]; [assumption|]. exfalso.
    assert (L2 : Z.log2 (v - 1) = k) by (apply Z.log2_unique; lia).
    assert (T1 : Z.testbit v k = true) by (apply Z.bit_log2; exact V).
    assert (T2 : Z.testbit (v - 1) k = true) by (rewrite <- L2; apply Z.bit_log2; lia).
    assert (T : Z.testbit (Z.land v (v - 1)) k = true) by (rewrite Z.land_spec, T1, T2; reflexivity). rewrite E, Z.testbit_0_l in T. discriminate.
  - intros (j & J & ->). replace (2 ^ j - 1)%Z with (Z.ones j) by (rewrite Z.ones_equiv; lia). rewrite Z.land_ones by exact J. apply Z.mod_same. lia.
Qed.
Lemma land_neg_neg a b : (a < 0 -> b < 0 -> Z.land a b < 0)%Z.
Proof. intros A B. pose proof (Z.land_neg a b). lia. Qed.
Lemma pow2_pos v : Power_of_two v -> (0 < v)%Z.
Proof. intros (k & K & ->). apply Z.pow_pos_nonneg; lia. Qed.

(* comparison of floating point numbers *)
Definition is_nan (x : spec_float) : bool := match x with S754_nan => true | _ => false end.
Lemma cmp_swap x y : SFcompare y x = match SFcompare x y with Some c => Some (CompOpp c) | None => None end.
Proof.
  destruct x as [[]|[]| |[] mx ex], y as [[]|[]| |[] my ey]; try reflexivity; cbn [SFcompare];
    rewrite (Z.compare_antisym ex ey); destruct (ex ?= ey)%Z; cbn [CompOpp]; try reflexivity;
    change (Pos.compare_cont Eq my mx) with (Pos.compare_cont (CompOpp Eq) my mx); rewrite <- (Pos.compare_cont_antisym mx my Eq); reflexivity.
Qed.
Lemma cmp_some x y : is_nan x = false -> is_nan y = false -> exists c, SFcompare x y = Some c.
Proof.
  intros A B. destruct x as [[]|[]| |[] mx ex], y as [[]|[]| |[] my ey]; try discriminate; try (eexists; reflexivity); cbn [SFcompare];
    destruct (ex ?= ey)%Z; eexists; reflexivity.
Qed.
Lemma cmp_refl x : is_nan x = false -> SFcompare x x = Some Eq.
Proof.
  intros A. destruct x as [[]|[]| |[] m e]; try discriminate; try reflexivity; cbn [SFcompare]; rewrite Z.compare_refl; rewrite Pos.compare_cont_refl; reflexivity.
Qed.
Lemma ltb_false_leb x y : is_nan x = false -> is_nan y = false -> SFltb x y = false -> SFleb y x = true.
Proof.
  intros A B. unfold SFltb, SFleb. rewrite (cmp_swap x y). destruct (cmp_some x y A B) as (c & ->). destruct c; cbn; congruence.
Qed.
Lemma leb_refl x : is_nan x = false -> SFleb x x = true.
Proof. intros A. unfold SFleb. rewrite cmp_refl by exact A. reflexivity. Qed.
Lemma ltb_nan x y : is_nan x = true \/ is_nan y = true -> SFltb x y = false.
Proof. intros [A|A]; [destruct x; try discriminate; reflexivity|]. destruct y; try discriminate. destruct x as [[]|[]| |[] m e]; reflexivity. Qed.
