From Coq Require Import Reals ZArith Lra Lia Bool.
From Verif Require Import Model.Base Model.FloatText Model.Ieee Spec.FloatText Spec.Ieee Proofs.FloatTextProofs.
Local Open Scope R_scope.

(* every format with subnormal numbers *)
Definition Sane (f : fmt) : Prop := (1 < fm_prec f < fm_top f /\ fm_prec f <= fm_low f)%Z.
Lemma ieee_sane f : IEEE f -> Sane f.
Proof. intros [->| ->]; unfold Sane; cbn; lia. Qed.
Lemma wide_sane f : Wide f -> Sane f.
Proof. unfold Wide, Sane. lia. Qed.

Lemma unit_scale f : Sane f -> 0 < IZR (2 ^ fm_low f).
Proof. intros [W1 W2]. apply IZR_lt, pow_pos_. lia. Qed.
Lemma unit_pos f : Sane f -> 0 < unit_of f.
Proof. intros W. apply Rinv_0_lt_compat, unit_scale, W. Qed.
Lemma val_signed f neg n : val f neg n = IZR (signed neg n) * unit_of f.
Proof. unfold val, signed. destruct neg; [rewrite opp_IZR|]; reflexivity. Qed.
Lemma val_lt f a n b m : Sane f -> (val f a n < val f b m <-> (signed a n < signed b m)%Z).
Proof.
  intros W. pose proof (unit_pos f W) as U. rewrite !val_signed. split; intros H.
  - apply lt_IZR. apply (Rmult_lt_reg_r (unit_of f)); assumption.
  - apply Rmult_lt_compat_r; [assumption|]. apply IZR_lt. assumption.
Qed.
Lemma val_le f a n b m : Sane f -> (val f a n <= val f b m <-> (signed a n <= signed b m)%Z).
Proof. intros W. pose proof (val_lt f b m a n W). split; intros H0; [apply Z.nlt_ge|apply Rnot_lt_le]; intros H1; [apply H in H1; lra|apply H in H1; lia]. Qed.
Lemma val_eq f a n b m : Sane f -> (val f a n = val f b m <-> signed a n = signed b m).
Proof. intros W. pose proof (val_le f b m a n W). pose proof (val_le f a n b m W). split; intros H1; [apply Z.le_antisymm; [apply H0|apply H]; lra|apply Rle_antisym; [apply H0|apply H]; lia]. Qed.
Lemma val_zero f neg : val f neg 0 = 0.
Proof. rewrite val_signed. destruct neg; cbn; ring. Qed.
Lemma val_neg f neg n : val f (negb neg) n = - val f neg n.
Proof. unfold val. destruct neg; cbn; ring. Qed.
Lemma val_abs f neg n : Sane f -> (0 <= n)%Z -> Rabs (val f neg n) = IZR n * unit_of f.
Proof.
  intros W N. pose proof (unit_pos f W) as U. assert (P : 0 <= IZR n) by (apply IZR_le; exact N). unfold val. rewrite Rabs_mult, (Rabs_right (unit_of f)) by lra. f_equal. destruct neg; [rewrite Rabs_Ropp|]; apply Rabs_right; lra.
Qed.
Lemma val_top f n : Sane f -> (IZR n * unit_of f < IZR (2 ^ fm_top f) <-> (n < 2 ^ (fm_top f + fm_low f))%Z).
Proof.
  intros W. pose proof (unit_scale f W) as U. destruct W as [W1 W2]. rewrite Z.pow_add_r by lia. unfold unit_of. split; intros H.
  - apply lt_IZR. rewrite mult_IZR. apply (Rmult_lt_compat_r (IZR (2 ^ fm_low f))) in H; [|exact U]. rewrite Rmult_assoc, Rinv_l, Rmult_1_r in H by lra. exact H.
  - apply IZR_lt in H. rewrite mult_IZR in H. apply (Rmult_lt_reg_r (IZR (2 ^ fm_low f))); [exact U|]. rewrite Rmult_assoc, Rinv_l, Rmult_1_r by lra. exact H.
Qed.

(* comparisons *)
Lemma lt_less f x y : Sane f -> (f_lt x y = true <-> Less f x y).
Proof.
  intros W. unfold Less. destruct x as [|[]|a n], y as [|[]|b m]; cbn [f_lt Place andb negb]; split; intros H; try discriminate; try reflexivity; try (destruct H as (p & q & P & Q & H); subst; cbn in H; contradiction).
  all: try (do 2 eexists; repeat split; fail).
  - do 2 eexists. repeat split. cbn. apply val_lt; [exact W|]. apply Z.ltb_lt, H.
  - destruct H as (p & q & -> & -> & H). apply Z.ltb_lt. apply (val_lt f a n b m W). exact H.
Qed.
Lemma eq_same f x y : Sane f -> (f_eq x y = true <-> Same f x y).
Proof.
  intros W. unfold Same. destruct x as [|[]|a n], y as [|[]|b m]; cbn [f_eq Place Bool.eqb]; split; intros H; try discriminate; try reflexivity; try (destruct H as (p & P & Q); subst; try discriminate; contradiction).
  all: try (eexists; repeat split; fail).
  - exists (Real (val f a n)). split; [reflexivity|]. f_equal. apply val_eq; [exact W|]. apply Z.eqb_eq, H.
  - destruct H as (p & -> & E). injection E as E. apply Z.eqb_eq. apply (val_eq f a n b m W). exact E.
Qed.
Lemma le_lesseq f x y : Sane f -> (f_le x y = true <-> LessEq f x y).
Proof. intros W. unfold f_le, LessEq. rewrite orb_true_iff, (lt_less f x y W), (eq_same f x y W). tauto. Qed.

(* rounding *)
Lemma grid_zero f : Sane f -> Grid f 0.
Proof. intros W. exists false, 0%Z. split; [apply rep_zero; destruct W; lia|]. rewrite val_zero. reflexivity. Qed.
Lemma grid_opp f g : Grid f g -> Grid f (- g).
Proof. intros (s & n & R & ->). exists (negb s), n. split; [exact R|]. rewrite val_neg. reflexivity. Qed.
Lemma near_opp f r g : Near f r g -> Near f (- r) (- g).
Proof.
  intros [G H]. split; [apply grid_opp, G|]. intros g' G' N. destruct (H (- g') (grid_opp _ _ G')) as [L|[E [k K]]]; [intros X; apply N; lra| |].
  - left. replace (- g - - r) with (- (g - r)) by ring. replace (g' - - r) with (- (- g' - r)) by ring. rewrite !Rabs_Ropp. exact L.
  - right. split.
    + replace (- g - - r) with (- (g - r)) by ring. replace (g' - - r) with (- (- g' - r)) by ring. rewrite !Rabs_Ropp. exact E.
    + exists k. replace (- g - g') with (- (g - - g')) by ring. rewrite <- Ropp_mult_distr_r. f_equal. exact K.
Qed.
Lemma closest_near_R f num den n : Sane f -> (0 <= num)%Z -> (0 < den)%Z -> Closest f num den n -> Near f (IZR num / IZR den) (val f false n).
Proof.
  intros W N D C. pose proof (unit_scale f W) as U. pose proof (unit_pos f W) as UP. pose proof C as [R H]. split; [exists false, n; auto|].
  assert (DP : 0 < IZR den) by (apply IZR_lt; exact D).
  assert (K : forall a, Rabs (val f false a - IZR num / IZR den) = IZR (Z.abs (a * den - num * 2 ^ fm_low f)) * (unit_of f / IZR den)).
  { intros a. rewrite abs_IZR, minus_IZR, !mult_IZR. unfold val, unit_of. rewrite <- (Rabs_right (/ IZR (2 ^ fm_low f) / IZR den)).
    - rewrite <- Rabs_mult. f_equal. field. split; lra.
    - apply Rle_ge. unfold Rdiv. apply Rmult_le_pos; left; apply Rinv_0_lt_compat; assumption. }
  assert (S : 0 < unit_of f / IZR den) by (unfold Rdiv; apply Rmult_lt_0_compat; [exact UP|apply Rinv_0_lt_compat; exact DP]).
  assert (Q : 0 <= IZR num / IZR den) by (unfold Rdiv; apply Rmult_le_pos; [apply IZR_le; exact N|left; apply Rinv_0_lt_compat; exact DP]).
  pose proof (rep_nonneg f n R) as NP.
  intros g' (neg & n' & R' & ->) NE. pose proof (rep_nonneg f n' R') as NP'. assert (POS : neg = false \/ neg = true /\ (0 < n')%Z \/ n' = 0%Z) by (destruct neg; [right; destruct (Z.eq_dec n' 0); [right|left; split]; auto; lia|left; reflexivity]).
  assert (SAME : val f neg n' = val f false n' -> Rabs (val f false n - IZR num / IZR den) < Rabs (val f neg n' - IZR num / IZR den) \/
    Rabs (val f false n - IZR num / IZR den) = Rabs (val f neg n' - IZR num / IZR den) /\ (exists k : Z, val f false n = 2 * IZR k * (val f false n - val f neg n'))).
  { intros E. rewrite E in NE |- *. destruct (H n' R') as [L|[L [k X]]]; [intros ->; apply NE; reflexivity| |].
    - left. rewrite !K. apply Rmult_lt_compat_r; [exact S|]. apply IZR_lt, L.
    - right. rewrite !K. split; [f_equal; f_equal; exact L|]. destruct (Z.le_ge_cases 0 (n - n')) as [P|P].
      + exists k. rewrite Z.abs_eq in X by exact P. rewrite X at 1. unfold val. rewrite !mult_IZR, minus_IZR. ring.
      + exists (- k)%Z. rewrite Z.abs_neq in X by lia. rewrite X at 1. unfold val. rewrite opp_IZR, !mult_IZR, opp_IZR, minus_IZR. ring. }
  destruct POS as [->|[[-> P]| ->]]; [apply SAME; reflexivity| |apply SAME; rewrite !val_zero; reflexivity].
  left. apply Rle_lt_trans with (Rabs (val f false 0 - IZR num / IZR den)).
  - rewrite !K. apply Rmult_le_compat_r; [lra|]. apply IZR_le. apply (closest_near f num den n 0 C). apply rep_zero. destruct W; lia.
  - rewrite val_zero. assert (V : val f true n' < 0) by (rewrite <- (val_zero f false); apply val_lt; [exact W|]; cbn; lia). rewrite Rminus_0_l, Rabs_Ropp, (Rabs_right (IZR num / IZR den)) by lra. rewrite Rabs_left by lra. lra.
Qed.
Lemma round_correct f (neg : bool) num den : Sane f -> (0 <= num)%Z -> (0 < den)%Z -> Correct f ((if neg then - IZR num else IZR num) / IZR den) (to_fnum f neg (VNum num den)).
Proof.
  intros W N D. pose proof W as [W1 W2]. pose proof (round_closest f num den ltac:(lia) ltac:(lia) N D) as C. set (n := round_units f num den) in *.
  pose proof (closest_near_R f num den n W N D C) as NR. pose proof C as [R _]. pose proof (rep_nonneg f n R) as NP. assert (DP : 0 < IZR den) by (apply IZR_lt; exact D).
  assert (Q : 0 <= IZR num / IZR den) by (unfold Rdiv; apply Rmult_le_pos; [apply IZR_le; exact N|left; apply Rinv_0_lt_compat; exact DP]).
  exists (val f neg n). split.
  - destruct neg; [|exact NR]. replace (- IZR num / IZR den) with (- (IZR num / IZR den)) by (field; lra). change true with (negb false). rewrite val_neg. apply near_opp, NR.
  - cbn [to_fnum]. fold n. destruct (2 ^ (fm_top f + fm_low f) <=? n)%Z eqn:E.
    + apply Z.leb_le in E. rewrite (val_abs f neg n W NP). split; [apply Rnot_lt_le; intros L; apply (val_top f n W) in L; lia|].
      assert (P : 0 < IZR num / IZR den).
      { destruct Q as [Q|Q]; [exact Q|exfalso]. rewrite <- Q in NR. destruct NR as [_ NR]. assert (0 < 2 ^ (fm_top f + fm_low f))%Z by (apply pow_pos_; lia).
        assert (VP : 0 < val f false n) by (rewrite <- (val_zero f false); apply val_lt; [exact W|]; cbn; lia).
        destruct (NR 0 (grid_zero f W) ltac:(lra)) as [X|[X _]]; rewrite !Rminus_0_r, Rabs_R0 in X; pose proof (Rabs_pos (val f false n)) as A; [lra|]. apply Rabs_no_R0 with (r := val f false n) in X; [exact X|lra]. }
      destruct neg; [|exact P]. replace (- IZR num / IZR den) with (- (IZR num / IZR den)) by (field; lra). lra.
    + apply Z.leb_gt in E. split; [split; assumption|]. split; [reflexivity|]. destruct neg; [|exact Q]. replace (- IZR num / IZR den) with (- (IZR num / IZR den)) by (field; lra). lra.
Qed.

Lemma near_abs f r g g' : Near f r g -> Grid f g' -> Rabs (g - r) <= Rabs (g' - r).
Proof. intros [_ H] G. destruct (Req_dec g' g) as [->|N]; [lra|]. destruct (H g' G N) as [|[]]; lra. Qed.
Lemma near_exact f r g : Near f r g -> Grid f r -> g = r.
Proof. intros N G. pose proof (near_abs f r g r N G) as H. replace (r - r) with 0 in H by ring. rewrite Rabs_R0 in H. pose proof (Rabs_pos (g - r)) as P. assert (E : Rabs (g - r) = 0) by lra. destruct (Req_dec (g - r) 0) as [Z|Z]; [lra|apply Rabs_no_R0 in Z; lra]. Qed.
Lemma exact_near f r : Grid f r -> Near f r r.
Proof. intros G. split; [exact G|]. intros g' _ N. left. replace (r - r) with 0 by ring. rewrite Rabs_R0. apply Rabs_pos_lt. lra. Qed.
Lemma even_odd_R k k' (d : R) : d <> 0 -> 2 * IZR k * d <> (2 * IZR k' + 1) * d.
Proof. intros D E. assert (X : 2 * IZR k = 2 * IZR k' + 1) by (apply (Rmult_eq_reg_r d); assumption). rewrite <- !mult_IZR, <- plus_IZR in X. apply eq_IZR in X. lia. Qed.
Lemma near_mono f r g r' g' : Near f r g -> Near f r' g' -> r <= r' -> g <= g'.
Proof.
  intros [G H] [G' H'] L. destruct (Rle_lt_dec g g') as [|C]; [assumption|exfalso].
  destruct (H g' G' ltac:(lra)) as [A|[A [k K]]]; destruct (H' g G ltac:(lra)) as [A'|[A' [k' K']]].
  all: assert (M : g + g' <= 2 * r \/ (g + g' = 2 * r /\ True) \/ 2 * r < g + g') by lra.
  all: unfold Rabs in A, A'; repeat destruct Rcase_abs; try lra.
  all: apply (even_odd_R k (- k')%Z (g - g')); [lra|]; rewrite opp_IZR; lra.
Qed.
Lemma near_fun f r g g' : Near f r g -> Near f r g' -> g = g'.
Proof. intros N N'. apply Rle_antisym; [apply (near_mono f r g r g')|apply (near_mono f r g' r g)]; auto; lra. Qed.

(* operations *)
Lemma add_correct f a n b m : Sane f -> Correct f (val f a n + val f b m) (f_add f (FFin a n) (FFin b m)).
Proof.
  intros W. pose proof (unit_scale f W) as U. assert (E : val f a n + val f b m = IZR (signed a n + signed b m) * unit_of f) by (rewrite !val_signed, plus_IZR; ring). rewrite E. cbn [f_add].
  set (s := (signed a n + signed b m)%Z). destruct (s =? 0)%Z eqn:Z0.
  - apply Z.eqb_eq in Z0. rewrite Z0. rewrite Rmult_0_l. exists 0. split; [apply exact_near, grid_zero, W|]. split; [split; [apply rep_zero; destruct W; lia|apply pow_pos_; destruct W; lia]|]. split; [rewrite val_zero; reflexivity|]. destruct (a && b); lra.
  - apply Z.eqb_neq in Z0. pose proof (round_correct f (s <? 0)%Z (Z.abs s) (2 ^ fm_low f) W ltac:(lia) ltac:(apply pow_pos_; destruct W; lia)) as C.
    replace ((if (s <? 0)%Z then - IZR (Z.abs s) else IZR (Z.abs s)) / IZR (2 ^ fm_low f)) with (IZR s * unit_of f) in C; [exact C|]. unfold unit_of, Rdiv. f_equal. destruct (Z.ltb_spec s 0) as [L|L]; [rewrite Z.abs_neq by lia; rewrite opp_IZR; ring|rewrite Z.abs_eq by lia; reflexivity].
Qed.
Lemma sub_correct f a n b m : Sane f -> Correct f (val f a n - val f b m) (f_sub f (FFin a n) (FFin b m)).
Proof. intros W. unfold f_sub. cbn [f_neg]. unfold Rminus. rewrite <- val_neg. apply add_correct, W. Qed.
Lemma val_xor f a n b m : val f a n * val f b m = (if xorb a b then - IZR (n * m) else IZR (n * m)) * (unit_of f * unit_of f).
Proof. unfold val. rewrite mult_IZR. destruct a, b; cbn [xorb]; ring. Qed.
Lemma mul_correct f a n b m : Sane f -> (0 <= n)%Z -> (0 <= m)%Z -> Correct f (val f a n * val f b m) (f_mul f (FFin a n) (FFin b m)).
Proof.
  intros W N M. pose proof (unit_scale f W) as U. cbn [f_mul]. rewrite val_xor. assert (P : (0 < 2 ^ fm_low f)%Z) by (apply pow_pos_; destruct W; lia).
  pose proof (round_correct f (xorb a b) (n * m) (2 ^ fm_low f * 2 ^ fm_low f) W ltac:(nia) ltac:(nia)) as C. unfold Rdiv in C. rewrite (mult_IZR (2 ^ fm_low f) (2 ^ fm_low f)), Rinv_mult in C. exact C.
Qed.
Lemma val_div f a n b m : Sane f -> (m <> 0)%Z -> val f a n / val f b m = (if xorb a b then - IZR n else IZR n) / IZR m.
Proof. intros W M. pose proof (unit_pos f W) as U. assert (MR : IZR m <> 0) by (intros E; apply eq_IZR in E; lia). unfold val. destruct a, b; cbn [xorb]; field; repeat split; lra. Qed.
Lemma div_correct f a n b m : Sane f -> (0 <= n)%Z -> (0 < m)%Z -> Correct f (val f a n / val f b m) (f_div f (FFin a n) (FFin b m)).
Proof. intros W N M. cbn [f_div]. rewrite (proj2 (Z.eqb_neq m 0)) by lia. rewrite (val_div f a n b m W ltac:(lia)). apply round_correct; assumption. Qed.
Lemma rem_rep f n m : Sane f -> Rep f n -> Rep f m -> (0 < m)%Z -> Rep f (n mod m)%Z.
Proof.
  intros W (k & e & E & K & ->) (k' & e' & E' & K' & ->) M. pose proof (pow_pos_ e E) as P. pose proof (pow_pos_ e' E') as P'. destruct (Z.le_ge_cases e' e) as [L|L].
  - replace e with (e - e' + e')%Z at 1 by lia. rewrite Z.pow_add_r, Z.mul_assoc, Z.mul_mod_distr_r by nia. exists ((k * 2 ^ (e - e')) mod k')%Z, e'. split; [lia|]. split; [|reflexivity]. pose proof (Z.mod_pos_bound (k * 2 ^ (e - e')) k' ltac:(nia)). lia.
  - replace e' with (e' - e + e)%Z at 1 by lia. pose proof (pow_pos_ (e' - e) ltac:(lia)) as Q. rewrite Z.pow_add_r, Z.mul_assoc, Z.mul_mod_distr_r by nia. exists (k mod (k' * 2 ^ (e' - e)))%Z, e. split; [lia|]. split; [|reflexivity]. pose proof (Z.mod_pos_bound k (k' * 2 ^ (e' - e)) ltac:(nia)). pose proof (Z.mod_le k (k' * 2 ^ (e' - e)) ltac:(lia) ltac:(nia)). lia.
Qed.

(* the order *)
Lemma num_place f x : Num x -> exists p, Place f x p.
Proof. intros N. destruct x as [|[]|a n]; [exfalso; apply N; reflexivity| | |]; eexists; reflexivity. Qed.
Lemma place_num f x p : Place f x p -> Num x.
Proof. destruct x; [contradiction| |]; discriminate. Qed.
Lemma place_fun f x p q : Place f x p -> Place f x q -> p = q.
Proof. destruct x as [|[]|a n]; cbn; try contradiction; congruence. Qed.
Definition xle (p q : xreal) : Prop := xlt p q \/ p = q.
Lemma xlt_trans p q r : xlt p q -> xlt q r -> xlt p r.
Proof. destruct p, q, r; cbn; try tauto. lra. Qed.
Lemma xlt_irrefl p : ~ xlt p p.
Proof. destruct p; cbn; try tauto. lra. Qed.
Lemma xlt_total p q : xlt p q \/ p = q \/ xlt q p.
Proof. destruct p as [|a|], q as [|b|]; cbn; try tauto. destruct (Rtotal_order a b) as [|[->|]]; tauto. Qed.
Lemma lesseq_iff f x y : LessEq f x y <-> exists p q, Place f x p /\ Place f y q /\ xle p q.
Proof.
  unfold LessEq, Less, Same, xle. split.
  - intros [(p & q & P & Q & L)|(p & P & Q)]; do 2 eexists; repeat split; eauto.
  - intros (p & q & P & Q & [L| ->]); [left|right]; eauto 6.
Qed.
Lemma less_num f x y : Less f x y -> Num x /\ Num y.
Proof. intros (p & q & P & Q & _). split; eapply place_num; eauto. Qed.
Lemma lesseq_num f x y : LessEq f x y -> Num x /\ Num y.
Proof. intros H. apply lesseq_iff in H. destruct H as (p & q & P & Q & _). split; eapply place_num; eauto. Qed.
Lemma less_lesseq f x y : Less f x y -> LessEq f x y. Proof. left. assumption. Qed.
Lemma lesseq_refl f x : Num x -> LessEq f x x.
Proof. intros N. destruct (num_place f x N) as [p P]. right. exists p. auto. Qed.
Lemma lesseq_trans f x y z : LessEq f x y -> LessEq f y z -> LessEq f x z.
Proof.
  rewrite !lesseq_iff. intros (p & q & P & Q & L) (q' & r & Q' & R & L'). rewrite (place_fun f y q' q Q' Q) in L'. exists p, r. repeat split; auto. unfold xle in *. destruct L as [L| ->], L' as [L'| ->]; auto. left. eapply xlt_trans; eassumption.
Qed.
Lemma less_lesseq_trans f x y z : Less f x y -> LessEq f y z -> Less f x z.
Proof.
  intros (p & q & P & Q & L). rewrite !lesseq_iff. intros (q' & r & Q' & R & L'). rewrite (place_fun f y q' q Q' Q) in L'. exists p, r. repeat split; auto. destruct L' as [L'| <-]; auto. eapply xlt_trans; eassumption.
Qed.
Lemma lesseq_less_trans f x y z : LessEq f x y -> Less f y z -> Less f x z.
Proof.
  rewrite !lesseq_iff. intros (p & q & P & Q & L) (q' & r & Q' & R & L'). rewrite (place_fun f y q' q Q' Q) in L'. exists p, r. repeat split; auto. destruct L as [L| ->]; auto. eapply xlt_trans; eassumption.
Qed.
Lemma less_not_lesseq f x y : Less f x y -> ~ LessEq f y x.
Proof. intros L H. pose proof (less_lesseq_trans f x y x L H) as (p & q & P & Q & X). rewrite (place_fun f x p q P Q) in X. apply (xlt_irrefl q X). Qed.
Lemma not_less f x y : Num x -> Num y -> ~ Less f x y -> LessEq f y x.
Proof.
  intros N M H. destruct (num_place f x N) as [p P], (num_place f y M) as [q Q]. destruct (xlt_total p q) as [L|[->|L]]; [exfalso; apply H; exists p, q; auto|right; exists q; auto|left; exists q, p; auto].
Qed.
Lemma same_sym f x y : Same f x y -> Same f y x.
Proof. intros (p & P & Q). exists p. auto. Qed.
Lemma lesseq_antisym f x y : LessEq f x y -> LessEq f y x -> Same f x y.
Proof. intros [L|S] H; [exfalso; apply (less_not_lesseq f x y L H)|exact S]. Qed.
Lemma lt_reflect f x y : Sane f -> reflect (Less f x y) (f_lt x y).
Proof. intros W. apply iff_reflect. symmetry. apply lt_less, W. Qed.
Lemma le_reflect f x y : Sane f -> reflect (LessEq f x y) (f_le x y).
Proof. intros W. apply iff_reflect. symmetry. apply le_lesseq, W. Qed.
Lemma neg_less f x y : Less f x y <-> Less f (f_neg y) (f_neg x).
Proof.
  assert (H : forall x y, Less f x y -> Less f (f_neg y) (f_neg x)).
  { clear. intros x y (p & q & P & Q & L). destruct x as [|[]|a n], y as [|[]|b m]; cbn [Place] in P, Q; try contradiction; subst p q; cbn [xlt] in L; try contradiction; unfold Less; cbn [f_neg Place negb]; do 2 eexists; repeat split; cbn [xlt]. rewrite !val_neg. lra. }
  split; [apply H|]. intros L. apply H in L. destruct x as [|a|a n], y as [|b|b m]; cbn [f_neg] in L; rewrite ?negb_involutive in L; exact L.
Qed.
Lemma neg_lesseq f x y : LessEq f x y <-> LessEq f (f_neg y) (f_neg x).
Proof.
  assert (NN : forall x, f_neg (f_neg x) = x) by (intros [|a|a n]; cbn; rewrite ?negb_involutive; reflexivity).
  assert (H : forall x y, LessEq f x y -> LessEq f (f_neg y) (f_neg x)).
  { clear - NN. intros x y [L|(p & P & Q)]; [left; apply neg_less in L; exact L|right]. destruct x as [|[]|a n], y as [|[]|b m]; cbn [Place] in P, Q; try contradiction; try congruence; unfold Same; cbn [f_neg negb Place]; eexists; split; try reflexivity. f_equal. rewrite !val_neg. congruence. }
  split; [apply H|]. intros L. apply H in L. rewrite !NN in L. exact L.
Qed.

(* correctly rounded results *)
Lemma correct_num f r x : Correct f r x -> Num x.
Proof. intros (g & _ & H). destruct x; [contradiction| |]; discriminate. Qed.
Lemma correct_valid f r x : Correct f r x -> Valid f x.
Proof. intros (g & _ & H). destruct x as [| |neg n]; [exact I|exact I|]. apply H. Qed.
Lemma near_zero f : Sane f -> Near f 0 0.
Proof. intros W. apply exact_near, grid_zero, W. Qed.
Lemma finite_small f neg n : Sane f -> Finite f n -> Rabs (val f neg n) < IZR (2 ^ fm_top f).
Proof. intros W [R F]. rewrite val_abs by (assumption || exact (rep_nonneg f n R)). apply val_top; assumption. Qed.
Lemma correct_inf_low f r g : Sane f -> Near f r g -> IZR (2 ^ fm_top f) <= Rabs g -> r < 0 -> g <= - IZR (2 ^ fm_top f).
Proof. intros W N L S. pose proof (near_mono f r g 0 0 N (near_zero f W) ltac:(lra)) as G. rewrite Rabs_left1 in L by lra. lra. Qed.
Lemma correct_inf_high f r g : Sane f -> Near f r g -> IZR (2 ^ fm_top f) <= Rabs g -> 0 < r -> IZR (2 ^ fm_top f) <= g.
Proof. intros W N L S. pose proof (near_mono f 0 0 r g (near_zero f W) N ltac:(lra)) as G. rewrite Rabs_right in L by lra. lra. Qed.
Lemma correct_mono f r x r' x' : Sane f -> Correct f r x -> Correct f r' x' -> r <= r' -> LessEq f x x'.
Proof.
  intros W (g & N & H) (g' & N' & H') L. pose proof (near_mono f r g r' g' N N' L) as G. assert (T : 0 < IZR (2 ^ fm_top f)) by (apply IZR_lt, pow_pos_; destruct W; lia). apply lesseq_iff.
  destruct x as [|[]|a n], x' as [|[]|b m]; try contradiction; try (do 2 eexists; split; [reflexivity|]; split; [reflexivity|]; (left; exact I) || (right; reflexivity)).
  - exfalso. destruct H as [H1 H2], H' as [H3 H4]. pose proof (correct_inf_high f r g W N H1 H2). pose proof (correct_inf_low f r' g' W N' H3 H4). lra.
  - exfalso. destruct H as [H1 H2], H' as [H3 [H4 H5]]. pose proof (correct_inf_high f r g W N H1 H2). pose proof (finite_small f b m W H3) as S. rewrite <- H4 in S. apply Rabs_def2 in S. lra.
  - exfalso. destruct H as [H1 [H2 H5]], H' as [H3 H4]. pose proof (correct_inf_low f r' g' W N' H3 H4). pose proof (finite_small f a n W H1) as S. rewrite <- H2 in S. apply Rabs_def2 in S. lra.
  - destruct H as [_ [E _]], H' as [_ [E' _]]. do 2 eexists. split; [reflexivity|]. split; [reflexivity|]. rewrite <- E, <- E'. destruct G as [G| ->]; [left; exact G|right; reflexivity].
Qed.
Lemma correct_fin f a n : Sane f -> Finite f n -> Correct f (val f a n) (FFin a n).
Proof.
  intros W F. exists (val f a n). pose proof (unit_pos f W) as U. destruct F as [R F]. pose proof (rep_nonneg f n R) as P. split; [apply exact_near; exists a, n; auto|]. split; [split; assumption|]. split; [reflexivity|]. apply IZR_le in P. unfold val. destruct a; nra.
Qed.
Lemma correct_same f r x y : Sane f -> Correct f r x -> Correct f r y -> Same f x y.
Proof. intros W C D. apply lesseq_antisym; eapply correct_mono; eauto; lra. Qed.
Lemma unit_finite f : Sane f -> Finite f 1.
Proof. intros [W1 W2]. split; [exists 1%Z, 0%Z; pose proof (Z.pow_gt_1 2 (fm_prec f) ltac:(lia)); lia|apply Z.pow_gt_1; lia]. Qed.
Lemma zero_finite f : Sane f -> Finite f 0.
Proof. intros [W1 W2]. split; [apply rep_zero; lia|apply pow_pos_; lia]. Qed.
Lemma sub_negative f x y : Sane f -> Less f x y -> Less f (f_sub f x y) f_zero.
Proof.
  intros W (p & q & P & Q & L). destruct x as [|[]|a n], y as [|[]|b m]; cbn [Place] in P, Q; try contradiction; subst p q; cbn [xlt] in L; try contradiction.
  1-3: do 2 eexists; repeat split.
  pose proof (sub_correct f a n b m W) as C. pose proof (correct_fin f true 1 W (unit_finite f W)) as D.
  assert (M : val f a n - val f b m <= val f true 1).
  { apply (val_lt f a n b m W) in L. pose proof (unit_pos f W) as U. replace (val f a n - val f b m) with (IZR (signed a n - signed b m) * unit_of f) by (rewrite minus_IZR, !val_signed; ring). rewrite val_signed. apply Rmult_le_compat_r; [lra|]. apply IZR_le. cbn. lia. }
  apply lesseq_less_trans with (FFin true 1); [eapply correct_mono; eauto|]. do 2 eexists. split; [reflexivity|]. split; [reflexivity|]. cbn. apply val_lt; [exact W|]. cbn. lia.
Qed.
Lemma neg_neg x : f_neg (f_neg x) = x.
Proof. destruct x as [|a|a n]; cbn; rewrite ?negb_involutive; reflexivity. Qed.
Lemma add_comm f x y : f_add f x y = f_add f y x.
Proof.
  destruct x as [|a|a n], y as [|b|b m]; try reflexivity; cbn [f_add]; [destruct a, b; reflexivity|]. rewrite (Z.add_comm (signed a n)), (andb_comm a). reflexivity.
Qed.
(* negation of a sum that is not zero *)
Lemma neg_add f x y : ~ Same f (f_add f x y) f_zero -> f_neg (f_add f x y) = f_add f (f_neg x) (f_neg y).
Proof.
  intros H. destruct x as [|a|a n], y as [|b|b m]; try reflexivity; cbn [f_add f_neg].
  - destruct a, b; reflexivity.
  - cbn [f_add] in H. assert (S : forall a n, signed (negb a) n = (- signed a n)%Z) by (intros [] k; cbn; lia). rewrite !S. destruct (Z.eqb_spec (signed a n + signed b m) 0) as [E|E].
    + exfalso. apply H. exists (Real 0). split; cbn; rewrite val_zero; reflexivity.
    + rewrite (proj2 (Z.eqb_neq (- signed a n + - signed b m) 0)) by lia. replace (Z.abs (- signed a n + - signed b m)) with (Z.abs (signed a n + signed b m)) by lia. replace (- signed a n + - signed b m <? 0)%Z with (negb (signed a n + signed b m <? 0))%Z.
      * cbn [to_fnum]. destruct (2 ^ (fm_top f + fm_low f) <=? round_units f _ _)%Z; reflexivity.
      * destruct (Z.ltb_spec (signed a n + signed b m) 0), (Z.ltb_spec (- signed a n + - signed b m) 0); cbn; try reflexivity; lia.
Qed.
Lemma less_not_same f x y : Less f x y -> ~ Same f x y.
Proof. intros L S. apply (less_not_lesseq f x y L). right. apply same_sym, S. Qed.
Lemma neg_zero_less f x : Less f x f_zero <-> Less f f_zero (f_neg x).
Proof.
  rewrite (neg_less f x f_zero). cbn [f_neg f_zero negb]. split; intros (p & q & P & Q & L).
  - exists p, q. split; [|auto]. cbn in *. rewrite val_zero in *. exact P.
  - exists p, q. split; [|auto]. cbn in *. rewrite val_zero in *. exact P.
Qed.
Lemma sub_positive f x y : Sane f -> Less f x y -> Less f f_zero (f_sub f y x).
Proof.
  intros W L. pose proof (sub_negative f x y W L) as N. unfold f_sub in *. rewrite <- (neg_neg y) at 1. rewrite add_comm, <- neg_add; [|apply less_not_same, N]. apply neg_zero_less, N.
Qed.
