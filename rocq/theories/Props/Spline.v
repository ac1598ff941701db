(* C64: Catmull-Rom splines (exact reals) *)
From Coq Require Import Reals ZArith Lra Lia.
From Verif Require Import Model.Base Model.Math Model.Vec3 Model.Regression Model.Spline Spec.Spline
  Proofs.MathProofs Proofs.Vec3Proofs Proofs.RegressionProofs Proofs.SplineProofs.
Local Open Scope R_scope.

(* a segment goes from p1 to p2 *)
Theorem C64_ends : forall p0 p1 p2 p3, seg_eval (seg_make p0 p1 p2 p3) 0 = p1 /\ seg_eval (seg_make p0 p1 p2 p3) 1 = p2.
Proof. intros p0 p1 p2 p3. rewrite !seg_coord. split; apply v3_eq; cbn [vx vy vz]; unfold catmull1; lra. Qed.
Print Assumptions C64_ends.

(* it leaves p1 along p0 p2 and arrives at p2 along p1 p3 *)
Theorem C64_velocity : forall p0 p1 p2 p3,
  Velocity (seg_eval (seg_make p0 p1 p2 p3)) 0 (vscale (1 / 2) (vsub p2 p0)) /\
  Velocity (seg_eval (seg_make p0 p1 p2 p3)) 1 (vscale (1 / 2) (vsub p3 p1)).
Proof.
  intros p0 p1 p2 p3. split.
  - replace (vscale (1 / 2) (vsub p2 p0)) with (vscale (1 / 2) (vadd (sb (seg_make p0 p1 p2 p3)) (vadd (vscale (2 * 0) (sc (seg_make p0 p1 p2 p3))) (vscale (3 * 0 * 0) (sd (seg_make p0 p1 p2 p3)))))); [apply seg_velocity|].
    apply v3_eq; unfold seg_make; cbn [sa sb sc sd vadd vsub vneg vscale vx vy vz]; lra.
  - replace (vscale (1 / 2) (vsub p3 p1)) with (vscale (1 / 2) (vadd (sb (seg_make p0 p1 p2 p3)) (vadd (vscale (2 * 1) (sc (seg_make p0 p1 p2 p3))) (vscale (3 * 1 * 1) (sd (seg_make p0 p1 p2 p3)))))); [apply seg_velocity|].
    apply v3_eq; unfold seg_make; cbn [sa sb sc sd vadd vsub vneg vscale vx vy vz]; lra.
Qed.
Print Assumptions C64_velocity.

(* so that consecutive segments join without a corner *)
Theorem C64_smooth_joint : forall p0 p1 p2 p3 p4, exists v,
  seg_eval (seg_make p0 p1 p2 p3) 1 = seg_eval (seg_make p1 p2 p3 p4) 0 /\
  Velocity (seg_eval (seg_make p0 p1 p2 p3)) 1 v /\ Velocity (seg_eval (seg_make p1 p2 p3 p4)) 0 v.
Proof.
  intros p0 p1 p2 p3 p4. exists (vscale (1 / 2) (vsub p3 p1)). split; [|split; [exact (proj2 (C64_velocity p0 p1 p2 p3))|exact (proj1 (C64_velocity p1 p2 p3 p4))]].
  rewrite (proj2 (C64_ends p0 p1 p2 p3)), (proj1 (C64_ends p1 p2 p3 p4)). reflexivity.
Qed.
Print Assumptions C64_smooth_joint.

(* points on a straight line or a parabola at equal parameter steps give just that curve *)
Theorem C64_parabola : forall a b c t,
  seg_eval (seg_make (parabola a b c (-1)) (parabola a b c 0) (parabola a b c 1) (parabola a b c 2)) t = parabola a b c t.
Proof.
  intros a b c t. rewrite seg_coord. unfold parabola. apply v3_eq; cbn [vx vy vz vadd vscale]; unfold catmull1; lra.
Qed.
Print Assumptions C64_parabola.

(* a point of the curve is a weighted mean of the four points with weights that
   depend on the parameter only; so shifting, turning or scaling the points does
   the same to the curve *)
Theorem C64_weights : forall t, exists w0 w1 w2 w3, w0 + w1 + w2 + w3 = 1 /\
  forall p0 p1 p2 p3, seg_eval (seg_make p0 p1 p2 p3) t = weighted w0 w1 w2 w3 p0 p1 p2 p3.
Proof.
  intros t. exists (1 / 2 * (- t + 2 * t * t - t * t * t)), (1 / 2 * (2 - 5 * t * t + 3 * t * t * t)), (1 / 2 * (t + 4 * t * t - 3 * t * t * t)), (1 / 2 * (- t * t + t * t * t)).
  split; [lra|]. intros p0 p1 p2 p3. rewrite seg_coord. unfold weighted. apply v3_eq; cbn [vx vy vz vadd vscale]; unfold catmull1; lra.
Qed.
Print Assumptions C64_weights.

(* the same curve backwards *)
Theorem C64_reverse : forall p0 p1 p2 p3 t, seg_eval (seg_make p3 p2 p1 p0) (1 - t) = seg_eval (seg_make p0 p1 p2 p3) t.
Proof. intros p0 p1 p2 p3 t. rewrite !seg_coord. apply v3_eq; cbn [vx vy vz]; unfold catmull1; lra. Qed.
Print Assumptions C64_reverse.

Example C64_nonvacuous : seg_eval (seg_make (V3 0 0 0) (V3 1 0 0) (V3 1 1 0) (V3 0 1 8)) (1 / 2) = V3 (9 / 8) (1 / 2) (- 1 / 2).
Proof. rewrite seg_coord. apply v3_eq; cbn [vx vy vz]; unfold catmull1; lra. Qed.

(* the variant with alpha: with alpha = 0 it is the same curve *)
Theorem C64_alpha_zero : forall p0 p1 p2 p3, exists s, aseg_make p0 p1 p2 p3 0 = Ok s /\
  forall t, aseg_eval s t = Ok (seg_eval (seg_make p0 p1 p2 p3) t).
Proof.
  intros p0 p1 p2 p3. exists (knots p0 p1 p2 p3 0). split; [apply aseg_make_ok; left; reflexivity|]. intros t. rewrite aseg_eval_ok. f_equal.
  unfold gap. destruct (Req_EM_T 0 0) as [_|C]; [|contradiction]. rewrite seg_coord.
  apply pyramid_eq; rewrite pyramid1_uniform; cbn [vx vy vz]; unfold catmull1; lra.
Qed.
Print Assumptions C64_alpha_zero.

(* otherwise neighbouring points must differ: this is exact *)
Theorem C64_alpha_defined : forall p0 p1 p2 p3 alpha t,
  ((exists s v, aseg_make p0 p1 p2 p3 alpha = Ok s /\ aseg_eval s t = Ok v) <-> alpha = 0 \/ (p0 <> p1 /\ p1 <> p2 /\ p2 <> p3)) /\
  (~ (alpha = 0 \/ (p0 <> p1 /\ p1 <> p2 /\ p2 <> p3)) ->
   aseg_make p0 p1 p2 p3 alpha = UB \/ exists s, aseg_make p0 p1 p2 p3 alpha = Ok s /\ aseg_eval s t = UB).
Proof.
  intros p0 p1 p2 p3 alpha t.
  assert (B : ~ (alpha = 0 \/ (p0 <> p1 /\ p1 <> p2 /\ p2 <> p3)) ->
    aseg_make p0 p1 p2 p3 alpha = UB \/ exists s, aseg_make p0 p1 p2 p3 alpha = Ok s /\ aseg_eval s t = UB).
  { intros N. assert (A : alpha <> 0) by tauto. unfold aseg_make.
    destruct (cpow_cases p0 p1 alpha A) as [[E [C|C]]|[E (d1 & D1 & C)]]; rewrite C; cbn [bind]; [|left; reflexivity|];
    (destruct (cpow_cases p1 p2 alpha A) as [[F [C'|C']]|[F (d2 & D2 & C')]]; rewrite C'; cbn [bind]; [|left; reflexivity|]);
    (destruct (cpow_cases p2 p3 alpha A) as [[G [C''|C'']]|[G (d3 & D3 & C'')]]; rewrite C''; cbn [bind]; [|left; reflexivity|]);
    try (exfalso; tauto); right; eexists; (split; [reflexivity|]); unfold aseg_eval; cbn [t0 t1 t2 t3 p0_ p1_ p2_ p3_];
    repeat (rewrite blend_ok by lra; cbn [bind]); rewrite blend_ub by lra; reflexivity. }
  split; [|exact B]. split.
  - intros (s & v & M & E). destruct (Req_EM_T alpha 0) as [A|A]; [left; exact A|].
    assert (K : forall a b, distance a b <> 0 -> a <> b) by (intros a b X Y; apply X, distance_zero; exact Y).
    assert (L : forall a b, distance a b = 0 -> a = b) by (intros a b X; apply distance_zero; exact X).
    destruct (Req_EM_T (distance p0 p1) 0) as [X|X]; [apply L in X|apply K in X; destruct (Req_EM_T (distance p1 p2) 0) as [Y|Y]; [apply L in Y|apply K in Y; destruct (Req_EM_T (distance p2 p3) 0) as [Z|Z]; [apply L in Z|apply K in Z; tauto]]];
    (exfalso; destruct B as [B|(s' & B1 & B2)]; [tauto|congruence|congruence]).
  - intros H. exists (knots p0 p1 p2 p3 alpha). eexists. split; [apply aseg_make_ok; exact H|apply aseg_eval_ok].
Qed.
Print Assumptions C64_alpha_defined.

Theorem C64_alpha_ends : forall p0 p1 p2 p3 alpha s, aseg_make p0 p1 p2 p3 alpha = Ok s ->
  (alpha = 0 \/ (p0 <> p1 /\ p1 <> p2 /\ p2 <> p3)) -> aseg_eval s 0 = Ok p1 /\ aseg_eval s 1 = Ok p2.
Proof.
  intros p0 p1 p2 p3 alpha s M H. rewrite (aseg_make_ok _ _ _ _ _ H) in M. inversion M; subst. rewrite !aseg_eval_ok.
  pose proof (gap_pos p0 p1 alpha). pose proof (gap_pos p1 p2 alpha). pose proof (gap_pos p2 p3 alpha).
  split; f_equal; apply pyramid_eq; (apply pyramid1_start || apply pyramid1_end); assumption.
Qed.
Print Assumptions C64_alpha_ends.

(* at a joint the velocities, divided by the lengths of the parameter ranges,
   agree: the curve turns without a corner there too *)
Theorem C64_alpha_smooth_joint : forall p0 p1 p2 p3 p4 alpha f g,
  (alpha = 0 \/ (p0 <> p1 /\ p1 <> p2 /\ p2 <> p3 /\ p3 <> p4)) ->
  (forall t, exists s, aseg_make p0 p1 p2 p3 alpha = Ok s /\ aseg_eval s t = Ok (f t)) ->
  (forall t, exists s, aseg_make p1 p2 p3 p4 alpha = Ok s /\ aseg_eval s t = Ok (g t)) ->
  exists v a b, f 1 = g 0 /\ 0 < a /\ 0 < b /\ cpow (distance p1 p2) alpha = Ok a /\ cpow (distance p2 p3) alpha = Ok b /\
    Velocity f 1 (vscale a v) /\ Velocity g 0 (vscale b v).
Proof.
  intros p0 p1 p2 p3 p4 alpha f g H F G.
  pose proof (gap_pos p0 p1 alpha) as D1. pose proof (gap_pos p1 p2 alpha) as D2. pose proof (gap_pos p2 p3 alpha) as D3. pose proof (gap_pos p3 p4 alpha) as D4.
  set (d1 := gap p0 p1 alpha) in *. set (d2 := gap p1 p2 alpha) in *. set (d3 := gap p2 p3 alpha) in *. set (d4 := gap p3 p4 alpha) in *.
  assert (EF : forall t, f t = pyramid d1 d2 d3 p0 p1 p2 p3 t).
  { intros t. destruct (F t) as (s & M & E). rewrite aseg_make_ok in M by tauto. inversion M; subst s. rewrite aseg_eval_ok in E. inversion E. reflexivity. }
  assert (EG : forall t, g t = pyramid d2 d3 d4 p1 p2 p3 p4 t).
  { intros t. destruct (G t) as (s & M & E). rewrite aseg_make_ok in M by tauto. inversion M; subst s. rewrite aseg_eval_ok in E. inversion E. reflexivity. }
  exists (V3 (speed1 d2 d3 (vx p1) (vx p2) (vx p3)) (speed1 d2 d3 (vy p1) (vy p2) (vy p3)) (speed1 d2 d3 (vz p1) (vz p2) (vz p3))), d2, d3.
  split. { rewrite EF, EG. transitivity p2; [|symmetry]; apply pyramid_eq; (apply pyramid1_start || apply pyramid1_end); assumption. }
  split; [exact D2|]. split; [exact D3|]. split; [apply cpow_gap; tauto|]. split; [apply cpow_gap; tauto|].
  assert (L : forall a b c d, derivable_pt_lim (pyramid1 d1 d2 d3 a b c d) 1 (speed1 d2 d3 b c d * d2)).
  { intros a b c d. destruct (pyramid1_deriv d1 d2 d3 a b c d 1 D1 D2 D3) as (v & V & _ & W). rewrite Rmult_comm, <- W by reflexivity. exact V. }
  assert (R : forall a b c d, derivable_pt_lim (pyramid1 d2 d3 d4 a b c d) 0 (speed1 d2 d3 a b c * d3)).
  { intros a b c d. destruct (pyramid1_deriv d2 d3 d4 a b c d 0 D2 D3 D4) as (v & V & W & _). rewrite Rmult_comm, <- W by reflexivity. exact V. }
  split; unfold Velocity; cbn [vscale vx vy vz]; repeat split; (eapply deriv_ext; [|first [apply L|apply R]]); intros t; rewrite ?EF, ?EG; symmetry; apply pyramid_coord.
Qed.
Print Assumptions C64_alpha_smooth_joint.

(* unequally spaced points, alpha = 1: the knots are the distances *)
Example C64_alpha_nonvacuous : exists s, aseg_make (V3 0 0 0) (V3 1 0 0) (V3 3 0 0) (V3 6 0 0) 1 = Ok s /\ aseg_eval s (1 / 2) = Ok (V3 2 0 0) /\
  seg_eval (seg_make (V3 0 0 0) (V3 1 0 0) (V3 3 0 0) (V3 6 0 0)) (1 / 2) = V3 (15 / 8) 0 0.
Proof.
  assert (D : forall a b, a < b -> distance (V3 a 0 0) (V3 b 0 0) = b - a).
  { intros a b L. unfold distance. cbn [vx vy vz]. replace ((a - b) * (a - b) + (0 - 0) * (0 - 0) + (0 - 0) * (0 - 0)) with ((b - a) * (b - a)) by ring. apply sqrt_square. lra. }
  assert (N : forall a b, a < b -> V3 a 0 0 <> V3 b 0 0) by (intros a b L E; inversion E; lra).
  exists (knots (V3 0 0 0) (V3 1 0 0) (V3 3 0 0) (V3 6 0 0) 1).
  split; [apply aseg_make_ok; right; repeat split; apply N; lra|]. split.
  - rewrite aseg_eval_ok. f_equal. unfold gap. destruct (Req_EM_T 1 0) as [C|_]; [lra|]. rewrite !D by lra.
    rewrite !Rpower_1 by lra. apply pyramid_eq; unfold pyramid1, mix1; cbn [vx vy vz]; field.
  - rewrite seg_coord. apply v3_eq; cbn [vx vy vz]; unfold catmull1; lra.
Qed.

(* the length of a spline: never shorter than the straight way, never longer
   with fewer samples, exact for uniform straight motion *)
Theorem C64_length : forall spline u0 u1 n, (1 <= n)%Z ->
  distance (spline u0) (spline u1) <= compute_spline_length spline u0 u1 n /\
  (forall k, (1 <= k)%Z -> compute_spline_length spline u0 u1 n <= compute_spline_length spline u0 u1 (k * n)).
Proof.
  intros spline u0 u1 n N. assert (P : IZR n <> 0) by (apply not_0_IZR; lia). split.
  - rewrite spline_length_path. pose proof (path_chord (sample spline u0 u1 (IZR n)) (Z.to_nat n) 1) as H.
    replace (1 - 1)%Z with 0%Z in H by lia. replace (0 + Z.of_nat (Z.to_nat n))%Z with n in H by lia. unfold sample at 1 2 in H.
    replace (u0 + (u1 - u0) * IZR 0 / IZR n) with u0 in H by (field; exact P).
    replace (u0 + (u1 - u0) * IZR n / IZR n) with u1 in H by (field; exact P). exact H.
  - intros k K. rewrite !spline_length_path. assert (Q : IZR k <> 0) by (apply not_0_IZR; lia).
    pose proof (path_refine (sample spline u0 u1 (IZR (k * n))) (Z.to_nat k) (Z.to_nat n) ltac:(lia) 1) as H.
    rewrite Z2Nat.id in H by lia. replace (k * (1 - 1) + 1)%Z with 1%Z in H by lia.
    replace (Z.to_nat (k * n)) with (Z.to_nat k * Z.to_nat n)%nat by (rewrite Z2Nat.inj_mul by lia; reflexivity).
    eapply Rle_trans; [|exact H]. apply Req_le. apply path_ext. intros j. unfold sample. f_equal. rewrite !mult_IZR. field. split; assumption.
Qed.
Print Assumptions C64_length.

Theorem C64_length_straight : forall a b u0 u1 n, (1 <= n)%Z ->
  compute_spline_length (fun t => vadd a (vscale t b)) u0 u1 n = Rabs (u1 - u0) * length b.
Proof.
  intros a b u0 u1 n N. assert (P : 0 < IZR n) by (apply IZR_lt; lia). rewrite spline_length_path.
  rewrite (path_line _ (Rabs (u1 - u0) / IZR n * length b)).
  - rewrite INR_IZR_INZ, Z2Nat.id by lia. field. lra.
  - intros j. unfold sample. rewrite distance_length, minus_IZR.
    replace (vsub (vadd a (vscale (u0 + (u1 - u0) * IZR j / IZR n) b)) (vadd a (vscale (u0 + (u1 - u0) * (IZR j - 1) / IZR n) b)))
      with (vscale ((u1 - u0) / IZR n) b) by (destruct a, b; apply v3_eq; gvec; field; lra).
    assert (Q : 0 <= / IZR n) by (apply Rlt_le, Rinv_0_lt_compat; exact P).
    destruct (Rle_dec 0 (u1 - u0)) as [S|S].
    + rewrite Rabs_pos_eq by exact S. apply length_scale. apply Rmult_le_pos; [exact S|exact Q].
    + rewrite Rabs_left by lra. replace (vscale ((u1 - u0) / IZR n) b) with (vscale (- (u1 - u0) / IZR n) (vneg b)) by (destruct b; apply v3_eq; gvec; field; lra).
      rewrite length_scale by (apply Rmult_le_pos; [lra|exact Q]). f_equal. unfold length. f_equal. destruct b. gvec. ring.
Qed.
Print Assumptions C64_length_straight.

(* no steps, no length *)
Theorem C64_length_no_steps_refuted : forall spline u0 u1 n, (n <= 0)%Z -> compute_spline_length spline u0 u1 n = 0.
Proof. intros spline u0 u1 n N. rewrite spline_length_path. replace (Z.to_nat n) with 0%nat by lia. reflexivity. Qed.
Print Assumptions C64_length_no_steps_refuted.

Example C64_length_nonvacuous : compute_spline_length (fun t => vadd (V3 1 1 1) (vscale t (V3 3 4 0))) 0 2 100 = 10.
Proof.
  rewrite C64_length_straight by lia. assert (L : length (V3 3 4 0) = 5).
  { unfold length, squared_length. cbn [vx vy vz]. replace (3 * 3 + 4 * 4 + 0 * 0) with (5 * 5) by ring. apply sqrt_square. lra. }
  rewrite L, Rabs_pos_eq by lra. lra.
Qed.
