(* C56-C58, C72, C76, C77: vectors, quaternions, transforms (exact reals) *)
From Coq Require Import Reals Lra Lia.
From Verif Require Import Model.Base Model.Math Model.Vec3 Spec.Vec3 Proofs.MathProofs Proofs.Vec3Proofs.
Local Open Scope R_scope.

(* C56 *)
Theorem C56_product : forall a b c : quat,
  qmul a (qmul b c) = qmul (qmul a b) c /\ qmul q_identity a = a /\ qmul a q_identity = a /\
  qlength (qmul a b) = qlength a * qlength b.
Proof.
  intros a b c. split; [apply qmul_assoc|split; [apply qmul_1_l|split; [apply qmul_1_r|]]].
  unfold qlength. rewrite qnorm2_mul. apply sqrt_mult; destruct a, b; unfold qnorm2; cbn; nra.
Qed.
Print Assumptions C56_product.

Theorem C56_unit_group : forall a b : quat, UnitQ a -> UnitQ b ->
  UnitQ (qmul a b) /\ UnitQ (qconj a) /\ qmul (qconj a) a = q_identity /\ qmul a (qconj a) = q_identity /\
  qmul a (quat_from_quats a b) = b.
Proof.
  intros a b A B. split; [apply qmul_unit; assumption|]. split; [apply qconj_unit; assumption|].
  split; [apply qconj_l; exact A|]. split; [apply qconj_r; exact A|].
  unfold quat_from_quats. rewrite qmul_assoc, (qconj_r a A). apply qmul_1_l.
Qed.
Print Assumptions C56_unit_group.

Theorem C56_rotation : forall q, UnitQ q -> Rotation (rotate q) /\ forall v, length (rotate q v) = length v.
Proof.
  intros q U. split.
  - split; [apply rotate_add|split; [apply rotate_scale|split]]; intros a b; [apply rotate_dot|apply rotate_cross]; exact U.
  - intros v. unfold length. f_equal. apply (rotate_dot q v v U).
Qed.
Print Assumptions C56_rotation.

Theorem C56_sequence : forall p q v, UnitQ p -> UnitQ q ->
  rotate (qmul p q) v = rotate p (rotate q v) /\ rotate (qconj q) (rotate q v) = v /\ rotate q (rotate (qconj q) v) = v.
Proof.
  intros p q v P Q. split; [apply rotate_mul; assumption|]. pose proof (qconj_unit q Q) as C.
  rewrite <- !rotate_mul by assumption. rewrite (qconj_l q Q), (qconj_r q Q). split; apply rotate_id.
Qed.
Print Assumptions C56_sequence.

(* without unit length none of this holds: not even lengths are kept *)
Theorem C56_any_length_refuted : exists q v, length (rotate q v) <> length v.
Proof.
  exists (Q4 0 0 0 2), unit_x. assert (L1 : length (rotate (Q4 0 0 0 2) unit_x) = 7).
  { unfold length. replace (squared_length (rotate (Q4 0 0 0 2) unit_x)) with (7 * 7) by (gvec; ring). apply sqrt_square. lra. }
  assert (L2 : length unit_x = 1). { apply unit_length. gvec. ring. } rewrite L1, L2. lra.
Qed.
Print Assumptions C56_any_length_refuted.

(* a third of a turn around (1,1,1) permutes the axes *)
Example C56_nonvacuous : let q := Q4 (1 / 2) (1 / 2) (1 / 2) (1 / 2) in
  UnitQ q /\ rotate q unit_x = unit_y /\ rotate q unit_y = unit_z /\ rotate q unit_z = unit_x /\ qmul q (qmul q q) = Q4 (-1) 0 0 0.
Proof. cbn zeta. split; [gvec; lra|]. repeat split; first [apply v3_eq|apply q4_eq]; gvec; lra. Qed.

(* normalized makes unit quaternions except of very short ones *)
Theorem C56_normalized : forall eps q, 0 < eps ->
  (eps < qlength q -> UnitQ (qnormalized eps q)) /\ (qlength q <= eps -> qnormalized eps q = q).
Proof.
  intros eps [w x y z] E. unfold qnormalized, qlength, qnorm2. cbn [qw qx qy qz].
  replace (x * x + y * y + z * z + w * w) with (w * w + x * x + y * y + z * z) by ring.
  assert (S : sqrt (w * w + x * x + y * y + z * z) * sqrt (w * w + x * x + y * y + z * z) = w * w + x * x + y * y + z * z) by (apply sqrt_sqrt; nra).
  set (l := sqrt (w * w + x * x + y * y + z * z)) in *. clearbody l. split; intros L.
  - assert (T : Rltb eps l = true) by (apply Rltb_lt; lra). rewrite T. unfold UnitQ. cbn [qw qx qy qz].
    transitivity ((w * w + x * x + y * y + z * z) / (l * l)); [field; lra|]. rewrite <- S. field. lra.
  - assert (T : Rltb eps l = false) by (apply Rltb_ge; lra). rewrite T. reflexivity.
Qed.
Print Assumptions C56_normalized.

(* C57 *)
Theorem C57_composition : forall t u v, UnitQ (tq t) -> UnitQ (tq u) ->
  t_apply (t_mul t u) v = t_apply t (t_apply u v) /\ t_apply t_identity v = v.
Proof.
  intros [p q] [p' q'] v T U. cbn [tq] in *. unfold t_apply, t_mul, t_identity. cbn [tp tq]. split.
  - rewrite rotate_mul by assumption. rewrite rotate_add. set (a := rotate q p'). set (b := rotate q (rotate q' v)). clearbody a b.
    destruct p, a, b. apply v3_eq; gvec; ring.
  - rewrite rotate_id. destruct v. apply v3_eq; gvec; ring.
Qed.
Print Assumptions C57_composition.

Theorem C57_inverse : forall t v, UnitQ (tq t) ->
  t_inv_apply t (t_apply t v) = v /\ t_apply t (t_inv_apply t v) = v /\ t_apply (t_inverse t) v = t_inv_apply t v /\
  t_mul t (t_inverse t) = t_identity /\ t_mul (t_inverse t) t = t_identity.
Proof.
  intros [p q] v T. cbn [tq] in *. pose proof (qconj_unit q T) as C.
  assert (K1 : forall w, rotate (qconj q) (rotate q w) = w) by (intros w; rewrite <- rotate_mul by assumption; rewrite (qconj_l q T); apply rotate_id).
  assert (K2 : forall w, rotate q (rotate (qconj q) w) = w) by (intros w; rewrite <- rotate_mul by assumption; rewrite (qconj_r q T); apply rotate_id).
  unfold t_inv_apply, t_apply, t_inverse, t_mul, t_identity. cbn [tp tq]. repeat split.
  - replace (vsub (vadd p (rotate q v)) p) with (rotate q v); [apply K1|]. set (w := rotate q v). clearbody w. destruct p, w. apply v3_eq; gvec; ring.
  - rewrite K2. destruct p, v. apply v3_eq; gvec; ring.
  - rewrite <- rotate_add. f_equal. destruct p, v. apply v3_eq; gvec; ring.
  - rewrite K2, (qconj_r q T). f_equal. destruct p. apply v3_eq; gvec; ring.
  - rewrite <- rotate_add, (qconj_l q T). f_equal. replace (vadd (vneg p) p) with v_zero; [destruct q; apply v3_eq; gvec; ring|]. destruct p. apply v3_eq; gvec; ring.
Qed.
Print Assumptions C57_inverse.

Theorem C57_group : forall t u w, UnitQ (tq t) -> UnitQ (tq u) -> UnitQ (tq w) ->
  t_mul t (t_mul u w) = t_mul (t_mul t u) w /\ t_inv_mul t u = t_mul (t_inverse t) u /\ t_mul t (t_inv_mul t u) = u /\ UnitQ (tq (t_mul t u)).
Proof.
  intros [p q] [p' q'] [p'' q''] A B C. cbn [tq] in *. pose proof (qconj_unit q A) as D.
  assert (K2 : forall w, rotate q (rotate (qconj q) w) = w) by (intros w; rewrite <- rotate_mul by assumption; rewrite (qconj_r q A); apply rotate_id).
  unfold t_mul, t_inv_mul, t_inverse. cbn [tp tq]. repeat split.
  - f_equal; [|apply qmul_assoc]. rewrite rotate_add, rotate_mul by assumption. set (a := rotate q p'). set (b := rotate q (rotate q' p'')). clearbody a b. destruct p, a, b. apply v3_eq; gvec; ring.
  - f_equal. rewrite <- rotate_add. f_equal. destruct p, p'. apply v3_eq; gvec; ring.
  - f_equal; [|rewrite qmul_assoc, (qconj_r q A); apply qmul_1_l]. rewrite K2. destruct p, p'. apply v3_eq; gvec; ring.
  - apply qmul_unit; assumption.
Qed.
Print Assumptions C57_group.

Example C57_nonvacuous : let t := T3 (V3 1 2 3) (Q4 (1 / 2) (1 / 2) (1 / 2) (1 / 2)) in
  UnitQ (tq t) /\ t_apply t (V3 4 5 6) = V3 7 6 8 /\ t_inv_apply t (V3 7 6 8) = V3 4 5 6 /\ t_inverse t = T3 (V3 (-2) (-3) (-1)) (Q4 (1 / 2) (- (1 / 2)) (- (1 / 2)) (- (1 / 2))).
Proof.
  cbn zeta. unfold t_apply, t_inv_apply, t_inverse. cbn [tp tq]. split; [gvec; lra|]. split; [|split]; [apply v3_eq; gvec; lra|apply v3_eq; gvec; lra|].
  f_equal. apply v3_eq; gvec; lra.
Qed.

(* C58: axis and angle *)
Theorem C58_axis_angle : forall eps axis ang, 0 <= eps -> Unit axis ->
  exists q, quat_from_axis_angle eps axis ang = Ok q /\ UnitQ q /\ (forall v, rotate q v = turn axis (rad_value ang) v) /\ rotate q axis = axis.
Proof.
  intros eps axis ang E U. exists (axq axis (1 / 2 * rad_value ang)). split; [|split; [apply axq_unit; exact U|]].
  - unfold quat_from_axis_angle, v_is_normalized. replace (squared_length axis) with 1 by (symmetry; exact U).
    assert (EQ : equals 1 1 (4 * eps) = true). { unfold equals. apply Rleb_le. replace (1 - 1) with 0 by ring. rewrite Rabs_R0, Rabs_R1. lra. }
    rewrite EQ. reflexivity.
  - split; [intros v; apply axq_turn; exact U|]. rewrite axq_turn by exact U. apply turn_axis. exact U.
Qed.
Print Assumptions C58_axis_angle.

(* the assertion allows a small error, no more *)
Theorem C58_axis_angle_throws : forall eps axis ang, 0 <= eps < 1 / 8 ->
  (quat_from_axis_angle eps axis ang = Throw <-> ~ (1 / (1 + 4 * eps) <= dot axis axis <= 1 / (1 - 4 * eps))).
Proof.
  intros eps axis ang E. unfold quat_from_axis_angle, v_is_normalized. change (squared_length axis) with (dot axis axis).
  assert (P : 0 <= dot axis axis) by (unfold dot; nra). set (s := dot axis axis) in *. clearbody s.
  assert (A : 1 / (1 + 4 * eps) <= s <-> 1 <= s * (1 + 4 * eps)).
  { split; intros H; [apply (Rmult_le_compat_r (1 + 4 * eps)) in H; [|lra]; replace (1 / (1 + 4 * eps) * (1 + 4 * eps)) with 1 in H by (field; lra); lra|].
    apply (Rmult_le_reg_r (1 + 4 * eps)); [lra|]. replace (1 / (1 + 4 * eps) * (1 + 4 * eps)) with 1 by (field; lra). lra. }
  assert (B : s <= 1 / (1 - 4 * eps) <-> s * (1 - 4 * eps) <= 1).
  { split; intros H; [apply (Rmult_le_compat_r (1 - 4 * eps)) in H; [|lra]; replace (1 / (1 - 4 * eps) * (1 - 4 * eps)) with 1 in H by (field; lra); lra|].
    apply (Rmult_le_reg_r (1 - 4 * eps)); [lra|]. replace (1 / (1 - 4 * eps) * (1 - 4 * eps)) with 1 by (field; lra). lra. }
  rewrite A, B. unfold equals. rewrite (Rabs_pos_eq s P). destruct (Rleb (Rabs (s - 1)) (s * (4 * eps))) eqn:L; cbn [assert_ bind].
  - apply Rleb_le in L. split; [discriminate|]. intros N. exfalso. apply N. unfold Rabs in L. destruct (Rcase_abs (s - 1)); split; nra.
  - apply Rleb_gt in L. split; [|reflexivity]. intros _ (N1 & N2). unfold Rabs in L. destruct (Rcase_abs (s - 1)); nra.
Qed.
Print Assumptions C58_axis_angle_throws.

(* Euler angles: the named axes are turned right to left *)
Theorem C58_euler : forall x y z v,
  let X := turn unit_x (rad_value x) in let Y := turn unit_y (rad_value y) in let Z := turn unit_z (rad_value z) in
  (forall eo, UnitQ (quat_from_euler x y z eo)) /\
  rotate (quat_from_euler x y z Exyz) v = X (Y (Z v)) /\ rotate (quat_from_euler x y z Exzy) v = X (Z (Y v)) /\
  rotate (quat_from_euler x y z Eyxz) v = Y (X (Z v)) /\ rotate (quat_from_euler x y z Eyzx) v = Y (Z (X v)) /\
  rotate (quat_from_euler x y z Ezxy) v = Z (X (Y v)) /\ rotate (quat_from_euler x y z Ezyx) v = Z (Y (X v)).
Proof.
  intros x y z v X Y Z.
  assert (UX : Unit unit_x) by (gvec; ring). assert (UY : Unit unit_y) by (gvec; ring). assert (UZ : Unit unit_z) by (gvec; ring).
  assert (QX : Q4 (cos (1 / 2 * rad_value x)) (sin (1 / 2 * rad_value x)) 0 0 = axq unit_x (1 / 2 * rad_value x)) by (apply q4_eq; unfold axq; gvec; ring).
  assert (QY : Q4 (cos (1 / 2 * rad_value y)) 0 (sin (1 / 2 * rad_value y)) 0 = axq unit_y (1 / 2 * rad_value y)) by (apply q4_eq; unfold axq; gvec; ring).
  assert (QZ : Q4 (cos (1 / 2 * rad_value z)) 0 0 (sin (1 / 2 * rad_value z)) = axq unit_z (1 / 2 * rad_value z)) by (apply q4_eq; unfold axq; gvec; ring).
  pose proof (axq_unit _ (1 / 2 * rad_value x) UX) as VX. pose proof (axq_unit _ (1 / 2 * rad_value y) UY) as VY. pose proof (axq_unit _ (1 / 2 * rad_value z) UZ) as VZ.
  unfold quat_from_euler. cbv zeta. rewrite QX, QY, QZ. split.
  - intros eo. destruct eo; repeat apply qmul_unit; assumption.
  - unfold X, Y, Z. rewrite !rotate_mul by (repeat apply qmul_unit; assumption). rewrite !axq_turn by assumption. repeat split.
Qed.
Print Assumptions C58_euler.

(* quat_from_directions on vectors longer than epsilon *)
Theorem C58_directions : forall eps s t, 0 < eps < 1 / 8 -> eps < length s -> eps < length t ->
  let q := quat_from_directions eps s t in let c := dot s t / (length s * length t) in
  UnitQ q /\
  (1 / (1 + 4 * eps) <= c -> q = q_identity) /\
  (-1 < c < 1 / (1 + 4 * eps) -> exists k, 0 < k /\ rotate q s = vscale k t) /\
  (c = -1 -> q = Q4 0 1 0 0 /\ ((exists k, 0 < k /\ rotate q s = vscale k t) <-> vx s = 0)).
Proof.
  intros eps s t E Ls Lt. cbv zeta.
  destruct (normalized_unit eps s ltac:(lra) Ls) as (Us & Es). destruct (normalized_unit eps t ltac:(lra) Lt) as (Ut & Et).
  unfold quat_from_directions. cbv zeta. set (s' := normalized eps s) in *. set (t' := normalized eps t) in *. clearbody s' t'.
  set (ls := length s) in *. set (lt := length t) in *.
  assert (D : dot s t / (ls * lt) = dot s' t').
  { rewrite Es at 1. rewrite Et at 1. destruct s' as [s1 s2 s3], t' as [t1 t2 t3]. unfold dot, vscale. cbn [vx vy vz]. field. lra. }
  rewrite D. clearbody ls lt. set (d := dot s' t') in *.
  assert (DB : -1 <= d <= 1). { pose proof (cross_sq s' t') as C. unfold Unit in Us, Ut. rewrite Us, Ut in C. fold d in C. assert (0 <= dot (cross s' t') (cross s' t')) by (unfold dot; nra). nra. }
  assert (CL : length (cross s' t') * length (cross s' t') = 1 - d * d). { rewrite length_sq, cross_sq. unfold Unit in Us, Ut. rewrite Us, Ut. fold d. ring. }
  assert (CD : 1 / (1 + 4 * eps) <= d <-> 1 <= d * (1 + 4 * eps)).
  { split; intros H; [apply (Rmult_le_compat_r (1 + 4 * eps)) in H; [|lra]; replace (1 / (1 + 4 * eps) * (1 + 4 * eps)) with 1 in H by (field; lra); lra|].
    apply (Rmult_le_reg_r (1 + 4 * eps)); [lra|]. replace (1 / (1 + 4 * eps) * (1 + 4 * eps)) with 1 by (field; lra). lra. }
  assert (EP : 0 < 1 / (1 + 4 * eps)) by (apply Rdiv_lt_0_compat; lra).
  assert (EQ : equals d 1 (4 * eps) = true <-> 1 / (1 + 4 * eps) <= d).
  { rewrite CD. unfold equals. rewrite Rleb_le. unfold Rabs. destruct (Rcase_abs (d - 1)), (Rcase_abs d); split; intros; nra. }
  destruct (equals d 1 (4 * eps)) eqn:Q1.
  - assert (1 / (1 + 4 * eps) <= d) by (apply EQ; reflexivity). split; [gvec; ring|]. split; [reflexivity|]. split; [intros; exfalso; lra|intros; exfalso; lra].
  - assert (ND : d < 1 / (1 + 4 * eps)). { apply Rnot_le_lt. intros H. apply EQ in H. discriminate. }
    assert (D1 : d < 1). { apply Rlt_le_trans with (1 := ND). apply (Rmult_le_reg_r (1 + 4 * eps)); [lra|]. replace (1 / (1 + 4 * eps) * (1 + 4 * eps)) with 1 by (field; lra). lra. }
    destruct (equals (length (cross s' t')) 0 (4 * eps)) eqn:Q2.
    + apply equals_zero in Q2; [|lra]. rewrite Q2 in CL. assert (DM : d = -1) by nra.
      split; [gvec; ring|]. split; [intros; exfalso; lra|]. split; [intros; exfalso; lra|]. intros _. split; [reflexivity|].
      assert (TS : t' = vneg s').
      { assert (Z : dot (vadd s' t') (vadd s' t') = 0). { replace (dot (vadd s' t') (vadd s' t')) with (dot s' s' + 2 * d + dot t' t') by (unfold d; destruct s', t'; gvec; ring). unfold Unit in Us, Ut. rewrite Us, Ut, DM. ring. }
        destruct s' as [s1 s2 s3], t' as [t1 t2 t3]. unfold dot, vadd in Z. cbn [vx vy vz] in Z. unfold vneg. cbn [vx vy vz]. apply sum_sq_zero in Z. f_equal; lra. }
      assert (Et2 : t = vscale lt (vneg s')) by (rewrite <- TS; exact Et).
      assert (RS : rotate (Q4 0 1 0 0) s = V3 (vx s) (- vy s) (- vz s)) by (destruct s; apply v3_eq; gvec; ring). rewrite RS. split.
      * intros (k & Kp & H). rewrite Et2, Es in H. destruct s' as [s1 s2 s3]. unfold vscale, vneg in H. cbn [vx vy vz] in H. injection H as H1 _ _.
        rewrite Es. unfold vscale. cbn [vx]. assert (0 < lt * k) by (apply Rmult_lt_0_compat; lra). assert (MZ : s1 * (ls + lt * k) = 0) by lra. apply Rmult_integral in MZ. destruct MZ as [->|MZ]; [ring|exfalso; lra].
      * intros X. exists (ls / lt). split; [apply Rdiv_lt_0_compat; lra|]. rewrite Et2.
        destruct s' as [s1 s2 s3]. rewrite Es in X |- *. unfold vscale, vneg in *. cbn [vx vy vz] in *. f_equal; try (field; lra).
        apply Rmult_integral in X. destruct X as [->|X]; [field; lra|exfalso; lra].
    + assert (NZ : length (cross s' t') <> 0). { intros H. apply (equals_zero _ (4 * eps)) in H; [|lra]. congruence. }
      destruct (directions_core s' t' d (vdiv (cross s' t') (length (cross s' t'))) (length (cross s' t')) Us Ut eq_refl eq_refl NZ eq_refl) as (UQ & RQ). cbv zeta in UQ, RQ.
      split; [exact UQ|]. split; [intros; exfalso; lra|]. split; [|intros ->; exfalso; apply NZ; nra].
      intros _. exists (ls / lt). split; [apply Rdiv_lt_0_compat; lra|].
      rewrite Es. rewrite rotate_scale, RQ. rewrite Et. destruct t' as [t1 t2 t3]. unfold vscale. cbn [vx vy vz]. f_equal; field; lra.
Qed.
Print Assumptions C58_directions.

(* for short vectors even the direction can be reversed *)
Theorem C58_directions_short_refuted : forall eps, 0 < eps < 1 / 8 ->
  let s := V3 0 (eps / 2) 0 in rotate (quat_from_directions eps s unit_y) unit_y = vneg unit_y.
Proof.
  intros eps E. cbv zeta. unfold quat_from_directions.
  assert (L1 : length (V3 0 (eps / 2) 0) = eps / 2). { unfold length. replace (squared_length (V3 0 (eps / 2) 0)) with (eps / 2 * (eps / 2)) by (gvec; ring). apply sqrt_square. lra. }
  assert (L2 : length unit_y = 1) by (apply unit_length; gvec; ring).
  assert (N1 : normalized eps (V3 0 (eps / 2) 0) = V3 0 (eps / 2) 0). { unfold normalized. rewrite L1. assert (T : Rltb eps (eps / 2) = false) by (apply Rltb_ge; lra). cbv zeta. rewrite T. reflexivity. }
  assert (N2 : normalized eps unit_y = unit_y). { unfold normalized. rewrite L2. assert (T : Rltb eps 1 = true) by (apply Rltb_lt; lra). cbv zeta. rewrite T. apply v3_eq; gvec; field. }
  cbv zeta. rewrite N1, N2.
  assert (D : dot (V3 0 (eps / 2) 0) unit_y = eps / 2) by (gvec; ring). rewrite D.
  assert (Q1 : equals (eps / 2) 1 (4 * eps) = false). { unfold equals. apply Rleb_gt. rewrite (Rabs_pos_eq (eps / 2)) by lra. rewrite Rabs_left by lra. nra. } rewrite Q1.
  assert (C : cross (V3 0 (eps / 2) 0) unit_y = v_zero) by (apply v3_eq; gvec; ring). rewrite C.
  assert (LZ : length v_zero = 0). { unfold length. replace (squared_length v_zero) with 0 by (gvec; ring). apply sqrt_0. } rewrite LZ.
  assert (Q2 : equals 0 0 (4 * eps) = true). { apply equals_zero; [lra|reflexivity]. } rewrite Q2.
  apply v3_eq; gvec; ring.
Qed.
Print Assumptions C58_directions_short_refuted.

Theorem C58_axes : forall x y z, Axes x y z -> let q := quat_from_axes x y z in
  UnitQ q /\ rotate q unit_x = x /\ rotate q unit_y = y /\ rotate q unit_z = z.
Proof. exact axes_ok. Qed.
Print Assumptions C58_axes.

(* left handed axes are not reproduced *)
Theorem C58_axes_left_handed_refuted : exists x y z, Unit x /\ Unit y /\ Unit z /\ dot x y = 0 /\ dot y z = 0 /\ dot x z = 0 /\
  rotate (quat_from_axes x y z) unit_z <> z.
Proof.
  exists unit_x, unit_y, (V3 0 0 (-1)). repeat split; try (gvec; ring).
  assert (Q : quat_from_axes unit_x unit_y (V3 0 0 (-1)) = Q4 (1 / 2 * sqrt 2) 0 0 0).
  { unfold quat_from_axes, mat. cbn [comp unit_x unit_y vx vy vz]. replace (1 + 1 + -1) with 1 by ring.
    assert (T : Rltb 0 1 = true) by (apply Rltb_lt; lra). rewrite T. replace (1 + 1) with 2 by ring. f_equal; ring. }
  rewrite Q. intros H. assert (Z : vz (rotate (Q4 (1 / 2 * sqrt 2) 0 0 0) unit_z) = -1) by (rewrite H; reflexivity). vec. lra.
Qed.
Print Assumptions C58_axes_left_handed_refuted.

Example C58_nonvacuous : Axes unit_y unit_z unit_x /\ quat_from_axes (V3 (-1) 0 0) (V3 0 (-1) 0) unit_z = Q4 0 0 0 1.
Proof.
  split; [unfold Axes; gvec; repeat split; try ring; apply v3_eq; gvec; ring|].
  unfold quat_from_axes, mat. cbn [comp unit_z vx vy vz].
  assert (A : Rltb 0 (-1 + -1 + 1) = false) by (apply Rltb_ge; lra). rewrite A.
  assert (B : Rltb (-1) (-1) = false) by (apply Rltb_ge; lra). rewrite B. cbn [comp vx vy vz].
  assert (C : Rltb (-1) 1 = true) by (apply Rltb_lt; lra). rewrite C. cbn [comp vx vy vz Nat.modulo Nat.divmod Nat.add Nat.eqb fst snd Nat.sub].
  unfold unit_z. cbn [vx vy vz]. replace (1 - -1 - -1 + 1) with (2 * 2) by ring. rewrite sqrt_square by lra. f_equal; field.
Qed.

(* axis_angle_from_quat and rotation_vector_from_quat undo quat_from_axis_angle *)
Theorem C58_axis_angle_round_trip : forall eps q, 0 < eps -> UnitQ q -> eps < length (V3 (qx q) (qy q) (qz q)) ->
  exists axis a, axis_angle_from_quat eps q = (axis, mkAngle Radians a) /\ Unit axis /\ 0 <= a <= 2 * PI /\
    quat_from_axis_angle eps axis (mkAngle Radians a) = Ok q /\ rotation_vector_from_quat eps q = vscale a axis.
Proof.
  intros eps q E U L. pose proof (axis_angle_round eps q E U L) as R1. cbv zeta in R1.
  destruct (axis_angle_from_quat eps q) as [axis [u a]]. cbn [fst snd aunit avalue] in R1. destruct R1 as (R1 & -> & R3 & R4 & R5).
  exists axis, a. auto.
Qed.
Print Assumptions C58_axis_angle_round_trip.

(* C76: euler_from_quat *)
Theorem C76_single_axis : forall t, - (PI / 2) < t < PI / 2 ->
  let r := mkAngle Radians t in let o := mkAngle Radians 0 in
  (forall eo, euler_from_quat (quat_from_euler r o o eo) = (r, o, o)) /\
  (forall eo, euler_from_quat (quat_from_euler o r o eo) = (o, r, o)) /\
  (forall eo, euler_from_quat (quat_from_euler o o r eo) = (o, o, r)).
Proof.
  intros t B. cbv zeta. pose proof PI_RGT_0 as PP.
  assert (CP : 0 < cos t) by (apply cos_gt_0; lra).
  assert (AT : atan2 (sin t) (cos t) = t) by (apply atan2_sin_cos; lra).
  assert (Z1 : atan2 0 1 = 0) by (apply atan2_0_pos; lra). assert (Z2 : atan2 0 (cos t) = 0) by (apply atan2_0_pos; lra).
  assert (H0 : 1 / 2 * 0 = 0) by ring.
  assert (QX : forall eo, quat_from_euler (mkAngle Radians t) (mkAngle Radians 0) (mkAngle Radians 0) eo = Q4 (cos (1 / 2 * t)) (sin (1 / 2 * t)) 0 0).
  { intros eo. unfold quat_from_euler, rad_value, convert. cbn [aunit avalue]. cbv zeta. rewrite H0, cos_0, sin_0. destruct eo; apply q4_eq; gvec; ring. }
  assert (QY : forall eo, quat_from_euler (mkAngle Radians 0) (mkAngle Radians t) (mkAngle Radians 0) eo = Q4 (cos (1 / 2 * t)) 0 (sin (1 / 2 * t)) 0).
  { intros eo. unfold quat_from_euler, rad_value, convert. cbn [aunit avalue]. cbv zeta. rewrite H0, cos_0, sin_0. destruct eo; apply q4_eq; gvec; ring. }
  assert (QZ : forall eo, quat_from_euler (mkAngle Radians 0) (mkAngle Radians 0) (mkAngle Radians t) eo = Q4 (cos (1 / 2 * t)) 0 0 (sin (1 / 2 * t))).
  { intros eo. unfold quat_from_euler, rad_value, convert. cbn [aunit avalue]. cbv zeta. rewrite H0, cos_0, sin_0. destruct eo; apply q4_eq; gvec; ring. }
  pose proof (cos_half' t) as C. pose proof (sin_half t) as S. set (ch := cos (1 / 2 * t)) in *. set (sh := sin (1 / 2 * t)) in *.
  assert (S' : 2 * sh * ch = sin t) by lra. assert (C' : 1 - 2 * sh * sh = cos t) by lra.
  split; [|split]; intros eo; rewrite ?QX, ?QY, ?QZ; unfold euler_from_quat, pitch, yaw, roll; cbn [qw qx qy qz]; cbv zeta.
  - replace (2 * 0 * 0 + 2 * sh * ch) with (sin t) by lra. replace (1 - (2 * sh * sh + 2 * 0 * 0)) with (cos t) by lra. rewrite AT.
    replace (2 * 0 * sh + 2 * 0 * ch) with 0 by ring. rewrite Z2. replace (1 - (2 * 0 * 0 + 2 * 0 * 0)) with 1 by ring. rewrite Z1. reflexivity.
  - replace (2 * 0 * 0 + 2 * sh * ch) with (sin t) by lra. replace (1 - (2 * 0 * 0 + 2 * sh * sh)) with (cos t) by lra. rewrite AT.
    replace (2 * 0 * sh + 2 * 0 * ch) with 0 by ring. replace (2 * sh * 0 + 2 * 0 * ch) with 0 by ring. replace (1 - (2 * 0 * 0 + 2 * 0 * 0)) with 1 by ring. replace (1 - (2 * sh * sh + 2 * 0 * 0)) with (cos t) by lra. rewrite Z1, Z2. reflexivity.
  - replace (2 * sh * 0 + 2 * 0 * ch) with 0 by ring. replace (1 - (2 * 0 * 0 + 2 * sh * sh)) with (cos t) by lra. rewrite Z2.
    replace (1 - (2 * 0 * 0 + 2 * 0 * 0)) with 1 by ring. rewrite Z1. replace (2 * 0 * 0 + 2 * sh * ch) with (sin t) by lra. rewrite AT. reflexivity.
Qed.
Print Assumptions C76_single_axis.

(* beyond a quarter turn around x the yaw comes out as a half turn: no order of
   turning reproduces the rotation, nor the same rotation with opposite sign *)
Theorem C76_round_trip_refuted : exists q, UnitQ q /\
  match euler_from_quat q with (x, y, z) => forall eo, quat_from_euler x y z eo <> q /\ qw (quat_from_euler x y z eo) <> - qw q end.
Proof.
  exists (Q4 (1 / 2) (sqrt 3 / 2) 0 0). pose proof (sqrt_sqrt 3 ltac:(lra)) as S3. set (s := sqrt 3) in *. clearbody s. split; [gvec; lra|].
  unfold euler_from_quat, pitch, yaw, roll. cbn [qw qx qy qz]. cbv zeta.
  replace (2 * 0 * (s / 2) + 2 * 0 * (1 / 2)) with 0 by ring.
  replace (1 - (2 * (s / 2) * (s / 2) + 2 * 0 * 0)) with (- (1 / 2)) by lra. rewrite (atan2_0_neg (- (1 / 2))) by lra.
  intros eo. assert (W : qw (quat_from_euler (mkAngle Radians (atan2 (2 * 0 * 0 + 2 * (s / 2) * (1 / 2)) (- (1 / 2)))) (mkAngle Radians PI) (mkAngle Radians (atan2 0 (1 - (2 * 0 * 0 + 2 * 0 * 0)))) eo) = 0).
  { replace (1 - (2 * 0 * 0 + 2 * 0 * 0)) with 1 by ring. rewrite (atan2_0_pos 1) by lra.
    unfold quat_from_euler, rad_value, convert. cbn [aunit avalue]. cbv zeta. replace (1 / 2 * PI) with (PI / 2) by field. replace (1 / 2 * 0) with 0 by ring.
    rewrite cos_PI2, sin_PI2, cos_0, sin_0. destruct eo; gvec; ring. }
  split; [intros Q; rewrite Q in W; cbn [qw] in W; lra|rewrite W; lra].
Qed.
Print Assumptions C76_round_trip_refuted.

(* C77: vectors *)
Theorem C77_normalized : forall eps v, 0 < eps ->
  (eps < length v -> Unit (normalized eps v) /\ v = vscale (length v) (normalized eps v)) /\ (length v <= eps -> normalized eps v = v) /\
  (m_normalized v = UB <-> v = v_zero) /\ (eps < length v -> m_normalized v = Ok (normalized eps v)).
Proof.
  intros eps v E. split; [apply normalized_unit; exact E|]. split; [|split].
  - intros L. unfold normalized. assert (T : Rltb eps (length v) = false) by (apply Rltb_ge; exact L). cbv zeta. rewrite T. reflexivity.
  - unfold m_normalized. cbv zeta. destruct (Req_EM_T (length v) 0) as [Z|Z].
    + split; [intros _|reflexivity]. pose proof (length_sq v) as S. rewrite Z in S. destruct v as [a b c]. unfold dot in S. cbn [vx vy vz] in S. unfold v_zero. replace (0 * 0) with 0 in S by ring. symmetry in S. apply sum_sq_zero in S. f_equal; lra.
    + split; [discriminate|]. intros ->. exfalso. apply Z. unfold length. replace (squared_length v_zero) with 0 by (gvec; ring). apply sqrt_0.
  - intros L. unfold m_normalized, normalized. cbv zeta. assert (T : Rltb eps (length v) = true) by (apply Rltb_lt; exact L). rewrite T. destruct (Req_EM_T (length v) 0); [exfalso; lra|reflexivity].
Qed.
Print Assumptions C77_normalized.

Theorem C77_lengths : forall a b, length (vadd a b) <= length a + length b /\ Rabs (dot a b) <= length a * length b /\
  distance a b = length (vsub a b) /\ (distance a b = 0 <-> a = b) /\ distance a b = distance b a /\ forall c, distance a c <= distance a b + distance b c.
Proof.
  assert (DL : forall a b, distance a b = length (vsub a b)) by reflexivity.
  intros a b. split; [apply triangle|]. split; [apply cauchy|]. split; [apply DL|]. split; [|split].
  - rewrite DL. split.
    + intros Z. pose proof (length_sq (vsub a b)) as S. rewrite Z in S. destruct a as [a1 a2 a3], b as [b1 b2 b3]. unfold dot, vsub in S. cbn [vx vy vz] in S. replace (0 * 0) with 0 in S by ring. symmetry in S. apply sum_sq_zero in S. f_equal; lra.
    + intros ->. unfold length. replace (squared_length (vsub b b)) with 0 by (destruct b; gvec; ring). apply sqrt_0.
  - unfold distance. f_equal. destruct a, b. cbn. ring.
  - intros c. rewrite !DL. replace (vsub a c) with (vadd (vsub a b) (vsub b c)); [apply triangle|]. destruct a, b, c. apply v3_eq; gvec; ring.
Qed.
Print Assumptions C77_lengths.

Theorem C77_cross : forall a b, dot (cross a b) a = 0 /\ dot (cross a b) b = 0 /\ cross a b = vneg (cross b a) /\
  length (cross a b) * length (cross a b) = (length a * length b) * (length a * length b) - dot a b * dot a b.
Proof.
  intros a b. repeat split.
  - destruct a, b. gvec. ring.
  - destruct a, b. gvec. ring.
  - destruct a, b. apply v3_eq; gvec; ring.
  - rewrite length_sq, cross_sq. replace (length a * length b * (length a * length b)) with ((length a * length a) * (length b * length b)) by ring. rewrite !length_sq. reflexivity.
Qed.
Print Assumptions C77_cross.

Theorem C77_polar : forall r i a, length (vec3_from_polar r i a) = Rabs r /\ vy (vec3_from_polar r i a) = r * cos (rad_value i).
Proof.
  intros r i a. split; [|reflexivity]. rewrite <- sqrt_Rsqr_abs. unfold length. f_equal. unfold vec3_from_polar, angle_sin, angle_cos, squared_length, Rsqr. cbn [vx vy vz].
  pose proof (cs1 (rad_value i)) as A. pose proof (cs1 (rad_value a)) as B.
  set (c := cos (rad_value i)) in *. set (s := sin (rad_value i)) in *. set (c' := cos (rad_value a)) in *. set (s' := sin (rad_value a)) in *. clearbody c s c' s'.
  assert (A' : c * c = 1 - s * s) by lra. assert (B' : c' * c' = 1 - s' * s') by lra. ring [A' B'].
Qed.
Print Assumptions C77_polar.

Example C77_nonvacuous : length (V3 2 3 6) = 7 /\ cross unit_x unit_y = unit_z /\ normalized (1 / 8) (V3 2 3 6) = V3 (2 / 7) (3 / 7) (6 / 7).
Proof.
  assert (L : length (V3 2 3 6) = 7). { unfold length. replace (squared_length (V3 2 3 6)) with (7 * 7) by (gvec; ring). apply sqrt_square. lra. }
  split; [exact L|]. split; [apply v3_eq; gvec; ring|]. unfold normalized. rewrite L. assert (T : Rltb (1 / 8) 7 = true) by (apply Rltb_lt; lra). cbv zeta. rewrite T. apply v3_eq; cbn [vx vy vz]; field.
Qed.

(* C72: vec4 *)
Theorem C72_vec4 : forall (s : R) (a b : vec4),
  x4 (scale4 s a) = s * x4 a /\ w4 (scale4 s a) = w4 a /\ w4 (neg4 a) = w4 a /\ w4 (sub4 a b) = w4 a /\ (s <> 0 -> div4 a s = scale4 (/ s) a) /\
  (scale4 2 a = add4 a a <-> w4 a = 0) /\ (add4 a (neg4 a) = V4 0 0 0 0 <-> w4 a = 0) /\ (add4 (sub4 a b) b = a <-> w4 b = 0).
Proof.
  intros s [x y z w] [x' y' z' w']. unfold scale4, neg4, sub4, div4, add4. cbn [x4 y4 z4 w4].
  split; [ring|]. split; [reflexivity|]. split; [reflexivity|]. split; [reflexivity|]. split.
  - intros S. f_equal; field; exact S.
  - split; [|split]; split; intros H.
    + injection H. intros. lra.
    + f_equal; lra.
    + injection H. intros. lra.
    + f_equal; lra.
    + injection H. intros. lra.
    + f_equal; lra.
Qed.
Print Assumptions C72_vec4.

Theorem C72_scaling_refuted : exists a, scale4 2 a <> add4 a a /\ x4 (scale4 2 a) = x4 (add4 a a).
Proof. exists (V4 1 2 3 4). unfold scale4, add4. cbn. split; [intros H; injection H; intros; lra|lra]. Qed.
Print Assumptions C72_scaling_refuted.
