From Coq Require Import Reals Lra Psatz.
From Verif Require Import Model.Base Model.Math Model.Vec3 Spec.Vec3 Proofs.MathProofs.
Local Open Scope R_scope.

Ltac vec := unfold Unit, UnitQ, qnorm2, rotate, vadd, vsub, vneg, vscale, cross, dot, qmul, qconj, q_identity, v_zero, unit_x, unit_y, unit_z, squared_length in *; cbn [vx vy vz qw qx qy qz] in *.
Ltac gvec := unfold Unit, UnitQ, qnorm2, rotate, vadd, vsub, vneg, vscale, cross, dot, qmul, qconj, q_identity, v_zero, unit_x, unit_y, unit_z, squared_length; cbn [vx vy vz qw qx qy qz].
Lemma v3_eq a b : vx a = vx b -> vy a = vy b -> vz a = vz b -> a = b.
Proof. destruct a, b. cbn. intros -> -> ->. reflexivity. Qed.
Lemma q4_eq a b : qw a = qw b -> qx a = qx b -> qy a = qy b -> qz a = qz b -> a = b.
Proof. destruct a, b. cbn. intros -> -> -> ->. reflexivity. Qed.

Lemma qmul_assoc a b c : qmul a (qmul b c) = qmul (qmul a b) c.
Proof. destruct a, b, c. apply q4_eq; vec; ring. Qed.
Lemma qmul_1_l a : qmul q_identity a = a.
Proof. destruct a. apply q4_eq; vec; ring. Qed.
Lemma qmul_1_r a : qmul a q_identity = a.
Proof. destruct a. apply q4_eq; vec; ring. Qed.
Lemma qnorm2_mul a b : qnorm2 (qmul a b) = qnorm2 a * qnorm2 b.
Proof. destruct a, b. vec. ring. Qed.
Lemma qconj_unit a : UnitQ a -> UnitQ (qconj a).
Proof. destruct a. vec. intros <-. ring. Qed.
Lemma qmul_unit a b : UnitQ a -> UnitQ b -> UnitQ (qmul a b).
Proof. intros A B. change (qnorm2 (qmul a b) = 1). rewrite qnorm2_mul. change (qnorm2 a = 1) in A. change (qnorm2 b = 1) in B. rewrite A, B. ring. Qed.
Lemma qconj_l a : UnitQ a -> qmul (qconj a) a = q_identity.
Proof. destruct a. intros U. apply q4_eq; vec; try ring. rewrite <- U. ring. Qed.
Lemma qconj_r a : UnitQ a -> qmul a (qconj a) = q_identity.
Proof. destruct a. intros U. apply q4_eq; vec; try ring. rewrite <- U. ring. Qed.
Lemma rotate_id v : rotate q_identity v = v.
Proof. destruct v. apply v3_eq; vec; ring. Qed.
Lemma rotate_add q a b : rotate q (vadd a b) = vadd (rotate q a) (rotate q b).
Proof. destruct q, a, b. apply v3_eq; vec; ring. Qed.
Lemma rotate_scale q s a : rotate q (vscale s a) = vscale s (rotate q a).
Proof. destruct q, a. apply v3_eq; vec; ring. Qed.
Lemma rotate_neg q a : rotate q (vneg a) = vneg (rotate q a).
Proof. destruct q, a. apply v3_eq; vec; ring. Qed.
Lemma rotate_sub q a b : rotate q (vsub a b) = vsub (rotate q a) (rotate q b).
Proof. destruct q, a, b. apply v3_eq; vec; ring. Qed.
(* how far the product of quaternions is from the sequence of rotations: all
   identities hold up to multiples of |q|^2 - 1 *)
Lemma rotate_dot q a b : UnitQ q -> dot (rotate q a) (rotate q b) = dot a b.
Proof.
  destruct q as [w x y z], a as [a1 a2 a3], b as [b1 b2 b3]. unfold UnitQ. cbn [qw qx qy qz]. intros U.
  assert (W : w * w = 1 - x * x - y * y - z * z) by lra. vec. ring [W].
Qed.
(* rotating is conjugating the pure quaternion *)
Definition pure (v : vec3) : quat := Q4 0 (vx v) (vy v) (vz v).
Lemma rotate_pure q v : UnitQ q -> qmul (qmul q (pure v)) (qconj q) = pure (rotate q v).
Proof.
  destruct q as [w x y z], v as [a b c]. unfold UnitQ. cbn [qw qx qy qz]. intros U.
  assert (W : w * w = 1 - x * x - y * y - z * z) by lra. apply q4_eq; unfold pure; vec; ring [W].
Qed.
Lemma pure_inj v w : pure v = pure w -> v = w.
Proof. destruct v, w. unfold pure. cbn. intros H. injection H. intros -> -> ->. reflexivity. Qed.
Lemma qconj_mul a b : qconj (qmul a b) = qmul (qconj b) (qconj a).
Proof. destruct a, b. apply q4_eq; vec; ring. Qed.
Lemma rotate_mul p q v : UnitQ p -> UnitQ q -> rotate (qmul p q) v = rotate p (rotate q v).
Proof.
  intros U V. apply pure_inj. rewrite <- (rotate_pure p), <- (rotate_pure q), <- rotate_pure; auto using qmul_unit.
  rewrite qconj_mul, !qmul_assoc. reflexivity.
Qed.
Lemma rotate_cross q a b : UnitQ q -> rotate q (cross a b) = cross (rotate q a) (rotate q b).
Proof.
  destruct q as [w x y z], a as [a1 a2 a3], b as [b1 b2 b3]. unfold UnitQ. cbn [qw qx qy qz]. intros U.
  assert (W : w * w = 1 - x * x - y * y - z * z) by lra. apply v3_eq; vec; ring [W].
Qed.

(* half angles *)
Lemma cos_half a : cos a = 2 * (cos (1 / 2 * a) * cos (1 / 2 * a)) - 1.
Proof. replace a with (2 * (1 / 2 * a)) at 1 by lra. rewrite cos_2a_cos. ring. Qed.
Lemma sin_half a : sin a = 2 * sin (1 / 2 * a) * cos (1 / 2 * a).
Proof. replace a with (2 * (1 / 2 * a)) at 1 by lra. apply sin_2a. Qed.
Lemma cs1 a : cos a * cos a + sin a * sin a = 1.
Proof. pose proof (sin2_cos2 a) as H. unfold Rsqr in H. lra. Qed.

Definition axq (axis : vec3) (h : R) : quat := Q4 (cos h) (sin h * vx axis) (sin h * vy axis) (sin h * vz axis).
Lemma axq_unit u h : Unit u -> UnitQ (axq u h).
Proof.
  destruct u as [a b c]. unfold axq. vec. intros U. pose proof (cs1 h).
  replace (cos h * cos h + sin h * a * (sin h * a) + sin h * b * (sin h * b) + sin h * c * (sin h * c))
    with (cos h * cos h + sin h * sin h * (a * a + b * b + c * c)) by ring. rewrite U. lra.
Qed.
Lemma axq_turn u th v : Unit u -> rotate (axq u (1 / 2 * th)) v = turn u th v.
Proof.
  destruct u as [a b c], v as [x y z]. unfold axq, turn, Unit, dot. cbn [vx vy vz]. intros U. rewrite (cos_half th), (sin_half th).
  pose proof (cs1 (1 / 2 * th)) as C. set (cc := cos (1 / 2 * th)) in *. set (ss := sin (1 / 2 * th)) in *. clearbody cc ss.
  assert (A : a * a = 1 - b * b - c * c) by lra. assert (B : cc * cc = 1 - ss * ss) by lra.
  apply v3_eq; vec; ring [A B].
Qed.
Lemma turn_axis u th : Unit u -> turn u th u = u.
Proof. destruct u as [a b c]. unfold turn, Unit, dot. cbn [vx vy vz]. intros U.
  assert (A : a * a = 1 - b * b - c * c) by lra. apply v3_eq; vec; ring [A]. Qed.

(* lengths *)
Lemma sq_nonneg v : 0 <= squared_length v.
Proof. unfold squared_length. nra. Qed.
Lemma length_sq v : length v * length v = dot v v.
Proof. unfold length. rewrite sqrt_sqrt by apply sq_nonneg. reflexivity. Qed.
Lemma length_nonneg v : 0 <= length v.
Proof. apply sqrt_pos. Qed.
Lemma unit_length v : Unit v <-> length v = 1.
Proof.
  unfold Unit. rewrite <- length_sq. pose proof (length_nonneg v). split; [intros E; nra|intros ->; ring].
Qed.
Lemma length_scale s v : 0 <= s -> length (vscale s v) = s * length v.
Proof.
  intros S. unfold length. replace (squared_length (vscale s v)) with (s * s * squared_length v) by (destruct v; vec; ring).
  rewrite sqrt_mult; [|nra|apply sq_nonneg]. rewrite sqrt_square by exact S. reflexivity.
Qed.
Lemma cross_sq a b : dot (cross a b) (cross a b) = dot a a * dot b b - dot a b * dot a b.
Proof. destruct a, b. vec. ring. Qed.
Lemma normalized_unit eps v : 0 < eps -> eps < length v -> Unit (normalized eps v) /\ v = vscale (length v) (normalized eps v).
Proof.
  intros E L. unfold normalized. assert (R1 : Rltb eps (length v) = true) by (apply Rltb_lt; exact L). cbv zeta. rewrite R1.
  pose proof (length_sq v) as S. set (l := length v) in *. clearbody l. destruct v as [a b c]. unfold Unit, dot, vscale in *. cbn [vx vy vz] in *. split.
  - replace (a * (1 / l) * (a * (1 / l)) + b * (1 / l) * (b * (1 / l)) + c * (1 / l) * (c * (1 / l))) with ((a * a + b * b + c * c) / (l * l)) by (field; lra).
    rewrite <- S. field. lra.
  - f_equal; field; lra.
Qed.
Lemma equals_zero c e : 0 <= e < 1 -> equals c 0 e = true <-> c = 0.
Proof.
  intros E. unfold equals. rewrite Rleb_le. replace (c - 0) with c by ring. split; [|intros ->; rewrite Rabs_R0; lra].
  intros H. destruct (Req_dec c 0) as [Z|Z]; [exact Z|]. pose proof (Rabs_pos_lt c Z). nra.
Qed.

(* quat_from_directions between unit vectors *)
Lemma directions_core s t d n clen : Unit s -> Unit t -> d = dot s t -> clen = length (cross s t) -> clen <> 0 -> n = vdiv (cross s t) clen ->
  let a := acos d * (1 / 2) in let q := Q4 (cos a) (vx n * sin a) (vy n * sin a) (vz n * sin a) in UnitQ q /\ rotate q s = t.
Proof.
  intros Us Ut D C NZ N a q.
  assert (CC : clen * clen = 1 - d * d) by (rewrite C, length_sq, cross_sq, Us, Ut, <- D; ring).
  assert (CP : 0 < clen) by (pose proof (length_nonneg (cross s t)); rewrite <- C in *; lra).
  assert (DB : -1 <= d <= 1) by nra.
  assert (Ud : Unit n).
  { rewrite N. unfold Unit, vdiv, dot. cbn [vx vy vz].
    pose proof (length_sq (cross s t)) as L. rewrite <- C in L. set (c := cross s t) in *. unfold dot in L.
    replace (vx c * (1 / clen) * (vx c * (1 / clen)) + vy c * (1 / clen) * (vy c * (1 / clen)) + vz c * (1 / clen) * (vz c * (1 / clen)))
      with ((vx c * vx c + vy c * vy c + vz c * vz c) / (clen * clen)) by (field; exact NZ). rewrite <- L. field. exact NZ. }
  assert (A : a = 1 / 2 * acos d) by (unfold a; ring).
  assert (Q : q = axq n (1 / 2 * acos d)) by (unfold q, axq; rewrite A; f_equal; ring).
  rewrite Q. split; [apply axq_unit; exact Ud|]. rewrite axq_turn by exact Ud.
  assert (CA : cos (acos d) = d) by (apply cos_acos; lra).
  assert (SA : sin (acos d) = clen).
  { rewrite sin_acos by lra. rewrite <- (sqrt_square clen) by lra. f_equal. unfold Rsqr. lra. }
  unfold turn. rewrite CA, SA.
  destruct s as [s1 s2 s3], t as [t1 t2 t3]. rewrite N. unfold vdiv, Unit in *. vec.
  rewrite D in *. clear - Us Ut NZ. clearbody a || idtac.
  apply v3_eq; cbn [vx vy vz]; unfold dot; cbn [vx vy vz]; field_simplify_eq; try exact NZ.
  all: assert (Z1 : s1 * s1 = 1 - s2 * s2 - s3 * s3) by lra; ring [Z1].
Qed.

(* quat_from_axes: a rotation matrix equals the rank one matrix of its
   quaternion.  a, b, c are the columns. *)
Section AXES.
Variables a1 a2 a3 b1 b2 b3 c1 c2 c3 : R.
Hypothesis C1 : c1 = a2 * b3 - a3 * b2.
Hypothesis C2 : c2 = a3 * b1 - a1 * b3.
Hypothesis C3 : c3 = a1 * b2 - a2 * b1.
Hypothesis AA : a1 * a1 + a2 * a2 + a3 * a3 = 1.
Hypothesis BB : b1 * b1 + b2 * b2 + b3 * b3 = 1.
Hypothesis AB : a1 * b1 + a2 * b2 + a3 * b3 = 0.
Lemma cofactors : (a1 = b2 * c3 - b3 * c2 /\ a2 = b3 * c1 - b1 * c3 /\ a3 = b1 * c2 - b2 * c1) /\
  (b1 = c2 * a3 - c3 * a2 /\ b2 = c3 * a1 - c1 * a3 /\ b3 = c1 * a2 - c2 * a1).
Proof.
  rewrite C1, C2, C3. repeat split.
  - transitivity (a1 * 1 - b1 * 0); [ring|]. rewrite <- BB, <- AB. ring.
  - transitivity (a2 * 1 - b2 * 0); [ring|]. rewrite <- BB, <- AB. ring.
  - transitivity (a3 * 1 - b3 * 0); [ring|]. rewrite <- BB, <- AB. ring.
  - transitivity (b1 * 1 - a1 * 0); [ring|]. rewrite <- AA, <- AB. ring.
  - transitivity (b2 * 1 - a2 * 0); [ring|]. rewrite <- AA, <- AB. ring.
  - transitivity (b3 * 1 - a3 * 0); [ring|]. rewrite <- AA, <- AB. ring.
Qed.
Lemma col_dots : c1 * c1 + c2 * c2 + c3 * c3 = 1 /\ a1 * c1 + a2 * c2 + a3 * c3 = 0 /\ b1 * c1 + b2 * c2 + b3 * c3 = 0.
Proof.
  rewrite C1, C2, C3. repeat split; [|ring|ring]. transitivity (1 * 1 - 0 * 0); [|ring]. rewrite <- AA at 1. rewrite <- BB, <- AB. ring.
Qed.
Lemma row_dots : (a1 * a1 + b1 * b1 + c1 * c1 = 1 /\ a2 * a2 + b2 * b2 + c2 * c2 = 1 /\ a3 * a3 + b3 * b3 + c3 * c3 = 1) /\
  (a1 * a2 + b1 * b2 + c1 * c2 = 0 /\ a1 * a3 + b1 * b3 + c1 * c3 = 0 /\ a2 * a3 + b2 * b3 + c2 * c3 = 0).
Proof.
  destruct cofactors as [[A1 [A2 A3]] [B1 [B2 B3]]]. destruct col_dots as [CC _].
  assert (D : c1 * (a2 * b3 - a3 * b2) + c2 * (a3 * b1 - a1 * b3) + c3 * (a1 * b2 - a2 * b1) = 1) by (rewrite <- C1, <- C2, <- C3; exact CC).
  repeat split.
  - transitivity (a1 * (b2 * c3 - b3 * c2) + b1 * (c2 * a3 - c3 * a2) + c1 * (a2 * b3 - a3 * b2)); [rewrite <- A1, <- B1, <- C1; reflexivity|]. rewrite <- D. ring.
  - transitivity (a2 * (b3 * c1 - b1 * c3) + b2 * (c3 * a1 - c1 * a3) + c2 * (a3 * b1 - a1 * b3)); [rewrite <- A2, <- B2, <- C2; reflexivity|]. rewrite <- D. ring.
  - transitivity (a3 * (b1 * c2 - b2 * c1) + b3 * (c1 * a2 - c2 * a1) + c3 * (a1 * b2 - a2 * b1)); [rewrite <- A3, <- B3, <- C3; reflexivity|]. rewrite <- D. ring.
  - transitivity (a1 * (b3 * c1 - b1 * c3) + b1 * (c3 * a1 - c1 * a3) + c1 * (a3 * b1 - a1 * b3)); [rewrite <- A2, <- B2, <- C2; reflexivity|]. ring.
  - transitivity (a1 * (b1 * c2 - b2 * c1) + b1 * (c1 * a2 - c2 * a1) + c1 * (a1 * b2 - a2 * b1)); [rewrite <- A3, <- B3, <- C3; reflexivity|]. ring.
  - transitivity (a2 * (b1 * c2 - b2 * c1) + b2 * (c1 * a2 - c2 * a1) + c2 * (a1 * b2 - a2 * b1)); [rewrite <- A3, <- B3, <- C3; reflexivity|]. ring.
Qed.
(* 4 q q^T for the quaternion (w, x, y, z) of the matrix *)
Let K (i j : nat) : R :=
  match i, j with
  | 0%nat, 0%nat => 1 + a1 + b2 + c3 | 0%nat, 1%nat | 1%nat, 0%nat => b3 - c2 | 0%nat, 2%nat | 2%nat, 0%nat => c1 - a3 | 0%nat, 3%nat | 3%nat, 0%nat => a2 - b1
  | 1%nat, 1%nat => 1 + a1 - b2 - c3 | 1%nat, 2%nat | 2%nat, 1%nat => a2 + b1 | 1%nat, 3%nat | 3%nat, 1%nat => a3 + c1
  | 2%nat, 2%nat => 1 - a1 + b2 - c3 | 2%nat, 3%nat | 3%nat, 2%nat => b3 + c2 | _, _ => 1 - a1 - b2 + c3
  end.
Lemma rank_one i j k : (i < 4)%nat -> (j < 4)%nat -> (k < 4)%nat -> K i j * K k k = K i k * K j k.
Proof.
  destruct cofactors as [[A1 [A2 A3]] [B1 [B2 B3]]]. destruct col_dots as (CC & AC & BC). destruct row_dots as ((R1 & R2 & R3) & R4 & R5 & R6).
  intros I J Kk. destruct i as [|[|[|[|?]]]]; try (exfalso; lia); destruct j as [|[|[|[|?]]]]; try (exfalso; lia);
    destruct k as [|[|[|[|?]]]]; try (exfalso; lia); cbn [K]; lra.
Qed.
Lemma from_pivot (q : nat -> R) k : (k < 4)%nat -> 0 < K k k -> (forall i, (i < 4)%nat -> q i = if Nat.eqb i k then 1 / 2 * sqrt (K k k) else K i k * (1 / 2 / sqrt (K k k))) ->
  forall i j, (i < 4)%nat -> (j < 4)%nat -> 4 * (q i * q j) = K i j.
Proof.
  intros Hk P Q i j I J.
  assert (F : forall n, (n < 4)%nat -> q n = K n k * (1 / 2 / sqrt (K k k))).
  { intros n Nn. rewrite (Q n Nn). destruct (Nat.eqb_spec n k) as [->|]; [|reflexivity].
    pose proof (sqrt_lt_R0 _ P). pose proof (sqrt_sqrt (K k k) ltac:(lra)) as S. rewrite <- S at 2. field. lra. }
  rewrite (F i I), (F j J). pose proof (sqrt_lt_R0 _ P). pose proof (sqrt_sqrt (K k k) ltac:(lra)) as S.
  pose proof (rank_one i j k I J Hk) as M.
  transitivity (K i k * K j k / (sqrt (K k k) * sqrt (K k k))); [field; lra|]. rewrite S, <- M. field. lra.
Qed.
Lemma from_products w x y z : (forall i j, (i < 4)%nat -> (j < 4)%nat ->
    4 * (match i with O => w | 1%nat => x | 2%nat => y | _ => z end * match j with O => w | 1%nat => x | 2%nat => y | _ => z end) = K i j) ->
  UnitQ (Q4 w x y z) /\ rotate (Q4 w x y z) unit_x = V3 a1 a2 a3 /\ rotate (Q4 w x y z) unit_y = V3 b1 b2 b3 /\ rotate (Q4 w x y z) unit_z = V3 c1 c2 c3.
Proof.
  intros H.
  pose proof (H 0 0 ltac:(lia) ltac:(lia))%nat as H00. pose proof (H 1 1 ltac:(lia) ltac:(lia))%nat as H11.
  pose proof (H 2 2 ltac:(lia) ltac:(lia))%nat as H22. pose proof (H 3 3 ltac:(lia) ltac:(lia))%nat as H33.
  pose proof (H 0 1 ltac:(lia) ltac:(lia))%nat as H01. pose proof (H 0 2 ltac:(lia) ltac:(lia))%nat as H02.
  pose proof (H 0 3 ltac:(lia) ltac:(lia))%nat as H03. pose proof (H 1 2 ltac:(lia) ltac:(lia))%nat as H12.
  pose proof (H 1 3 ltac:(lia) ltac:(lia))%nat as H13. pose proof (H 2 3 ltac:(lia) ltac:(lia))%nat as H23.
  cbn [K] in *. split; [vec; lra|]. repeat split; apply v3_eq; vec; lra.
Qed.
End AXES.

Lemma axes_ok x y z : Axes x y z -> let q := quat_from_axes x y z in
  UnitQ q /\ rotate q unit_x = x /\ rotate q unit_y = y /\ rotate q unit_z = z.
Proof.
  destruct x as [a1 a2 a3], y as [b1 b2 b3], z as [c1 c2 c3]. unfold Axes, Unit, dot, cross. cbn [vx vy vz].
  intros (AA & BB & AB & Z). injection Z as C1 C2 C3.
  pose proof (from_pivot a1 a2 a3 b1 b2 b3 c1 c2 c3 C1 C2 C3 AA BB AB) as FP.
  pose proof (from_products a1 a2 a3 b1 b2 b3 c1 c2 c3) as FQ. cbv beta iota zeta in FP, FQ.
  unfold quat_from_axes, mat. cbn [comp vx vy vz].
  destruct (Rltb 0 (a1 + b2 + c3)) eqn:T; [apply Rltb_lt in T|apply Rltb_ge in T].
  - apply FQ. apply (FP _ 0%nat); [lia|lra|].
    assert (E : a1 + b2 + c3 + 1 = 1 + a1 + b2 + c3) by ring. rewrite E.
    intros i I. destruct i as [|[|[|[|?]]]]; try (exfalso; lia); reflexivity.
  - destruct (Rltb a1 b2) eqn:I1; [apply Rltb_lt in I1|apply Rltb_ge in I1]; cbn [comp vx vy vz];
      [destruct (Rltb b2 c3) eqn:I2|destruct (Rltb a1 c3) eqn:I2]; first [apply Rltb_lt in I2|apply Rltb_ge in I2]; cbn [comp vx vy vz Nat.modulo Nat.divmod Nat.add Nat.eqb fst snd Nat.sub]; apply FQ.
    + assert (E : c3 - a1 - b2 + 1 = 1 - a1 - b2 + c3) by ring. rewrite E.
      apply (FP _ 3%nat); [lia|lra|]. intros i I. destruct i as [|[|[|[|?]]]]; try (exfalso; lia); cbn; ring.
    + assert (E : b2 - c3 - a1 + 1 = 1 - a1 + b2 - c3) by ring. rewrite E.
      apply (FP _ 2%nat); [lia|lra|]. intros i I. destruct i as [|[|[|[|?]]]]; try (exfalso; lia); cbn; ring.
    + assert (E : c3 - a1 - b2 + 1 = 1 - a1 - b2 + c3) by ring. rewrite E.
      apply (FP _ 3%nat); [lia|lra|]. intros i I. destruct i as [|[|[|[|?]]]]; try (exfalso; lia); cbn; ring.
    + assert (E : a1 - b2 - c3 + 1 = 1 + a1 - b2 - c3) by ring. rewrite E.
      apply (FP _ 1%nat); [lia|lra|]. intros i I. destruct i as [|[|[|[|?]]]]; try (exfalso; lia); cbn; ring.
Qed.

(* axis and angle of a unit quaternion *)
Lemma vlen_sin q : UnitQ q -> sqrt (qx q * qx q + qy q * qy q + qz q * qz q) = sin (acos (qw q)) /\ -1 <= qw q <= 1.
Proof.
  destruct q as [w x y z]. unfold UnitQ. cbn [qw qx qy qz]. intros U. assert (-1 <= w <= 1) by nra. split; [|lra].
  rewrite sin_acos by lra. f_equal. unfold Rsqr. lra.
Qed.
Lemma axis_angle_round eps q : 0 < eps -> UnitQ q -> eps < sqrt (qx q * qx q + qy q * qy q + qz q * qz q) ->
  let aa := axis_angle_from_quat eps q in
  Unit (fst aa) /\ aunit (snd aa) = Radians /\ 0 <= avalue (snd aa) <= 2 * PI /\ quat_from_axis_angle eps (fst aa) (snd aa) = Ok q /\
  rotation_vector_from_quat eps q = vscale (avalue (snd aa)) (fst aa).
Proof.
  intros E U L. pose proof (vlen_sin q U) as (S & B). unfold axis_angle_from_quat, rotation_vector_from_quat. cbv zeta.
  assert (T : Rltb eps (sqrt (qx q * qx q + qy q * qy q + qz q * qz q)) = true) by (apply Rltb_lt; exact L). rewrite T.
  assert (SQ : sqrt (qx q * qx q + qy q * qy q + qz q * qz q) * sqrt (qx q * qx q + qy q * qy q + qz q * qz q) = qx q * qx q + qy q * qy q + qz q * qz q) by (apply sqrt_sqrt; nra).
  set (l := sqrt (qx q * qx q + qy q * qy q + qz q * qz q)) in *. clearbody l. cbn [fst snd aunit avalue].
  destruct q as [w x y z]. cbn [qw qx qy qz] in *.
  assert (Un : 1 / l * x * (1 / l * x) + 1 / l * y * (1 / l * y) + 1 / l * z * (1 / l * z) = 1).
  { transitivity ((x * x + y * y + z * z) / (l * l)); [field; lra|]. rewrite SQ. field. rewrite <- SQ. nra. }
  split; [exact Un|]. split; [reflexivity|]. split; [pose proof (acos_bound w); lra|]. split.
  - unfold quat_from_axis_angle, v_is_normalized, squared_length. cbn [vx vy vz]. rewrite Un.
    assert (EQ : equals 1 1 (4 * eps) = true). { unfold equals. apply Rleb_le. replace (1 - 1) with 0 by ring. rewrite Rabs_R0, Rabs_R1. lra. }
    rewrite EQ. cbn [assert_ bind]. unfold rad_value, convert. cbn [aunit avalue].
    replace (1 / 2 * (2 * acos w)) with (acos w) by field. rewrite cos_acos by exact B. rewrite <- S. do 2 f_equal; field; lra.
  - unfold vscale. cbn [vx vy vz]. f_equal; field; lra.
Qed.

(* atan2 recovers the angle of a point on the unit circle *)
Lemma atan2_sin_cos t : - PI < t < PI -> atan2 (sin t) (cos t) = t.
Proof.
  intros B. unfold atan2. pose proof PI_RGT_0 as PP.
  destruct (Rtotal_order (cos t) 0) as [C|[C|C]].
  - assert (X : Rltb 0 (cos t) = false) by (apply Rltb_ge; lra). assert (Y : Rltb (cos t) 0 = true) by (apply Rltb_lt; lra). rewrite X, Y.
    destruct (Rlt_dec t 0) as [N|N].
    + assert (t < - (PI / 2)). { apply Rnot_le_lt. intros G. assert (0 <= cos t) by (apply cos_ge_0; lra). lra. }
      assert (S : sin t < 0) by (apply sin_lt_0_var; lra). assert (Z : Rltb (sin t) 0 = true) by (apply Rltb_lt; lra). rewrite Z.
      replace (sin t / cos t) with (tan (t + PI)); [rewrite atan_tan by lra; ring|]. unfold tan. rewrite neg_sin, neg_cos. field. lra.
    + assert (PI / 2 < t). { apply Rnot_le_lt. intros G. assert (0 <= cos t) by (apply cos_ge_0; lra). lra. }
      assert (S : 0 <= sin t) by (apply sin_ge_0; lra). assert (Z : Rltb (sin t) 0 = false) by (apply Rltb_ge; lra). rewrite Z.
      replace (sin t / cos t) with (tan (t - PI)); [rewrite atan_tan by lra; ring|].
      replace (t - PI) with (- (PI - t)) by ring. rewrite tan_neg. unfold tan. rewrite sin_PI_x, Rtrigo_facts.cos_pi_minus. field. lra.
  - assert (X : Rltb 0 (cos t) = false) by (apply Rltb_ge; lra). assert (Y : Rltb (cos t) 0 = false) by (apply Rltb_ge; lra). rewrite X, Y.
    destruct (Rlt_dec t 0) as [N|N].
    + assert (S : sin t < 0) by (apply sin_lt_0_var; lra).
      assert (X1 : Rltb 0 (sin t) = false) by (apply Rltb_ge; lra). assert (Y1 : Rltb (sin t) 0 = true) by (apply Rltb_lt; lra). rewrite X1, Y1.
      destruct (Rtotal_order t (- (PI / 2))) as [L|[L|L]]; [|lra|].
      * assert (cos (- t) < 0) by (apply cos_lt_0; lra). rewrite cos_neg in *. lra.
      * assert (0 < cos t) by (apply cos_gt_0; lra). lra.
    + assert (S : 0 < sin t).
      { destruct (Req_dec t 0) as [->|]; [rewrite cos_0 in C; lra|]. apply sin_gt_0; lra. }
      assert (X1 : Rltb 0 (sin t) = true) by (apply Rltb_lt; lra). rewrite X1.
      destruct (Rtotal_order t (PI / 2)) as [L|[L|L]]; [|lra|].
      * assert (0 < cos t) by (apply cos_gt_0; lra). lra.
      * assert (cos t < 0) by (apply cos_lt_0; lra). lra.
  - assert (X : Rltb 0 (cos t) = true) by (apply Rltb_lt; lra). rewrite X.
    assert (- PI / 2 < t < PI / 2).
    { split; apply Rnot_le_lt; intros G.
      - assert (cos (- t) <= 0) by (apply cos_le_0; lra). rewrite cos_neg in *. lra.
      - assert (cos t <= 0) by (apply cos_le_0; lra). lra. }
    change (sin t / cos t) with (tan t). apply atan_tan. lra.
Qed.
Lemma atan2_0_pos x : 0 < x -> atan2 0 x = 0.
Proof.
  intros P. unfold atan2. assert (X : Rltb 0 x = true) by (apply Rltb_lt; lra). rewrite X.
  replace (0 / x) with 0 by (field; lra). apply atan_0.
Qed.
Lemma atan2_0_neg x : x < 0 -> atan2 0 x = PI.
Proof.
  intros P. unfold atan2. assert (X : Rltb 0 x = false) by (apply Rltb_ge; lra). assert (Y : Rltb x 0 = true) by (apply Rltb_lt; lra). assert (Z : Rltb 0 0 = false) by (apply Rltb_ge; lra). rewrite X, Y, Z.
  replace (0 / x) with 0 by (field; lra). rewrite atan_0. ring.
Qed.
Lemma cos_half' a : cos a = 1 - 2 * (sin (1 / 2 * a) * sin (1 / 2 * a)).
Proof. rewrite (cos_half a). pose proof (cs1 (1 / 2 * a)). lra. Qed.

(* triangle inequality *)
Lemma cauchy a b : Rabs (dot a b) <= length a * length b.
Proof.
  pose proof (length_nonneg a) as A. pose proof (length_nonneg b) as B.
  rewrite <- (Rabs_pos_eq (length a * length b)) by nra. apply Rsqr_le_abs_0. unfold Rsqr.
  replace (length a * length b * (length a * length b)) with ((length a * length a) * (length b * length b)) by ring.
  rewrite !length_sq. pose proof (cross_sq a b) as C. assert (0 <= dot (cross a b) (cross a b)) by (unfold dot; nra). lra.
Qed.
Lemma triangle a b : length (vadd a b) <= length a + length b.
Proof.
  pose proof (length_nonneg a) as A. pose proof (length_nonneg b) as B. pose proof (length_nonneg (vadd a b)) as C.
  apply Rsqr_incr_0_var; [|lra]. unfold Rsqr. rewrite length_sq.
  replace (dot (vadd a b) (vadd a b)) with (dot a a + 2 * dot a b + dot b b) by (destruct a, b; vec; ring).
  rewrite <- !length_sq. pose proof (cauchy a b) as K. pose proof (Rle_abs (dot a b)). nra.
Qed.
Lemma sum_sq_zero a b c : a * a + b * b + c * c = 0 -> a = 0 /\ b = 0 /\ c = 0.
Proof.
  intros H. assert (A : 0 <= a * a) by nra. assert (B : 0 <= b * b) by nra. assert (C : 0 <= c * c) by nra.
  repeat split; apply Rsqr_0_uniq; unfold Rsqr; lra.
Qed.
