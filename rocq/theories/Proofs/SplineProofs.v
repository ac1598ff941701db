From Coq Require Import Reals ZArith Lra Lia.
From Verif Require Import Model.Base Model.Math Model.Vec3 Model.Regression Model.Spline Spec.Spline
  Proofs.MathProofs Proofs.Vec3Proofs Proofs.RegressionProofs.
Local Open Scope R_scope.

Lemma cubic_deriv c0 c1 c2 c3 x : derivable_pt_lim (fun t => c0 + c1 * t + c2 * t * t + c3 * t * t * t) x (c1 + 2 * c2 * x + 3 * c3 * x * x).
Proof.
  assert (I := derivable_pt_lim_id x).
  assert (P1 := derivable_pt_lim_scal _ c1 _ _ I). assert (P2 := derivable_pt_lim_mult _ _ _ _ _ (derivable_pt_lim_scal _ c2 _ _ I) I).
  assert (P3 := derivable_pt_lim_mult _ _ _ _ _ (derivable_pt_lim_mult _ _ _ _ _ (derivable_pt_lim_scal _ c3 _ _ I) I) I).
  assert (P0 := derivable_pt_lim_const c0 x).
  assert (Q := derivable_pt_lim_plus _ _ _ _ _ (derivable_pt_lim_plus _ _ _ _ _ (derivable_pt_lim_plus _ _ _ _ _ P0 P1) P2) P3).
  unfold plus_fct, mult_fct, mult_real_fct, fct_cte, id in Q.
  replace (c1 + 2 * c2 * x + 3 * c3 * x * x) with (0 + c1 * 1 + (c2 * 1 * x + c2 * x * 1) + ((c3 * 1 * x + c3 * x * 1) * x + c3 * x * x * 1)) by ring.
  exact Q.
Qed.
Lemma deriv_ext f g x l : (forall t, f t = g t) -> derivable_pt_lim f x l -> derivable_pt_lim g x l.
Proof. intros E D e H. destruct (D e H) as [d P]. exists d. intros h A B. rewrite <- !E. apply P; assumption. Qed.

Lemma seg_velocity p0 p1 p2 p3 x : Velocity (seg_eval (seg_make p0 p1 p2 p3)) x
  (vscale (1 / 2) (vadd (sb (seg_make p0 p1 p2 p3)) (vadd (vscale (2 * x) (sc (seg_make p0 p1 p2 p3))) (vscale (3 * x * x) (sd (seg_make p0 p1 p2 p3)))))).
Proof.
  set (s := seg_make p0 p1 p2 p3). clearbody s. destruct s as [[a1 a2 a3] [b1 b2 b3] [c1 c2 c3] [d1 d2 d3]].
  unfold Velocity, seg_eval. cbn [sa sb sc sd vadd vscale vx vy vz]. split; [|split].
  - eapply deriv_ext; [|replace ((b1 + (c1 * (2 * x) + d1 * (3 * x * x))) * (1 / 2)) with (b1 / 2 + 2 * (c1 / 2) * x + 3 * (d1 / 2) * x * x) by field; apply (cubic_deriv (a1 / 2))]. intros t. cbn beta. field.
  - eapply deriv_ext; [|replace ((b2 + (c2 * (2 * x) + d2 * (3 * x * x))) * (1 / 2)) with (b2 / 2 + 2 * (c2 / 2) * x + 3 * (d2 / 2) * x * x) by field; apply (cubic_deriv (a2 / 2))]. intros t. cbn beta. field.
  - eapply deriv_ext; [|replace ((b3 + (c3 * (2 * x) + d3 * (3 * x * x))) * (1 / 2)) with (b3 / 2 + 2 * (c3 / 2) * x + 3 * (d3 / 2) * x * x) by field; apply (cubic_deriv (a3 / 2))]. intros t. cbn beta. field.
Qed.

(* knots *)
Lemma distance_length a b : distance a b = length (vsub b a).
Proof. unfold distance, length. f_equal. destruct a, b. gvec. ring. Qed.
Lemma distance_zero a b : distance a b = 0 <-> a = b.
Proof.
  destruct a as [a1 a2 a3], b as [b1 b2 b3]. unfold distance. cbn [vx vy vz]. split.
  - intros H. pose proof (Rle_0_sqr (a1 - b1)) as S1. pose proof (Rle_0_sqr (a2 - b2)) as S2. pose proof (Rle_0_sqr (a3 - b3)) as S3. unfold Rsqr in *.
    apply sqrt_eq_0 in H; [|lra]. apply sum_sq_zero in H. apply v3_eq; cbn; lra.
  - intros H. inversion H. replace ((b1 - b1) * (b1 - b1) + (b2 - b2) * (b2 - b2) + (b3 - b3) * (b3 - b3)) with 0 by ring. apply sqrt_0.
Qed.
Lemma distance_pos a b : 0 <= distance a b.
Proof. apply sqrt_pos. Qed.
Lemma distance_triangle a b c : distance a c <= distance a b + distance b c.
Proof.
  rewrite !distance_length. replace (vsub c a) with (vadd (vsub b a) (vsub c b)); [apply triangle|]. destruct a, b, c. apply v3_eq; gvec; ring.
Qed.
(* the knot spacing *)
Definition gap (a b : vec3) (alpha : R) : R := if Req_EM_T alpha 0 then 1 else Rpower (distance a b) alpha.
Lemma gap_pos a b alpha : 0 < gap a b alpha.
Proof. unfold gap. destruct (Req_EM_T alpha 0); [lra|]. unfold Rpower. apply exp_pos. Qed.
Lemma cpow_gap a b alpha : alpha = 0 \/ a <> b -> cpow (distance a b) alpha = Ok (gap a b alpha).
Proof.
  intros H. unfold cpow, gap. destruct (Req_EM_T alpha 0); [reflexivity|]. destruct H as [H|H]; [contradiction|].
  destruct (Req_EM_T (distance a b) 0) as [E|E]; [apply distance_zero in E; contradiction|reflexivity].
Qed.
Lemma cpow_cases a b alpha : alpha <> 0 ->
  (a = b /\ (cpow (distance a b) alpha = Ok 0 \/ cpow (distance a b) alpha = UB)) \/
  (a <> b /\ exists d, 0 < d /\ cpow (distance a b) alpha = Ok d).
Proof.
  intros A. destruct (Req_EM_T (distance a b) 0) as [E|E].
  - left. split; [apply distance_zero; exact E|]. unfold cpow. destruct (Req_EM_T alpha 0) as [C|_]; [contradiction|].
    destruct (Req_EM_T (distance a b) 0) as [_|C]; [|contradiction]. destruct (Rltb 0 alpha); auto.
  - right. assert (N : a <> b) by (intros C; apply E, distance_zero; exact C). split; [exact N|].
    exists (gap a b alpha). split; [apply gap_pos|apply cpow_gap; right; exact N].
Qed.
Definition knots (p0 p1 p2 p3 : vec3) (alpha : R) : asegment :=
  mkASeg 0 (gap p0 p1 alpha) (gap p0 p1 alpha + gap p1 p2 alpha) (gap p0 p1 alpha + gap p1 p2 alpha + gap p2 p3 alpha) p0 p1 p2 p3.
Lemma aseg_make_ok p0 p1 p2 p3 alpha : alpha = 0 \/ (p0 <> p1 /\ p1 <> p2 /\ p2 <> p3) ->
  aseg_make p0 p1 p2 p3 alpha = Ok (knots p0 p1 p2 p3 alpha).
Proof. intros H. unfold aseg_make. rewrite !cpow_gap by tauto. reflexivity. Qed.

(* blending for spacings a, b, c *)
Definition mix (a b t : R) (p q : vec3) : vec3 := vadd (vscale ((b - t) / (b - a)) p) (vscale ((t - a) / (b - a)) q).
Lemma blend_ok a b t p q : a <> b -> blend a b t p q = Ok (mix a b t p q).
Proof. intros H. unfold blend. rewrite !rdiv_ok by lra. reflexivity. Qed.
Lemma blend_ub a b t p q : a = b -> blend a b t p q = UB.
Proof. intros ->. unfold blend. rewrite rdiv_zero by ring. reflexivity. Qed.
Definition pyramid (d1 d2 d3 : R) (p0 p1 p2 p3 : vec3) (x : R) : vec3 :=
  let t := d1 + x * d2 in
  mix d1 (d1 + d2) t (mix 0 (d1 + d2) t (mix 0 d1 t p0 p1) (mix d1 (d1 + d2) t p1 p2))
    (mix d1 (d1 + d2 + d3) t (mix d1 (d1 + d2) t p1 p2) (mix (d1 + d2) (d1 + d2 + d3) t p2 p3)).
Lemma aseg_eval_ok p0 p1 p2 p3 alpha x :
  aseg_eval (knots p0 p1 p2 p3 alpha) x = Ok (pyramid (gap p0 p1 alpha) (gap p1 p2 alpha) (gap p2 p3 alpha) p0 p1 p2 p3 x).
Proof.
  pose proof (gap_pos p0 p1 alpha). pose proof (gap_pos p1 p2 alpha). pose proof (gap_pos p2 p3 alpha).
  unfold aseg_eval, knots. cbn [t0 t1 t2 t3 p0_ p1_ p2_ p3_]. unfold pyramid. cbn zeta.
  set (d1 := gap p0 p1 alpha) in *. set (d2 := gap p1 p2 alpha) in *. set (d3 := gap p2 p3 alpha) in *.
  replace (d1 + d2 - d1) with d2 by ring. repeat (rewrite blend_ok by lra; cbn [bind]). reflexivity.
Qed.

(* one coordinate *)
Definition mix1 (a b t p q : R) : R := (b - t) / (b - a) * p + (t - a) / (b - a) * q.
Definition pyramid1 (d1 d2 d3 p0 p1 p2 p3 x : R) : R :=
  let t := d1 + x * d2 in
  mix1 d1 (d1 + d2) t (mix1 0 (d1 + d2) t (mix1 0 d1 t p0 p1) (mix1 d1 (d1 + d2) t p1 p2))
    (mix1 d1 (d1 + d2 + d3) t (mix1 d1 (d1 + d2) t p1 p2) (mix1 (d1 + d2) (d1 + d2 + d3) t p2 p3)).
Lemma mix_coord a b t p q : vx (mix a b t p q) = mix1 a b t (vx p) (vx q) /\ vy (mix a b t p q) = mix1 a b t (vy p) (vy q) /\ vz (mix a b t p q) = mix1 a b t (vz p) (vz q).
Proof. unfold mix, mix1. gvec. repeat split; ring. Qed.
Lemma mix_x a b t p q : vx (mix a b t p q) = mix1 a b t (vx p) (vx q). Proof. apply mix_coord. Qed.
Lemma mix_y a b t p q : vy (mix a b t p q) = mix1 a b t (vy p) (vy q). Proof. apply mix_coord. Qed.
Lemma mix_z a b t p q : vz (mix a b t p q) = mix1 a b t (vz p) (vz q). Proof. apply mix_coord. Qed.
Lemma pyramid_coord d1 d2 d3 p0 p1 p2 p3 x :
  vx (pyramid d1 d2 d3 p0 p1 p2 p3 x) = pyramid1 d1 d2 d3 (vx p0) (vx p1) (vx p2) (vx p3) x /\
  vy (pyramid d1 d2 d3 p0 p1 p2 p3 x) = pyramid1 d1 d2 d3 (vy p0) (vy p1) (vy p2) (vy p3) x /\
  vz (pyramid d1 d2 d3 p0 p1 p2 p3 x) = pyramid1 d1 d2 d3 (vz p0) (vz p1) (vz p2) (vz p3) x.
Proof. unfold pyramid, pyramid1. cbn zeta. rewrite !mix_x, !mix_y, !mix_z. repeat split. Qed.
Lemma pyramid_eq d1 d2 d3 p0 p1 p2 p3 x v :
  pyramid1 d1 d2 d3 (vx p0) (vx p1) (vx p2) (vx p3) x = vx v ->
  pyramid1 d1 d2 d3 (vy p0) (vy p1) (vy p2) (vy p3) x = vy v ->
  pyramid1 d1 d2 d3 (vz p0) (vz p1) (vz p2) (vz p3) x = vz v -> pyramid d1 d2 d3 p0 p1 p2 p3 x = v.
Proof. intros X Y Z. destruct (pyramid_coord d1 d2 d3 p0 p1 p2 p3 x) as (A & B & C). apply v3_eq; congruence. Qed.

Lemma pyramid1_start d1 d2 d3 a b c d : 0 < d1 -> 0 < d2 -> 0 < d3 -> pyramid1 d1 d2 d3 a b c d 0 = b.
Proof. intros. unfold pyramid1, mix1. field. repeat split; lra. Qed.
Lemma pyramid1_end d1 d2 d3 a b c d : 0 < d1 -> 0 < d2 -> 0 < d3 -> pyramid1 d1 d2 d3 a b c d 1 = c.
Proof. intros. unfold pyramid1, mix1. field. repeat split; lra. Qed.
Lemma pyramid1_uniform a b c d x : pyramid1 1 1 1 a b c d x =
  1 / 2 * (2 * b + (c - a) * x + (2 * a - 5 * b + 4 * c - d) * x * x + (- a + 3 * b - 3 * c + d) * x * x * x).
Proof. unfold pyramid1, mix1. field. Qed.

(* velocity of the pyramid *)
Definition speed1 (e1 e2 p q r : R) : R := (q - p) / e1 - (r - p) / (e1 + e2) + (r - q) / e2.
Lemma mix_deriv a b f f' g g' t t' x p q : a <> b -> derivable_pt_lim t x t' -> f = p x -> g = q x ->
  derivable_pt_lim p x f' -> derivable_pt_lim q x g' ->
  derivable_pt_lim (fun y => mix1 a b (t y) (p y) (q y)) x
    (- t' / (b - a) * f + (b - t x) / (b - a) * f' + (t' / (b - a) * g + (t x - a) / (b - a) * g')).
Proof.
  intros H T -> -> P Q. unfold mix1.
  assert (A := derivable_pt_lim_minus _ _ _ _ _ (derivable_pt_lim_const b x) T).
  assert (B := derivable_pt_lim_minus _ _ _ _ _ T (derivable_pt_lim_const a x)).
  assert (A1 := derivable_pt_lim_mult _ _ _ _ _ (derivable_pt_lim_scal _ (/ (b - a)) _ _ A) P).
  assert (B1 := derivable_pt_lim_mult _ _ _ _ _ (derivable_pt_lim_scal _ (/ (b - a)) _ _ B) Q).
  assert (C := derivable_pt_lim_plus _ _ _ _ _ A1 B1).
  unfold plus_fct, mult_fct, mult_real_fct, fct_cte, minus_fct in C.
  eapply deriv_ext; [|replace (- t' / (b - a) * p x + (b - t x) / (b - a) * f' + (t' / (b - a) * q x + (t x - a) / (b - a) * g'))
    with (/ (b - a) * (0 - t') * p x + / (b - a) * (b - t x) * f' + (/ (b - a) * (t' - 0) * q x + / (b - a) * (t x - a) * g')) by (field; lra); exact C].
  intros y. cbn beta. field. lra.
Qed.
Lemma pyramid1_deriv d1 d2 d3 a b c d x : 0 < d1 -> 0 < d2 -> 0 < d3 ->
  exists v, derivable_pt_lim (pyramid1 d1 d2 d3 a b c d) x v /\
    (x = 0 -> v = d2 * speed1 d1 d2 a b c) /\ (x = 1 -> v = d2 * speed1 d2 d3 b c d).
Proof.
  intros H1 H2 H3. set (t := fun y => d1 + y * d2).
  assert (T : derivable_pt_lim t x d2).
  { pose proof (cubic_deriv d1 d2 0 0 x) as Q. replace (d2 + 2 * 0 * x + 3 * 0 * x * x) with d2 in Q by ring.
    eapply deriv_ext; [|exact Q]. intros y. unfold t. cbn beta. ring. }
  assert (K : forall v, derivable_pt_lim (fun _ => v) x 0) by (intros v; apply derivable_pt_lim_const).
  assert (A1 := mix_deriv 0 d1 _ _ _ _ t d2 x (fun _ => a) (fun _ => b) ltac:(lra) T eq_refl eq_refl (K a) (K b)). cbn beta in A1.
  assert (A2 := mix_deriv d1 (d1 + d2) _ _ _ _ t d2 x (fun _ => b) (fun _ => c) ltac:(lra) T eq_refl eq_refl (K b) (K c)). cbn beta in A2.
  assert (A3 := mix_deriv (d1 + d2) (d1 + d2 + d3) _ _ _ _ t d2 x (fun _ => c) (fun _ => d) ltac:(lra) T eq_refl eq_refl (K c) (K d)). cbn beta in A3.
  assert (B1 := mix_deriv 0 (d1 + d2) _ _ _ _ t d2 x _ _ ltac:(lra) T eq_refl eq_refl A1 A2). cbn beta in B1.
  assert (B2 := mix_deriv d1 (d1 + d2 + d3) _ _ _ _ t d2 x _ _ ltac:(lra) T eq_refl eq_refl A2 A3). cbn beta in B2.
  assert (C := mix_deriv d1 (d1 + d2) _ _ _ _ t d2 x _ _ ltac:(lra) T eq_refl eq_refl B1 B2). cbn beta in C.
  eexists. split; [exact C|]. clear - H1 H2 H3. unfold mix1, t, speed1. split; intros ->; field; repeat split; lra.
Qed.

(* one coordinate *)
Definition catmull1 (a b c d t : R) : R := 1 / 2 * (2 * b + t * (- a + c) + t * (t * (2 * a - 5 * b + 4 * c - d)) + t * (t * (t * (- a + 3 * b - 3 * c + d)))).
Lemma seg_coord p0 p1 p2 p3 t : seg_eval (seg_make p0 p1 p2 p3) t =
  V3 (catmull1 (vx p0) (vx p1) (vx p2) (vx p3) t) (catmull1 (vy p0) (vy p1) (vy p2) (vy p3) t) (catmull1 (vz p0) (vz p1) (vz p2) (vz p3) t).
Proof. unfold seg_eval, seg_make, catmull1. apply v3_eq; cbn [vx vy vz sa sb sc sd vadd vsub vneg vscale]; ring. Qed.

(* lengths *)
Fixpoint path (q : Z -> vec3) (i : Z) (n : nat) : R :=
  match n with 0%nat => 0 | S n' => distance (q (i - 1)%Z) (q i) + path q (i + 1) n' end.
Definition sample (spline : R -> vec3) (u0 u1 steps : R) (i : Z) : vec3 := spline (u0 + (u1 - u0) * IZR i / steps).
Lemma length_loop_path spline u0 u1 steps n : forall i pos dist, pos = sample spline u0 u1 steps (i - 1) ->
  length_loop spline u0 u1 steps i n pos dist = dist + path (sample spline u0 u1 steps) i n.
Proof.
  induction n as [|n IH]; intros i pos dist P; cbn [length_loop path]; [ring|]. rewrite IH.
  - rewrite P. fold (sample spline u0 u1 steps i). ring.
  - replace (i + 1 - 1)%Z with i by lia. reflexivity.
Qed.
Lemma spline_length_path spline u0 u1 steps : compute_spline_length spline u0 u1 steps = path (sample spline u0 u1 (IZR steps)) 1 (Z.to_nat steps).
Proof.
  unfold compute_spline_length. rewrite length_loop_path; [ring|]. unfold sample. f_equal. cbn. unfold Rdiv. ring.
Qed.
Lemma path_app q n m : forall i, path q i (n + m) = path q i n + path q (i + Z.of_nat n) m.
Proof.
  induction n as [|n IH]; intros i; cbn [path Nat.add].
  - replace (i + Z.of_nat 0)%Z with i by lia. ring.
  - rewrite IH. replace (i + 1 + Z.of_nat n)%Z with (i + Z.of_nat (S n))%Z by lia. ring.
Qed.
Lemma path_chord q n : forall i, distance (q (i - 1)%Z) (q (i - 1 + Z.of_nat n)%Z) <= path q i n.
Proof.
  induction n as [|n IH]; intros i; cbn [path].
  - replace (i - 1 + Z.of_nat 0)%Z with (i - 1)%Z by lia. rewrite (proj2 (distance_zero _ _) eq_refl). lra.
  - pose proof (IH (i + 1)%Z) as H. replace (i + 1 - 1)%Z with i in H by lia.
    replace (i - 1 + Z.of_nat (S n))%Z with (i + Z.of_nat n)%Z by lia.
    eapply Rle_trans; [apply (distance_triangle _ (q i))|]. lra.
Qed.
Lemma path_ext q r n : forall i, (forall j, q j = r j) -> path q i n = path r i n.
Proof. induction n as [|n IH]; intros i E; cbn [path]; [reflexivity|]. rewrite !E, (IH (i + 1)%Z E). reflexivity. Qed.
Lemma path_refine q k n : (0 < k)%nat -> forall i, path (fun j => q (Z.of_nat k * j)%Z) i n <= path q (Z.of_nat k * (i - 1) + 1) (k * n).
Proof.
  intros K. induction n as [|n IH]; intros i; cbn [path].
  - rewrite Nat.mul_0_r. cbn [path]. lra.
  - replace (k * S n)%nat with (k + k * n)%nat by lia. rewrite path_app.
    pose proof (path_chord q k (Z.of_nat k * (i - 1) + 1)) as H. pose proof (IH (i + 1)%Z) as G.
    replace (Z.of_nat k * (i - 1) + 1 - 1)%Z with (Z.of_nat k * (i - 1))%Z in H by lia.
    replace (Z.of_nat k * (i - 1) + Z.of_nat k)%Z with (Z.of_nat k * i)%Z in H by lia.
    replace (Z.of_nat k * (i + 1 - 1) + 1)%Z with (Z.of_nat k * (i - 1) + 1 + Z.of_nat k)%Z in G by lia. lra.
Qed.
Lemma path_line q d n : (forall j, distance (q (j - 1)%Z) (q j) = d) -> forall i, path q i n = INR n * d.
Proof.
  intros E. induction n as [|n IH]; intros i; cbn [path]; [cbn; ring|]. rewrite E, IH, S_INR. ring.
Qed.
