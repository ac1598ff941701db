(* C62, C63: piecewise linear functions and interpolation in buffers (exact reals) *)
From Coq Require Import Reals List ZArith Lra Lia Psatz.
From Verif Require Import Model.Base Model.Math Model.Regression Model.Interp Spec.Interp Proofs.MathProofs Proofs.RegressionProofs Proofs.InterpProofs.
Import ListNotations.
Local Open Scope R_scope.

(* when construction is defined *)
Theorem C62_construct : forall a b n fn, (- 2 ^ 31 <= n < 2 ^ 31)%Z ->
  ((exists f, rpl_make a b n fn = Ok f) <-> (n <> 0 /\ -1 <= n /\ n <> 2 ^ 31 - 1)%Z) /\
  (rpl_make a b n fn = Throw <-> (n < -1)%Z) /\
  (rpl_make a b n fn = UB <-> n = 0%Z \/ n = (2 ^ 31 - 1)%Z).
Proof.
  intros a b n fn N. unfold rpl_make. destruct (Z.eq_dec n 0) as [->|Z].
  - rewrite rdiv_zero by reflexivity. cbn [bind]. split; [|split]; split; try discriminate; try lia; auto. intros [f F]; discriminate.
  - rewrite rdiv_ok by (apply not_0_IZR; exact Z). cbn [bind]. destruct (Z.eq_dec n (2 ^ 31 - 1)) as [->|M].
    + rewrite to_int_ub by lia. cbn [bind]. split; [|split]; split; try discriminate; try lia; auto. intros [f F]; discriminate.
    + rewrite to_int_ok by lia. cbn [bind]. destruct (Z.ltb_spec (n + 1) 0) as [L|L].
      * split; [|split]; split; try discriminate; try lia; auto. intros [f F]; discriminate.
      * split; [|split]; split; try discriminate; try lia; auto. intros _. eexists. reflexivity.
Qed.
Print Assumptions C62_construct.

(* the graph is a broken line through the nodes, going on straight outside *)
Theorem C62_broken_line : forall a b n fn f x k, (1 <= n <= 2 ^ 31 - 2)%Z -> a < b -> rpl_make a b n fn = Ok f ->
  node a b n (- 2 ^ 31) <= x < node a b n (2 ^ 31) -> (0 <= k < n)%Z ->
  (k = 0%Z \/ node a b n k <= x) -> (k = (n - 1)%Z \/ x <= node a b n (k + 1)) ->
  rpl_eval f x = Ok (chord (node a b n k) (fn (node a b n k)) (node a b n (k + 1)) (fn (node a b n (k + 1))) x).
Proof. intros a b n fn f x k N D F G K L U. rewrite (rpl_make_ok a b n fn N) in F. inversion F; subst. apply rpl_piece; assumption. Qed.
Print Assumptions C62_broken_line.

(* some piece always applies, and far outside the result is undefined *)
Theorem C62_total : forall a b n fn f x, (1 <= n <= 2 ^ 31 - 2)%Z -> a < b -> rpl_make a b n fn = Ok f ->
  (exists k, (0 <= k < n)%Z /\ (k = 0%Z \/ node a b n k <= x) /\ (k = (n - 1)%Z \/ x <= node a b n (k + 1))) /\
  (rpl_eval f x = UB <-> ~ node a b n (- 2 ^ 31) <= x < node a b n (2 ^ 31)).
Proof.
  intros a b n fn f x N D F. rewrite (rpl_make_ok a b n fn N) in F. inversion F; subst. clear F.
  pose proof (step_pos a b n (proj1 N) D) as H. set (h := (b - a) / IZR n) in *.
  set (t := (x - a) / h). assert (X : x = a + t * h) by (apply index_of; [lia|exact D]).
  assert (T : forall z, (node a b n z <= x <-> IZR z <= t) /\ (x < node a b n z <-> t < IZR z) /\ (x <= node a b n z <-> t <= IZR z)).
  { intros z. unfold node. fold h. clearbody t. subst x. repeat split; intros; nra. }
  pose proof (floor_spec t) as S. set (i := floor t) in *.
  assert (E : exists k, (0 <= k < n)%Z /\ (k = 0%Z \/ node a b n k <= x) /\ (k = (n - 1)%Z \/ x <= node a b n (k + 1))).
  { destruct (Z.ltb_spec i 0) as [Q|Q]; [|destruct (Z.ltb_spec (n - 1) i) as [P|P]].
    - exists 0%Z. split; [lia|]. split; [left; reflexivity|]. right. apply T. assert (IZR (i + 1) <= 0) by (apply IZR_le; lia). rewrite plus_IZR in H0. change (IZR (0 + 1)) with 1. lra.
    - exists (n - 1)%Z. split; [lia|]. split; [|left; reflexivity]. right. apply T. assert (IZR (n - 1) <= IZR i) by (apply IZR_le; lia). lra.
    - exists i. split; [lia|]. split; right; apply T; [lra|rewrite plus_IZR; lra]. }
  split; [exact E|]. split.
  - intros U G. destruct E as (k & K & L & R). rewrite (rpl_piece a b n fn x k N D K L R G) in U. discriminate.
  - intros G. apply rpl_eval_ub; [exact N|lra|]. fold h. fold t. fold i. intros I. apply G. split; apply T.
    + assert (IZR (- 2 ^ 31) <= IZR i) by (apply IZR_le; lia). lra.
    + assert (IZR (i + 1) <= IZR (2 ^ 31)) by (apply IZR_le; lia). rewrite plus_IZR in H0. lra.
Qed.
Print Assumptions C62_total.

Lemma inside_range a b n x : (1 <= n <= 2 ^ 31 - 2)%Z -> a < b -> a <= x <= b -> node a b n (- 2 ^ 31) <= x < node a b n (2 ^ 31).
Proof.
  intros N D X. pose proof (step_pos a b n (proj1 N) D) as H. unfold node. set (h := (b - a) / IZR n) in *.
  assert (B : b = a + IZR n * h) by (unfold h; field; apply not_0_IZR; lia).
  assert (IZR n <= IZR (2 ^ 31 - 2)) by (apply IZR_le; lia). change (2 ^ 31 - 2)%Z with 2147483646%Z in H0.
  change (- 2 ^ 31)%Z with (-2147483648)%Z. change (2 ^ 31)%Z with 2147483648%Z. nra.
Qed.

Lemma node_inside a b n k : (1 <= n)%Z -> a < b -> (0 <= k <= n)%Z -> a <= node a b n k <= b.
Proof.
  intros N D K. pose proof (step_pos a b n N D) as H. assert (B : b = node a b n n) by (unfold node; field; apply not_0_IZR; lia).
  assert (IZR 0 <= IZR k) by (apply IZR_le; lia). assert (IZR k <= IZR n) by (apply IZR_le; lia). unfold node in *. split; nra.
Qed.

(* the nodes themselves, the end included *)
Theorem C62_nodes : forall a b n fn f k, (1 <= n <= 2 ^ 31 - 2)%Z -> a < b -> rpl_make a b n fn = Ok f -> (0 <= k <= n)%Z ->
  rpl_eval f (node a b n k) = Ok (fn (node a b n k)) /\ node a b n 0 = a /\ node a b n n = b.
Proof.
  intros a b n fn f k N D F K. pose proof (step_pos a b n (proj1 N) D) as H.
  assert (B : node a b n n = b) by (unfold node; field; apply not_0_IZR; lia).
  assert (A : node a b n 0 = a) by (unfold node; ring). split; [|split; assumption].
  assert (M : forall i j, (i <= j)%Z -> node a b n i <= node a b n j).
  { intros i j L. unfold node. apply IZR_le in L. nra. }
  assert (G : a <= node a b n k <= b) by (apply node_inside; [lia|exact D|lia]).
  pose proof (inside_range a b n _ N D G) as R. destruct (Z.eq_dec k n) as [->|E].
  - rewrite (C62_broken_line a b n fn f _ (n - 1) N D F R); [|lia|right; apply M; lia|left; reflexivity].
    replace (n - 1 + 1)%Z with n by lia. rewrite chord_end; [reflexivity|].
    pose proof (node_S a b n (n - 1)). replace (n - 1 + 1)%Z with n in H0 by lia. lra.
  - rewrite (C62_broken_line a b n fn f _ k N D F R); [|lia|right; lra|right; apply M; lia]. rewrite chord_start. reflexivity.
Qed.
Print Assumptions C62_nodes.

(* straight lines are reproduced exactly, wherever the result is defined *)
Theorem C62_affine : forall a b n c d f x y, (1 <= n <= 2 ^ 31 - 2)%Z -> a < b -> rpl_make a b n (fun t => c + d * t) = Ok f ->
  rpl_eval f x = Ok y -> y = c + d * x.
Proof.
  intros a b n c d f x y N D F E. destruct (C62_total a b n _ f x N D F) as [(k & K & L & U) T].
  assert (G : node a b n (- 2 ^ 31) <= x < node a b n (2 ^ 31)).
  { destruct (Rle_dec (node a b n (- 2 ^ 31)) x) as [P|P]; [destruct (Rlt_dec x (node a b n (2 ^ 31))) as [Q|Q]|].
    - split; assumption.
    - assert (rpl_eval f x = UB) by (apply T; lra). congruence.
    - assert (rpl_eval f x = UB) by (apply T; lra). congruence. }
  rewrite (C62_broken_line a b n _ f x k N D F G K L U) in E. inversion E. unfold chord. rewrite node_S.
  pose proof (step_pos a b n (proj1 N) D) as H. set (h := (b - a) / IZR n) in *. set (x0 := node a b n k). clearbody h x0.
  field. lra.
Qed.
Print Assumptions C62_affine.

(* within the range the error is at most half a step times the steepest slope *)
Theorem C62_error : forall a b n fn f x slope, (1 <= n <= 2 ^ 31 - 2)%Z -> a < b -> rpl_make a b n fn = Ok f -> a <= x <= b ->
  (forall s t, a <= s <= b -> a <= t <= b -> Rabs (fn s - fn t) <= slope * Rabs (s - t)) ->
  exists y, rpl_eval f x = Ok y /\ Rabs (y - fn x) <= slope * ((b - a) / IZR n) / 2.
Proof.
  intros a b n fn f x sl N D F X LIP. pose proof (inside_range a b n x N D X) as G.
  destruct (C62_total a b n fn f x N D F) as [(k & K & L & U) _].
  pose proof (step_pos a b n (proj1 N) D) as H. eexists. split; [apply (C62_broken_line a b n fn f x k N D F G K L U)|].
  assert (M : forall i j, (i <= j)%Z -> node a b n i <= node a b n j).
  { intros i j LL. unfold node. apply IZR_le in LL. nra. }
  assert (B : node a b n n = b) by (unfold node; field; apply not_0_IZR; lia).
  assert (A : node a b n 0 = a) by (unfold node; ring).
  assert (L' : node a b n k <= x). { destruct L as [->|L]; [rewrite A; lra|exact L]. }
  assert (U' : x <= node a b n (k + 1)). { destruct U as [->|U]; [replace (n - 1 + 1)%Z with n by lia; rewrite B; lra|exact U]. }
  assert (I0 : a <= node a b n k <= b) by (apply node_inside; [lia|exact D|lia]).
  assert (I1 : a <= node a b n (k + 1) <= b) by (apply node_inside; [lia|exact D|lia]).
  pose proof (LIP _ x I0 X) as P0. pose proof (LIP _ x I1 X) as P1. pose proof (LIP _ _ I1 I0) as P2.
  rewrite node_S in *. set (h := (b - a) / IZR n) in *. set (x0 := node a b n k) in *.
  rewrite (Rabs_left1 (x0 - x)) in P0 by lra. rewrite (Rabs_pos_eq (x0 + h - x)) in P1 by lra.
  replace (x0 + h - x0) with h in P2 by ring. rewrite (Rabs_pos_eq h) in P2 by lra.
  unfold chord. replace (x0 + h - x0) with h by ring. set (w := (x - x0) / h).
  assert (W : x = x0 + w * h) by (unfold w; field; lra). assert (W0 : 0 <= w <= 1) by (clearbody w; subst x; split; nra).
  clearbody w. replace (fn x0 + w * (fn (x0 + h) - fn x0) - fn x) with ((1 - w) * (fn x0 - fn x) + w * (fn (x0 + h) - fn x)) by ring.
  eapply Rle_trans; [apply Rabs_triang|]. rewrite !Rabs_mult, (Rabs_pos_eq (1 - w)), (Rabs_pos_eq w) by lra.
  assert (S0 : 0 <= sl * h) by (pose proof (Rabs_pos (fn (x0 + h) - fn x0)); lra).
  subst x. replace (- (x0 - (x0 + w * h))) with (w * h) in P0 by ring. replace (x0 + h - (x0 + w * h)) with ((1 - w) * h) in P1 by ring.
  assert (Q0 : (1 - w) * Rabs (fn x0 - fn (x0 + w * h)) <= (1 - w) * (sl * (w * h))) by (apply Rmult_le_compat_l; lra).
  assert (Q1 : w * Rabs (fn (x0 + h) - fn (x0 + w * h)) <= w * (sl * ((1 - w) * h))) by (apply Rmult_le_compat_l; lra).
  assert (Q2 : 0 <= (sl * h) * ((1 - 2 * w) * (1 - 2 * w))) by (apply Rmult_le_pos; [exact S0|apply Rle_0_sqr]). lra.
Qed.
Print Assumptions C62_error.

(* rising functions stay rising, outside the range too *)
Theorem C62_monotone : forall a b n fn f x1 x2 y1 y2, (1 <= n <= 2 ^ 31 - 2)%Z -> a < b -> rpl_make a b n fn = Ok f ->
  (forall s t, a <= s <= b -> a <= t <= b -> s <= t -> fn s <= fn t) ->
  rpl_eval f x1 = Ok y1 -> rpl_eval f x2 = Ok y2 -> x1 <= x2 -> y1 <= y2.
Proof.
  intros a b n fn f x1 x2 y1 y2 N D F MON E1 E2 X. pose proof (step_pos a b n (proj1 N) D) as H.
  assert (M : forall i j, (i <= j)%Z -> node a b n i <= node a b n j).
  { intros i j LL. unfold node. apply IZR_le in LL. nra. }
  assert (B : node a b n n = b) by (unfold node; field; apply not_0_IZR; lia).
  assert (A : node a b n 0 = a) by (unfold node; ring).
  assert (I : forall k, (0 <= k <= n)%Z -> a <= node a b n k <= b) by (intros k K; apply node_inside; [lia|exact D|exact K]).
  assert (MF : forall i j, (0 <= i <= j)%Z -> (j <= n)%Z -> fn (node a b n i) <= fn (node a b n j)).
  { intros i j IJ J. apply MON; [apply I; lia|apply I; lia|apply M; lia]. }
  assert (P : forall x y, rpl_eval f x = Ok y -> exists k, (0 <= k < n)%Z /\ (k = 0%Z \/ node a b n k <= x) /\ (k = (n - 1)%Z \/ x <= node a b n (k + 1)) /\
    y = chord (node a b n k) (fn (node a b n k)) (node a b n (k + 1)) (fn (node a b n (k + 1))) x).
  { intros x y E. destruct (C62_total a b n fn f x N D F) as [(k & K & L & U) T].
    assert (G : node a b n (- 2 ^ 31) <= x < node a b n (2 ^ 31)).
    { destruct (Rle_dec (node a b n (- 2 ^ 31)) x) as [P|P]; [destruct (Rlt_dec x (node a b n (2 ^ 31))) as [Q|Q]|].
      - split; assumption.
      - assert (rpl_eval f x = UB) by (apply T; lra). congruence.
      - assert (rpl_eval f x = UB) by (apply T; lra). congruence. }
    exists k. split; [exact K|]. split; [exact L|]. split; [exact U|].
    rewrite (C62_broken_line a b n _ f x k N D F G K L U) in E. inversion E. reflexivity. }
  destruct (P x1 y1 E1) as (k & K & L1 & U1 & ->). destruct (P x2 y2 E2) as (m & Q & L2 & U2 & ->). clear P.
  assert (C : forall k x x', (0 <= k < n)%Z -> x <= x' -> chord (node a b n k) (fn (node a b n k)) (node a b n (k + 1)) (fn (node a b n (k + 1))) x <=
    chord (node a b n k) (fn (node a b n k)) (node a b n (k + 1)) (fn (node a b n (k + 1))) x').
  { intros i x x' Ki XX. pose proof (MF i (i + 1)%Z ltac:(lia) ltac:(lia)) as MM. unfold chord. rewrite node_S in *.
    replace (node a b n i + (b - a) / IZR n - node a b n i) with ((b - a) / IZR n) by ring.
    apply Rplus_le_compat_l. apply Rmult_le_compat_r; [lra|]. apply Rmult_le_compat_r; [|lra].
    apply Rlt_le, Rinv_0_lt_compat. exact H. }
  assert (NE : forall i, node a b n i <> node a b n (i + 1)) by (intros i; rewrite node_S; lra).
  destruct (Z.lt_trichotomy k m) as [T|[->|T]]; [|apply C; assumption|].
  - destruct U1 as [->|U1]; [lia|]. destruct L2 as [->|L2]; [lia|].
    apply Rle_trans with (fn (node a b n (k + 1))).
    { eapply Rle_trans; [apply (C k x1 (node a b n (k + 1)) K U1)|]. rewrite chord_end by apply NE. apply Rle_refl. }
    apply Rle_trans with (fn (node a b n m)); [apply MF; lia|].
    eapply Rle_trans; [|apply (C m (node a b n m) x2 Q L2)]. rewrite chord_start. apply Rle_refl.
  - destruct L1 as [->|L1]; [lia|]. destruct U2 as [->|U2]; [lia|].
    assert (Z : x2 <= x1) by (pose proof (M (m + 1)%Z k ltac:(lia)); lra). assert (x1 = x2) by lra. subst x2.
    assert (Z1 : node a b n (m + 1) = x1) by (pose proof (M (m + 1)%Z k ltac:(lia)); lra).
    assert (Z2 : node a b n k = x1) by (pose proof (M (m + 1)%Z k ltac:(lia)); lra).
    assert (V1 : forall w y z, chord (node a b n k) w y z x1 = w) by (intros; rewrite <- Z2; apply chord_start).
    assert (V2 : forall w z, chord (node a b n m) w (node a b n (m + 1)) z x1 = z) by (intros; rewrite <- Z1; apply chord_end, NE).
    rewrite V1, V2, Z1, Z2. apply Rle_refl.
Qed.
Print Assumptions C62_monotone.

(* the absolute value with nodes at -1, 0 and 1: outside it goes on straight *)
Example C62_nonvacuous : exists f, rpl_make (-1) 1 2 Rabs = Ok f /\ rpl_eval f (1 / 2) = Ok (1 / 2) /\ rpl_eval f (-3) = Ok 3.
Proof.
  assert (N : (1 <= 2 <= 2 ^ 31 - 2)%Z) by lia. exists (made (-1) 1 2 Rabs). pose proof (rpl_make_ok (-1) 1 2 Rabs N) as F. split; [exact F|].
  assert (N0 : node (-1) 1 2 0 = -1) by (unfold node; field). assert (N1 : node (-1) 1 2 1 = 0) by (unfold node; field). assert (N2 : node (-1) 1 2 2 = 1) by (unfold node; field).
  assert (NL : node (-1) 1 2 (- 2 ^ 31) = -2147483649) by (unfold node; cbn; field). assert (NU : node (-1) 1 2 (2 ^ 31) = 2147483647) by (unfold node; cbn; field).
  split.
  - rewrite (C62_broken_line (-1) 1 2 Rabs _ (1 / 2) 1 N ltac:(lra) F); [|rewrite NL, NU; lra|lia|right; rewrite N1; lra|left; reflexivity].
    change (1 + 1)%Z with 2%Z. rewrite N1, N2. unfold chord. rewrite Rabs_R0, Rabs_R1. f_equal. field.
  - rewrite (C62_broken_line (-1) 1 2 Rabs _ (-3) 0 N ltac:(lra) F); [|rewrite NL, NU; lra|lia|left; reflexivity|right; change (0 + 1)%Z with 1%Z; rewrite N1; lra].
    change (0 + 1)%Z with 1%Z. rewrite N0, N1. unfold chord. rewrite Rabs_R0, (Rabs_left (-1)) by lra. f_equal. field.
Qed.

(* C63: on a sorted buffer the result is exactly the broken line *)
Theorem C63_interpolated_value : forall l key v, SortedKeys l -> (interpolated_value l key = Ok v <-> Broken l key v).
Proof.
  intros l key v S. split; [|apply broken_sound; exact S]. intros E. destruct l as [|p l]; [discriminate|].
  destruct (broken_exists (p :: l) key ltac:(discriminate) S) as [w B]. pose proof (broken_sound _ _ _ S B) as E'.
  rewrite E in E'. inversion E'; subst. exact B.
Qed.
Print Assumptions C63_interpolated_value.

(* it throws just for an empty buffer and never divides by zero *)
Theorem C63_defined : forall l key, SortedKeys l ->
  (l = [] -> interpolated_value l key = Throw) /\ (l <> [] -> exists v, interpolated_value l key = Ok v).
Proof.
  intros l key S. split; [intros ->; reflexivity|]. intros N. destruct (broken_exists l key N S) as [v B].
  exists v. apply broken_sound; assumption.
Qed.
Print Assumptions C63_defined.

(* at a stored key: the value of the last sample with that key *)
Theorem C63_stored : forall front k v tail, SortedKeys (front ++ (k, v) :: tail) -> (forall p, In p tail -> k < fst p) ->
  interpolated_value (front ++ (k, v) :: tail) k = Ok v.
Proof.
  intros front k v tail S T. apply (broken_sound _ _ _ S). destruct tail as [|[k1 v1] tail].
  - apply (BAfter _ k v front k eq_refl). intros p I. apply In_nth_error in I. destruct I as [i I].
    pose proof (S i (length front) p (k, v)) as Q. apply Q; [|exact I|apply nth_error_app_mid].
    assert (nth_error (front ++ [(k, v)]) i <> None) by congruence. apply nth_error_Some in H. rewrite app_length in H. cbn in H. lia.
  - eapply BBetween; [reflexivity| |].
    + pose proof (T (k1, v1) (or_introl eq_refl)). cbn in H. lra.
    + rewrite chord_start. reflexivity.
Qed.
Print Assumptions C63_stored.

(* the result lies within the stored values *)
Theorem C63_bounded : forall l key v lo hi, SortedKeys l -> interpolated_value l key = Ok v ->
  (forall p, In p l -> lo <= snd p <= hi) -> lo <= v <= hi.
Proof.
  intros l key v lo hi S E B. apply C63_interpolated_value in E; [|exact S]. destruct E as [front k E _|k tail E _|front k0 v0 k1 v1 tail E H ->].
  - apply (B (k, v)). subst l. apply in_or_app. right. left. reflexivity.
  - apply (B (k, v)). subst l. left. reflexivity.
  - assert (B0 := B (k0, v0)). assert (B1 := B (k1, v1)). cbn [snd] in *.
    assert (I0 : lo <= v0 <= hi) by (apply B0; subst l; apply in_or_app; right; left; reflexivity).
    assert (I1 : lo <= v1 <= hi) by (apply B1; subst l; apply in_or_app; right; right; left; reflexivity).
    unfold chord. set (w := (key - k0) / (k1 - k0)). assert (W : 0 <= w <= 1).
    { assert (Q : key - k0 = w * (k1 - k0)) by (unfold w; field; lra). clearbody w. split; nra. }
    clearbody w. nra.
Qed.
Print Assumptions C63_bounded.

(* a plain vector counts as samples at 0, 1, 2, ... *)
Theorem C63_plain_vector : forall l key, key < IZR (2 ^ 64 - 1) ->
  interpolated_index l key = interpolated_value (enumerate l) key /\ SortedKeys (enumerate l).
Proof. intros l key H. split; [apply index_is_value; exact H|apply enumerate_sorted]. Qed.
Print Assumptions C63_plain_vector.

(* keys that do not fit in size_t are undefined instead of past the end *)
Theorem C63_huge_key_refuted : forall l key, l <> [] -> IZR (2 ^ 64) <= key -> interpolated_index l key = UB.
Proof.
  intros [|y l] key N H; [contradiction|]. unfold interpolated_index. cbn [length Nat.eqb negb assert_ bind].
  pose proof (floor_spec key) as F. assert (Q : 0 <= IZR (2 ^ 64)) by (apply IZR_le; lia).
  rewrite (proj2 (Rltb_false key 0)) by lra.
  assert (G : (2 ^ 64 <= floor key)%Z). { apply Z.lt_succ_r, lt_IZR. rewrite succ_IZR. lra. }
  destruct (Z.leb_spec (2 ^ 64) (floor key)); [reflexivity|lia].
Qed.
Print Assumptions C63_huge_key_refuted.

(* with integer keys nothing is interpolated: the last value is held *)
Theorem C63_integer_keys : forall l key v, SortedInts l ->
  (forall p q, In p l -> In q l -> (- 2 ^ 31 <= fst p - fst q < 2 ^ 31)%Z) ->
  (interpolated_value_int l key = Ok v <-> Held l key v).
Proof.
  intros l key v S G. split; [|apply held_sound; assumption]. intros E. destruct l as [|p l]; [discriminate|].
  destruct (held_exists (p :: l) key ltac:(discriminate) S) as [w B]. pose proof (held_sound _ _ _ S G B) as E'.
  rewrite E in E'. inversion E'; subst. exact B.
Qed.
Print Assumptions C63_integer_keys.

Theorem C63_integer_keys_interpolate_refuted : exists l key v, SortedInts l /\ interpolated_value_int l key = Ok v /\
  ~ Broken (map (fun p => (IZR (fst p), snd p)) l) (IZR key) v.
Proof.
  exists [(0%Z, 0); (10%Z, 1)], 5%Z, 0. split; [|split].
  - intros i j p q L P Q. destruct i as [|[|i]]; destruct j as [|[|j]]; cbn in P, Q; try (destruct i; discriminate); try (destruct j; discriminate);
    try lia; injection P as <-; injection Q as <-; cbn; lia.
  - cbn -[Rmult Rplus]. f_equal. ring.
  - cbn [map fst snd]. intros B.
    assert (S : SortedKeys [(0, 0); (10, 1)]).
    { intros i j p q L P Q. destruct i as [|[|i]]; destruct j as [|[|j]]; cbn in P, Q; try (destruct i; discriminate); try (destruct j; discriminate);
      try lia; injection P as <-; injection Q as <-; cbn; lra. }
    apply (broken_sound _ _ _ S) in B.
    assert (E : interpolated_value [(0, 0); (10, 1)] 5 = Ok (1 / 2)).
    { apply (broken_sound _ _ _ S). apply (BBetween _ 5 _ [] 0 0 10 1 []); [reflexivity|lra|unfold chord; field]. }
    rewrite E in B. inversion B. lra.
Qed.
Print Assumptions C63_integer_keys_interpolate_refuted.

(* out of order, samples are missed *)
Theorem C63_unsorted_refuted : exists l k v, In (k, v) l /\ (forall w, In (k, w) l -> w = v) /\ interpolated_value l k <> Ok v.
Proof.
  exists [(5, 1); (1, 2); (3, 3)], 5, 1. split; [left; reflexivity|]. split.
  - intros w [E|[E|[E|[]]]]; inversion E; try reflexivity; lra.
  - intros E. unfold interpolated_value in E. cbn in E. unfold Rltb in E.
    repeat (destruct (Rlt_dec 5 _) in E; cbn in E; try (exfalso; lra)). inversion E. lra.
Qed.
Print Assumptions C63_unsorted_refuted.

Example C63_nonvacuous : let l := [(0, 10); (1, 20); (1, 30); (3, 50)] in
  SortedKeys l /\ interpolated_value l 1 = Ok 30 /\ interpolated_value l 2 = Ok 40 /\ interpolated_value l (-7) = Ok 10 /\
  interpolated_value l 9 = Ok 50 /\ interpolated_index [10; 20; 40] (3 / 2) = Ok 30.
Proof.
  cbn zeta. assert (S : SortedKeys [(0, 10); (1, 20); (1, 30); (3, 50)]).
  { intros i j p q L P Q. destruct i as [|[|[|[|i]]]]; destruct j as [|[|[|[|j]]]]; cbn in P, Q; try (destruct i; discriminate); try (destruct j; discriminate);
    try lia; injection P as <-; injection Q as <-; cbn; lra. }
  split; [exact S|]. split; [apply (C63_stored [(0, 10); (1, 20)] 1 30 [(3, 50)] S); intros p [<-|[]]; cbn; lra|].
  split. { apply (broken_sound _ _ _ S). apply (BBetween _ _ _ [(0, 10); (1, 20)] 1 30 3 50 []); [reflexivity|lra|unfold chord; field]. }
  split. { apply (broken_sound _ _ _ S). eapply BBefore; [reflexivity|]. intros p [<-|[<-|[<-|[<-|[]]]]]; cbn; lra. }
  split. { apply (broken_sound _ _ _ S). apply (BAfter _ _ _ [(0, 10); (1, 20); (1, 30)] 3); [reflexivity|]. intros p [<-|[<-|[<-|[<-|[]]]]]; cbn; lra. }
  destruct (C63_plain_vector [10; 20; 40] (3 / 2)) as [-> S2]; [cbn; lra|]. apply (broken_sound _ _ _ S2).
  apply (BBetween _ _ _ [(0, 10)] 1 20 2 40 []); [unfold enumerate; cbn; repeat f_equal; ring|lra|unfold chord; field].
Qed.
