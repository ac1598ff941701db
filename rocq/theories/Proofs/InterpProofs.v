From Coq Require Import Reals List ZArith Lra Lia.
From Verif Require Import Model.Base Model.Math Model.SortedVector Model.Regression Model.Interp Spec.Interp
  Proofs.BaseFacts Proofs.MathProofs Proofs.SortedVectorProofs Proofs.RegressionProofs.
Import ListNotations.
Local Open Scope R_scope.

(* piecewise linear functions *)
Definition made (a b : R) (n : Z) (fn : R -> R) : rpl :=
  mkRpl a ((b - a) / IZR n) (n + 1) (map (fun i => fn (a + INR i * ((b - a) / IZR n))) (seq 0 (Z.to_nat (n + 1)))).

Lemma to_int_ok z : (- 2 ^ 31 <= z < 2 ^ 31)%Z -> to_int z = Ok z.
Proof.
  intros H. unfold to_int. destruct (Z.leb_spec (- 2 ^ 31) z); [|lia]. destruct (Z.ltb_spec z (2 ^ 31)); [reflexivity|lia].
Qed.
Lemma to_int_ub z : ~ (- 2 ^ 31 <= z < 2 ^ 31)%Z -> to_int z = UB.
Proof.
  intros H. unfold to_int. destruct (Z.leb_spec (- 2 ^ 31) z); [|reflexivity]. destruct (Z.ltb_spec z (2 ^ 31)); [lia|reflexivity].
Qed.

Lemma rpl_make_ok a b n fn : (1 <= n <= 2 ^ 31 - 2)%Z -> rpl_make a b n fn = Ok (made a b n fn).
Proof.
  intros N. unfold rpl_make. rewrite rdiv_ok by (apply not_0_IZR; lia). cbn [bind].
  rewrite to_int_ok by lia. cbn [bind]. destruct (Z.ltb_spec (n + 1) 0); [lia|reflexivity].
Qed.

Lemma made_data a b n fn k : (0 <= k <= n)%Z -> zget (data (made a b n fn)) k = Ok (fn (node a b n k)).
Proof.
  intros K. unfold zget. destruct (Z.ltb_spec k 0); [lia|]. unfold vget. cbn [made data].
  rewrite nth_error_map. rewrite (nth_error_nth' (seq 0 (Z.to_nat (n + 1))) 0%nat) by (rewrite seq_length; lia).
  rewrite seq_nth by lia. cbn [option_map]. unfold node. rewrite Nat.add_0_l, INR_IZR_INZ, Z2Nat.id by lia. reflexivity.
Qed.

Lemma node_S a b n k : node a b n (k + 1) = node a b n k + (b - a) / IZR n.
Proof. unfold node. rewrite plus_IZR. ring. Qed.
Lemma step_nonzero a b n : (1 <= n)%Z -> a <> b -> (b - a) / IZR n <> 0.
Proof.
  intros N D Z. assert (P : IZR n <> 0) by (apply not_0_IZR; lia). assert (b - a = (b - a) / IZR n * IZR n) by (field; exact P). rewrite Z in H. lra.
Qed.
Lemma step_pos a b n : (1 <= n)%Z -> a < b -> 0 < (b - a) / IZR n.
Proof. intros N D. apply Rdiv_lt_0_compat; [lra|]. apply IZR_lt. lia. Qed.

Lemma rpl_eval_ok a b n fn x : (1 <= n <= 2 ^ 31 - 2)%Z -> a <> b ->
  let i := floor ((x - a) / ((b - a) / IZR n)) in let k := clamp Z.ltb i 0%Z (n - 1)%Z in
  (- 2 ^ 31 <= i < 2 ^ 31)%Z ->
  rpl_eval (made a b n fn) x = Ok (chord (node a b n k) (fn (node a b n k)) (node a b n (k + 1)) (fn (node a b n (k + 1))) x).
Proof.
  intros N D i k I. assert (H := step_nonzero a b n (proj1 N) D). unfold rpl_eval. cbn [made x_base x_step points].
  rewrite rdiv_ok by exact H. cbn [bind]. fold i. rewrite to_int_ok by exact I. cbn [bind].
  replace (n + 1 - 2)%Z with (n - 1)%Z by lia. fold k.
  assert (K : (0 <= k <= n - 1)%Z).
  { unfold k, clamp. destruct (Z.ltb_spec i 0); [lia|]. destruct (Z.ltb_spec (n - 1) i); lia. }
  rewrite !made_data by lia. cbn [bind]. f_equal. unfold chord. rewrite node_S.
  set (h := (b - a) / IZR n) in *. set (y0 := fn (node a b n k)). set (y1 := fn (node a b n k + h)).
  unfold node. fold h. field. repeat split; intros Z; apply H; lra.
Qed.
Lemma rpl_eval_ub a b n fn x : (1 <= n <= 2 ^ 31 - 2)%Z -> a <> b ->
  ~ (- 2 ^ 31 <= floor ((x - a) / ((b - a) / IZR n)) < 2 ^ 31)%Z -> rpl_eval (made a b n fn) x = UB.
Proof.
  intros N D I. assert (H := step_nonzero a b n (proj1 N) D). unfold rpl_eval. cbn [made x_base x_step points].
  rewrite rdiv_ok by exact H. cbn [bind]. rewrite to_int_ub by exact I. reflexivity.
Qed.

Lemma chord_start x0 y0 x1 y1 : chord x0 y0 x1 y1 x0 = y0.
Proof. unfold chord. replace (x0 - x0) with 0 by ring. unfold Rdiv. ring. Qed.
Lemma chord_end x0 y0 x1 y1 : x0 <> x1 -> chord x0 y0 x1 y1 x1 = y1.
Proof. intros D. unfold chord. field. lra. Qed.

(* position of x among the nodes *)
Lemma index_of a b n x : (1 <= n)%Z -> a < b -> let h := (b - a) / IZR n in x = a + (x - a) / h * h.
Proof. intros N D h. field. apply Rgt_not_eq, step_pos; assumption. Qed.

(* the piece in use for a rising grid *)
Lemma rpl_piece a b n fn x k : (1 <= n <= 2 ^ 31 - 2)%Z -> a < b -> (0 <= k < n)%Z ->
  (k = 0%Z \/ node a b n k <= x) -> (k = (n - 1)%Z \/ x <= node a b n (k + 1)) ->
  node a b n (- 2 ^ 31) <= x < node a b n (2 ^ 31) ->
  rpl_eval (made a b n fn) x = Ok (chord (node a b n k) (fn (node a b n k)) (node a b n (k + 1)) (fn (node a b n (k + 1))) x).
Proof.
  intros N D K L U G. pose proof (step_pos a b n (proj1 N) D) as H. set (h := (b - a) / IZR n) in *.
  set (t := (x - a) / h). assert (X : x = a + t * h) by (apply index_of; [lia|exact D]).
  assert (T : forall z, (node a b n z <= x <-> IZR z <= t) /\ (x < node a b n z <-> t < IZR z) /\ (x <= node a b n z <-> t <= IZR z)).
  { intros z. unfold node. fold h. clearbody t. subst x. repeat split; intros; nra. }
  pose proof (floor_spec t) as F. set (i := floor t) in *.
  assert (I : (- 2 ^ 31 <= i < 2 ^ 31)%Z).
  { destruct G as [G1 G2]. apply T in G1. apply T in G2. split.
    - assert (IZR (- 2 ^ 31) < IZR (i + 1)) by (rewrite plus_IZR; lra). apply lt_IZR in H0. lia.
    - apply lt_IZR. lra. }
  pose proof (rpl_eval_ok a b n fn x N (Rlt_not_eq a b D) I) as E. cbn zeta in E. fold h in E. fold t in E. fold i in E.
  rewrite E. clear E. set (c := clamp Z.ltb i 0%Z (n - 1)%Z).
  assert (C : c = k \/ (c = k + 1)%Z /\ x = node a b n c).
  { unfold c, clamp. destruct (Z.ltb_spec i 0) as [Q|Q].
    - left. destruct L as [->|L]; [reflexivity|]. apply T in L.
      assert (IZR k < IZR (i + 1)) by (rewrite plus_IZR; lra). apply lt_IZR in H0. lia.
    - destruct (Z.ltb_spec (n - 1) i) as [P|P].
      + destruct U as [->|U]; [left; lia|]. apply T in U. assert (IZR i <= IZR (k + 1)) by lra. apply le_IZR in H0.
        left. lia.
      + assert (A : (k <= i)%Z). { destruct L as [->|L]; [lia|]. apply T in L. assert (IZR k < IZR (i + 1)) by (rewrite plus_IZR; lra). apply lt_IZR in H0. lia. }
        destruct U as [->|U]; [left; lia|]. apply T in U.
        assert (B : (i <= k + 1)%Z) by (apply le_IZR; lra). destruct (Z.eq_dec i k) as [->|V]; [left; reflexivity|].
        assert (i = (k + 1)%Z) by lia. right. split; [lia|]. subst i. rewrite H0 in *. unfold node. fold h. replace t with (IZR (k + 1)) in X by lra. exact X. }
  f_equal. destruct C as [->|[-> ->]]; [reflexivity|]. rewrite chord_start, chord_end; [reflexivity|].
  rewrite node_S. fold h. lra.
Qed.

(* buffers *)
Lemma partition_exists {A} (p : A -> bool) l :
  (forall i j x y, (i <= j)%nat -> nth_error l i = Some x -> nth_error l j = Some y -> p x = true -> p y = true) ->
  exists k, partitioned p l k.
Proof.
  induction l as [|a l IH]; intros M.
  - exists 0%nat. split; [cbn; lia|]. split; intros [|i] x X; discriminate.
  - destruct (p a) eqn:E.
    + exists 0%nat. split; [cbn; lia|]. split; [intros; lia|].
      intros i x X _. apply (M 0%nat i a x); [lia|reflexivity|exact X|exact E].
    + destruct IH as [k (K1 & K2 & K3)].
      { intros i j x y L X Y P. apply (M (S i) (S j) x y); [lia|exact X|exact Y|exact P]. }
      exists (S k). split; [cbn; lia|]. split.
      * intros [|i] x X L; [cbn in X; inversion X; subst; exact E|apply (K2 i); [exact X|lia]].
      * intros [|i] x X L; [lia|apply (K3 i); [exact X|lia]].
Qed.
Lemma bound_ok {A} (p : A -> bool) l k : partitioned p l k -> bound_loop p l (length l) 0 (length l) = Ok k.
Proof. intros P. pose proof (proj1 P). apply bound_loop_spec; [exact P|lia..]. Qed.

Lemma Rltb_mono l key : SortedKeys l -> forall i j x y, (i <= j)%nat -> nth_error l i = Some x -> nth_error l j = Some y ->
  Rltb key (fst x) = true -> Rltb key (fst y) = true.
Proof.
  intros S i j x y L X Y H. pose proof (S i j x y L X Y). unfold Rltb in *. destruct (Rlt_dec key (fst x)); [|discriminate].
  destruct (Rlt_dec key (fst y)); [reflexivity|lra].
Qed.
Lemma Rltb_true x y : Rltb x y = true <-> x < y.
Proof. unfold Rltb. destruct (Rlt_dec x y); split; intros; try assumption; try reflexivity; try discriminate; contradiction. Qed.
Lemma Rltb_false x y : Rltb x y = false <-> y <= x.
Proof. unfold Rltb. destruct (Rlt_dec x y); split; intros; try reflexivity; try discriminate; lra. Qed.

Lemma nth_error_app_mid {A} (front : list A) a tail : nth_error (front ++ a :: tail) (length front) = Some a.
Proof. rewrite nth_error_app2 by lia. rewrite Nat.sub_diag. reflexivity. Qed.

(* whoever is on the broken line is what the function returns *)
Lemma broken_sound l key v : SortedKeys l -> Broken l key v -> interpolated_value l key = Ok v.
Proof.
  intros S B. unfold interpolated_value. destruct B as [front k E H|k tail E H|front k0 v0 k1 v1 tail E H V].
  - assert (P : partitioned (fun p => Rltb key (fst p)) l (length l)).
    { split; [lia|]. split; intros i x X L.
      - apply Rltb_false. apply H. apply nth_error_In in X. exact X.
      - assert (nth_error l i <> None) by congruence. apply nth_error_Some in H0. lia. }
    assert (N : (length l <> 0)%nat) by (subst l; rewrite app_length; cbn; lia). apply Nat.eqb_neq in N. rewrite N. cbn [negb assert_ bind].
    rewrite (bound_ok _ _ _ P). cbn [bind]. rewrite Nat.eqb_refl. unfold vget. subst l. rewrite app_length. cbn [length].
    replace (length front + 1 - 1)%nat with (length front) by lia. rewrite nth_error_app_mid. reflexivity.
  - assert (P : partitioned (fun p => Rltb key (fst p)) l 0).
    { split; [lia|]. split; intros i x X L; [lia|]. apply Rltb_true, H. apply nth_error_In in X. exact X. }
    assert (N : (length l <> 0)%nat) by (subst l; cbn; lia). pose proof N as N'. apply Nat.eqb_neq in N. rewrite N. cbn [negb assert_ bind].
    rewrite (bound_ok _ _ _ P). cbn [bind]. destruct (Nat.eqb_spec 0 (length l)) as [Q|Q]; [congruence|].
    cbn [Nat.eqb]. subst l. reflexivity.
  - assert (X0 : nth_error l (length front) = Some (k0, v0)) by (subst l; apply nth_error_app_mid).
    assert (X1 : nth_error l (Datatypes.S (length front)) = Some (k1, v1)).
    { subst l. rewrite nth_error_app2 by lia. replace (Datatypes.S (length front) - length front)%nat with 1%nat by lia. reflexivity. }
    assert (LE : (length front + 2 <= length l)%nat) by (subst l; rewrite app_length; cbn; lia).
    assert (P : partitioned (fun p => Rltb key (fst p)) l (Datatypes.S (length front))).
    { split; [lia|]. split; intros i x X L.
      - apply Rltb_false. pose proof (S i (length front) x _ ltac:(lia) X X0). cbn [fst] in *. lra.
      - apply Rltb_true. pose proof (S _ i _ x L X1 X). cbn [fst] in *. lra. }
    destruct (Nat.eqb_spec (length l) 0) as [Q|_]; [lia|]. cbn [negb assert_ bind].
    rewrite (bound_ok _ _ _ P). cbn [bind]. destruct (Nat.eqb_spec (Datatypes.S (length front)) (length l)) as [Q|_]; [lia|].
    cbn [Nat.eqb]. replace (Datatypes.S (length front) - 1)%nat with (length front) by lia. unfold vget. rewrite X0, X1. cbn [bind fst snd].
    rewrite rdiv_ok by lra. cbn [bind]. f_equal. subst v. unfold chord. field. lra.
Qed.

Lemma broken_exists l key : l <> [] -> SortedKeys l -> exists v, Broken l key v.
Proof.
  intros N S. destruct (partition_exists (fun p => Rltb key (fst p)) l (Rltb_mono l key S)) as [k (K1 & K2 & K3)].
  destruct (Nat.eq_dec k (length l)) as [E|E].
  - destruct (exists_last N) as (front & [kk v] & F). exists v. apply (BAfter l key v front kk F).
    intros p I. apply In_nth_error in I. destruct I as [i I]. apply Rltb_false. apply (K2 i p I).
    assert (nth_error l i <> None) by congruence. apply nth_error_Some in H. lia.
  - destruct k as [|k].
    + destruct l as [|[kk v] tail]; [contradiction|]. exists v. apply (BBefore _ key v kk tail eq_refl).
      intros p I. apply In_nth_error in I. destruct I as [i I]. apply Rltb_true. apply (K3 i p I). lia.
    + destruct (nth_error l k) as [[k0 v0]|] eqn:X0; [|apply nth_error_None in X0; lia].
      destruct (nth_error_split l k X0) as (front & rest & F & L).
      destruct rest as [|[k1 v1] tail]; [subst l; rewrite app_length in *; cbn in *; lia|].
      exists (chord k0 v0 k1 v1 key). apply (BBetween l key _ front k0 v0 k1 v1 tail F); [|reflexivity].
      assert (X1 : nth_error l (Datatypes.S k) = Some (k1, v1)).
      { subst l k. rewrite nth_error_app2 by lia. replace (Datatypes.S (length front) - length front)%nat with 1%nat by lia. reflexivity. }
      pose proof (K2 k _ X0 ltac:(lia)) as Y0. pose proof (K3 _ _ X1 ltac:(lia)) as Y1. cbn beta in Y0, Y1. cbn [fst] in *.
      apply Rltb_false in Y0. apply Rltb_true in Y1. lra.
Qed.

(* integer keys *)
Lemma held_sound l key v : SortedInts l -> (forall p q, In p l -> In q l -> (- 2 ^ 31 <= fst p - fst q < 2 ^ 31)%Z) ->
  Held l key v -> interpolated_value_int l key = Ok v.
Proof.
  intros S G B. unfold interpolated_value_int. destruct B as [k tail E H|front k tail E H T].
  - assert (P : partitioned (fun p => (key <? fst p)%Z) l 0).
    { split; [lia|]. split; intros i x X L; [lia|]. apply Z.ltb_lt, H. apply nth_error_In in X. exact X. }
    assert (N : (length l <> 0)%nat) by (subst l; cbn; lia). pose proof N as N'. apply Nat.eqb_neq in N. rewrite N. cbn [negb assert_ bind].
    rewrite (bound_ok _ _ _ P). cbn [bind]. destruct (Nat.eqb_spec 0 (length l)) as [Q|Q]; [congruence|].
    cbn [Nat.eqb]. subst l. reflexivity.
  - assert (X0 : nth_error l (length front) = Some (k, v)) by (subst l; apply nth_error_app_mid).
    assert (LE : (length front + 1 <= length l)%nat) by (subst l; rewrite app_length; cbn; lia).
    assert (P : partitioned (fun p => (key <? fst p)%Z) l (Datatypes.S (length front))).
    { split; [lia|]. split; intros i x X L.
      - apply Z.ltb_ge. pose proof (S i (length front) x _ ltac:(lia) X X0). cbn [fst] in *. lia.
      - apply Z.ltb_lt. apply T. subst l. rewrite nth_error_app2 in X by lia.
        destruct (i - length front)%nat as [|m] eqn:M; [lia|]. cbn in X. apply nth_error_In in X. exact X. }
    destruct (Nat.eqb_spec (length l) 0) as [Q|_]; [lia|]. cbn [negb assert_ bind].
    rewrite (bound_ok _ _ _ P). cbn [bind]. replace (Datatypes.S (length front) - 1)%nat with (length front) by lia. unfold vget. rewrite X0.
    destruct (Nat.eqb_spec (Datatypes.S (length front)) (length l)) as [Q|Q]; [reflexivity|]. cbn [Nat.eqb bind].
    destruct tail as [|[k1 v1] tail]; [subst l; rewrite app_length in *; cbn in *; lia|].
    assert (X1 : nth_error l (Datatypes.S (length front)) = Some (k1, v1)).
    { subst l. rewrite nth_error_app2 by lia. replace (Datatypes.S (length front) - length front)%nat with 1%nat by lia. reflexivity. }
    rewrite X1. cbn [bind fst snd]. pose proof (T (k1, v1) (or_introl eq_refl)) as Y. cbn [fst] in Y.
    assert (I0 : In (k, v) l) by (apply nth_error_In in X0; exact X0). assert (I1 : In (k1, v1) l) by (apply nth_error_In in X1; exact X1).
    pose proof (G (k1, v1) (k, v) I1 I0) as W. cbn [fst] in W.
    rewrite !to_int_ok by lia. cbn [bind]. destruct (Z.eqb_spec (k1 - k) 0) as [V|V]; [lia|].
    rewrite Z.quot_small by lia. f_equal. cbn. ring.
Qed.
Lemma held_exists l key : l <> [] -> SortedInts l -> exists v, Held l key v.
Proof.
  intros N S. destruct (partition_exists (fun p => (key <? fst p)%Z) l) as [k (K1 & K2 & K3)].
  { intros i j x y L X Y H. pose proof (S i j x y L X Y). apply Z.ltb_lt in H. apply Z.ltb_lt. lia. }
  destruct k as [|k].
  - destruct l as [|[kk v] tail]; [contradiction|]. exists v. apply (HBefore _ key v kk tail eq_refl).
    intros p I. apply In_nth_error in I. destruct I as [i I]. apply Z.ltb_lt. apply (K3 i p I). lia.
  - destruct (nth_error l k) as [[k0 v0]|] eqn:X0; [|apply nth_error_None in X0; lia].
    destruct (nth_error_split l k X0) as (front & tail & F & L). exists v0. apply (HFrom l key v0 front k0 tail F).
    + apply Z.ltb_ge. apply (K2 k _ X0). lia.
    + intros p I. apply In_nth_error in I. destruct I as [i I]. apply Z.ltb_lt. apply (K3 (Datatypes.S k + i)%nat); [|lia].
      subst l k. rewrite nth_error_app2 by lia. replace (Datatypes.S (length front) + i - length front)%nat with (Datatypes.S i) by lia. exact I.
Qed.

(* plain vectors *)
Lemma enumerate_length l : length (enumerate l) = length l.
Proof. unfold enumerate. rewrite combine_length, map_length, seq_length. lia. Qed.
Lemma nth_combine {A B} (l : list A) : forall (m : list B) i a b, nth_error l i = Some a -> nth_error m i = Some b -> nth_error (combine l m) i = Some (a, b).
Proof.
  induction l as [|x l IH]; intros [|y m] [|i] a b X Y; try discriminate; cbn in *; [inversion X; inversion Y; reflexivity|]. apply IH; assumption.
Qed.
Lemma enumerate_nth l i y : nth_error l i = Some y -> nth_error (enumerate l) i = Some (INR i, y).
Proof.
  intros Y. apply nth_combine; [|exact Y]. assert (L : (i < length l)%nat) by (apply nth_error_Some; congruence).
  rewrite nth_error_map, (nth_error_nth' (seq 0 (length l)) 0%nat) by (rewrite seq_length; exact L).
  rewrite seq_nth by exact L. reflexivity.
Qed.
Lemma enumerate_inv l i p : nth_error (enumerate l) i = Some p -> exists y, p = (INR i, y) /\ nth_error l i = Some y.
Proof.
  intros P. assert (L : (i < length l)%nat) by (rewrite <- enumerate_length; apply nth_error_Some; congruence).
  destruct (nth_error l i) as [y|] eqn:Y; [|apply nth_error_None in Y; lia]. exists y. split; [|reflexivity].
  apply enumerate_nth in Y. congruence.
Qed.
Lemma enumerate_sorted l : SortedKeys (enumerate l).
Proof.
  intros i j p q L P Q. apply enumerate_inv in P. apply enumerate_inv in Q. destruct P as (y & -> & _). destruct Q as (z & -> & _).
  cbn [fst]. apply le_INR. exact L.
Qed.

Lemma index_is_value l key : key < IZR (2 ^ 64 - 1) -> interpolated_index l key = interpolated_value (enumerate l) key.
Proof.
  intros H. destruct l as [|y0 l0]; [reflexivity|]. set (l := y0 :: l0) in *. assert (LL : (0 < length l)%nat) by (cbn; lia).
  unfold interpolated_index. destruct (Nat.eqb_spec (length l) 0) as [Q|_]; [lia|]. cbn [negb assert_ bind].
  destruct (Rltb key 0) eqn:N.
  - apply Rltb_true in N. symmetry. apply (broken_sound _ _ y0 (enumerate_sorted l)).
    apply (BBefore _ key y0 0 (tl (enumerate l))); [reflexivity|].
    intros p I. apply In_nth_error in I. destruct I as [i I]. apply enumerate_inv in I. destruct I as (y & -> & _). cbn [fst].
    pose proof (pos_INR i). lra.
  - apply Rltb_false in N. pose proof (floor_spec key) as F. set (lb := floor key) in *.
    assert (B0 : (0 <= lb)%Z). { apply Z.lt_succ_r. apply lt_IZR. rewrite succ_IZR. lra. }
    assert (B1 : (lb < 2 ^ 64 - 1)%Z) by (apply lt_IZR; lra).
    destruct (Z.leb_spec (2 ^ 64) lb) as [Q|_]; [lia|]. rewrite Z.mod_small by lia.
    destruct (Z.leb_spec (Z.of_nat (length l)) (lb + 1)) as [Q|Q].
    + destruct (nth_error l (length l - 1)) as [y|] eqn:Y; [|apply nth_error_None in Y; lia]. unfold vget. rewrite Y.
      symmetry. apply (broken_sound _ _ y (enumerate_sorted l)).
      assert (NE : enumerate l <> []) by (intros X; apply (f_equal (@length _)) in X; rewrite enumerate_length in X; cbn in X; lia).
      destruct (exists_last NE) as (front & q & E). apply enumerate_nth in Y.
      assert (LF : length front = (length l - 1)%nat).
      { apply (f_equal (@length _)) in E. rewrite enumerate_length, app_length in E. cbn [length] in E. lia. }
      rewrite E, <- LF, nth_error_app_mid in Y. inversion Y; subst q. apply (BAfter _ key y front _ E).
      intros p I. apply In_nth_error in I. destruct I as [i I]. pose proof I as I'. apply enumerate_inv in I. destruct I as (z & -> & Z). cbn [fst].
      assert (LI : (i < length l)%nat) by (apply nth_error_Some; congruence).
      rewrite INR_IZR_INZ. apply Rle_trans with (IZR lb); [apply IZR_le; lia|lra].
    + unfold zget. destruct (Z.ltb_spec lb 0) as [V|_]; [lia|]. destruct (Z.ltb_spec (lb + 1) 0) as [V|_]; [lia|].
      set (k := Z.to_nat lb). replace (Z.to_nat (lb + 1)) with (Datatypes.S k) by lia.
      destruct (nth_error l k) as [y|] eqn:Y; [|apply nth_error_None in Y; lia].
      destruct (nth_error l (Datatypes.S k)) as [z|] eqn:Z; [|apply nth_error_None in Z; lia].
      unfold vget. rewrite Y, Z. cbn [bind]. apply enumerate_nth in Y. apply enumerate_nth in Z.
      destruct (nth_error_split _ _ Y) as (front & rest & E & L). rewrite E, nth_error_app2 in Z by lia.
      replace (Datatypes.S k - length front)%nat with 1%nat in Z by lia. destruct rest as [|q tail]; [discriminate|]. cbn [nth_error] in Z. injection Z as ->.
      assert (K : INR k = IZR lb) by (unfold k; rewrite INR_IZR_INZ, Z2Nat.id by lia; reflexivity).
      symmetry. apply (broken_sound _ _ _ (enumerate_sorted l)). eapply BBetween; [exact E| |].
      * change (INR k <= key < INR (Datatypes.S k)). rewrite S_INR. lra.
      * change ((1 - (key - IZR lb)) * y + (key - IZR lb) * z = chord (INR k) y (INR (Datatypes.S k)) z key). unfold chord. rewrite S_INR, K. field. lra.
Qed.
