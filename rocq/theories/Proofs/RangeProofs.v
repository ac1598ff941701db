(* Proofs about integer ranges. *)
From Coq Require Import ZArith List Lia Znumtheory.
From Verif Require Import Model.Base Model.Range Spec.Range.
Local Open Scope Z_scope.

Definition Walk (t : int_type) (s e : Z) (f : nat -> Z) (n : nat) : Prop := forall i, (i < n)%nat -> f i <> e /\ next t s (f i) = Ok (f (S i)).
Lemma visit_ends t s e n : forall f fuel, Walk t s e f n -> f n = e -> (n < fuel)%nat -> visit t s (f 0%nat) e fuel = Ok (map f (seq 0 n)).
Proof.
  induction n as [|n IH]; intros f fuel W E L; (destruct fuel as [|fuel]; [lia|]); cbn [visit seq map].
  - rewrite (proj2 (Z.eqb_eq _ _) E). reflexivity.
  - destruct (W 0%nat ltac:(lia)) as [N X]. rewrite (proj2 (Z.eqb_neq _ _) N), X. cbn [bind].
    rewrite (IH (fun i => f (S i)) fuel); [|intros i I; apply W; lia|exact E|lia]. cbn [bind]. rewrite <- seq_shift, map_map. reflexivity.
Qed.
Lemma visit_undefined t s e n : forall f fuel, Walk t s e f n -> f n <> e -> next t s (f n) = UB -> (n < fuel)%nat -> visit t s (f 0%nat) e fuel = UB.
Proof.
  induction n as [|n IH]; intros f fuel W N U L; (destruct fuel as [|fuel]; [lia|]); cbn [visit].
  - rewrite (proj2 (Z.eqb_neq _ _) N), U. reflexivity.
  - destruct (W 0%nat ltac:(lia)) as [N' X]. rewrite (proj2 (Z.eqb_neq _ _) N'), X. cbn [bind].
    rewrite (IH (fun i => f (S i)) fuel); [reflexivity|intros i I; apply W; lia|exact N|exact U|lia].
Qed.
Lemma visit_forever t s e fuel : forall f, (forall n, Walk t s e f n) -> visit t s (f 0%nat) e fuel = OutOfFuel.
Proof.
  induction fuel as [|fuel IH]; intros f W; cbn [visit]; [reflexivity|]. destruct (W 1%nat 0%nat ltac:(lia)) as [N X].
  rewrite (proj2 (Z.eqb_neq _ _) N), X. cbn [bind]. rewrite (IH (fun i => f (S i))); [reflexivity|]. intros n i I. apply (W (S (S i))). lia.
Qed.
Lemma fits_spec t z : fits t z = true <-> type_min t <= z <= type_max t.
Proof. unfold fits. rewrite Bool.andb_true_iff, !Z.leb_le. reflexivity. Qed.
Lemma next_signed b s v : fits (Signed b) (v + s) = true -> next (Signed b) s v = Ok (v + s).
Proof. intros H. unfold next, arith. rewrite H. reflexivity. Qed.
Lemma arith_fits t z : fits t z = true -> arith t z = Ok z.
Proof.
  intros H. unfold arith. destruct t as [b|b]; [rewrite H; reflexivity|]. apply fits_spec in H. cbn [type_min type_max] in H. f_equal. apply Z.mod_small. lia.
Qed.

(* the straight walk *)
Lemma walk_progression t b s e n : fits t b = true -> fits t e = true -> e = b + Z.of_nat n * s -> s <> 0 -> Walk t s e (fun i => b + Z.of_nat i * s) n.
Proof.
  intros B E Q S i I. apply fits_spec in B, E. split; [nia|]. unfold next. replace (b + Z.of_nat i * s + s) with (b + Z.of_nat (Datatypes.S i) * s) by lia. apply arith_fits, fits_spec.
  assert (0 < s \/ s < 0) by lia. nia.
Qed.
Lemma loop_progression t b s e n fuel : fits t b = true -> fits t e = true -> e = b + Z.of_nat n * s -> s <> 0 -> (n < fuel)%nat ->
  visit t s b e fuel = Ok (progression b s n).
Proof.
  intros B E Q S L. pose proof (visit_ends t s e n (fun i => b + Z.of_nat i * s) fuel (walk_progression t b s e n B E Q S) (eq_sym Q) L) as V.
  cbn beta in V. rewrite Z.mul_0_l, Z.add_0_r in V. exact V.
Qed.

(* a signed walk that misses the end *)
Lemma signed_miss bits b s e : fits (Signed bits) b = true -> fits (Signed bits) e = true -> s <> 0 -> (forall n : nat, e <> b + Z.of_nat n * s) ->
  exists n, forall fuel, (n < fuel)%nat -> visit (Signed bits) s b e fuel = UB.
Proof.
  intros B E S N. apply fits_spec in B, E. set (lo := type_min (Signed bits)) in *. set (hi := type_max (Signed bits)) in *.
  set (q := if 0 <? s then (hi - b) / s else (b - lo) / (- s)).
  assert (Q : 0 <= q /\ lo <= b + q * s <= hi /\ ~ (lo <= b + (q + 1) * s <= hi)).
  { unfold q. destruct (Z.ltb_spec 0 s) as [P|P].
    - pose proof (Z.div_mod (hi - b) s ltac:(lia)) as D. pose proof (Z.mod_pos_bound (hi - b) s P) as M. pose proof (Z.div_pos (hi - b) s ltac:(lia) P). nia.
    - pose proof (Z.div_mod (b - lo) (- s) ltac:(lia)) as D. pose proof (Z.mod_pos_bound (b - lo) (- s) ltac:(lia)) as M. pose proof (Z.div_pos (b - lo) (- s) ltac:(lia) ltac:(lia)). nia. }
  destruct Q as (Q0 & Q1 & Q2). exists (Z.to_nat q). intros fuel L.
  replace b with (b + Z.of_nat 0 * s) by lia. apply (visit_undefined (Signed bits) s e (Z.to_nat q) (fun i => b + Z.of_nat i * s) fuel).
  - intros i I. split; [intros C; apply (N i); lia|]. replace (b + Z.of_nat (Datatypes.S i) * s) with (b + Z.of_nat i * s + s) by lia. apply next_signed. apply fits_spec. fold lo hi.
    assert (K : Z.of_nat i + 1 <= q) by lia. assert (0 < s \/ s < 0) by lia. nia.
  - intros C. apply (N (Z.to_nat q)). lia.
  - unfold next, arith. destruct (fits (Signed bits) (b + Z.of_nat (Z.to_nat q) * s + s)) eqn:F; [|reflexivity]. exfalso. apply fits_spec in F. fold lo hi in F. apply Q2. rewrite Z2Nat.id in F by lia. lia.
  - exact L.
Qed.

(* unsigned walks *)
Definition spot (bits b s : Z) (i : nat) : Z := (b + Z.of_nat i * s) mod 2 ^ bits.
Lemma next_spot bits b s i : 0 <= bits -> next (Unsigned bits) s (spot bits b s i) = Ok (spot bits b s (S i)).
Proof.
  intros P. unfold next, arith, spot. f_equal. rewrite Z.add_mod_idemp_l by (pose proof (Z.pow_pos_nonneg 2 bits); lia). f_equal. lia.
Qed.
Lemma spot_0 bits b s : fits (Unsigned bits) b = true -> spot bits b s 0 = b.
Proof. intros H. apply fits_spec in H. cbn [type_min type_max] in H. unfold spot. rewrite Z.mul_0_l, Z.add_0_r. apply Z.mod_small. lia. Qed.
Lemma first_such (f : nat -> Z) e n : f n = e -> exists m, (m <= n)%nat /\ f m = e /\ forall i, (i < m)%nat -> f i <> e.
Proof.
  induction n as [n IH] using lt_wf_ind. intros E.
  assert (D : (exists i, (i < n)%nat /\ f i = e) \/ (forall i, (i < n)%nat -> f i <> e)).
  { clear. induction n as [|n [(i & I & E)|N]].
    - right. intros i I. lia.
    - left. exists i. split; [lia|exact E].
    - destruct (Z.eq_dec (f n) e) as [E|E]; [left; exists n; split; [lia|exact E]|]. right. intros i I. destruct (Nat.eq_dec i n) as [->|]; [exact E|apply N; lia]. }
  destruct D as [(i & I & Ei)|N]; [destruct (IH i I Ei) as (m & M & R); exists m; split; [lia|exact R]|]. exists n. split; [lia|]. split; assumption.
Qed.
Lemma spot_gcd bits b s e : 0 <= bits -> fits (Unsigned bits) e = true -> ((exists n, spot bits b s n = e) <-> (Z.gcd s (2 ^ bits) | e - b)).
Proof.
  intros P E. apply fits_spec in E. cbn [type_min type_max] in E. assert (M : 0 < 2 ^ bits) by (apply Z.pow_pos_nonneg; lia). set (m := 2 ^ bits) in *. unfold spot. fold m. split.
  - intros (n & <-). replace ((b + Z.of_nat n * s) mod m - b) with (Z.of_nat n * s - m * ((b + Z.of_nat n * s) / m)) by (pose proof (Z.div_mod (b + Z.of_nat n * s) m ltac:(lia)); lia).
    apply Z.divide_sub_r; [apply Z.divide_mul_r, Z.gcd_divide_l|apply Z.divide_mul_l, Z.gcd_divide_r].
  - intros (k & K). destruct (Zis_gcd_bezout s m (Z.gcd s m) (Zgcd_is_gcd s m)) as [u v UV].
    exists (Z.to_nat ((k * u) mod m)). rewrite Z2Nat.id by (apply Z.mod_pos_bound; exact M).
    rewrite <- (Z.mod_small e m) by lia.
    assert (X : (k * u) mod m = k * u - m * ((k * u) / m)) by (pose proof (Z.div_mod (k * u) m ltac:(lia)); lia). rewrite X.
    replace (b + (k * u - m * (k * u / m)) * s) with (e + (- k * v - (k * u / m) * s) * m) by nia. apply Z.mod_add. lia.
Qed.
