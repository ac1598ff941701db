(* C68: integer ranges *)
From Coq Require Import ZArith List Lia.
From Verif Require Import Model.Base Model.Range Spec.Range Proofs.RangeProofs.
Local Open Scope Z_scope.

(* make_irange( b, e ) with b <= e visits b, b + 1, ..., e - 1 *)
Theorem C68_range : forall t b e fuel, fits t b = true -> fits t e = true -> b <= e -> (Z.to_nat (e - b) < fuel)%nat ->
  loop t (irange b e) fuel = Ok (progression b 1 (Z.to_nat (e - b))).
Proof. intros t b e fuel B E L F. unfold loop, irange. cbn [begin_ end_ step_]. apply loop_progression; try assumption; lia. Qed.
Print Assumptions C68_range.

(* which numbers these are *)
Theorem C68_members : forall b e z, b <= e -> (In z (progression b 1 (Z.to_nat (e - b))) <-> b <= z < e).
Proof.
  intros b e z L. unfold progression. rewrite in_map_iff. split.
  - intros (i & <- & I). apply in_seq in I. lia.
  - intros H. exists (Z.to_nat (z - b)). split; [lia|]. apply in_seq. lia.
Qed.
Print Assumptions C68_members.

(* with a step that leads from b to e in n steps: b, b + s, ... *)
Theorem C68_step : forall t b e s n fuel, fits t b = true -> fits t e = true -> s <> 0 -> e = b + Z.of_nat n * s -> (n < fuel)%nat ->
  loop t (irange_step b e s) fuel = Ok (progression b s n).
Proof. intros t b e s n fuel B E S Q F. unfold loop, irange_step. cbn [begin_ end_ step_]. apply loop_progression; assumption. Qed.
Print Assumptions C68_step.

(* signed: otherwise it passes the end and overflows, or with step 0 never ends *)
Theorem C68_signed : forall bits b e s, fits (Signed bits) b = true -> fits (Signed bits) e = true ->
  ((exists fuel l, loop (Signed bits) (irange_step b e s) fuel = Ok l) <-> exists n : nat, e = b + Z.of_nat n * s) /\
  ((forall n : nat, e <> b + Z.of_nat n * s) -> s <> 0 -> exists n, forall fuel, (n < fuel)%nat -> loop (Signed bits) (irange_step b e s) fuel = UB) /\
  (b <> e -> s = 0 -> forall fuel, loop (Signed bits) (irange_step b e s) fuel = OutOfFuel).
Proof.
  intros bits b e s B E. unfold loop, irange_step. cbn [begin_ end_ step_].
  assert (Z0 : b <> e -> s = 0 -> forall fuel, visit (Signed bits) s b e fuel = OutOfFuel).
  { intros N -> fuel. apply (visit_forever (Signed bits) 0 e fuel (fun _ => b)). intros n i _. split; [exact N|]. rewrite next_signed; [f_equal; lia|]. rewrite Z.add_0_r. exact B. }
  split; [|split; [|exact Z0]].
  - split.
    + intros (fuel & l & V). destruct (Z.eq_dec b e) as [->|N]; [exists 0%nat; lia|]. destruct (Z.eq_dec s 0) as [Z|Z]; [rewrite (Z0 N Z) in V; discriminate|].
      assert (D : (exists n : nat, e = b + Z.of_nat n * s) \/ (forall n : nat, e <> b + Z.of_nat n * s)).
      { destruct (Z.eq_dec ((e - b) mod s) 0) as [M|M].
        - pose proof (Z.div_mod (e - b) s Z) as DM. destruct (Z_le_dec 0 ((e - b) / s)) as [P|P].
          + left. exists (Z.to_nat ((e - b) / s)). lia.
          + right. intros n C. apply P. replace (e - b) with (Z.of_nat n * s) by lia. rewrite Z.div_mul by exact Z. lia.
        - right. intros n C. apply M. replace (e - b) with (Z.of_nat n * s) by lia. apply Z.mod_mul. exact Z. }
      destruct D as [D|D]; [exact D|]. exfalso. destruct (signed_miss bits b s e B E Z D) as (n & U).
      assert (MONO : forall g f v r, visit (Signed bits) s v e f = Ok r -> (f <= g)%nat -> visit (Signed bits) s v e g = Ok r).
      { induction g as [|g IH]; intros f v r V' L; [destruct f; [discriminate|lia]|]. destruct f as [|f]; [discriminate|]. cbn [visit] in *.
        destruct (v =? e); [exact V'|]. destruct (next (Signed bits) s v) as [w| | |]; cbn [bind] in *; try discriminate.
        destruct (visit (Signed bits) s w e f) as [r'| | |] eqn:Q; cbn [bind] in V'; try discriminate. rewrite (IH f w r' Q) by lia. exact V'. }
      pose proof (MONO (fuel + S n)%nat fuel b l V ltac:(lia)) as C. rewrite U in C by lia. discriminate.
    + intros (n & Q). destruct (Z.eq_dec s 0) as [->|Z].
      * assert (K : b = e) by lia. exists 1%nat, []. cbn [visit]. rewrite (proj2 (Z.eqb_eq _ _) K). reflexivity.
      * exists (S n), (progression b s n). apply loop_progression; try assumption; lia.
  - intros N S. apply signed_miss; assumption.
Qed.
Print Assumptions C68_signed.

(* unsigned: the walk wraps around and ends exactly when the greatest common
   divisor of the step and the number of values divides the distance; it stops
   the first time it meets the end *)
Theorem C68_unsigned : forall bits b e s, 0 <= bits -> fits (Unsigned bits) b = true -> fits (Unsigned bits) e = true ->
  ((Z.gcd s (2 ^ bits) | e - b) -> exists n, (b + Z.of_nat n * s) mod 2 ^ bits = e /\ (forall i, (i < n)%nat -> (b + Z.of_nat i * s) mod 2 ^ bits <> e) /\
     forall fuel, (n < fuel)%nat -> loop (Unsigned bits) (irange_step b e s) fuel = Ok (map (fun i => (b + Z.of_nat i * s) mod 2 ^ bits) (seq 0 n))) /\
  (~ (Z.gcd s (2 ^ bits) | e - b) -> forall fuel, loop (Unsigned bits) (irange_step b e s) fuel = OutOfFuel).
Proof.
  intros bits b e s P B E. unfold loop, irange_step. cbn [begin_ end_ step_]. split.
  - intros G. apply (spot_gcd bits b s e P E) in G. destruct G as (n0 & N0). destruct (first_such (spot bits b s) e n0 N0) as (n & _ & N & F).
    exists n. split; [exact N|]. split; [exact F|]. intros fuel L. rewrite <- (spot_0 bits b s B) at 1. apply (visit_ends (Unsigned bits) s e n (spot bits b s) fuel); [|exact N|exact L].
    intros i I. split; [apply F; exact I|apply next_spot; exact P].
  - intros G fuel. rewrite <- (spot_0 bits b s B). apply (visit_forever (Unsigned bits) s e fuel (spot bits b s)). intros n i _. split; [|apply next_spot; exact P].
    intros C. apply G. apply (spot_gcd bits b s e P E). exists i. exact C.
Qed.
Print Assumptions C68_unsigned.

(* a range whose end is before its begin is not empty: undefined for signed
   types, nearly all values for unsigned ones *)
Theorem C68_reversed_refuted : forall bits b e, 1 <= bits -> e < b ->
  (fits (Signed bits) b = true -> fits (Signed bits) e = true -> exists n, forall fuel, (n < fuel)%nat -> loop (Signed bits) (irange b e) fuel = UB) /\
  (fits (Unsigned bits) b = true -> fits (Unsigned bits) e = true -> exists l, length l = Z.to_nat (2 ^ bits - (b - e)) /\ l <> [] /\
     forall fuel, (length l < fuel)%nat -> loop (Unsigned bits) (irange b e) fuel = Ok l).
Proof.
  intros bits b e P L. split.
  - intros B E. apply (signed_miss bits b 1 e B E); [lia|]. intros n. lia.
  - intros B E. apply fits_spec in B as B', E as E'. cbn [type_min type_max] in B', E'. set (m := 2 ^ bits) in *. set (n := Z.to_nat (m - (b - e))).
    exists (map (spot bits b 1) (seq 0 n)). rewrite map_length, seq_length. split; [reflexivity|]. split.
    + intros C. apply (f_equal (@length Z)) in C. rewrite map_length, seq_length in C. cbn in C. unfold n in C. lia.
    + intros fuel F. unfold loop, irange. cbn [begin_ end_ step_]. rewrite <- (spot_0 bits b 1 B) at 1. apply visit_ends; [|unfold spot|exact F].
      * intros i I. split; [|apply next_spot; lia]. unfold spot. fold m. intros C. pose proof (Z.div_mod (b + Z.of_nat i * 1) m ltac:(lia)) as D. rewrite C in D.
        assert (H : 0 <= (b + Z.of_nat i * 1) / m) by (apply Z.div_pos; lia). assert (K : (b + Z.of_nat i * 1) / m = 0 \/ 1 <= (b + Z.of_nat i * 1) / m) by lia. destruct K as [K|K]; [rewrite K in D; lia|]. nia.
      * fold m. replace (b + Z.of_nat n * 1) with (e + 1 * m) by lia. rewrite Z.mod_add by lia. apply Z.mod_small. lia.
Qed.
Print Assumptions C68_reversed_refuted.

(* the difference of iterators is the number of steps, if it can be computed *)
Theorem C68_difference : forall t b s n, s <> 0 -> 0 <= n -> fits t (n * s) = true -> fits t n = true ->
  step_diff t s (b + n * s) b = Ok n /\ iter_diff t (b + n) b = Ok n.
Proof.
  intros t b s n S N F G. unfold step_diff, iter_diff. replace (b + n * s - b) with (n * s) by lia. replace (b + n - b) with n by lia. rewrite !arith_fits by assumption. cbn [bind].
  rewrite (proj2 (Z.eqb_neq _ _) S). rewrite Z.quot_mul by exact S. split; [apply arith_fits; exact G|reflexivity].
Qed.
Print Assumptions C68_difference.

Theorem C68_difference_refuted : exists b e, b <= e /\ fits (Signed 32) b = true /\ fits (Signed 32) e = true /\ iter_diff (Signed 32) e b = UB.
Proof. exists (- 2 ^ 31), (2 ^ 31 - 1). split; [lia|]. repeat split. Qed.
Print Assumptions C68_difference_refuted.

(* the postfix ++ returns the old value and moves on *)
Theorem C68_postfix : forall t s v w, fits t v = true -> next t s v = Ok w -> post_next t s v = Ok (v, w).
Proof.
  intros t s v w V N. unfold post_next. unfold next in N. rewrite N. cbn [bind]. apply fits_spec in V as V'. unfold arith in *. destruct t as [b|b].
  - destruct (fits (Signed b) (v + s)); [|discriminate]. inversion N; subst w. replace (v + s - s) with v by lia. rewrite V. reflexivity.
  - inversion N; subst w. cbn [bind]. cbn [type_min type_max] in V'. rewrite Zminus_mod_idemp_l. replace (v + s - s) with v by lia. rewrite Z.mod_small by lia. reflexivity.
Qed.
Print Assumptions C68_postfix.

Example C68_nonvacuous : loop (Signed 32) (irange_step 10 1 (-3)) 5 = Ok [10; 7; 4] /\ loop (Signed 32) (irange_to 4) 5 = Ok [0; 1; 2; 3] /\
  loop (Unsigned 3) (irange_step 6 3 3) 9 = Ok [6; 1; 4; 7; 2; 5; 0] /\ loop (Unsigned 3) (irange_step 6 3 2) 100 = OutOfFuel.
Proof. repeat split. Qed.
