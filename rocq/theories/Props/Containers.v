(* C71: container tools *)
From Coq Require Import Reals ZArith List Lia Lra Permutation Bool Ascii Sorted.
From Verif Require Import Model.Base Model.Math Model.Regression Model.StdString Model.Strings Model.Number Model.CharStream Model.PropTree Spec.Strings Spec.Decimal Spec.Scan Spec.Average Spec.Containers Proofs.BaseFacts Proofs.StringFacts Proofs.NumberProofs Proofs.ScanProofs Proofs.RangeProofs Proofs.AverageProofs Proofs.ContainersProofs.
From Verif Require Import Model.Range Model.Containers.
Import ListNotations.
Local Open Scope nat_scope.

(* sorted_copy is the only ordered permutation *)
Theorem C71_sorted_copy : (forall l s, sorted_copy Rleb l = s <-> Permutation l s /\ Ordered Rle s) /\ (forall l s, sorted_copy Z.leb l = s <-> Permutation l s /\ Ordered Z.le s).
Proof.
  split; intros l s; (split; [intros <-|intros [P O]]).
  - split; [apply sort_perm|apply sortR_ordered].
  - apply sortR_eq; assumption.
  - split; [apply sort_perm|apply sortZ_ordered].
  - apply sortZ_eq; assumption.
Qed.
Print Assumptions C71_sorted_copy.

Theorem C71_median : forall l, (medianR l = Throw <-> l = []) /\ forall m, medianR l = Ok m <-> MedianOf l m.
Proof.
  intros l. destruct l as [|x l'] eqn:EL.
  - split; [split; reflexivity|]. intros m. split; [discriminate|]. intros (s & P & _ & M). apply Permutation_nil in P. subst s. destruct M as [a b E|a b c d E]; destruct a; discriminate.
  - rewrite <- EL. assert (N : l <> []) by (rewrite EL; discriminate). destruct (median_exists l N) as (m0 & s & P & O & M). pose proof (medianR_middle s l m0 P O M) as E. split.
    + rewrite E. split; [discriminate|contradiction].
    + intros m. split.
      * intros H. assert (m = m0) by congruence. subst m. exists s. auto.
      * intros (s' & P' & O' & M'). apply (medianR_middle s'); assumption.
Qed.
Print Assumptions C71_median.

Theorem C71_median_order : forall l l', Permutation l l' -> medianR l = medianR l'.
Proof.
  intros l l' P. unfold medianR, sorted_copy. rewrite (Permutation_length P). rewrite (sortR_eq l (std_sort Rleb l')); [reflexivity| |apply sortR_ordered]. rewrite P. apply sort_perm.
Qed.
Print Assumptions C71_median_order.

(* at most half of the elements are below it and at most half above *)
Theorem C71_median_counts : forall l m, medianR l = Ok m -> 2 * length (below l m) <= length l /\ 2 * length (above l m) <= length l.
Proof.
  intros l m E. apply C71_median in E. destruct E as (s & P & O & M). destruct (middle_counts s m O M) as [B A]. unfold below, above in *.
  rewrite (Permutation_length (filter_perm _ l s P)), (Permutation_length P). split; [exact B|]. rewrite (Permutation_length (filter_perm _ l s P)). exact A.
Qed.
Print Assumptions C71_median_counts.

(* no number is closer to the elements in total *)
Theorem C71_median_closest : forall l m c, medianR l = Ok m -> (deviation l m <= deviation l c)%R.
Proof.
  intros l m c E. apply C71_median in E. destruct E as (s & P & O & M). rewrite !(deviation_perm l s _ P). apply deviation_least; assumption.
Qed.
Print Assumptions C71_median_closest.

Theorem C71_median_affine : forall l m a b, medianR l = Ok m -> medianR (map (fun x => a * x + b)%R l) = Ok (a * m + b)%R.
Proof.
  intros l m a b E. apply C71_median in E. destruct E as (s & P & O & M). apply C71_median. destruct (Rle_dec 0 a) as [A|A].
  - exists (map (fun x => a * x + b)%R s). split; [apply Permutation_map; exact P|]. split; [|apply middle_map; exact M]. apply ordered_map; [|exact O]. intros x y H. nra.
  - exists (rev (map (fun x => a * x + b)%R s)). split; [rewrite <- Permutation_rev; apply Permutation_map; exact P|]. split; [|apply middle_rev, middle_map; exact M].
    apply ordered_rev_map; [|exact O]. intros x y H. nra.
Qed.
Print Assumptions C71_median_affine.

(* integers: the middle element, or the truncated mean of the two if their sum
   can be computed *)
Theorem C71_median_int : forall t vec s, Permutation vec s -> Ordered Z.le s ->
  (forall l m r, s = l ++ m :: r -> length l = length r -> medianZ t vec = Ok m) /\
  (forall l a b r, s = l ++ a :: b :: r -> length l = length r ->
     (Model.Range.fits t (a + b) = true -> (2 <= match t with Signed n => n | Unsigned _ => 2 end)%Z -> medianZ t vec = Ok (Z.quot (a + b) 2)) /\
     (Model.Range.fits t (a + b) = false -> match t with Signed _ => medianZ t vec = UB | Unsigned n => medianZ t vec = Ok (Z.quot ((a + b) mod 2 ^ n) 2 mod 2 ^ n)%Z end)).
Proof.
  intros t vec s P O. pose proof (Permutation_length P) as LE.
  assert (H : forall l a b r, s = l ++ a :: b :: r -> length l = length r -> medianZ t vec = let* c := arith t (a + b)%Z in arith t (Z.quot c 2)).
  { intros l a b r -> E. unfold medianZ, sorted_copy. rewrite (sortZ_eq vec _ P O), LE. rewrite app_length. cbn [length]. replace (length l + S (S (length r))) with ((1 + length l) * 2) by lia.
    unfold assert_. rewrite (proj2 (Nat.ltb_lt _ _)) by lia. cbn [bind]. rewrite Nat.mod_mul, Nat.div_mul by lia. cbn [Nat.eqb]. replace (1 + length l - 1) with (length l) by lia. rewrite vget_at.
    replace (l ++ a :: b :: r) with ((l ++ [a]) ++ b :: r) by (rewrite <- app_assoc; reflexivity). replace (1 + length l) with (length (l ++ [a])) by (rewrite app_length; cbn; lia). rewrite vget_at. cbn [bind]. rewrite Z.add_comm. reflexivity. }
  split.
  - intros l m r -> E. unfold medianZ, sorted_copy. rewrite (sortZ_eq vec _ P O), LE. rewrite app_length. cbn [length]. replace (length l + S (length r)) with (1 + length l * 2) by lia.
    unfold assert_. rewrite (proj2 (Nat.ltb_lt _ _)) by lia. cbn [bind]. rewrite Nat.mod_add, Nat.div_add by lia. cbn [Nat.modulo Nat.divmod Nat.sub fst snd Nat.eqb Nat.div Nat.add]. apply vget_at.
  - intros l a b r Q E. rewrite (H l a b r Q E). split.
    + intros F T. rewrite arith_fits by exact F. cbn [bind]. apply arith_fits. apply fits_spec in F. apply fits_spec.
      pose proof (Z.quot_rem' (a + b) 2) as D. pose proof (Z.rem_bound_abs (a + b) 2 ltac:(lia)) as B.
      destruct t as [n|n]; cbn [type_min type_max] in *.
      * assert (0 < 2 ^ (n - 1))%Z by (apply Z.pow_pos_nonneg; lia). destruct (Z_le_dec 0 (a + b)) as [S|S].
        -- pose proof (Z.quot_pos (a + b) 2 S ltac:(lia)). pose proof (Z.rem_nonneg (a + b) 2 ltac:(lia) S). lia.
        -- pose proof (Z.rem_nonpos (a + b) 2 ltac:(lia) ltac:(lia)). lia.
      * pose proof (Z.quot_pos (a + b) 2 ltac:(lia) ltac:(lia)). pose proof (Z.rem_nonneg (a + b) 2 ltac:(lia) ltac:(lia)). lia.
    + intros F. unfold arith. destruct t as [n|n]; [rewrite F; reflexivity|]. reflexivity.
Qed.
Print Assumptions C71_median_int.

(* so it can overflow, and leave the range of the elements *)
Theorem C71_median_int_refuted : medianZ (Signed 32) [2 ^ 30; 2 ^ 30]%Z = UB /\ medianZ (Unsigned 32) [2 ^ 31; 2 ^ 31]%Z = Ok 0%Z /\
  medianZ (Signed 32) [0; 1]%Z = Ok 0%Z /\ medianZ (Signed 32) [-2; -1]%Z = Ok (-1)%Z.
Proof. repeat split. Qed.
Print Assumptions C71_median_int_refuted.

Theorem C71_average : (forall l, l <> [] -> averageR l = Ok (total l / INR (length l))%R) /\ averageR [] = UB /\
  forall l a b m, averageR l = Ok m -> averageR (map (fun x => a * x + b)%R l) = Ok (a * m + b)%R.
Proof.
  split; [exact averageR_ok|]. split.
  - unfold averageR, rdiv. cbn. destruct (Req_EM_T 0 0); [reflexivity|congruence].
  - intros l a b m E. destruct l as [|x l].
    + unfold averageR, rdiv in E. cbn in E. destruct (Req_EM_T 0 0); [discriminate|congruence].
    + rewrite averageR_ok in E by discriminate. rewrite averageR_ok by discriminate. assert (m = total (x :: l) / INR (length (x :: l)))%R by congruence. subst m. f_equal. rewrite total_map_affine, map_length. field. apply not_0_INR. discriminate.
Qed.
Print Assumptions C71_average.
Lemma accumulate_ok t : forall l a, (forall p q, l = p ++ q -> Model.Range.fits t (a + fold_right Z.add 0 p)%Z = true) -> accumulate t l a = Ok (a + fold_right Z.add 0 l)%Z.
Proof.
  induction l as [|x l IH]; intros a H; [cbn; f_equal; lia|]. cbn [accumulate fold_right]. rewrite arith_fits.
  - cbn [bind]. rewrite IH; [f_equal; lia|]. intros p q E. rewrite <- Z.add_assoc. apply (H (x :: p) q). rewrite E. reflexivity.
  - pose proof (H [x] l eq_refl) as G. cbn [fold_right] in G. rewrite Z.add_0_r in G. exact G.
Qed.
Lemma accumulate_ub n : forall l a p q, l = p ++ q -> p <> [] -> Model.Range.fits (Signed n) (a + fold_right Z.add 0 p)%Z = false -> accumulate (Signed n) l a = UB.
Proof.
  induction l as [|x l IH]; intros a p q E P G; [destruct p; [congruence|discriminate]|]. destruct p as [|y p]; [congruence|]. injection E as -> E. cbn [accumulate arith fold_right] in *.
  destruct (Model.Range.fits (Signed n) (a + y)) eqn:F; [|reflexivity]. cbn [bind]. destruct p as [|z p]; [cbn [fold_right] in G; rewrite Z.add_0_r in G; congruence|]. apply (IH _ (z :: p) q E ltac:(discriminate)). rewrite <- Z.add_assoc. exact G.
Qed.
Lemma accumulate_mod n : forall l a, (0 <= n)%Z -> accumulate (Unsigned n) l (a mod 2 ^ n)%Z = Ok ((a + fold_right Z.add 0 l) mod 2 ^ n)%Z.
Proof.
  induction l as [|x l IH]; intros a NN; [cbn; rewrite Z.add_0_r; reflexivity|]. cbn [accumulate arith bind fold_right]. rewrite Zplus_mod_idemp_l, IH by exact NN. f_equal. f_equal. lia.
Qed.
Lemma type_zero t n : Model.Range.fits t n = true -> (0 < n)%Z -> (type_min t <= 0 <= type_max t)%Z.
Proof.
  intros F P. apply fits_spec in F. split; [|lia]. destruct t as [b|b]; cbn [type_min type_max] in *; [|lia]. pose proof (Z.pow_nonneg 2 (b - 1)). lia.
Qed.
Lemma quot_between s n lo hi : (0 < n)%Z -> (lo <= 0 <= hi)%Z -> (lo <= s <= hi)%Z -> (lo <= Z.quot s n <= hi)%Z.
Proof.
  intros P Z0 B. pose proof (Z.quot_rem' s n) as D. destruct (Z_le_dec 0 s) as [S|S].
  - pose proof (Z.quot_pos s n S P). pose proof (Z.rem_nonneg s n ltac:(lia) S). nia.
  - pose proof (Z.rem_nonpos s n ltac:(lia) ltac:(lia)). assert (Z.quot s n <= 0)%Z by (rewrite <- (Z.opp_involutive s), Z.quot_opp_l by lia; pose proof (Z.quot_pos (- s) n ltac:(lia) P); lia). nia.
Qed.
(* integers: the truncated quotient of the sum by the number of elements, if
   every partial sum can be computed *)
Theorem C71_average_int : forall t l, l <> [] -> Model.Range.fits t (Z.of_nat (length l)) = true ->
  ((forall p q, l = p ++ q -> Model.Range.fits t (fold_right Z.add 0 p)%Z = true) -> averageZ t l = Ok (Z.quot (fold_right Z.add 0 l) (Z.of_nat (length l)))%Z) /\
  (forall p q, l = p ++ q -> Model.Range.fits t (fold_right Z.add 0 p)%Z = false -> p <> [] ->
     match t with Signed _ => averageZ t l = UB | Unsigned n => (0 <= n)%Z -> averageZ t l = Ok (fold_right Z.add 0 l mod 2 ^ n / Z.of_nat (length l))%Z end).
Proof.
  intros t l N F. assert (LP : (0 < Z.of_nat (length l))%Z) by (destruct l; [congruence|cbn; lia]).
  split.
  - intros H. unfold averageZ. rewrite (accumulate_ok t l 0%Z) by (intros p q E; rewrite Z.add_0_l; apply (H p q E)). cbn [bind]. rewrite Z.add_0_l.
    rewrite (proj2 (Z.eqb_neq _ _)) by lia. apply arith_fits. pose proof (H l [] (eq_sym (app_nil_r l))) as G. apply fits_spec in G. apply fits_spec. exact (quot_between _ _ _ _ LP (type_zero t _ F ltac:(lia)) G).
  - intros p q E G P. destruct t as [n|n].
    + unfold averageZ. rewrite (accumulate_ub n l 0%Z p q E P); [reflexivity|]. rewrite Z.add_0_l. exact G.
    + intros NN. unfold averageZ. rewrite <- (Z.mod_0_l (2 ^ n)) at 1 by (apply Z.pow_nonzero; lia). rewrite (accumulate_mod n l 0%Z NN). rewrite Z.add_0_l. cbn [bind]. rewrite (proj2 (Z.eqb_neq _ _)) by lia.
      pose proof (Z.mod_pos_bound (fold_right Z.add 0 l)%Z (2 ^ n)%Z ltac:(apply Z.pow_pos_nonneg; lia)) as B. rewrite Z.quot_div_nonneg by lia. apply arith_fits. apply fits_spec. cbn [type_min type_max].
      split; [apply Z.div_pos; lia|]. apply Z.le_trans with (fold_right Z.add 0 l mod 2 ^ n)%Z; [|lia]. apply Z.div_le_upper_bound; [lia|]. nia.
Qed.
Print Assumptions C71_average_int.
Theorem C71_average_nothing_refuted : forall t, averageZ t [] = UB.
Proof. reflexivity. Qed.
Print Assumptions C71_average_nothing_refuted.

(* the mean of the count smallest elements, with zeros if there are too few *)
Theorem C71_top_average : forall l count, (0 < count -> exists s, Smallest l s /\ length s = Nat.min count (length l) /\ top_average l count = Ok (total s / INR count)%R) /\
  (count = 0 -> top_average l count = UB).
Proof.
  intros l count. split.
  - intros P. exists (firstn count (std_sort Rleb l)). split; [apply firstn_smallest|]. split; [rewrite firstn_length, sort_length; reflexivity|]. unfold top_average. rewrite averageR_ok.
    + rewrite psc_length, psc_total. reflexivity.
    + intros C. apply (f_equal (@length R)) in C. rewrite psc_length in C. cbn in C. lia.
  - intros ->. unfold top_average, partial_sort_copy. cbn [repeat length]. rewrite Nat.min_0_r. apply C71_average.
Qed.
Print Assumptions C71_top_average.

(* no other count elements have a lower mean, and often others have a higher one *)
Theorem C71_top_average_least : forall l count t rest m, 0 < count -> Permutation l (t ++ rest) -> length t = count -> top_average l count = Ok m -> (m <= total t / INR count)%R.
Proof.
  intros l count t rest m P Q L E. destruct (C71_top_average l count) as [T _]. destruct (T P) as (s & S & LS & E'). assert (m = total s / INR count)%R by congruence. subst m.
  apply Rmult_le_compat_r; [left; apply Rinv_0_lt_compat, lt_0_INR; exact P|]. apply (smallest_least l s t rest S Q). rewrite LS. rewrite (Permutation_length Q), app_length. lia.
Qed.
Print Assumptions C71_top_average_least.

Theorem C71_top_average_refuted : (exists s, Smallest [1; 2; 9]%R s /\ s = [1; 2]%R) /\ top_average [9; 1; 2]%R 2 = Ok (3 / 2)%R /\ top_average [6]%R 3 = Ok 2%R.
Proof.
  assert (A : std_sort Rleb [9; 1; 2]%R = [1; 2; 9]%R). { apply sortR_eq; [change [9; 1; 2]%R with ([9]%R ++ [1; 2]%R); apply (Permutation_app_comm [9]%R)|]. intros i j x y L I J. destruct i as [|[|[|i]]], j as [|[|[|j]]]; cbn in *; try lia; try discriminate; inversion I; inversion J; subst; try lra; try (destruct j; discriminate); try (destruct i; discriminate). }
  split; [|split].
  - exists [1; 2]%R. split; [|reflexivity]. exists [9]%R. split; [reflexivity|]. intros x y [<-|[<-|[]]] [<-|[]]; lra.
  - unfold top_average. rewrite averageR_ok; [|intros C; apply (f_equal (@length R)) in C; rewrite psc_length in C; discriminate]. rewrite psc_length, psc_total, A. unfold total. cbn. f_equal. field.
  - unfold top_average. rewrite averageR_ok; [|intros C; apply (f_equal (@length R)) in C; rewrite psc_length in C; discriminate]. rewrite psc_length, psc_total. unfold total. cbn. f_equal. field.
Qed.
Print Assumptions C71_top_average_refuted.

(* what std::sort promises for a comparison that is a strict weak order of the
   elements at hand *)
Definition SortContract (sort : (nat -> nat -> bool) -> list nat -> list nat) : Prop :=
  forall cmp l, (forall i j, In i l -> In j l -> cmp i j = true -> cmp j i = false) ->
    (forall i j k, In i l -> In j l -> In k l -> cmp i j = false -> cmp j k = false -> cmp i k = false) ->
    Permutation l (sort cmp l) /\ Ordered (fun i j => cmp j i = false) (sort cmp l).

(* sort_indices gives the indices of the elements in order *)
Theorem C71_sort_indices : forall sort cont, SortContract sort ->
  Permutation (seq 0 (length cont)) (sort_indices sort Rltb cont) /\ map (fun i => nth i cont 0%R) (sort_indices sort Rltb cont) = sorted_copy Rleb cont.
Proof.
  intros sort cont SC. unfold sort_indices. set (cmp := fun i j : nat => match nth_error cont i with Some a => match nth_error cont j with Some b => Rltb a b | None => false end | None => false end).
  assert (C : forall i j, i < length cont -> j < length cont -> cmp i j = Rltb (nth i cont 0%R) (nth j cont 0%R)).
  { intros i j I J. unfold cmp. rewrite (nth_error_nth' cont 0%R I), (nth_error_nth' cont 0%R J). reflexivity. }
  destruct (SC cmp (seq 0 (length cont))) as [P O].
  - intros i j I J. apply in_seq in I, J. rewrite !C by lia. unfold Rltb. destruct (Rlt_dec (nth i cont 0%R) (nth j cont 0%R)), (Rlt_dec (nth j cont 0%R) (nth i cont 0%R)); try reflexivity; try discriminate. lra.
  - intros i j k I J K. apply in_seq in I, J, K. rewrite !C by lia. unfold Rltb.
    destruct (Rlt_dec (nth i cont 0%R) (nth j cont 0%R)), (Rlt_dec (nth j cont 0%R) (nth k cont 0%R)), (Rlt_dec (nth i cont 0%R) (nth k cont 0%R)); try reflexivity; try discriminate. lra.
  - split; [exact P|]. symmetry. apply sortR_eq.
    + rewrite <- (Permutation_map _ P). assert (E : map (fun i => nth i cont 0%R) (seq 0 (length cont)) = cont); [|rewrite E; reflexivity].
      clear. induction cont as [|x l IH]; [reflexivity|]. cbn [length seq map nth]. f_equal. rewrite <- seq_shift, map_map. exact IH.
    + intros i j x y L I J. rewrite nth_error_map in I, J. destruct (nth_error (sort cmp (seq 0 (length cont))) i) as [a|] eqn:EI; [|discriminate]. destruct (nth_error (sort cmp (seq 0 (length cont))) j) as [b|] eqn:EJ; [|discriminate].
      cbn in I, J. inversion I; inversion J; subst. pose proof (O i j a b L EI EJ) as H. cbn beta in H.
      apply nth_error_In in EI, EJ. apply (Permutation_in _ (Permutation_sym P)) in EI, EJ. apply in_seq in EI, EJ. rewrite C in H by lia. unfold Rltb in H. destruct (Rlt_dec (nth b cont 0%R) (nth a cont 0%R)); [discriminate|]. lra.
Qed.
Print Assumptions C71_sort_indices.

(* equal elements may come in any order *)
Theorem C71_sort_indices_stable_refuted : exists sort1 sort2, SortContract sort1 /\ SortContract sort2 /\
  sort_indices sort1 Z.ltb [5; 5]%Z = [0; 1] /\ sort_indices sort2 Z.ltb [5; 5]%Z = [1; 0].
Proof.
  assert (K : forall pre : list nat -> list nat, (forall l, Permutation l (pre l)) -> SortContract (fun cmp l => std_sort (fun i j => negb (cmp j i)) (pre l))).
  { intros pre PP cmp l AS NT. split; [rewrite (PP l) at 1; apply sort_perm|].
    assert (S : StronglySorted (fun i j => negb (cmp j i) = true) (std_sort (fun i j => negb (cmp j i)) (pre l))).
    { apply (sort_sorted_on (fun i => In i l)).
      - intros i j I J. destruct (cmp j i) eqn:E; [right; rewrite (AS j i J I E)|left]; reflexivity.
      - intros i j k I J L A B. rewrite negb_true_iff in *. apply (NT k j i); assumption.
      - apply Forall_forall. intros i I. eapply Permutation_in; [apply Permutation_sym, PP|exact I]. }
    apply sorted_ordered in S. intros i j x y L I J. specialize (S i j x y L I J). cbn beta in S. rewrite negb_true_iff in S. exact S. }
  exists (fun cmp l => std_sort (fun i j => negb (cmp j i)) l), (fun cmp l => std_sort (fun i j => negb (cmp j i)) (rev l)).
  split; [apply (K (fun l => l)); intros; reflexivity|]. split; [apply (K (@rev nat)); intros; apply Permutation_rev|]. split; reflexivity.
Qed.
Print Assumptions C71_sort_indices_stable_refuted.

(* find_index: the first element equal to the value, or no_index *)
Theorem C71_find_index : forall A (eqb : A -> A -> bool) vec val,
  (exists i x, find_index eqb vec val = Z.of_nat i /\ nth_error vec i = Some x /\ eqb x val = true /\ forall j y, j < i -> nth_error vec j = Some y -> eqb y val = false) \/
  (find_index eqb vec val = no_index /\ forall y, In y vec -> eqb y val = false).
Proof.
  intros A eqb vec val. unfold find_index. destruct (std_find_if_spec (fun x => eqb x val) vec 0) as [(i & x & E & N & P & F)|(E & F)].
  - left. exists i, x. rewrite E. cbn [Nat.add]. assert (L : i < length vec) by (apply nth_error_Some; congruence). rewrite (proj2 (Nat.eqb_neq i (length vec))) by lia. auto.
  - right. rewrite E. cbn [Nat.add]. rewrite Nat.eqb_refl. auto.
Qed.
Print Assumptions C71_find_index.

Theorem C71_find_if : forall A (p : A -> bool) l,
  (exists x, nth_error l (find_if p l) = Some x /\ p x = true /\ forall j y, j < find_if p l -> nth_error l j = Some y -> p y = false) \/
  (find_if p l = length l /\ forall y, In y l -> p y = false).
Proof.
  intros A p l. unfold find_if. destruct (std_find_if_spec p l 0) as [(i & x & E & N & P & F)|(E & F)].
  - left. exists x. rewrite E. auto.
  - right. auto.
Qed.
Print Assumptions C71_find_if.

Theorem C71_back_index : forall A (vec : list A), (back_index vec = Throw <-> vec = []) /\ forall l x, vec = l ++ [x] -> back_index vec = Ok (length l).
Proof.
  intros A vec. unfold back_index, assert_. split.
  - destruct vec; cbn; split; try discriminate; reflexivity.
  - intros l x ->. rewrite app_length. cbn [length]. rewrite (proj2 (Nat.ltb_lt _ _)) by lia. cbn [bind]. f_equal. lia.
Qed.
Print Assumptions C71_back_index.

(* min_element and max_element: the first of the least and of the greatest *)
Theorem C71_min_max : forall l, l <> [] ->
  (exists z, nth_error l (min_element Rltb l) = Some z /\ (forall y, In y l -> z <= y)%R /\ (forall j y, j < min_element Rltb l -> nth_error l j = Some y -> (z < y)%R)) /\
  (exists z, nth_error l (max_element Rltb l) = Some z /\ (forall y, In y l -> y <= z)%R /\ (forall j y, j < max_element Rltb l -> nth_error l j = Some y -> (y < z)%R)).
Proof.
  assert (B : forall x y, Rltb x y = true <-> (x < y)%R) by (intros x y; unfold Rltb; destruct (Rlt_dec x y); split; intros; try assumption; try reflexivity; try discriminate; contradiction).
  assert (B' : forall x y, Rltb x y = false <-> (y <= x)%R) by (intros x y; unfold Rltb; destruct (Rlt_dec x y); split; intros; try reflexivity; try discriminate; lra).
  intros [|x l] N; [congruence|]. clear N. split.
  - cbn [min_element]. destruct (best_spec Rltb) with (l := l) (pre := [x]) (x := x) (at_ := 0) as (z & E & M & F); try reflexivity.
    + intros a b c. rewrite !B'. lra.
    + intros a b. rewrite B, B'. lra.
    + intros y [<-|[]]. apply B'. lra.
    + intros j y L. lia.
    + exists z. cbn [length app] in *. split; [exact E|]. split; [intros y I; apply B', M, I|]. intros j y L J. apply B. eapply F; eauto.
  - cbn [max_element]. destruct (best_spec (fun y m => Rltb m y)) with (l := l) (pre := [x]) (x := x) (at_ := 0) as (z & E & M & F); try reflexivity.
    + intros a b c. rewrite !B'. lra.
    + intros a b. rewrite B, B'. lra.
    + intros y [<-|[]]. apply B'. lra.
    + intros j y L. lia.
    + exists z. cbn [length app] in *. split; [exact E|]. split; [intros y I; apply B'; apply (M y I)|]. intros j y L J. apply B. apply (F j y L J).
Qed.
Print Assumptions C71_min_max.

(* a view shows exactly the elements that match, in order, and never fails *)
Theorem C71_view : forall A (l : list A) p, view_all l p = Ok (filter p l).
Proof. intros. apply view_all_filter. Qed.
Print Assumptions C71_view.

Theorem C71_select : forall p key, exists q, pn_select p key = (q, Ok (filter (fun kvp => str_eqb (fst kvp) key) (pn_children p))) /\ pn_children q = pn_children p /\ pn_value q = pn_value p /\ pn_accessed q = true.
Proof. intros p key. eexists. unfold pn_select. rewrite view_all_filter. split; [reflexivity|]. repeat split. Qed.
Print Assumptions C71_select.

(* the elements printed are separated by tabs, so integers can be read back *)
Theorem C71_print : forall zs, Forall (fun z => - 2 ^ 63 <= z < 2 ^ 63)%Z zs -> str_to_vec Tlong (print_vector (map dec zs)) None default_delimiters = Ok (map Vnum zs).
Proof.
  assert (PR : forall z, (- 2 ^ 63 <= z < 2 ^ 63)%Z -> printable z) by (intros z H; unfold printable; lia).
  assert (HEAD : forall zs t, Forall (fun z => - 2 ^ 63 <= z < 2 ^ 63)%Z zs -> zs <> [] -> forall c r, print_vector (map dec zs) ++ t = c :: r -> ~ In c default_delimiters).
  { intros zs t L N c r E. destruct L as [|z zs Z L]; [congruence|]. destruct (dec_head z (PR z Z)) as (d & ds & D & ND). cbn [map print_vector] in E. rewrite D in E. cbn in E. inversion E; subst. exact ND. }
  assert (EL : forall zs, Forall (fun z => - 2 ^ 63 <= z < 2 ^ 63)%Z zs -> zs <> [] -> Elements default_delimiters Long (print_vector (map dec zs)) (map Num zs)).
  { intros zs L. induction L as [|z zs Z L IH]; intros N; [congruence|]. destruct zs as [|y zs].
    - cbn [map print_vector print_rest]. eapply Els_some with (l := ["010"%char]) (r := []).
      + eapply El_long; [apply dec_leads; [apply PR; exact Z|]|apply nearest_self; lia]. cbn. intros H. absurd_digit H.
      + reflexivity.
      + repeat constructor; cbn; tauto.
      + discriminate.
      + apply Els_none; intros v t; apply no_element_nil.
    - change (print_vector (map dec (z :: y :: zs))) with (dec z ++ "009"%char :: print_vector (map dec (y :: zs))). cbn [map]. eapply Els_some with (l := ["009"%char]).
      + eapply El_long; [apply dec_leads; [apply PR; exact Z|]|apply nearest_self; lia]. cbn. intros H. absurd_digit H.
      + reflexivity.
      + repeat constructor; cbn; tauto.
      + intros c r E. apply (HEAD (y :: zs) []) with (r := r); [exact L|discriminate|]. rewrite app_nil_r. exact E.
      + apply IH. discriminate. }
  assert (NN : forall zs, Forall (fun z => - 2 ^ 63 <= z < 2 ^ 63)%Z zs -> cstr (print_vector (map dec zs)) = print_vector (map dec zs)).
  { assert (A : forall a b, cstr a = a -> cstr b = b -> cstr (a ++ b) = a ++ b).
    { induction a as [|c a IH]; intros b Ha Hb; [exact Hb|]. cbn [cstr app] in *. destruct (Ascii.eqb c NUL); [discriminate|]. injection Ha as Ha. rewrite IH by assumption. reflexivity. }
    assert (R : forall zs, Forall (fun z => - 2 ^ 63 <= z < 2 ^ 63)%Z zs -> cstr (print_rest (map dec zs)) = print_rest (map dec zs)).
    { intros zs L. induction L as [|z zs Z L IH]; [reflexivity|]. cbn [map print_rest]. apply (A ["009"%char]); [reflexivity|]. apply A; [apply dec_nonul, PR; exact Z|exact IH]. }
    intros zs L. destruct L as [|z zs Z L]; [reflexivity|]. cbn [map print_vector]. apply A; [apply dec_nonul, PR; exact Z|apply R; exact L]. }
  intros zs L. destruct (str_to_vec_spec Tlong (print_vector (map dec zs)) None default_delimiters) as (l & r & vs & E & O & H & HE & ->). rewrite NN in E by exact L.
  destruct zs as [|z zs].
  - cbn in E. assert (R0 : r = []). { destruct l as [|c l]; cbn in E; [subst r; exfalso; apply (H "010"%char [] eq_refl); cbn; tauto|]. inversion E as [[A B]]. symmetry in B. apply app_eq_nil in B. apply B. }
    subst r. pose proof (Elements_fun _ _ _ _ HE [] (Els_none _ _ _ (fun v t => no_element_nil _ v t))) as X. destruct vs; [reflexivity|discriminate].
  - destruct (drop_unique default_delimiters [] (print_vector (map dec (z :: zs))) l r E ltac:(constructor) O) as [<- <-]; [|exact H|].
    + intros c r' Q. apply (HEAD (z :: zs) []) with (r := r'); [exact L|discriminate|]. rewrite app_nil_r. exact Q.
    + pose proof (Elements_fun _ _ _ _ HE _ (EL (z :: zs) L ltac:(discriminate))) as X. apply map_tv_num in X. subst. reflexivity.
Qed.
Print Assumptions C71_print.

Example C71_nonvacuous : medianZ (Signed 32) [7; 1; 3]%Z = Ok 3%Z /\ find_index Z.eqb [4; 6; 6]%Z 6%Z = 1%Z /\ view_all [1; 2; 3; 4]%Z Z.even = Ok [2; 4]%Z /\
  min_element Z.ltb [3; 1; 2; 1]%Z = 1 /\ max_element Z.ltb [3; 1; 3]%Z = 0 /\ medianR [5; 2]%R = Ok ((2 + 5) / 2)%R.
Proof.
  repeat split. apply C71_median. exists [2; 5]%R. split; [constructor|]. split.
  - intros i j x y L I J. destruct i as [|[|i]], j as [|[|j]]; cbn in *; try lia; try discriminate; inversion I; inversion J; subst; try lra; try (destruct j; discriminate); try (destruct i; discriminate).
  - apply (MEven _ _ [] [] 2%R 5%R); reflexivity.
Qed.
