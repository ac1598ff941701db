(* Proofs about the container tools. *)
From Coq Require Import Reals ZArith List Lia Lra Permutation Bool Sorted.
From Verif Require Import Model.Base Model.Math Model.Regression Model.Range Model.Containers Spec.Average Spec.Containers Proofs.BaseFacts Proofs.AverageProofs.
Import ListNotations.
Local Open Scope nat_scope.

(* sorting *)
Section Sort.
Context {A : Type} (leb : A -> A -> bool) (le : A -> A -> Prop).
Hypothesis leb_le : forall x y, leb x y = true <-> le x y.
Hypothesis le_total : forall x y, le x y \/ le y x.
Hypothesis le_trans : forall x y z, le x y -> le y z -> le x z.
Hypothesis le_antisym : forall x y, le x y -> le y x -> x = y.

Lemma insert_perm x l : Permutation (x :: l) (insert leb x l).
Proof. induction l as [|y l IH]; cbn; [constructor; constructor|]. destruct (leb x y); [reflexivity|]. rewrite perm_swap. constructor. exact IH. Qed.
Lemma sort_perm l : Permutation l (std_sort leb l).
Proof. unfold std_sort. induction l as [|x l IH]; cbn; [constructor|]. rewrite <- insert_perm. constructor. exact IH. Qed.
Lemma insert_sorted x l : StronglySorted le l -> StronglySorted le (insert leb x l).
Proof.
  induction 1 as [|y l S IH F]; cbn; [repeat constructor|]. destruct (leb x y) eqn:E.
  - apply leb_le in E. constructor; [constructor; assumption|]. constructor; [exact E|]. eapply Forall_impl; [|exact F]. intros z. apply le_trans. exact E.
  - constructor; [exact IH|]. assert (Y : le y x). { destruct (le_total x y) as [H|H]; [apply leb_le in H; congruence|exact H]. }
    apply Forall_forall. intros z Z. apply (Permutation_in _ (Permutation_sym (insert_perm x l))) in Z. destruct Z as [<-|Z]; [exact Y|]. rewrite Forall_forall in F. apply F. exact Z.
Qed.
Lemma sort_sorted l : StronglySorted le (std_sort leb l).
Proof. unfold std_sort. induction l as [|x l IH]; cbn; [constructor|]. apply insert_sorted. exact IH. Qed.
Lemma sorted_ordered l : StronglySorted le l <-> Ordered le l.
Proof.
  split.
  - induction 1 as [|x l S IH F]; intros i j a b L I J; [destruct i; discriminate|]. destruct j as [|j]; [lia|]. destruct i as [|i]; cbn in *.
    + inversion I; subst. rewrite Forall_forall in F. apply F. eapply nth_error_In; eauto.
    + apply (IH i j); [lia|assumption|assumption].
  - induction l as [|x l IH]; intros O; [constructor|]. constructor.
    + apply IH. intros i j a b L I J. apply (O (S i) (S j)); [lia|exact I|exact J].
    + apply Forall_forall. intros y Y. apply In_nth_error in Y. destruct Y as (n & N). apply (O 0 (S n)); [lia|reflexivity|exact N].
Qed.
Lemma sorted_unique l m : StronglySorted le l -> StronglySorted le m -> Permutation l m -> l = m.
Proof.
  intros L. revert m. induction L as [|x l L IH F]; intros m M P; [apply Permutation_nil in P; symmetry; exact P|].
  destruct M as [|y m M G]; [apply Permutation_sym, Permutation_nil in P; discriminate|]. assert (E : x = y).
  { assert (X : In x (y :: m)) by (eapply Permutation_in; [exact P|left; reflexivity]). assert (Y : In y (x :: l)) by (eapply Permutation_in; [apply Permutation_sym; exact P|left; reflexivity]).
    destruct X as [X|X]; [congruence|]. destruct Y as [Y|Y]; [congruence|]. rewrite Forall_forall in F, G. apply le_antisym; [apply F|apply G]; assumption. }
  subst y. f_equal. apply IH; [exact M|]. eapply Permutation_cons_inv; exact P.
Qed.
Lemma sort_eq l s : Permutation l s -> Ordered le s -> std_sort leb l = s.
Proof.
  intros P O. apply sorted_unique; [apply sort_sorted|apply sorted_ordered; exact O|]. rewrite <- P. symmetry. apply sort_perm.
Qed.
Lemma sort_ordered l : Ordered le (std_sort leb l).
Proof. apply sorted_ordered, sort_sorted. Qed.
End Sort.

Lemma Rleb_le x y : Rleb x y = true <-> (x <= y)%R.
Proof. unfold Rleb. destruct (Rle_dec x y); split; intros; try reflexivity; try assumption; try discriminate; contradiction. Qed.
Lemma Rle_tot x y : (x <= y \/ y <= x)%R.
Proof. lra. Qed.
Lemma Zle_tot x y : (x <= y \/ y <= x)%Z.
Proof. lia. Qed.
Lemma sortR_eq l s : Permutation l s -> Ordered Rle s -> std_sort Rleb l = s.
Proof. apply (sort_eq Rleb Rle Rleb_le Rle_tot Rle_trans Rle_antisym). Qed.
Lemma sortR_ordered l : Ordered Rle (std_sort Rleb l).
Proof. apply (sort_ordered Rleb Rle Rleb_le Rle_tot Rle_trans). Qed.
Lemma sortZ_eq l s : Permutation l s -> Ordered Z.le s -> std_sort Z.leb l = s.
Proof. apply (sort_eq Z.leb Z.le Z.leb_le Zle_tot Z.le_trans Z.le_antisymm). Qed.
Lemma sortZ_ordered l : Ordered Z.le (std_sort Z.leb l).
Proof. apply (sort_ordered Z.leb Z.le Z.leb_le Zle_tot Z.le_trans). Qed.
Lemma sort_length {A} leb (l : list A) : length (std_sort leb l) = length l.
Proof. symmetry. apply Permutation_length, sort_perm. Qed.

(* splitting a list in the middle *)
Lemma split_at {A} (l : list A) k : k < length l -> exists a x b, l = a ++ x :: b /\ length a = k.
Proof.
  intros H. exists (firstn k l). destruct (skipn k l) as [|x b] eqn:E.
  - apply (f_equal (@length A)) in E. rewrite skipn_length in E. cbn in E. lia.
  - exists x, b. split; [rewrite <- E; symmetry; apply firstn_skipn|]. rewrite firstn_length. lia.
Qed.
Lemma vget_at {A} (a b : list A) x : vget (a ++ x :: b) (length a) = Ok x.
Proof. unfold vget. rewrite nth_error_app2 by lia. rewrite Nat.sub_diag. reflexivity. Qed.
Lemma odd_middle n : n mod 2 = 1 -> n = n / 2 + 1 + n / 2.
Proof. intros H. pose proof (Nat.div_mod n 2 ltac:(lia)). lia. Qed.
Lemma even_middle n : n mod 2 <> 1 -> n = n / 2 + n / 2.
Proof. intros H. pose proof (Nat.div_mod n 2 ltac:(lia)). pose proof (Nat.mod_upper_bound n 2 ltac:(lia)). lia. Qed.

(* the parts of a list around the middle *)
Lemma middle_cases {A} (s : list A) : s <> [] ->
  (length s mod 2 = 1 /\ exists l x r, s = l ++ x :: r /\ length l = length r /\ length s / 2 = length l) \/
  (length s mod 2 <> 1 /\ exists l a b r, s = l ++ a :: b :: r /\ length l = length r /\ length s / 2 = S (length l)).
Proof.
  intros N. destruct (Nat.eq_dec (length s mod 2) 1) as [E|E].
  - left. split; [exact E|]. pose proof (odd_middle _ E) as H. destruct (split_at s (length s / 2)) as (l & x & r & -> & L); [lia|]. exists l, x, r. split; [reflexivity|].
    rewrite app_length in H. cbn [length] in H. rewrite app_length in L. cbn [length] in L. rewrite app_length. cbn [length]. lia.
  - right. split; [exact E|]. pose proof (even_middle _ E) as H. assert (P : 0 < length s) by (destruct s; [congruence|cbn; lia]).
    destruct (split_at s (length s / 2 - 1)) as (l & a & r & -> & L); [lia|]. destruct r as [|b r].
    + exfalso. rewrite app_length in H, P, L. cbn [length] in H, P, L. lia.
    + exists l, a, b, r. split; [reflexivity|]. rewrite app_length in H, L, P |- *. cbn [length] in H, L, P |- *. lia.
Qed.
Lemma ordered_app {A} (le : A -> A -> Prop) l r : Ordered le (l ++ r) -> Ordered le l /\ Ordered le r /\ forall x y, In x l -> In y r -> le x y.
Proof.
  intros O. repeat split.
  - intros i j x y L I J. apply (O i j); [exact L| |]; rewrite nth_error_app1; try assumption; apply nth_error_Some; congruence.
  - intros i j x y L I J. apply (O (length l + i) (length l + j)); [lia|rewrite nth_error_app2 by lia; replace (length l + i - length l) with i by lia; exact I|rewrite nth_error_app2 by lia; replace (length l + j - length l) with j by lia; exact J].
  - intros x y X Y. apply In_nth_error in X, Y. destruct X as (i & I), Y as (j & J). assert (i < length l) by (apply nth_error_Some; congruence).
    apply (O i (length l + j)); [lia|rewrite nth_error_app1 by assumption; exact I|rewrite nth_error_app2 by lia; replace (length l + j - length l) with j by lia; exact J].
Qed.

(* median *)
Lemma medianR_middle s l m : Permutation l s -> Ordered Rle s -> Middle s m -> medianR l = Ok m.
Proof.
  intros P O M. unfold medianR, sorted_copy. rewrite (sortR_eq l s P O). assert (LE : length l = length s) by (apply Permutation_length; exact P).
  assert (N : s <> []) by (destruct M as [a b -> _|a b x y -> _ _]; destruct a; discriminate).
  assert (Z : 0 < length l) by (rewrite LE; destruct s; [congruence|cbn; lia]). unfold assert_. rewrite (proj2 (Nat.ltb_lt _ _) Z). cbn [bind]. rewrite LE.
  destruct M as [a b -> E|a b x y -> E ->].
  - assert (Q : length (a ++ m :: b) / 2 = length a). { rewrite app_length. cbn [length]. replace (length a + S (length b)) with (1 + length a * 2) by lia. rewrite Nat.div_add by lia. reflexivity. }
    assert (K : length (a ++ m :: b) mod 2 = 1). { rewrite app_length. cbn [length]. replace (length a + S (length b)) with (1 + length a * 2) by lia. rewrite Nat.mod_add by lia. reflexivity. }
    rewrite K, Q, Nat.eqb_refl. apply vget_at.
  - assert (Q : length (a ++ x :: y :: b) / 2 = S (length a)). { rewrite app_length. cbn [length]. replace (length a + S (S (length b))) with ((1 + length a) * 2) by lia. rewrite Nat.div_mul by lia. reflexivity. }
    assert (K : length (a ++ x :: y :: b) mod 2 = 0). { rewrite app_length. cbn [length]. replace (length a + S (S (length b))) with ((1 + length a) * 2) by lia. apply Nat.mod_mul. lia. }
    rewrite K, Q. cbn [Nat.eqb]. replace (a ++ x :: y :: b) with ((a ++ [x]) ++ y :: b) at 1 by (rewrite <- app_assoc; reflexivity).
    replace (S (length a)) with (length (a ++ [x])) at 1 by (rewrite app_length; cbn; lia). rewrite vget_at. cbn [bind]. replace (S (length a) - 1) with (length a) by lia. rewrite vget_at. cbn [bind].
    unfold rdiv. destruct (Req_EM_T 2 0) as [C|C]; [lra|]. f_equal. lra.
Qed.
Lemma middle_exists s : s <> [] -> exists m, Middle s m.
Proof.
  intros N. destruct (middle_cases s N) as [(_ & l & x & r & E & L & _)|(_ & l & a & b & r & E & L & _)].
  - exists x. eapply MOdd; eauto.
  - exists ((a + b) / 2)%R. eapply MEven; eauto.
Qed.
Lemma median_exists l : l <> [] -> exists m, MedianOf l m.
Proof.
  intros N. destruct (middle_exists (std_sort Rleb l)) as (m & M).
  - intros C. apply N. apply Permutation_nil. rewrite <- C. apply Permutation_sym, sort_perm.
  - exists m, (std_sort Rleb l). split; [apply sort_perm|]. split; [apply sortR_ordered|exact M].
Qed.
(* the middle cuts an ordered list in two halves *)
Lemma middle_halves s m : Ordered Rle s -> Middle s m -> exists l c r, s = l ++ c ++ r /\ length l = length r /\ (forall x, In x l -> (x <= m)%R) /\ (forall x, In x r -> (m <= x)%R) /\
  (c = [m] \/ exists a b, c = [a; b] /\ m = ((a + b) / 2)%R /\ (a <= m <= b)%R).
Proof.
  intros O M. destruct M as [l r -> E|l r a b -> E ->].
  - exists l, [m], r. split; [reflexivity|]. split; [exact E|]. destruct (ordered_app Rle l (m :: r) O) as (_ & OR & X). destruct (ordered_app Rle [m] r OR) as (_ & _ & Y).
    split; [intros x I; apply X; [exact I|left; reflexivity]|]. split; [intros x I; apply Y; [left; reflexivity|exact I]|]. left. reflexivity.
  - exists l, [a; b], r. split; [reflexivity|]. split; [exact E|]. destruct (ordered_app Rle l (a :: b :: r) O) as (_ & OR & X). destruct (ordered_app Rle [a] (b :: r) OR) as (_ & OB & Y). destruct (ordered_app Rle [b] r OB) as (_ & _ & Z).
    assert (AB : (a <= b)%R) by (apply Y; left; reflexivity). split.
    + intros x I. assert (x <= a)%R by (apply X; [exact I|left; reflexivity]). lra.
    + split; [|right; exists a, b; split; [reflexivity|split; [reflexivity|lra]]]. intros x I. assert (b <= x)%R by (apply Z; [left; reflexivity|exact I]). lra.
Qed.
Lemma total_le {A} (f g : A -> R) l : (forall x, In x l -> f x <= g x)%R -> (total (map f l) <= total (map g l))%R.
Proof. unfold total. induction l as [|x l IH]; intros H; cbn [map fold_right]; [lra|]. pose proof (H x (or_introl eq_refl)). specialize (IH (fun y I => H y (or_intror I))). lra. Qed.
Lemma deviation_perm l s c : Permutation l s -> deviation l c = deviation s c.
Proof. intros P. unfold deviation. apply total_perm, Permutation_map, P. Qed.
Lemma deviation_app a b c : deviation (a ++ b) c = (deviation a c + deviation b c)%R.
Proof. unfold deviation. rewrite map_app. apply total_app. Qed.
Lemma deviation_least_halves m c : forall l r, length l = length r -> (forall x, In x l -> (x <= m)%R) -> (forall x, In x r -> (m <= x)%R) ->
  (deviation l m + deviation r m <= deviation l c + deviation r c)%R.
Proof.
  unfold deviation, total. induction l as [|x l IH]; intros [|y r] E L R; cbn [map fold_right]; try discriminate; [lra|].
  specialize (IH r ltac:(cbn in E; lia) (fun z I => L z (or_intror I)) (fun z I => R z (or_intror I))). pose proof (L x (or_introl eq_refl)). pose proof (R y (or_introl eq_refl)).
  rewrite (Rabs_left1 (x - m)), (Rabs_right (y - m)) by lra. pose proof (Rle_abs (y - c)). pose proof (Rle_abs (- (x - c))). rewrite Rabs_Ropp in *. lra.
Qed.
Lemma deviation_least s m c : Ordered Rle s -> Middle s m -> (deviation s m <= deviation s c)%R.
Proof.
  intros O M. destruct (middle_halves s m O M) as (l & d & r & -> & E & L & R & D). rewrite !deviation_app. pose proof (deviation_least_halves m c l r E L R) as H.
  assert (K : (deviation d m <= deviation d c)%R).
  { destruct D as [->|(a & b & -> & EM & AB)].
    - unfold deviation, total. cbn. rewrite Rminus_diag_eq, Rabs_R0 by reflexivity. pose proof (Rabs_pos (m - c)). lra.
    - pose proof (deviation_least_halves m c [a] [b] eq_refl) as Q. unfold deviation, total in *. cbn in *. assert (forall x, a = x \/ False -> (x <= m)%R) by (intros x [<-|[]]; lra). assert (forall x, b = x \/ False -> (m <= x)%R) by (intros x [<-|[]]; lra). specialize (Q H0 H1). lra. }
  lra.
Qed.
Lemma filter_none {A} (p : A -> bool) l : (forall x, In x l -> p x = false) -> filter p l = [].
Proof. induction l as [|x l IH]; intros H; [reflexivity|]. cbn. rewrite (H x (or_introl eq_refl)). apply IH. intros y I. apply H. right. exact I. Qed.
Lemma filter_length {A} (p : A -> bool) l : length (filter p l) <= length l.
Proof. induction l as [|x l IH]; cbn; [lia|]. destruct (p x); cbn; lia. Qed.
Lemma filter_perm {A} (p : A -> bool) l s : Permutation l s -> Permutation (filter p l) (filter p s).
Proof.
  induction 1 as [|x l s P IH|x y l|l s t P1 IH1 P2 IH2]; cbn; [constructor| | |eapply Permutation_trans; eauto].
  - destruct (p x); [constructor|]; exact IH.
  - destruct (p x), (p y); try reflexivity. constructor.
Qed.
Lemma middle_counts s m : Ordered Rle s -> Middle s m -> 2 * length (below s m) <= length s /\ 2 * length (above s m) <= length s.
Proof.
  intros O M. destruct (middle_halves s m O M) as (l & d & r & -> & E & L & R & D). unfold below, above. rewrite !filter_app, !app_length.
  rewrite (filter_none _ r) by (intros x I; specialize (R x I); destruct (Rlt_dec x m); [lra|reflexivity]).
  rewrite (filter_none (fun x => if Rlt_dec m x then true else false) l) by (intros x I; specialize (L x I); destruct (Rlt_dec m x); [lra|reflexivity]).
  set (p := fun x => if Rlt_dec x m then true else false). set (q := fun x => if Rlt_dec m x then true else false).
  pose proof (filter_length p l). pose proof (filter_length q r). cbn [length].
  assert (K : length (filter p d) <= length d / 2 /\ length (filter q d) <= length d / 2).
  { destruct D as [->|(a & b & -> & EM & AB)]; cbn [filter length]; unfold p, q.
    - destruct (Rlt_dec m m); [lra|]. cbn. lia.
    - destruct (Rlt_dec b m), (Rlt_dec m a); try lra. destruct (Rlt_dec a m), (Rlt_dec m b); cbn; lia. }
  assert (Q : 2 * (length d / 2) <= length d) by (apply Nat.mul_div_le; lia). lia.
Qed.

(* top_average *)
Lemma total_fold l a : fold_left Rplus l a = (a + total l)%R.
Proof. revert a. unfold total. induction l as [|x l IH]; intros a; cbn; [lra|]. rewrite IH. lra. Qed.
Lemma averageR_ok l : l <> [] -> averageR l = Ok (total l / INR (length l))%R.
Proof.
  intros N. unfold averageR, rdiv. rewrite total_fold. destruct (Req_EM_T (INR (length l)) 0) as [E|E].
  - exfalso. apply N. destruct l; [reflexivity|]. pose proof (lt_0_INR (length (r :: l)) ltac:(cbn; lia)). lra.
  - f_equal. rewrite Rplus_0_l. reflexivity.
Qed.
Lemma firstn_smallest k l : Smallest l (firstn k (std_sort Rleb l)).
Proof.
  exists (skipn k (std_sort Rleb l)). rewrite firstn_skipn. split; [apply sort_perm|]. pose proof (sortR_ordered l) as O. rewrite <- (firstn_skipn k (std_sort Rleb l)) in O.
  destruct (ordered_app Rle _ _ O) as (_ & _ & X). exact X.
Qed.
Lemma total_repeat0 n : total (repeat 0%R n) = 0%R.
Proof. unfold total. induction n as [|n IH]; cbn; [reflexivity|]. rewrite IH. lra. Qed.
Lemma skipn_repeat {A} (x : A) k n : skipn k (repeat x n) = repeat x (n - k).
Proof. revert n. induction k as [|k IH]; intros n; [rewrite Nat.sub_0_r; reflexivity|]. destruct n as [|n]; [reflexivity|]. cbn. apply IH. Qed.
Lemma psc_length l n : length (partial_sort_copy Rleb l (repeat 0%R n)) = n.
Proof. unfold partial_sort_copy. rewrite app_length, firstn_length, sort_length, skipn_length, repeat_length. lia. Qed.
Lemma psc_total l n : total (partial_sort_copy Rleb l (repeat 0%R n)) = total (firstn n (std_sort Rleb l)).
Proof.
  unfold partial_sort_copy. rewrite total_app, skipn_repeat, total_repeat0, repeat_length, Rplus_0_r. f_equal.
  destruct (Nat.le_ge_cases n (length l)) as [H|H]; [rewrite Nat.min_r by exact H; reflexivity|]. rewrite Nat.min_l by exact H. rewrite !firstn_all2; rewrite ?sort_length; try lia. reflexivity.
Qed.
(* the k smallest have the least sum *)
Lemma in_app_perm_total (s t rest : list R) : Permutation s t -> total s = total t.
Proof. apply total_perm. Qed.

(* finding *)
Lemma std_find_if_spec {A} (p : A -> bool) l : forall k, (exists i x, std_find_if p l k = k + i /\ nth_error l i = Some x /\ p x = true /\ forall j y, j < i -> nth_error l j = Some y -> p y = false) \/
  (std_find_if p l k = k + length l /\ forall y, In y l -> p y = false).
Proof.
  induction l as [|x l IH]; intros k; cbn [std_find_if length].
  - right. split; [lia|]. intros y [].
  - destruct (p x) eqn:E.
    + left. exists 0, x. split; [lia|]. repeat split; [exact E|]. intros j y L. lia.
    + destruct (IH (S k)) as [(i & a & Q & N & P & F)|(Q & F)].
      * left. exists (S i), a. split; [lia|]. split; [exact N|]. split; [exact P|]. intros [|j] y L J; [cbn in J; congruence|]. apply (F j); [lia|exact J].
      * right. split; [lia|]. intros y [<-|I]; [exact E|apply F; exact I].
Qed.

(* the best element: invariant over a prefix *)
Lemma best_spec {A} (better : A -> A -> bool) (total_ : forall x y z, better y x = false -> better z y = false -> better z x = false) (asym : forall x y, better y x = true -> better x y = false) :
  forall l pre x at_, nth_error pre at_ = Some x -> (forall y, In y pre -> better y x = false) -> (forall j y, j < at_ -> nth_error pre j = Some y -> better x y = true) ->
  exists z, nth_error (pre ++ l) (best better x at_ l (length pre)) = Some z /\ (forall y, In y (pre ++ l) -> better y z = false) /\
    (forall j y, j < best better x at_ l (length pre) -> nth_error (pre ++ l) j = Some y -> better z y = true).
Proof.
  induction l as [|y l IH]; intros pre x a X M F; cbn [best].
  - rewrite app_nil_r. exists x. auto.
  - replace (pre ++ y :: l) with ((pre ++ [y]) ++ l) by (rewrite <- app_assoc; reflexivity). replace (S (length pre)) with (length (pre ++ [y])) by (rewrite app_length; cbn; lia).
    destruct (better y x) eqn:E.
    + apply IH.
      * rewrite nth_error_app2, Nat.sub_diag by lia. reflexivity.
      * intros z Z. apply in_app_or in Z. destruct Z as [Z|[<-|[]]].
        -- apply (total_ y x z); [apply asym; exact E|apply M; exact Z].
        -- destruct (better y y) eqn:Q; [apply asym in Q as Q'; congruence|reflexivity].
      * intros j z L Z. rewrite nth_error_app1 in Z by lia. destruct (better y z) eqn:Q; [reflexivity|]. exfalso.
        pose proof (total_ x z y (M z (nth_error_In _ _ Z)) Q). congruence.
    + apply IH.
      * rewrite nth_error_app1; [exact X|]. apply nth_error_Some. congruence.
      * intros z Z. apply in_app_or in Z. destruct Z as [Z|[<-|[]]]; [apply M; exact Z|exact E].
      * intros j z L Z. apply (F j); [exact L|]. rewrite nth_error_app1 in Z; [exact Z|]. assert (a < length pre) by (apply nth_error_Some; congruence). lia.
Qed.

(* views *)
Lemma next_match_spec {A} (l : list A) p : forall pre suf fuel, l = pre ++ suf -> length suf < fuel ->
  exists skipped suf', suf = skipped ++ suf' /\ (forall x, In x skipped -> p x = false) /\ (forall x r, suf' = x :: r -> p x = true) /\ next_match fuel l p (length pre) = Ok (length (pre ++ skipped)).
Proof.
  intros pre suf. revert pre. induction suf as [|x suf IH]; intros pre fuel E L; (destruct fuel as [|fuel]; [cbn in L; lia|]); cbn [next_match].
  - exists [], []. rewrite E, !app_nil_r, Nat.eqb_refl. repeat split; [intros x []|discriminate].
  - assert (Q : (length pre =? length l) = false) by (apply Nat.eqb_neq; rewrite E, app_length; cbn; lia). rewrite Q. assert (G : vget l (length pre) = Ok x) by (rewrite E; apply vget_at). rewrite G. cbn [bind]. destruct (p x) eqn:P.
    + exists [], (x :: suf). rewrite app_nil_r. repeat split; [intros y []|]. intros y r H. congruence.
    + destruct (IH (pre ++ [x]) fuel) as (sk & suf' & S & N & H & M); [rewrite <- app_assoc; exact E|cbn in L; lia|]. exists (x :: sk), suf'. split; [cbn; f_equal; exact S|]. split; [intros y [<-|I]; [exact P|apply N; exact I]|]. split; [exact H|].
      replace (Datatypes.S (length pre)) with (length (pre ++ [x])) by (rewrite app_length; cbn; lia). rewrite M. rewrite <- app_assoc. reflexivity.
Qed.
Lemma filter_skip {A} (p : A -> bool) sk l : (forall x, In x sk -> p x = false) -> filter p (sk ++ l) = filter p l.
Proof. intros H. rewrite filter_app, filter_none by exact H. reflexivity. Qed.
Lemma view_loop_spec {A} (l : list A) p : forall n suf pre fuel, length suf <= n -> l = pre ++ suf -> (forall x r, suf = x :: r -> p x = true) -> length suf < fuel -> view_loop fuel l p (length pre) (length l) = Ok (filter p suf).
Proof.
  induction n as [|n IH]; intros suf pre fuel B E H L; (destruct fuel as [|fuel]; [lia|]); cbn [view_loop].
  - destruct suf; [|cbn in B; lia]. rewrite app_nil_r in E. subst. rewrite Nat.eqb_refl. reflexivity.
  - destruct suf as [|x suf]; [rewrite app_nil_r in E; subst; rewrite Nat.eqb_refl; reflexivity|].
    assert (Q : (length pre =? length l) = false) by (apply Nat.eqb_neq; rewrite E, app_length; cbn; lia). rewrite Q. assert (G : vget l (length pre) = Ok x) by (rewrite E; apply vget_at). rewrite G. cbn [bind]. unfold view_next.
    replace (S (length pre)) with (length (pre ++ [x])) by (rewrite app_length; cbn; lia). destruct (next_match_spec l p (pre ++ [x]) suf (S (length l))) as (sk & suf' & S & N & M & R).
    + rewrite <- app_assoc. exact E.
    + rewrite E, app_length. cbn. lia.
    + rewrite R. cbn [bind]. rewrite (IH suf' ((pre ++ [x]) ++ sk)).
      * cbn [bind filter]. rewrite (H x suf eq_refl). rewrite S, filter_skip by exact N. reflexivity.
      * cbn in B. rewrite S, app_length in B. lia.
      * rewrite E, S. rewrite <- !app_assoc. reflexivity.
      * exact M.
      * cbn in L. rewrite S, app_length in L. lia.
Qed.
Lemma view_all_filter {A} (l : list A) p : view_all l p = Ok (filter p l).
Proof.
  unfold view_all, view_begin, view_end. destruct (next_match_spec l p [] l (S (length l)) eq_refl ltac:(lia)) as (sk & suf & SE & N & M & R). cbn [length app] in R. rewrite R. cbn [bind].
  destruct (next_match_spec l p l [] (Datatypes.S (length l))) as (sk2 & suf2 & S2 & _ & _ & R2); [symmetry; apply app_nil_r|cbn; lia|]. symmetry in S2. apply app_eq_nil in S2. destruct S2 as [-> ->]. rewrite app_nil_r in R2. rewrite R2. cbn [bind].
  assert (FE : filter p l = filter p suf) by (rewrite SE; apply filter_skip; exact N). rewrite FE. apply (view_loop_spec l p (length suf)); [lia|exact SE|exact M|]. rewrite SE, app_length. lia.
Qed.

(* the sum of the smallest elements is the least *)
Lemma smallest_least l s t rest : Smallest l s -> Permutation l (t ++ rest) -> length s = length t -> (total s <= total t)%R.
Proof.
  intros (r & P & SM) Q E. destruct s as [|x0 s0]; [destruct t; [cbn; lra|discriminate]|]. set (s := x0 :: s0) in *.
  assert (C : exists c, (forall x, In x s -> x <= c)%R /\ (forall y, In y r -> c <= y)%R).
  { assert (MX : forall z : list R, z <> [] -> exists c, In c z /\ forall x, In x z -> (x <= c)%R).
    { induction z as [|a z IH]; intros N; [congruence|]. destruct z as [|b z]; [exists a; split; [left; reflexivity|intros x [<-|[]]; lra]|]. destruct (IH ltac:(discriminate)) as (c & C & B).
      destruct (Rle_dec a c) as [L|L]; [exists c|exists a]; (split; [|intros x [<-|I]; [lra|specialize (B x I); lra]]); [right; exact C|left; reflexivity]. }
    destruct (MX s ltac:(discriminate)) as (c & C & B). exists c. split; [exact B|]. intros y Y. apply SM; assumption. }
  destruct C as (c & CS & CR). set (g := fun x => Rmin (x - c) 0).
  assert (G : total (map g l) = total (map g s)).
  { rewrite (total_perm _ _ (Permutation_map g P)), map_app, total_app. assert (Z : total (map g r) = 0%R).
    { clear -CR. unfold total. induction r as [|y r IH]; [reflexivity|]. cbn [map fold_right]. rewrite IH by (intros z I; apply CR; right; exact I). unfold g. rewrite Rmin_right by (specialize (CR y (or_introl eq_refl)); lra). lra. }
    lra. }
  assert (G2 : (total (map g l) <= total (map g t))%R).
  { rewrite (total_perm _ _ (Permutation_map g Q)), map_app, total_app. assert (Z : (total (map g rest) <= 0)%R).
    { clear. unfold total. induction rest as [|y r IH]; cbn [map fold_right]; [lra|]. pose proof (Rmin_r (y - c) 0). unfold g at 1. lra. }
    lra. }
  assert (SUB : forall z, total (map (fun x => x - c)%R z) = (total z - INR (length z) * c)%R).
  { unfold total. induction z as [|y z IH]; [cbn; lra|]. cbn [map fold_right length]. rewrite IH, S_INR. lra. }
  assert (GS : total (map g s) = total (map (fun x => x - c)%R s)).
  { clear -CS. clearbody s. unfold total. induction s as [|y z IH]; [reflexivity|]. cbn [map fold_right]. rewrite IH by (intros w I; apply CS; right; exact I). unfold g. rewrite Rmin_left by (specialize (CS y (or_introl eq_refl)); lra). reflexivity. }
  assert (GT : (total (map g t) <= total (map (fun x => x - c)%R t))%R) by (apply total_le; intros x _; apply Rmin_l).
  rewrite SUB in GS, GT. rewrite E in GS. lra.
Qed.
Lemma total_map_affine a b l : total (map (fun x => a * x + b)%R l) = (a * total l + INR (length l) * b)%R.
Proof. unfold total. induction l as [|x l IH]; [cbn; lra|]. cbn [map fold_right length]. rewrite IH, S_INR. lra. Qed.
Lemma ordered_map {A} (le : A -> A -> Prop) (f : A -> A) l : (forall x y, le x y -> le (f x) (f y)) -> Ordered le l -> Ordered le (map f l).
Proof.
  intros F O i j x y L I J. rewrite nth_error_map in I, J. destruct (nth_error l i) as [a|] eqn:EI; [|discriminate]. destruct (nth_error l j) as [b|] eqn:EJ; [|discriminate].
  cbn in I, J. inversion I; inversion J; subst. apply F. apply (O i j); assumption.
Qed.
Lemma nth_error_rev {A} (l : list A) i x : nth_error (rev l) i = Some x -> nth_error l (length l - 1 - i) = Some x /\ i < length l.
Proof.
  intros H. assert (L : i < length l) by (rewrite <- rev_length; apply nth_error_Some; congruence). split; [|exact L].
  pose proof (rev_nth l x L) as Q. replace (length l - S i) with (length l - 1 - i) in Q by lia. apply (nth_error_nth _ _ x) in H. rewrite <- H, Q. apply nth_error_nth'. lia.
Qed.
Lemma ordered_rev_map {A} (le : A -> A -> Prop) (f : A -> A) l : (forall x y, le x y -> le (f y) (f x)) -> Ordered le l -> Ordered le (rev (map f l)).
Proof.
  intros F O i j x y L I J. apply nth_error_rev in I, J. destruct I as [I LI], J as [J LJ]. rewrite map_length in *. rewrite nth_error_map in I, J.
  destruct (nth_error l (length l - 1 - i)) as [a|] eqn:EI; [|discriminate]. destruct (nth_error l (length l - 1 - j)) as [b|] eqn:EJ; [|discriminate]. cbn in I, J. inversion I; inversion J; subst.
  apply F. apply (O (length l - 1 - j) (length l - 1 - i)); [lia|assumption|assumption].
Qed.
Lemma middle_map a b s m : Middle s m -> Middle (map (fun x => a * x + b)%R s) (a * m + b)%R.
Proof.
  intros [l r -> E|l r x y -> E ->]; rewrite map_app; cbn [map].
  - eapply MOdd; [reflexivity|]. rewrite !map_length. exact E.
  - eapply MEven; [reflexivity|rewrite !map_length; exact E|lra].
Qed.
Lemma middle_rev s m : Middle s m -> Middle (rev s) m.
Proof.
  intros [l r -> E|l r x y -> E ->]; rewrite rev_app_distr; cbn [rev].
  - rewrite <- app_assoc. eapply MOdd; [reflexivity|]. rewrite !rev_length. lia.
  - rewrite <- !app_assoc. eapply MEven; [reflexivity|rewrite !rev_length; lia|lra].
Qed.

(* sorting with a comparison that is only good on the elements at hand *)
Lemma insert_sorted_on {A} (D : A -> Prop) (leb : A -> A -> bool) : (forall x y, D x -> D y -> leb x y = true \/ leb y x = true) ->
  (forall x y z, D x -> D y -> D z -> leb x y = true -> leb y z = true -> leb x z = true) ->
  forall x l, D x -> Forall D l -> StronglySorted (fun a b => leb a b = true) l -> StronglySorted (fun a b => leb a b = true) (insert leb x l).
Proof.
  intros T TR x l DX DL S. induction S as [|y l S IH F]; cbn; [repeat constructor|]. inversion DL as [|y' l' DY DL']; subst. destruct (leb x y) eqn:E.
  - constructor; [constructor; assumption|]. constructor; [exact E|]. rewrite Forall_forall in *. intros z Z. apply (TR x y z); auto.
  - constructor; [apply IH; exact DL'|]. assert (Y : leb y x = true) by (destruct (T x y DX DY); congruence).
    apply Forall_forall. intros z Z. apply (Permutation_in _ (Permutation_sym (insert_perm leb x l))) in Z. destruct Z as [<-|Z]; [exact Y|]. rewrite Forall_forall in F. apply F. exact Z.
Qed.
Lemma sort_sorted_on {A} (D : A -> Prop) (leb : A -> A -> bool) : (forall x y, D x -> D y -> leb x y = true \/ leb y x = true) ->
  (forall x y z, D x -> D y -> D z -> leb x y = true -> leb y z = true -> leb x z = true) ->
  forall l, Forall D l -> StronglySorted (fun a b => leb a b = true) (std_sort leb l).
Proof.
  intros T TR l DL. unfold std_sort. induction DL as [|x l DX DL IH]; cbn; [constructor|]. apply (insert_sorted_on D); try assumption.
  apply Forall_forall. intros y Y. rewrite Forall_forall in DL. apply DL. eapply Permutation_in; [apply Permutation_sym, (sort_perm leb)|exact Y].
Qed.
