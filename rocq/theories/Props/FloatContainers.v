(* C101: sorting, medians, averages and extremes of vectors of float and double *)
From Coq Require Import Reals ZArith List Lia Lra Permutation Bool Sorted.
From Verif Require Import Model.Base Model.FloatText Model.Ieee Model.FloatMath Model.FloatInterp Model.Regression Model.Containers Model.FloatContainers Spec.FloatText Spec.Ieee Spec.Containers Proofs.BaseFacts Proofs.FloatTextProofs Proofs.IeeeProofs Proofs.IeeeErrorProofs Proofs.FloatInterpProofs Proofs.FloatOpsProofs Proofs.ContainersProofs Proofs.FloatTableProofs Proofs.FloatContainersProofs Props.FloatEquals Props.FloatWrap Props.FloatAverage Props.FloatOrder Props.FloatPoly Props.Containers.
Import ListNotations.
Local Open Scope R_scope.

(* what can be sorted: numbers, or elements none of which is before another *)
Definition Sortable (f : fmt) (l : list fnum) : Prop := Forall Num l \/ forall x y, In x l -> In y l -> ~ Less f x y.
(* what std::sort promises *)
Definition Sorts (f : fmt) (sort : list fnum -> list fnum) : Prop := forall l, Sortable f l -> Permutation l (sort l) /\ Ordered (fun x y => ~ Less f y x) (sort l).

Lemma num_dec x : {Num x} + {~ Num x}.
Proof. destruct x; [right; intros N; apply N; reflexivity|left; discriminate|left; discriminate]. Qed.
Theorem C101_sortable : forall f l, IEEE f -> (strict_weak f_lt l = true <-> Sortable f l).
Proof.
  intros f l I. pose proof (ieee_sane f I) as W. rewrite strict_weak_iff. split.
  - intros H. destruct (Forall_Exists_dec Num num_dec l) as [N|N]; [left; exact N|]. right.
    apply Exists_exists in N. destruct N as (z & Z & N). assert (z = FNan) by (destruct z; [reflexivity|exfalso; apply N; discriminate|exfalso; apply N; discriminate]). subst z. intros x y X Y L. destruct (nan_less f x) as [A1 A2], (nan_less f y) as [B1 B2].
    destruct (H x FNan y X Z Y) as (_ & _ & H2). destruct H2 as [H2 _]; try (apply (lt_false f); assumption). apply (lt_false f _ _ W) in H2. contradiction.
  - intros [N|N] x y z X Y Z.
    + rewrite Forall_forall in N. pose proof (N x X) as NX. pose proof (N y Y) as NY. pose proof (N z Z) as NZ. split; [apply (lt_false f _ _ W), less_irrefl|]. split.
      * intros A B. apply (lt_less f _ _ W) in A, B. apply (lt_less f _ _ W). exact (less_lesseq_trans f _ _ _ A (less_lesseq _ _ _ B)).
      * intros A B C D. apply (lt_false f _ _ W) in A, B, C, D. apply not_less in A, B, C, D; try assumption. split; apply (lt_false f _ _ W); intros L; apply (less_not_lesseq _ _ _ L); eapply lesseq_trans; eassumption.
    + assert (NL : forall a b, In a l -> In b l -> f_lt a b = false) by (intros a b A B; apply (lt_false f _ _ W), N; assumption). split; [apply NL; assumption|]. split; [intros E; rewrite NL in E by assumption; discriminate|]. intros. split; apply NL; assumption.
Qed.
Print Assumptions C101_sortable.
Example C101_sortable_example : strict_weak f_lt [FInf false; FFin true 0; FFin false 0; FFin true 7] = true /\ strict_weak f_lt [FNan; FFin false 7; FNan] = true /\ strict_weak f_lt [FFin false 1; FNan; FFin false 2] = false.
Proof. repeat split. Qed.

(* there are such sorts *)
Definition stable_sort (l : list fnum) : list fnum := std_sort (fun x y => negb (f_lt y x)) l.
Theorem C101_sorts : forall f, IEEE f -> Sorts f stable_sort /\ Sorts f (fun l => stable_sort (rev l)).
Proof.
  intros f I. pose proof (ieee_sane f I) as W.
  assert (K : forall l, Sortable f l -> Ordered (fun x y => ~ Less f y x) (stable_sort l)).
  { intros l SL. apply (C101_sortable f l I) in SL. rewrite strict_weak_iff in SL. assert (S : StronglySorted (fun x y => negb (f_lt y x) = true) (stable_sort l)).
    { apply (sort_sorted_on (fun x => In x l)).
      - intros x y X Y. destruct (f_lt y x) eqn:E; [|left; reflexivity]. right. destruct (f_lt x y) eqn:E2; [|reflexivity]. destruct (SL x y x X Y X) as (A & B & _). rewrite (B E2 E) in A. discriminate.
      - intros x y z X Y Z A B. rewrite negb_true_iff in *. destruct (f_lt z x) eqn:E; [|reflexivity]. exfalso. destruct (f_lt x y) eqn:E1; [destruct (SL z x y Z X Y) as (_ & T & _); rewrite (T E E1) in B; discriminate|].
        destruct (f_lt y z) eqn:E2; [destruct (SL y z x Y Z X) as (_ & T & _); rewrite (T E2 E) in A; discriminate|]. destruct (SL x y z X Y Z) as (_ & _ & T). destruct (T E1 A E2 B). congruence.
      - apply Forall_forall. auto. }
    apply sorted_ordered in S. eapply ordered_impl; [|exact S]. cbn beta. intros x y _ _ H. rewrite negb_true_iff in H. apply (lt_false f _ _ W). exact H. }
  split; intros l SL.
  - split; [apply sort_perm|apply K, SL].
  - split; [rewrite (Permutation_rev l) at 1; apply sort_perm|]. apply K. destruct SL as [N|N]; [left; apply Forall_rev, N|right; intros x y X Y; rewrite <- in_rev in X, Y; apply N; assumption].
Qed.
Print Assumptions C101_sorts.

Lemma sorted_numbers f sort l : Sorts f sort -> Forall Num l -> Permutation l (sort l) /\ Forall Num (sort l) /\ Ordered (LessEq f) (sort l).
Proof.
  intros S N. destruct (S l (or_introl N)) as [P O]. assert (N2 : Forall Num (sort l)) by (rewrite <- P; exact N). split; [exact P|]. split; [exact N2|]. eapply ordered_impl; [|exact O]. cbn beta. intros x y X Y H. rewrite Forall_forall in N2. apply not_less; auto.
Qed.

(* sorted_copy: defined exactly for what can be sorted *)
Theorem C101_sorted_copy : forall f sort l, IEEE f -> Sorts f sort ->
  (f_sorted_copy sort l = UB <-> ~ Sortable f l) /\
  (Forall Num l -> exists s, f_sorted_copy sort l = Ok s /\ Permutation l s /\ Ordered (LessEq f) s).
Proof.
  intros f sort l I S. unfold f_sorted_copy, ordered_call. pose proof (C101_sortable f l I) as H. split.
  - destruct (strict_weak f_lt l); split; intros E; try discriminate; [exfalso; apply E, H; reflexivity|intros C; apply H in C; discriminate|reflexivity].
  - intros N. rewrite (proj2 H (or_introl N)). destruct (sorted_numbers f sort l S N) as (P & _ & O). eauto.
Qed.
Print Assumptions C101_sorted_copy.

(* median: when it is defined *)
Lemma median_ok f sort l : IEEE f -> Sorts f sort -> Sortable f l -> l <> [] -> exists r, f_median f sort l = Ok r /\
  ((exists a m b, sort l = a ++ m :: b /\ length a = length b /\ r = m) \/ (exists a x y b, sort l = a ++ x :: y :: b /\ length a = length b /\ r = f_div f (f_add f y x) (f_of_int f 2))).
Proof.
  intros I SO SL NE. destruct (SO l SL) as [P _]. assert (LE : length l = length (sort l)) by (apply Permutation_length, P). assert (Z : (0 < length l)%nat) by (destruct l; [congruence|cbn; lia]).
  unfold f_median, assert_, f_sorted_copy, ordered_call. rewrite (proj2 (Nat.ltb_lt _ _) Z), (proj2 (C101_sortable f l I) SL). cbn [bind]. rewrite LE. destruct (middle_cases (sort l)) as [(M & a & m & b & E & L & Q)|(M & a & x & y & b & E & L & Q)].
  - intros C. rewrite C in LE. cbn in LE. lia.
  - rewrite M, Nat.eqb_refl, Q. exists m. split; [rewrite E; apply vget_at|]. left. exists a, m, b. auto.
  - rewrite (proj2 (Nat.eqb_neq _ _) M), Q. exists (f_div f (f_add f y x) (f_of_int f 2)). split; [|right; exists a, x, y, b; auto]. rewrite E. cbn [Nat.sub]. rewrite Nat.sub_0_r, vget_at. replace (a ++ x :: y :: b) with ((a ++ [x]) ++ y :: b) by (rewrite <- app_assoc; reflexivity).
    replace (S (length a)) with (length (a ++ [x])) by (rewrite app_length; cbn; lia). rewrite vget_at. reflexivity.
Qed.
Theorem C101_median_defined : forall f sort l, IEEE f -> Sorts f sort ->
  (f_median f sort l = Throw <-> l = []) /\ (f_median f sort l = UB <-> ~ Sortable f l) /\ ((exists r, f_median f sort l = Ok r) <-> l <> [] /\ Sortable f l).
Proof.
  intros f sort l I SO. destruct l as [|x l].
  - assert (SN : Sortable f []) by (left; constructor). cbn. repeat match goal with |- _ /\ _ => split end; [split; reflexivity|split; [discriminate|contradiction]|split; [intros (r & H); discriminate|intros [H _]; congruence]].
  - pose proof (C101_sortable f (x :: l) I) as H. destruct (strict_weak f_lt (x :: l)) eqn:E.
    + pose proof (proj1 H eq_refl) as SL. destruct (median_ok f sort (x :: l) I SO SL ltac:(discriminate)) as (r & -> & _). repeat match goal with |- _ /\ _ => split end; split; try discriminate; try contradiction; [intros _; split; [discriminate|exact SL]|intros _; exists r; reflexivity].
    + assert (SL : ~ Sortable f (x :: l)) by (intros C; apply H in C; discriminate). assert (U : f_median f sort (x :: l) = UB) by (unfold f_median, assert_, f_sorted_copy, ordered_call; rewrite E; reflexivity). rewrite U.
      repeat match goal with |- _ /\ _ => split end; split; try discriminate; try (intros; assumption); try reflexivity; [intros (r & C); discriminate|intros [_ C]; contradiction].
Qed.
Print Assumptions C101_median_defined.

(* of finite numbers, it is the exact median rounded once; an odd number of
   numbers needs no rounding.  Two rounded steps are as good as one. *)
Theorem C101_median : forall f sort l m, IEEE f -> Sorts f sort -> Forall (Fin f) l -> MedianOf (map (number f) l) m -> Rabs m < IZR (2 ^ fm_top f) * (1 - / IZR (2 ^ fm_prec f) / 2) / 2 ->
  exists r, f_median f sort l = Ok r /\ Fin f r /\ Correct f m r.
Proof.
  intros f sort l m I SO FL M B. pose proof (ieee_sane f I) as W. assert (NL : Forall Num l) by (eapply Forall_impl; [|exact FL]; intros x (a & n & -> & _); discriminate). destruct (sorted_numbers f sort l SO NL) as (P & N2 & O). assert (FS : Forall (Fin f) (sort l)) by (rewrite <- P; exact FL).
  destruct M as (s & PS & OS & M). assert (ES : s = map (number f) (sort l)).
  { rewrite <- (sortR_eq _ s PS OS). apply sortR_eq; [apply Permutation_map, P|]. apply ordered_map'. eapply ordered_impl; [|exact O]. cbn beta. intros x y X Y L. rewrite Forall_forall in FS. destruct (FS x X) as (a & n & -> & _), (FS y Y) as (b & k & -> & _). apply lesseq_iff in L. cbn in L. destruct L as (p & q & -> & -> & [L|L]); cbn in *; [lra|injection L as L; lra]. }
  assert (NE : l <> []). { intros ->. cbn in PS. apply Permutation_nil in PS. rewrite PS in M. destruct M as [a b C|a b c d C]; destruct a; discriminate. }
  destruct (median_ok f sort l I SO (or_introl NL) NE) as (r & E & C). exists r. split; [exact E|]. subst s. destruct C as [(a & x & b & EQ & L & ->)|(a & x & y & b & EQ & L & ->)]; rewrite EQ in M, FS; rewrite map_app in M; cbn [map] in M; apply Forall_app in FS; destruct FS as [_ FS].
  - inversion FS as [|? ? FX FS2]; subst. assert (m = number f x).
    { destruct M as [a' b' C L'|a' b' u v C L' C2].
      - assert (La : length a' = length (map (number f) a)). { apply (f_equal (@length R)) in C. rewrite !app_length in C. cbn [length] in C. rewrite !map_length in *. lia. }
        apply (f_equal (fun t => nth (length a') t 0)) in C. rewrite La in C at 1. rewrite !nth_middle in C. congruence.
      - apply (f_equal (@length R)) in C. rewrite !app_length in C. cbn [length] in C. rewrite !map_length in C. lia. }
    subst m. split; [exact FX|]. destruct FX as (c & n & -> & F). apply correct_fin; assumption.
  - inversion FS as [|? ? FX FS2]; subst. inversion FS2 as [|? ? FY _]; subst. assert (m = (number f x + number f y) / 2).
    { destruct M as [a' b' C L'|a' b' u v C L' C2].
      - apply (f_equal (@length R)) in C. rewrite !app_length in C. cbn [length] in C. rewrite !map_length in C. lia.
      - assert (La : length a' = length (map (number f) a)). { apply (f_equal (@length R)) in C. rewrite !app_length in C. cbn [length] in C. rewrite !map_length in *. lia. }
        pose proof (f_equal (fun t => nth (length a') t 0) C) as C1. cbn beta in C1. rewrite La in C1 at 1. rewrite !nth_middle in C1. pose proof (f_equal (fun t => nth (S (length a')) t 0) C) as C3. cbn beta in C3.
        rewrite (app_nth2 (map (number f) a)) in C3 by lia. rewrite app_nth2 in C3 by lia. rewrite <- La in C3. replace (S (length a') - length a')%nat with 1%nat in C3 by lia. cbn [nth] in C3. subst. reflexivity. }
    subst m. destruct FX as (c & n & -> & F1), FY as (d & k & -> & F2). cbn [number] in *. rewrite (Rplus_comm (val f c n)) in *. apply mean_correct; try assumption. unfold Rdiv in B. rewrite Rabs_mult, (Rabs_right (/ 2)) in B by lra. unfold Rdiv. lra.
Qed.
Print Assumptions C101_median.
(* with infinities: of an odd number of numbers, the median is one of them that
   has as many below as above *)
Theorem C101_median_odd : forall f sort l, IEEE f -> Sorts f sort -> Forall Num l -> Nat.odd (length l) = true ->
  exists r a b, f_median f sort l = Ok r /\ Permutation l (a ++ r :: b) /\ length a = length b /\ Forall (fun x => LessEq f x r) a /\ Forall (LessEq f r) b.
Proof.
  intros f sort l I SO NL OD. destruct (sorted_numbers f sort l SO NL) as (P & N2 & O). assert (NE : l <> []) by (intros ->; discriminate). destruct (median_ok f sort l I SO (or_introl NL) NE) as (r & E & [(a & m & b & EQ & L & ->)|(a & x & y & b & EQ & L & _)]).
  - exists m, a, b. split; [exact E|]. rewrite EQ in *. split; [exact P|]. split; [exact L|]. split; apply Forall_forall; intros x X.
    + destruct (ordered_app _ _ _ O) as (_ & _ & H). apply H; [exact X|left; reflexivity].
    + replace (a ++ m :: b) with ((a ++ [m]) ++ b) in O by (rewrite <- app_assoc; reflexivity). destruct (ordered_app _ _ _ O) as (_ & _ & H). apply H; [apply in_or_app; right; left; reflexivity|exact X].
  - exfalso. rewrite (Permutation_length P), EQ, app_length in OD. cbn [length] in OD. rewrite L in OD. replace (length b + S (S (length b)))%nat with (2 * (S (length b)))%nat in OD by lia. rewrite Nat.odd_mul in OD. discriminate.
Qed.
Print Assumptions C101_median_odd.
(* neither the order of the numbers nor the way they are sorted counts, apart
   from the sign of a zero *)
Lemma same_alike f x y : Sane f -> Valid f x -> Valid f y -> Same f x y -> Alike x y.
Proof.
  intros W V1 V2 (p & P & Q). destruct x as [|[|]|a n], y as [|[|]|b m]; cbn in P, Q; subst; try contradiction; try discriminate; try (left; reflexivity). injection Q as Q. apply (val_eq f _ _ _ _ W) in Q. pose proof (fin_pos f a n V1). pose proof (fin_pos f b m V2). destruct a, b; cbn in Q.
  - left. f_equal. lia.
  - right. exists true, false. split; f_equal; lia.
  - right. exists false, true. split; f_equal; lia.
  - left. f_equal. lia.
Qed.
Lemma alike_half f x y : IEEE f -> Alike x y -> Alike (f_div f x (f_of_int f 2)) (f_div f y (f_of_int f 2)).
Proof.
  intros I [<- |(a & b & -> & ->)]; [left; reflexivity|]. right. destruct (two_fin f I) as (k & -> & FK & KP & _). cbn [f_div]. rewrite (proj2 (Z.eqb_neq k 0)) by lia. rewrite !xorb_false_r. exists a, b.
  pose proof (ieee_sane f I) as W. split.
  - pose proof (div_correct f a 0 false k W ltac:(lia) KP) as C. cbn [f_div] in C. rewrite (proj2 (Z.eqb_neq k 0)) in C by lia. rewrite xorb_false_r in C. apply (to_fnum_fin f a _ _ _ 0 W C (zero_finite f W)). rewrite !val_zero. unfold Rdiv. ring.
  - pose proof (div_correct f b 0 false k W ltac:(lia) KP) as C. cbn [f_div] in C. rewrite (proj2 (Z.eqb_neq k 0)) in C by lia. rewrite xorb_false_r in C. apply (to_fnum_fin f b _ _ _ 0 W C (zero_finite f W)). rewrite !val_zero. unfold Rdiv. ring.
Qed.
Lemma pairs_length {A B} (P : A -> B -> Prop) l m : Forall2 P l m -> length l = length m.
Proof. induction 1; cbn; congruence. Qed.
Lemma split_same {A} (a a' b b' : list A) : length a = length a' -> a ++ b = a' ++ b' -> a = a' /\ b = b'.
Proof. revert a'. induction a as [|x a IH]; intros [|y a'] L E; try discriminate; [auto|]. injection E as -> E. injection L as L. destruct (IH a' L E). subst. auto. Qed.
Theorem C101_median_order : forall f sort sort' l l', IEEE f -> Sorts f sort -> Sorts f sort' -> Forall (fun x => Valid f x /\ Num x) l -> l <> [] -> Permutation l l' ->
  exists r r', f_median f sort l = Ok r /\ f_median f sort' l' = Ok r' /\ (r = FNan /\ r' = FNan \/ Same f r r').
Proof.
  intros f sort sort' l l' I SO SO' FL NE PL. pose proof (ieee_sane f I) as W. assert (NL : Forall Num l) by (eapply Forall_impl; [|exact FL]; intros x H; apply H). assert (VL : Forall (Valid f) l) by (eapply Forall_impl; [|exact FL]; intros x H; apply H). assert (NL' : Forall Num l') by (rewrite <- PL; exact NL).
  destruct (sorted_numbers f sort l SO NL) as (P & _ & O). destruct (sorted_numbers f sort' l' SO' NL') as (P' & _ & O'). assert (NE' : l' <> []) by (intros ->; apply Permutation_sym, Permutation_nil in PL; contradiction).
  destruct (median_ok f sort l I SO (or_introl NL) NE) as (r & E & C). destruct (median_ok f sort' l' I SO' (or_introl NL') NE') as (r' & E' & C'). exists r, r'. split; [exact E|]. split; [exact E'|].
  assert (AG : Forall2 Alike (sort l) (sort' l')). { assert (P2 : Permutation l (sort' l')) by (rewrite PL; exact P'). pose proof (ordered_agree f l _ _ NL P P2 O O') as AG. assert (V1 : Forall (Valid f) (sort l)) by (rewrite <- P; exact VL). assert (V2 : Forall (Valid f) (sort' l')) by (rewrite <- P2; exact VL).
    clear -AG V1 V2 W. induction AG as [|x y s t X AG IH]; constructor; inversion V1; inversion V2; subst; [apply (same_alike f); assumption|apply IH; assumption]. }
  assert (LE : length (sort l) = length (sort' l')) by (apply (pairs_length _ _ _ AG)).
  assert (R : Alike r r').
  { destruct C as [(a & x & b & EQ & L & ->)|(a & x & y & b & EQ & L & ->)], C' as [(a' & x' & b' & EQ' & L' & ->)|(a' & x' & y' & b' & EQ' & L' & ->)]; rewrite EQ, EQ' in AG, LE; rewrite !app_length in LE; cbn [length] in LE; try lia.
    - apply Forall2_app_inv_l in AG. destruct AG as (c & d & A1 & A2 & A3). pose proof (pairs_length _ _ _ A1) as LA. destruct (split_same a' c (x' :: b') d ltac:(lia) A3) as [-> <-]. inversion A2; subst. assumption.
    - apply Forall2_app_inv_l in AG. destruct AG as (c & d & A1 & A2 & A3). pose proof (pairs_length _ _ _ A1) as LA. destruct (split_same a' c (x' :: y' :: b') d ltac:(lia) A3) as [-> <-]. inversion A2 as [|? ? ? ? X A4]; subst. inversion A4 as [|? ? ? ? Y _]; subst. apply alike_half, alike_add; assumption. }
  destruct (alike_same f r r' R) as [H|H]; auto.
Qed.
Print Assumptions C101_median_order.

(* average: nothing has no average; else it is near the mean *)
Lemma sum_averaged f l : IEEE f -> Forall (Fin f) l -> fold_left (f_add f) l f_zero = fa_v (averaged f l).
Proof.
  intros I. pose proof (ieee_sane f I) as W. induction l as [|x l IH] using rev_ind; intros FL; [reflexivity|]. apply Forall_app in FL. destruct FL as [FL FX]. inversion FX; subst. rewrite fold_left_app. cbn [fold_left]. rewrite (averaged_v f l x W (fin_valid f x ltac:(assumption))), <- IH by exact FL. reflexivity.
Qed.
Theorem C101_average_empty : forall f, IEEE f -> f_average_of f [] = FNan.
Proof. intros f [-> | ->]; vm_compute; reflexivity. Qed.
Print Assumptions C101_average_empty.
Theorem C101_average : forall f l s n, IEEE f -> Forall (Fin f) l -> l <> [] -> (Z.of_nat (length l) < 2 ^ 60)%Z -> f_average_of f l = FFin s n ->
  Rabs (val f s n - total f l / INR (length l)) <= ((1 + / IZR (2 ^ fm_prec f)) ^ (length l + 3) - 1) * (size f l / INR (length l)) + unit_of f / 2 /\
  ((Z.of_nat (length l) <= 2 ^ fm_prec f)%Z -> Rabs (val f s n - total f l / INR (length l)) <= ((1 + / IZR (2 ^ fm_prec f)) ^ S (length l) - 1) * (size f l / INR (length l)) + unit_of f / 2).
Proof.
  intros f l s n I FL NE K E. pose proof (ieee_sane f I) as W. pose proof (pow_scale f W) as PS. assert (UP : 0 < / IZR (2 ^ fm_prec f) <= / 1000) by (destruct (ulp_small f I) as [U _]; exact U). set (k := INR (length l)).
  assert (LP : 1 <= k) by (unfold k; change 1 with (INR 1); apply le_INR; destruct l; [contradiction|cbn; lia]).
  assert (CNT : exists w e, f_of_int f (Z.of_nat (length l)) = FFin false w /\ Finite f w /\ (0 < w)%Z /\ val f false w = k * (1 + e) /\ Rabs e <= / IZR (2 ^ fm_prec f) /\ ((Z.of_nat (length l) <= 2 ^ fm_prec f)%Z -> e = 0)).
  { pose proof (int_correct f (Z.of_nat (length l)) W) as C. assert (R : Rabs (IZR (Z.of_nat (length l))) <= room f). { rewrite Rabs_right by (apply Rle_ge, IZR_le; lia). eapply Rle_trans; [|apply (room_large f I)]. apply IZR_le. lia. }
    destruct (correct_room f _ _ I C R) as [(a & w & EW & FW) NW]. assert (a = false) by (unfold f_of_int in EW; rewrite (proj2 (Z.ltb_ge _ _)) in EW by lia; cbn [to_fnum] in EW; destruct (_ <=? _)%Z in EW; [discriminate|]; injection EW; auto). subst a. rewrite EW in *. cbn [number] in NW. rewrite <- INR_IZR_INZ in NW. fold k in NW.
    assert (KU : exists z, k = IZR z * unit_of f) by (exists (Z.of_nat (length l) * 2 ^ fm_low f)%Z; rewrite mult_IZR, <- INR_IZR_INZ; fold k; unfold unit_of; pose proof (unit_scale f W); field; lra).
    assert (NB : Rabs (val f false w - k) <= k / IZR (2 ^ fm_prec f)). { destruct KU as (z & KU). rewrite KU in NW |- *. rewrite <- (Rabs_right (IZR z * unit_of f)) at 2 by (rewrite <- KU; lra). exact (near_units f z _ W NW). }
    exists w, (val f false w / k - 1). split; [reflexivity|]. split; [exact FW|]. split.
    - apply (val_lt f false 0 false w W). rewrite val_zero. assert (1 <= val f false w); [|lra]. apply (near_mono f _ _ _ _ (exact_near f _ (grid_one f W)) NW LP).
    - split; [field; lra|]. split.
      + replace (val f false w / k - 1) with ((val f false w - k) * / k) by (field; lra). assert (0 < / k) by (apply Rinv_0_lt_compat; lra). rewrite Rabs_mult, (Rabs_right (/ k)) by lra. apply Rle_trans with (k / IZR (2 ^ fm_prec f) * / k); [apply Rmult_le_compat_r; lra|]. right. field. lra.
      + intros L. rewrite (near_exact f _ _ NW); [field; lra|]. unfold k. rewrite INR_IZR_INZ. apply grid_whole; [exact W|lia]. }
  destruct CNT as (w & e & EW & FW & WP & VW & EB & EX). unfold f_average_of in E. rewrite EW, (sum_averaged f l I FL) in E. destruct (fa_v (averaged f l)) as [|t|t j] eqn:EV; [discriminate|discriminate|].
  destruct (sum_error f l I FL t j EV) as [FJ B]. pose proof (div_correct f t j false w W (fin_pos f t j FJ) WP) as C. rewrite E in C. destruct C as (g & N & FN & -> & _). pose proof (near_bound f _ _ W N) as D. rewrite VW in D.
  set (u := / IZR (2 ^ fm_prec f)) in *. unfold Rdiv at 2 in D. fold u in D. set (T := total f l) in *. set (A := size f l) in *. set (q := (1 + u) ^ length l) in *. assert (Q : 1 <= q) by (apply pow_R1_Rle; lra). pose proof (total_size f l) as TA. fold T A in TA. set (S := val f t j) in *. pose proof (size_nonneg f l) as AP. fold A in AP.
  assert (SB : Rabs S <= q * A). { replace S with ((S - T) + T) by ring. eapply Rle_trans; [apply Rabs_triang|]. lra. } assert (KI : 0 < / k) by (apply Rinv_0_lt_compat; lra).
  apply abs_le_inv in EB. assert (GEN : forall c, 1 <= c -> / (1 + e) <= c -> Rabs (/ (1 + e) - 1) <= c - 1 -> Rabs (val f s n - T / k) <= (q * c * (1 + u) - 1) * (A / k) + unit_of f / 2).
  { intros c C1 C2 C3. assert (IP : 0 < / (1 + e)) by (apply Rinv_0_lt_compat; lra). assert (AK : 0 <= A / k) by (apply Rmult_le_pos; lra).
    assert (D1 : Rabs (S / (k * (1 + e))) <= q * c * (A / k)). { replace (S / (k * (1 + e))) with (S * / k * / (1 + e)) by (field; lra). rewrite !Rabs_mult, (Rabs_right (/ k)), (Rabs_right (/ (1 + e))) by lra. apply Rle_trans with (q * A * / k * c); [|right; unfold Rdiv; ring]. apply Rmult_le_compat; [apply Rmult_le_pos; [apply Rabs_pos|lra]|lra|apply Rmult_le_compat_r; lra|exact C2]. }
    assert (D2 : Rabs (S / (k * (1 + e)) - T / k) <= (q * c - 1) * (A / k)).
    { replace (S / (k * (1 + e)) - T / k) with ((S - T) * / k * / (1 + e) + T * / k * (/ (1 + e) - 1)) by (field; lra). eapply Rle_trans; [apply Rabs_triang|]. rewrite !Rabs_mult, (Rabs_right (/ k)), (Rabs_right (/ (1 + e))) by lra.
      assert (X1 : Rabs (S - T) * / k * / (1 + e) <= (q - 1) * A * / k * c). { apply Rmult_le_compat; [apply Rmult_le_pos; [apply Rabs_pos|lra]|lra|apply Rmult_le_compat_r; lra|exact C2]. }
      assert (X2 : Rabs T * / k * Rabs (/ (1 + e) - 1) <= A * / k * (c - 1)). { apply Rmult_le_compat; [apply Rmult_le_pos; [apply Rabs_pos|lra]|apply Rabs_pos|apply Rmult_le_compat_r; lra|exact C3]. }
      unfold Rdiv. lra. }
    replace (val f s n - T / k) with ((val f s n - S / (k * (1 + e))) + (S / (k * (1 + e)) - T / k)) by ring. eapply Rle_trans; [apply Rabs_triang|]. assert (Rabs (S / (k * (1 + e))) * u <= q * c * (A / k) * u) by (apply Rmult_le_compat_r; lra). lra. }
  split.
  - replace ((1 + u) ^ (length l + 3)) with (q * ((1 + u) * (1 + u)) * (1 + u)) by (rewrite pow_add; fold q; cbn [pow]; ring). apply GEN; [nra| |].
    + apply (Rmult_le_reg_l (1 + e)); [lra|]. rewrite Rinv_r by lra. nra.
    + replace (/ (1 + e) - 1) with (- e * / (1 + e)) by (field; lra). assert (IP : 0 < / (1 + e)) by (apply Rinv_0_lt_compat; lra). rewrite Rabs_mult, Rabs_Ropp, (Rabs_right (/ (1 + e))) by lra. apply (Rmult_le_reg_r (1 + e)); [lra|]. rewrite Rmult_assoc, Rinv_l, Rmult_1_r by lra. unfold Rabs. destruct (Rcase_abs e); nra.
  - intros L. specialize (EX L). subst e. replace ((1 + u) ^ Datatypes.S (length l)) with (q * 1 * (1 + u)) by (cbn [pow]; fold q; ring). apply GEN; [lra| |]; rewrite Rplus_0_r, Rinv_1; [lra|]. replace (1 - 1) with 0 by ring. rewrite Rabs_R0. lra.
Qed.
Print Assumptions C101_average.
(* it is what the average class (C95) gives, while that can count *)
Theorem C101_average_class : forall f l, IEEE f -> Forall (Fin f) l -> l <> [] -> (Z.of_nat (length l) <= 2 ^ fm_prec f)%Z -> f_average_of f l = fa_get f (averaged f l).
Proof.
  intros f l I FL NE K. pose proof (ieee_sane f I) as W. destruct (C95_counter f l I) as (w & EW & FW & VW). rewrite Z.min_l in VW by exact K. assert (LP : (1 <= Z.of_nat (length l))%Z) by (destruct l; [contradiction|cbn; lia]).
  assert (WP : (0 < w)%Z) by (apply (val_lt f false 0 false w W); rewrite val_zero, VW; apply IZR_lt; lia). unfold fa_get, f_average_of. rewrite EW. unfold f_gt, f_zero at 2. cbn [f_lt signed]. rewrite (proj2 (Z.ltb_lt 0 w) WP), (sum_averaged f l I FL). f_equal.
  unfold f_of_int. rewrite (proj2 (Z.ltb_ge _ _)) by lia. pose proof (int_correct f (Z.of_nat (length l)) W) as C. unfold f_of_int in C. rewrite (proj2 (Z.ltb_ge _ _)) in C by lia. exact (to_fnum_fin f false _ _ _ w W C FW (eq_sym VW)).
Qed.
Print Assumptions C101_average_class.
(* whole numbers, and other fixed point numbers, are averaged with one rounding *)
Theorem C101_average_exact : forall f l q, IEEE f -> (0 <= q)%Z -> Forall (fun x => Fin f x /\ exists z, number f x = IZR (z * 2 ^ q) * unit_of f) l ->
  size f l <= IZR (2 ^ fm_prec f * 2 ^ q) * unit_of f -> InReach f (size f l) -> l <> [] -> (Z.of_nat (length l) <= 2 ^ fm_prec f)%Z -> Correct f (total f l / INR (length l)) (f_average_of f l).
Proof.
  intros f l q I Q FL B R NE K. rewrite C101_average_class; try assumption; [|eapply Forall_impl; [|exact FL]; intros x H; apply H]. apply (proj2 (C95_exact f l q I Q FL B R) NE K).
Qed.
Print Assumptions C101_average_exact.
(* larger values have no smaller average *)
Theorem C101_average_mono : forall f l l', IEEE f -> Forall2 (fun x y => Fin f x /\ Fin f y /\ LessEq f x y) l l' -> l <> [] -> (Z.of_nat (length l) <= 2 ^ fm_prec f)%Z -> LessEq f (f_average_of f l) (f_average_of f l').
Proof.
  intros f l l' I H NE K. pose proof (pairs_length _ _ _ H) as L. assert (FL : Forall (Fin f) l /\ Forall (Fin f) l') by (clear -H; induction H as [|x y s t (A & B & _) H [IH1 IH2]]; auto). destruct FL as [F1 F2]. rewrite !C101_average_class; try assumption; [apply C95_mono; assumption|intros ->; destruct l; [contradiction|discriminate]|rewrite <- L; exact K].
Qed.
Print Assumptions C101_average_mono.
(* but the order of the values counts, and the average may be above all of them *)
Theorem C101_average_order_refuted : exists a b : fnum, Valid float_fmt a /\ Valid float_fmt b /\ f_average_of float_fmt [a; a; b] = FInf false /\ exists n, f_average_of float_fmt [a; b; a] = FFin false n.
Proof.
  assert (I : IEEE float_fmt) by (right; reflexivity). exists (f_max float_fmt), (f_lowest float_fmt). destruct (C91_max float_fmt false 0 I (zero_finite _ (ieee_sane _ I))) as (_ & _ & A & B). split; [exact A|]. split; [exact B|]. split; [vm_compute; reflexivity|]. eexists. vm_compute. reflexivity.
Qed.
Print Assumptions C101_average_order_refuted.
Theorem C101_average_bounded_refuted : exists v, Valid float_fmt v /\ Less float_fmt v (f_average_of float_fmt [v; v; v]).
Proof.
  assert (I : IEEE float_fmt) by (right; reflexivity). pose proof (ieee_sane _ I) as W. exists (to_fnum float_fmt false (VNum 17 10)). split; [apply (correct_valid _ _ _ (round_correct float_fmt false 17 10 W ltac:(lia) ltac:(lia)))|]. apply (lt_less _ _ _ W). vm_compute. reflexivity.
Qed.
Print Assumptions C101_average_bounded_refuted.
(* two large numbers: the median overflows *)
Theorem C101_median_overflow_refuted : forall sort, Sorts float_fmt sort -> f_median float_fmt sort [f_max float_fmt; f_max float_fmt] = Ok (FInf false).
Proof.
  intros sort SO. assert (I : IEEE float_fmt) by (right; reflexivity). assert (NL : Forall Num [f_max float_fmt; f_max float_fmt]) by (repeat constructor; discriminate). destruct (SO _ (or_introl NL)) as [P _]. destruct (median_ok float_fmt sort [f_max float_fmt; f_max float_fmt] I SO (or_introl NL) ltac:(discriminate)) as (r & -> & C).
  assert (EQ : sort [f_max float_fmt; f_max float_fmt] = [f_max float_fmt; f_max float_fmt]). { pose proof (Permutation_length P) as L. destruct (sort [f_max float_fmt; f_max float_fmt]) as [|x [|y [|z s]]] eqn:E; try discriminate. assert (X : In x [f_max float_fmt; f_max float_fmt]) by (eapply Permutation_in; [apply Permutation_sym, P|left; reflexivity]). assert (Y : In y [f_max float_fmt; f_max float_fmt]) by (eapply Permutation_in; [apply Permutation_sym, P|right; left; reflexivity]).
    destruct X as [<- |[<- |[]]], Y as [<- |[<- |[]]]; reflexivity. }
  rewrite EQ in C. destruct C as [(a & m & b & E & L & _)|(a & x & y & b & E & L & ->)].
  - destruct a as [|? [|? [|? a]]], b as [|? [|? [|? b]]]; try discriminate.
  - destruct a as [|? a]; [|apply (f_equal (@length fnum)) in E; cbn in E; rewrite app_length in E; cbn in E; lia]. injection E as <- <- _. vm_compute. reflexivity.
Qed.
Print Assumptions C101_median_overflow_refuted.

(* top_average: the average of the smallest, and of zeros if there are too few *)
Theorem C101_top_average : forall f sort l count, IEEE f -> Sorts f sort -> Forall Num l ->
  exists s rest, Permutation l (s ++ rest) /\ length s = Nat.min count (length l) /\ (forall x y, In x s -> In y rest -> LessEq f x y) /\ Ordered (LessEq f) s /\
  f_top_average f sort l count = Ok (f_average_of f (s ++ repeat f_zero (count - length l))).
Proof.
  intros f sort l count I SO NL. destruct (sorted_numbers f sort l SO NL) as (P & N2 & O). set (k := Nat.min (length l) count). exists (firstn k (sort l)), (skipn k (sort l)). rewrite firstn_skipn. split; [exact P|]. pose proof (Permutation_length P) as L.
  split; [rewrite firstn_length, <- L; lia|]. rewrite <- (firstn_skipn k (sort l)) in O. destruct (ordered_app _ _ _ O) as (O1 & _ & O2). split; [exact O2|]. split; [exact O1|].
  unfold f_top_average, f_sorted_copy, ordered_call. rewrite (proj2 (C101_sortable f l I) (or_introl NL)). cbn [bind]. fold k. do 3 f_equal. destruct (Nat.le_gt_cases count (length l)) as [C|C].
  - replace k with count by lia. replace (count - length l)%nat with 0%nat by lia. apply skipn_all2. rewrite repeat_length. lia.
  - replace k with (length l) by lia. replace (repeat f_zero count) with (repeat f_zero (length l) ++ repeat f_zero (count - length l)) by (rewrite <- repeat_app; f_equal; lia). rewrite skipn_app, repeat_length, Nat.sub_diag. rewrite skipn_all2 by (rewrite repeat_length; lia). reflexivity.
Qed.
Print Assumptions C101_top_average.
Theorem C101_top_average_undefined : forall f sort l count, IEEE f -> (f_top_average f sort l count = UB <-> ~ Sortable f l) /\ (Forall Num l -> f_top_average f sort l 0 = Ok FNan).
Proof.
  intros f sort l count I. pose proof (C101_sortable f l I) as H. unfold f_top_average, f_sorted_copy, ordered_call. split.
  - destruct (strict_weak f_lt l); cbn [bind]; split; intros E; try discriminate; [exfalso; apply E, H; reflexivity|intros C; apply H in C; discriminate|reflexivity].
  - intros N. rewrite (proj2 H (or_introl N)). cbn [bind]. rewrite Nat.min_0_r. cbn [firstn skipn repeat app]. rewrite C101_average_empty by exact I. reflexivity.
Qed.
Print Assumptions C101_top_average_undefined.

(* min_element and max_element: the first of the least, of the greatest *)
Theorem C101_min_max : forall f l, IEEE f -> Forall Num l -> l <> [] ->
  (exists i z, f_min_element l = Ok i /\ nth_error l i = Some z /\ (forall y, In y l -> LessEq f z y) /\ (forall j y, (j < i)%nat -> nth_error l j = Some y -> Less f z y)) /\
  (exists i z, f_max_element l = Ok i /\ nth_error l i = Some z /\ (forall y, In y l -> LessEq f y z) /\ (forall j y, (j < i)%nat -> nth_error l j = Some y -> Less f y z)).
Proof.
  intros f l I NL NE. pose proof (ieee_sane f I) as W. unfold f_min_element, f_max_element, ordered_call. rewrite (proj2 (C101_sortable f l I) (or_introl NL)). pose proof (lt_false f) as LF. pose proof (lt_less f) as LT. destruct l as [|x l]; [contradiction|]. clear NE. pose proof NL as NF. rewrite Forall_forall in NF.
  assert (TR : forall a b c, Num a -> Num b -> Num c -> f_lt b a = false -> f_lt c b = false -> f_lt c a = false). { intros a b c A B C H1 H2. apply LF in H1, H2; try exact W. apply LF; [exact W|]. apply not_less in H1, H2; try assumption. intros L. apply (less_not_lesseq _ _ _ L). eapply lesseq_trans; eassumption. }
  assert (AS : forall a b, f_lt a b = true -> f_lt b a = false). { intros a b H. apply (LT _ _ W) in H. apply (LF _ _ W). intros L. apply (less_not_lesseq _ _ _ H). left. exact L. }
  split.
  - cbn [min_element]. destruct (best_on Num f_lt TR ltac:(intros; apply AS; assumption) l [x] x 0) as (z & E & M & F); [exact NL|reflexivity|intros y [<- |[]]; apply (LF _ _ W), less_irrefl|intros j y H; lia|]. cbn [length app] in *. exists (best f_lt x 0 l 1), z. split; [reflexivity|]. split; [exact E|].
    split; [intros y Y; apply not_less; [apply NF, Y|apply NF; eapply nth_error_In; exact E|apply (LF _ _ W), M, Y]|]. intros j y J Y. apply (LT _ _ W). exact (F j y J Y).
  - cbn [max_element]. destruct (best_on Num (fun y m => f_lt m y)) with (l := l) (pre := [x]) (x := x) (at_ := 0%nat) as (z & E & M & F); [intros a b c A B C H1 H2; apply (TR c b a); assumption|intros a b A B H; apply AS, H|exact NL|reflexivity|intros y [<- |[]]; apply (LF _ _ W), less_irrefl|intros j y H; lia|]. cbn [length app] in *. exists (best (fun y m => f_lt m y) x 0 l 1), z. split; [reflexivity|]. split; [exact E|].
    split; [intros y Y; apply not_less; [apply NF; eapply nth_error_In; exact E|apply NF, Y|apply (LF _ _ W); exact (M y Y)]|]. intros j y J Y. apply (LT _ _ W). exact (F j y J Y).
Qed.
Print Assumptions C101_min_max.
(* sort_indices: the indices in the order of their elements *)
Theorem C101_sort_indices : forall f sort l, IEEE f -> SortContract sort -> (f_sort_indices sort l = UB <-> ~ Sortable f l) /\
  (Forall Num l -> exists s, f_sort_indices sort l = Ok s /\ Permutation (seq 0 (length l)) s /\ Ordered (LessEq f) (map (fun i => nth i l FNan) s)).
Proof.
  intros f sort l I SC. pose proof (ieee_sane f I) as W. pose proof (C101_sortable f l I) as H. unfold f_sort_indices, ordered_call. split.
  - destruct (strict_weak f_lt l); split; intros E; try discriminate; [exfalso; apply E, H; reflexivity|intros C; apply H in C; discriminate|reflexivity].
  - intros N. rewrite (proj2 H (or_introl N)). eexists. split; [reflexivity|]. unfold sort_indices. set (cmp := fun i j : nat => match nth_error l i with Some a => match nth_error l j with Some b => f_lt a b | None => false end | None => false end).
    assert (C : forall i j, (i < length l)%nat -> (j < length l)%nat -> cmp i j = f_lt (nth i l FNan) (nth j l FNan)). { intros i j A B. unfold cmp. rewrite (nth_error_nth' l FNan A), (nth_error_nth' l FNan B). reflexivity. }
    assert (NN : forall i, (i < length l)%nat -> Num (nth i l FNan)) by (intros i A; rewrite Forall_forall in N; apply N, nth_In, A).
    destruct (SC cmp (seq 0 (length l))) as [P O].
    + intros i j A B. apply in_seq in A, B. rewrite !C by lia. intros L. apply (lt_less f _ _ W) in L. apply (lt_false f _ _ W). intros L2. apply (less_not_lesseq _ _ _ L). left. exact L2.
    + intros i j k A B D. apply in_seq in A, B, D. rewrite !C by lia. intros L1 L2. apply (lt_false f _ _ W) in L1, L2. apply (lt_false f _ _ W). apply not_less in L1, L2; try (apply NN; lia). intros L. apply (less_not_lesseq _ _ _ L). eapply lesseq_trans; eassumption.
    + split; [exact P|]. apply ordered_map'. eapply ordered_impl; [|exact O]. cbn beta. intros i j A B L. apply (Permutation_in _ (Permutation_sym P)) in A, B. apply in_seq in A, B. rewrite C in L by lia. apply (lt_false f _ _ W) in L. apply not_less; [apply NN; lia|apply NN; lia|exact L].
Qed.
Print Assumptions C101_sort_indices.
(* find_index: the first of the same value; nan is never found, and 0 finds -0 *)
Theorem C101_find_index : forall f l v, IEEE f ->
  (exists i x, f_find_index l v = Z.of_nat i /\ nth_error l i = Some x /\ Same f x v /\ forall j y, (j < i)%nat -> nth_error l j = Some y -> ~ Same f y v) \/
  (f_find_index l v = (2 ^ 64 - 1)%Z /\ forall y, In y l -> ~ Same f y v).
Proof.
  intros f l v I. pose proof (ieee_sane f I) as W. assert (NS : forall y, f_eq y v = false -> ~ Same f y v) by (intros y E S; apply (eq_same f _ _ W) in S; congruence). destruct (C71_find_index fnum f_eq l v) as [(i & x & E & N & S & F)|(E & F)].
  - left. exists i, x. split; [exact E|]. split; [exact N|]. split; [apply (eq_same f _ _ W), S|]. intros j y J Y. apply NS. exact (F j y J Y).
  - right. split; [exact E|]. intros y Y. apply NS, F, Y.
Qed.
Print Assumptions C101_find_index.
Theorem C101_find_nan_refuted : f_find_index [FFin false 3; FNan] FNan = (2 ^ 64 - 1)%Z /\ f_find_index [FFin false 3; FFin true 0] f_zero = 1%Z.
Proof. split; reflexivity. Qed.
Print Assumptions C101_find_nan_refuted.

(* floats 3, 1, 2, 1.5: in order, median 1.75, average 1.875, average of the two
   smallest 1.25, of six 1.25 *)
Definition quarter (k : Z) : fnum := FFin false (k * 2 ^ 147).
Example C101_example : let l := [quarter 12; quarter 4; quarter 8; quarter 6] in let f := float_fmt in
  f_sorted_copy stable_sort l = Ok [quarter 4; quarter 6; quarter 8; quarter 12] /\ f_median f stable_sort l = Ok (quarter 7) /\ f_median f stable_sort (quarter 12 :: l) = Ok (quarter 8) /\
  f_average_of f l = FFin false (15 * 2 ^ 146) /\ f_top_average f stable_sort l 2 = Ok (quarter 5) /\ f_top_average f stable_sort l 6 = Ok (quarter 5) /\
  f_min_element l = Ok 1%nat /\ f_max_element l = Ok 0%nat /\ f_sort_indices (fun cmp => std_sort (fun i j => negb (cmp j i))) l = Ok [1; 3; 2; 0]%nat /\ f_find_index l (quarter 8) = 2%Z.
Proof. vm_compute. repeat split. Qed.
