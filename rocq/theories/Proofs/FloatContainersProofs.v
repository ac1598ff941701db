(* Proofs about the container tools for floating point numbers. *)
From Coq Require Import Reals ZArith List Lia Lra Permutation Bool Sorted.
From Verif Require Import Model.Base Model.FloatText Model.Ieee Model.FloatInterp Model.Regression Model.Containers Model.FloatContainers Spec.FloatText Spec.Ieee Spec.Containers Proofs.BaseFacts Proofs.FloatTextProofs Proofs.IeeeProofs Proofs.IeeeErrorProofs Proofs.FloatInterpProofs Proofs.FloatOpsProofs Proofs.ContainersProofs Props.FloatEquals Props.FloatAverage.
Import ListNotations.
Local Open Scope R_scope.

(* what is before what *)
Lemma lt_false f x y : Sane f -> (f_lt x y = false <-> ~ Less f x y).
Proof. intros W. pose proof (lt_less f x y W) as H. destruct (f_lt x y); split; intros E; try discriminate; [exfalso; apply E, H; reflexivity|intros L; apply H in L; discriminate|reflexivity]. Qed.
Lemma nan_less f x : ~ Less f FNan x /\ ~ Less f x FNan.
Proof. split; intros L; destruct (less_num _ _ _ L) as [A B]; [apply A|apply B]; reflexivity. Qed.
Lemma less_irrefl f x : ~ Less f x x.
Proof. intros L. destruct (less_num _ _ _ L) as [A _]. apply (less_not_lesseq _ _ _ L), lesseq_refl, A. Qed.

(* the place of a number among the extended reals *)
Definition place (f : fmt) (x : fnum) : xreal := match x with FNan => Below | FInf true => Below | FInf false => Above | FFin a n => Real (val f a n) end.
Lemma place_of f x : Num x -> Place f x (place f x).
Proof. destruct x as [|[|]|a n]; intros N; cbn; try reflexivity. apply N. reflexivity. Qed.
Lemma place_same f x y : Num x -> Num y -> place f x = place f y -> Same f x y.
Proof. intros X Y E. exists (place f x). split; [apply place_of, X|rewrite E; apply place_of, Y]. Qed.
Lemma place_le f x y : LessEq f x y -> xle (place f x) (place f y).
Proof.
  intros L. apply lesseq_iff in L. destruct L as (p & q & P & Q & L). pose proof (place_fun f x _ _ P (place_of f x (place_num _ _ _ P))). pose proof (place_fun f y _ _ Q (place_of f y (place_num _ _ _ Q))). subst. exact L.
Qed.
Lemma xle_antisym p q : xle p q -> xle q p -> p = q.
Proof. intros [A|A] [B|B]; try congruence. exfalso. apply (xlt_irrefl p). exact (xlt_trans _ _ _ A B). Qed.
Lemma ordered_impl {A} (P Q : A -> A -> Prop) l : (forall x y, In x l -> In y l -> P x y -> Q x y) -> Ordered P l -> Ordered Q l.
Proof. intros H O i j x y L I J. apply H; [eapply nth_error_In; eauto|eapply nth_error_In; eauto|exact (O i j x y L I J)]. Qed.
Lemma ordered_map' {A B} (g : A -> B) (P : B -> B -> Prop) l : Ordered (fun x y => P (g x) (g y)) l -> Ordered P (map g l).
Proof.
  intros O i j x y L I J. rewrite nth_error_map in I, J. destruct (nth_error l i) as [a|] eqn:EI; [|discriminate]. destruct (nth_error l j) as [b|] eqn:EJ; [|discriminate]. injection I as <-. injection J as <-. exact (O i j a b L EI EJ).
Qed.
(* two ordered arrangements of the same numbers agree place by place *)
Lemma ordered_agree f l s t : Forall Num l -> Permutation l s -> Permutation l t -> Ordered (LessEq f) s -> Ordered (LessEq f) t -> Forall2 (Same f) s t.
Proof.
  intros N P Q O1 O2. assert (N1 : Forall Num s) by (rewrite <- P; exact N). assert (N2 : Forall Num t) by (rewrite <- Q; exact N). assert (E : map (place f) s = map (place f) t).
  { apply (sorted_unique xle xle_antisym); [apply sorted_ordered, ordered_map'; eapply ordered_impl; [|exact O1]; intros; apply place_le; assumption|apply sorted_ordered, ordered_map'; eapply ordered_impl; [|exact O2]; intros; apply place_le; assumption|].
    apply Permutation_map. rewrite <- P. exact Q. }
  clear P Q O1 O2 N. revert t N2 E. induction N1 as [|x s X N1 IH]; intros [|y t] N2 E; try discriminate; constructor; injection E as E1 E2; inversion N2; subst; [apply place_same; assumption|apply IH; assumption].
Qed.

(* halving *)
Lemma grid_double f g : Sane f -> Grid f g -> Grid f (2 * g).
Proof.
  intros W (a & n & (m & e & E0 & M & ->) & ->). exists a, (m * 2 ^ (e + 1))%Z. split; [exists m, (e + 1)%Z; repeat split; lia|]. rewrite Z.pow_add_r by lia. unfold val. rewrite !mult_IZR. change (2 ^ 1)%Z with 2%Z. destruct a; ring.
Qed.
Lemma grid_halve f g : Sane f -> Grid f g -> IZR (2 ^ fm_prec f) * unit_of f <= Rabs g -> Grid f (g / 2).
Proof.
  intros W (a & n & (m & e & E0 & M & ->) & ->) B. pose proof W as [W1 W2]. pose proof (unit_pos f W) as U. rewrite (val_abs f a _ W) in B by (apply Z.mul_nonneg_nonneg; [lia|apply Z.pow_nonneg; lia]). apply Rmult_le_reg_r in B; [|exact U]. apply le_IZR in B.
  assert (E1 : (1 <= e)%Z). { destruct (Z.eq_dec e 0) as [->|]; [|lia]. rewrite Z.pow_0_r, Z.mul_1_r in B. lia. }
  exists a, (m * 2 ^ (e - 1))%Z. split; [exists m, (e - 1)%Z; repeat split; lia|]. assert (PE : (2 ^ e = 2 ^ (e - 1) * 2)%Z) by (replace e with (e - 1 + 1)%Z at 1 by lia; rewrite Z.pow_add_r by lia; reflexivity). rewrite PE. unfold val. rewrite !mult_IZR. destruct a; field.
Qed.
Lemma near_halve f r g : Sane f -> Near f r g -> Grid f (g / 2) -> Near f (r / 2) (g / 2).
Proof.
  intros W [G N] H. split; [exact H|]. intros g' G' D. destruct (N (2 * g') (grid_double f g' W G') ltac:(lra)) as [L|[L (k & K)]].
  - left. replace (g / 2 - r / 2) with ((g - r) * / 2) by field. replace (g' - r / 2) with ((2 * g' - r) * / 2) by field. rewrite !Rabs_mult, (Rabs_right (/ 2)) by lra. lra.
  - right. split; [|exists k; replace (g / 2 - g') with ((g - 2 * g') / 2) by field; lra]. replace (g / 2 - r / 2) with ((g - r) * / 2) by field. replace (g' - r / 2) with ((2 * g' - r) * / 2) by field. rewrite !Rabs_mult, L. reflexivity.
Qed.
(* the mean of two numbers, rounded twice, is the one rounded once *)
Lemma two_fin f : IEEE f -> exists n, f_of_int f 2 = FFin false n /\ Finite f n /\ (0 < n)%Z /\ val f false n = 2.
Proof.
  intros I. pose proof (ieee_sane f I) as W. destruct (int_fin f 2 I) as [(a & n & E & F) V]; [destruct I as [-> | ->]; cbn; lia|]. rewrite E in V. cbn [number] in V. assert (a = false) by (unfold f_of_int in E; cbn [Z.ltb Z.compare to_fnum] in E; destruct (_ <=? _)%Z in E; [discriminate|]; injection E; auto). subst a.
  exists n. split; [exact E|]. split; [exact F|]. split; [|exact V]. apply (val_lt f false 0 false n W). rewrite val_zero, V. lra.
Qed.
Lemma mean_correct f a n b m : IEEE f -> Finite f n -> Finite f m -> Rabs (val f a n + val f b m) < IZR (2 ^ fm_top f) * (1 - / IZR (2 ^ fm_prec f) / 2) ->
  Fin f (f_div f (f_add f (FFin a n) (FFin b m)) (f_of_int f 2)) /\ Correct f ((val f a n + val f b m) / 2) (f_div f (f_add f (FFin a n) (FFin b m)) (f_of_int f 2)).
Proof.
  intros I FN FM B. pose proof (ieee_sane f I) as W. pose proof W as [W1 W2]. pose proof (unit_pos f W) as U. destruct (two_fin f I) as (k & EK & FK & KP & VK). rewrite EK. pose proof (add_correct f a n b m W) as C.
  set (t := val f a n + val f b m) in *. assert (EZ : exists z, t = IZR z * unit_of f) by (exists (signed a n + signed b m)%Z; unfold t; rewrite !val_signed, plus_IZR; ring). destruct EZ as (z & EZ).
  destruct (f_add f (FFin a n) (FFin b m)) as [|s|s j] eqn:EA; [destruct C as (g & _ & []) |exfalso|].
  { destruct C as (g & N & G & _). pose proof (below_top f t g W B N). lra. }
  destruct C as (g & N & FJ & -> & SG). pose proof (div_correct f s j false k W (fin_pos f s j FJ) KP) as D. rewrite VK in D.
  assert (HALF : Near f (t / 2) (val f s j / 2) \/ val f s j = t).
  { destruct (Z_le_gt_dec (Z.abs z) (2 ^ fm_prec f)) as [L|L].
    - right. apply (near_exact f t _ N). rewrite EZ. apply grid_small; assumption.
    - left. apply (near_halve f t _ W N). apply grid_halve; [exact W|exists s, j; split; [apply FJ|reflexivity]|].
      apply (near_rabs f _ _ W) in N. apply (near_mono f _ _ _ _ (exact_near f _ (grid_small f (2 ^ fm_prec f) W ltac:(lia))) N). rewrite EZ, Rabs_mult, (Rabs_right (unit_of f)), <- abs_IZR by lra. apply Rmult_le_compat_r; [lra|]. apply IZR_le. lia. }
  assert (SJ : (0 < t -> 0 < val f s j) /\ (t < 0 -> val f s j < 0)).
  { split; intros T.
    - assert (Z1 : (1 <= z)%Z). { rewrite EZ in T. destruct (Z_lt_le_dec z 1); [|assumption]. assert (IZR z <= 0) by (apply IZR_le; lia). nra. }
      assert (1 * unit_of f <= val f s j); [|lra]. apply (near_mono f _ _ _ _ (exact_near f _ (grid_small f 1 W ltac:(pose proof (pow_pos_ (fm_prec f) ltac:(lia)); cbn; lia))) N). rewrite EZ. apply Rmult_le_compat_r; [lra|]. apply IZR_le. exact Z1.
    - assert (Z1 : (z <= -1)%Z). { rewrite EZ in T. destruct (Z_lt_le_dec (-1) z); [|assumption]. assert (0 <= IZR z) by (apply IZR_le; lia). nra. }
      assert (val f s j <= -1 * unit_of f); [|lra]. apply (near_mono f _ _ _ _ N (exact_near f _ (grid_small f (-1) W ltac:(pose proof (pow_pos_ (fm_prec f) ltac:(lia)); cbn; lia)))). rewrite EZ. apply Rmult_le_compat_r; [lra|]. apply IZR_le. exact Z1. }
  pose proof (finite_small f s j W FJ) as SM. set (r := f_div f (FFin s j) (FFin false k)) in *. destruct D as (g & NG & D).
  assert (GB : Rabs g < IZR (2 ^ fm_top f)).
  { apply (near_rabs f _ _ W) in NG. assert (Rabs (val f s j / 2) <= Rabs (val f s j)) by (unfold Rdiv; rewrite Rabs_mult, (Rabs_right (/ 2)) by lra; pose proof (Rabs_pos (val f s j)); lra).
    assert (Rabs g <= Rabs (val f s j)); [|lra]. apply (near_mono f _ _ _ _ NG (exact_near f _ (ex_intro _ false (ex_intro _ j (conj (proj1 FJ) (val_abs f s j W (fin_pos f s j FJ)))))) H). }
  assert (NT : Near f (t / 2) g). { destruct HALF as [H|H]; [|rewrite <- H; exact NG]. rewrite (near_exact f _ _ NG (proj1 H)). exact H. }
  destruct r as [|c|c q]; [contradiction|lra|]. destruct D as (FQ & -> & SQ). split; [exists c, q; auto|]. exists (val f c q). split; [exact NT|]. split; [exact FQ|]. split; [reflexivity|].
  destruct SJ as [S1 S2], c; [destruct (Rle_dec t 0); [lra|assert (0 < val f s j) by (apply S1; lra); lra]|destruct (Rle_dec 0 t); [lra|assert (val f s j < 0) by (apply S2; lra); lra]].
Qed.

(* sorting with a comparison that is good for the elements at hand *)
Lemma strict_weak_iff {A} (lt : A -> A -> bool) l : strict_weak lt l = true <-> forall x y z, In x l -> In y l -> In z l ->
  lt x x = false /\ (lt x y = true -> lt y z = true -> lt x z = true) /\ (lt x y = false -> lt y x = false -> lt y z = false -> lt z y = false -> lt x z = false /\ lt z x = false).
Proof.
  unfold strict_weak. rewrite forallb_forall. split.
  - intros H x y z X Y Z. specialize (H x X). apply andb_prop in H. destruct H as [H1 H2]. rewrite forallb_forall in H2. specialize (H2 y Y). rewrite forallb_forall in H2. specialize (H2 z Z). destruct (lt x x), (lt x y), (lt y x), (lt y z), (lt z y), (lt x z), (lt z x); cbn in *; try discriminate; repeat split; intros; try reflexivity; try discriminate.
  - intros H x X. apply andb_true_intro. split; [destruct (H x x x X X X) as [-> _]; reflexivity|]. apply forallb_forall. intros y Y. apply forallb_forall. intros z Z. destruct (H x y z X Y Z) as (_ & H1 & H2).
    destruct (lt x y), (lt y x), (lt y z), (lt z y), (lt x z), (lt z x); cbn; try reflexivity; exfalso; first [discriminate (H1 eq_refl eq_refl)|destruct (H2 eq_refl eq_refl eq_refl eq_refl); discriminate].
Qed.
Lemma best_on {A} (D : A -> Prop) (better : A -> A -> bool) (total_ : forall x y z, D x -> D y -> D z -> better y x = false -> better z y = false -> better z x = false) (asym : forall x y, D x -> D y -> better y x = true -> better x y = false) :
  forall l pre x at_, Forall D (pre ++ l) -> nth_error pre at_ = Some x -> (forall y, In y pre -> better y x = false) -> (forall j y, (j < at_)%nat -> nth_error pre j = Some y -> better x y = true) ->
  exists z, nth_error (pre ++ l) (best better x at_ l (length pre)) = Some z /\ (forall y, In y (pre ++ l) -> better y z = false) /\
    (forall j y, (j < best better x at_ l (length pre))%nat -> nth_error (pre ++ l) j = Some y -> better z y = true).
Proof.
  induction l as [|y l IH]; intros pre x a DL X M F; cbn [best].
  - rewrite app_nil_r. exists x. auto.
  - assert (DX : forall z, In z pre -> D z) by (intros z Z; rewrite Forall_forall in DL; apply DL, in_or_app; auto). assert (DY : D y) by (rewrite Forall_forall in DL; apply DL, in_or_app; right; left; reflexivity). pose proof (DX x (nth_error_In _ _ X)) as DX'.
    replace (pre ++ y :: l) with ((pre ++ [y]) ++ l) in * by (rewrite <- app_assoc; reflexivity). replace (S (length pre)) with (length (pre ++ [y])) by (rewrite app_length; cbn; lia).
    destruct (better y x) eqn:E.
    + apply IH; [exact DL| | |].
      * rewrite nth_error_app2, Nat.sub_diag by lia. reflexivity.
      * intros z Z. apply in_app_or in Z. destruct Z as [Z|[<-|[]]].
        -- apply (total_ y x z); auto.
        -- destruct (better y y) eqn:Q; [apply asym in Q as Q'; try assumption; congruence|reflexivity].
      * intros j z L Z. rewrite nth_error_app1 in Z by lia. destruct (better y z) eqn:Q; [reflexivity|]. exfalso.
        pose proof (total_ x z y DX' (DX z (nth_error_In _ _ Z)) DY (M z (nth_error_In _ _ Z)) Q). congruence.
    + apply IH; [exact DL| | |].
      * rewrite nth_error_app1; [exact X|]. apply nth_error_Some. congruence.
      * intros z Z. apply in_app_or in Z. destruct Z as [Z|[<-|[]]]; [apply M; exact Z|exact E].
      * intros j z L Z. apply (F j); [exact L|]. rewrite nth_error_app1 in Z; [exact Z|]. assert (a < length pre)%nat by (apply nth_error_Some; congruence). lia.
Qed.
