(* C98: interpolation of samples of floating point numbers. *)
From Coq Require Import Reals ZArith Lia Lra List Bool.
From Verif Require Import Model.Base Model.FloatText Model.Math Model.Ieee Model.FloatMath Model.SortedVector Model.Interp Model.FloatInterp Spec.FloatText Spec.Ieee Spec.Interp Proofs.FloatTextProofs Proofs.SortedVectorProofs Proofs.InterpProofs Proofs.IeeeProofs Proofs.IeeeErrorProofs Proofs.IeeeSqrtProofs Props.FloatAverage Props.FloatBounds Props.FloatEquals Props.FloatOrder Props.FloatSqrt Props.FloatVec Proofs.FloatInterpProofs.
Import ListNotations.
Local Open Scope R_scope.

(* keys never decrease, and are numbers *)
Definition SortedF (f : fmt) (l : list (fnum * fnum)) : Prop :=
  forall i j p q, (i <= j)%nat -> nth_error l i = Some p -> nth_error l j = Some q -> LessEq f (fst p) (fst q).
(* the samples as real numbers *)
Definition reals (f : fmt) (l : list (fnum * fnum)) : list (R * R) := map (fun p => (number f (fst p), number f (snd p))) l.
(* neighbouring keys are not further apart than the largest number *)
Definition Gaps (f : fmt) (l : list (fnum * fnum)) : Prop := forall front p q tail, l = front ++ p :: q :: tail -> Fin f (f_sub f (fst q) (fst p)).
Definition FinPair (f : fmt) (p : fnum * fnum) : Prop := Fin f (fst p) /\ Fin f (snd p).

Lemma lt_false f x y : Sane f -> f_lt x y = false <-> ~ Less f x y.
Proof. intros W. destruct (lt_reflect f x y W) as [L|L]; split; intros; try discriminate; try reflexivity; [contradiction|exact L]. Qed.
Lemma value_last f l key front k v : Sane f -> l = front ++ [(k, v)] -> (forall p, In p l -> ~ Less f key (fst p)) -> f_interpolated_value f l key = Ok v.
Proof.
  intros W E H. unfold f_interpolated_value. assert (P : partitioned (fun p => f_lt key (fst p)) l (length l)).
  { split; [lia|]. split; intros i x X L.
    - apply (lt_false f _ _ W). apply H. apply nth_error_In in X. exact X.
    - assert (nth_error l i <> None) by congruence. apply nth_error_Some in H0. lia. }
  assert (N : (length l <> 0)%nat) by (subst l; rewrite app_length; cbn; lia). apply Nat.eqb_neq in N. rewrite N. cbn [negb assert_ bind].
  rewrite (bound_ok _ _ _ P). cbn [bind]. rewrite Nat.eqb_refl. unfold vget. subst l. rewrite app_length. cbn [length].
  replace (length front + 1 - 1)%nat with (length front) by lia. rewrite nth_error_app_mid. reflexivity.
Qed.
Lemma value_first f l key k v tail : Sane f -> l = (k, v) :: tail -> (forall p, In p l -> Less f key (fst p)) -> f_interpolated_value f l key = Ok v.
Proof.
  intros W E H. unfold f_interpolated_value. assert (P : partitioned (fun p => f_lt key (fst p)) l 0).
  { split; [lia|]. split; intros i x X L; [lia|]. apply (lt_less f _ _ W), H. apply nth_error_In in X. exact X. }
  assert (N : (length l <> 0)%nat) by (subst l; cbn; lia). pose proof N as N'. apply Nat.eqb_neq in N. rewrite N. cbn [negb assert_ bind].
  rewrite (bound_ok _ _ _ P). cbn [bind]. destruct (Nat.eqb_spec 0 (length l)) as [Q|Q]; [congruence|]. cbn [Nat.eqb]. subst l. reflexivity.
Qed.
Lemma value_mid f l key front k0 v0 k1 v1 tail : Sane f -> SortedF f l -> l = front ++ (k0, v0) :: (k1, v1) :: tail -> LessEq f k0 key -> Less f key k1 ->
  f_interpolated_value f l key = Ok (f_mix f (f_div f (f_sub f key k0) (f_sub f k1 k0)) v0 v1).
Proof.
  intros W S E L0 L1. unfold f_interpolated_value. assert (X0 : nth_error l (length front) = Some (k0, v0)) by (subst l; apply nth_error_app_mid).
  assert (X1 : nth_error l (Datatypes.S (length front)) = Some (k1, v1)). { subst l. rewrite nth_error_app2 by lia. replace (Datatypes.S (length front) - length front)%nat with 1%nat by lia. reflexivity. }
  assert (LE : (length front + 2 <= length l)%nat) by (subst l; rewrite app_length; cbn; lia).
  assert (P : partitioned (fun p => f_lt key (fst p)) l (Datatypes.S (length front))).
  { split; [lia|]. split; intros i x X L.
    - apply (lt_false f _ _ W). intros LL. pose proof (S i (length front) x _ ltac:(lia) X X0) as Q. cbn [fst] in Q. apply (less_not_lesseq f _ _ LL). exact (lesseq_trans f _ _ _ Q L0).
    - apply (lt_less f _ _ W). pose proof (S _ i _ x L X1 X) as Q. cbn [fst] in Q. exact (less_lesseq_trans f _ _ _ L1 Q). }
  destruct (Nat.eqb_spec (length l) 0) as [Q|_]; [lia|]. cbn [negb assert_ bind].
  rewrite (bound_ok _ _ _ P). cbn [bind]. destruct (Nat.eqb_spec (Datatypes.S (length front)) (length l)) as [Q|_]; [lia|].
  cbn [Nat.eqb]. replace (Datatypes.S (length front) - 1)%nat with (length front) by lia. unfold vget. rewrite X0, X1. reflexivity.
Qed.
(* outside of the samples: the first or the last value; nan counts as past the
   end, whatever the samples are *)
Theorem C98_outside : forall f l key, IEEE f -> (l = [] -> f_interpolated_value f l key = Throw) /\
  (forall front k v, l = front ++ [(k, v)] -> NaN key \/ (forall p, In p l -> LessEq f (fst p) key) -> f_interpolated_value f l key = Ok v) /\
  (forall k v tail, l = (k, v) :: tail -> (forall p, In p l -> Less f key (fst p)) -> f_interpolated_value f l key = Ok v).
Proof.
  intros f l key I. pose proof (ieee_sane f I) as W. split; [intros ->; reflexivity|]. split.
  - intros front k v E H. apply (value_last f l key front k v W E). intros p Q L. destruct H as [H|H]; [destruct (less_num f _ _ L) as [N _]; contradiction|]. exact (less_not_lesseq f _ _ L (H p Q)).
  - intros k v tail E H. exact (value_first f l key k v tail W E H).
Qed.
Print Assumptions C98_outside.
Lemma val_lesseq f a n b m : val f a n <= val f b m -> LessEq f (FFin a n) (FFin b m).
Proof. intros L. destruct (Rle_lt_or_eq_dec _ _ L) as [Q|Q]; [left; exists (Real (val f a n)), (Real (val f b m)); repeat split; exact Q|right; exists (Real (val f a n)); split; [reflexivity|cbn; f_equal; exact Q]]. Qed.
Lemma fin_lesseq f x y : Fin f x -> Fin f y -> (LessEq f x y <-> number f x <= number f y).
Proof. intros (a & n & -> & _) (b & m & -> & _). cbn [number]. split; [apply lesseq_fin|apply val_lesseq]. Qed.
Lemma fin_less f x y : Fin f x -> Fin f y -> (Less f x y <-> number f x < number f y).
Proof.
  intros (a & n & -> & _) (b & m & -> & _). cbn [number]. split.
  - intros (p & q & P & Q & L). cbn in P, Q. subst p q. exact L.
  - intros L. exists (Real (val f a n)), (Real (val f b m)). repeat split. exact L.
Qed.
Lemma sorted_reals f l : Forall (FinPair f) l -> SortedF f l -> SortedKeys (reals f l).
Proof.
  intros F S i j p q L P Q. unfold reals in P, Q. rewrite nth_error_map in P, Q. destruct (nth_error l i) as [p'|] eqn:P'; [|discriminate]. destruct (nth_error l j) as [q'|] eqn:Q'; [|discriminate]. cbn in P, Q. injection P as <-. injection Q as <-. cbn [fst].
  rewrite Forall_forall in F. apply fin_lesseq; [apply F; eapply nth_error_In; exact P'|apply F; eapply nth_error_In; exact Q'|]. exact (S i j p' q' L P' Q').
Qed.
(* finite samples and a finite key: the value on the broken line, up to
   rounding, and always finite *)
Theorem C98_value : forall f l key, IEEE f -> l <> [] -> Forall (FinPair f) l -> SortedF f l -> Gaps f l -> Fin f key ->
  exists r v, f_interpolated_value f l key = Ok r /\ Fin f r /\ Broken (reals f l) (number f key) v /\
  forall M, (forall p, In p l -> Rabs (number f (snd p)) <= M) -> Rabs (number f r - v) <= 10 / IZR (2 ^ fm_prec f) * M + 2 * unit_of f.
Proof.
  intros f l key I N F S G FK. pose proof (ieee_sane f I) as W. pose proof (unit_pos f W) as UP. destruct (prec_small f I) as (U & _ & _). assert (FF := F). rewrite Forall_forall in FF.
  assert (TRIV : forall M r, 0 <= M -> Rabs (number f r - number f r) <= 10 / IZR (2 ^ fm_prec f) * M + 2 * unit_of f). { intros M r M0. replace (number f r - number f r) with 0 by ring. rewrite Rabs_R0. unfold Rdiv. assert (0 <= 10 * / IZR (2 ^ fm_prec f) * M) by (apply Rmult_le_pos; lra). lra. }
  destruct (broken_exists (reals f l) (number f key)) as [v B]; [destruct l; [contradiction|discriminate]|apply sorted_reals; assumption|].
  destruct B as [front k E H|k tail E H|front k0 v0 k1 v1 tail E H V].
  - assert (B : Broken (reals f l) (number f key) v) by exact (BAfter _ _ v front k E H). unfold reals in E. destruct (map_eq_app _ _ _ _ E) as (lf & lt & EL & _ & E2). apply map_eq_cons in E2. destruct E2 as ((k' & r) & tl & -> & E3 & E4). apply map_eq_nil in E4. subst tl. injection E3 as E3 E5.
    exists r, v. split.
    { apply (value_last f l key lf k' r W EL). intros p Q. rewrite (fin_less f key (fst p) FK (proj1 (FF p Q))). specialize (H (number f (fst p), number f (snd p))). cbn [fst] in H. assert (number f (fst p) <= number f key); [|lra]. apply H. unfold reals. apply in_map_iff. exists p. auto. }
    assert (IN : In (k', r) l) by (subst l; apply in_or_app; right; left; reflexivity). split; [apply (FF _ IN)|]. split; [exact B|]. intros M MB. cbn [fst snd] in *. rewrite <- E5. apply TRIV. pose proof (MB _ IN). pose proof (Rabs_pos (number f r)). cbn [snd] in *. lra.
  - assert (B : Broken (reals f l) (number f key) v) by exact (BBefore _ _ v k tail E H). unfold reals in E. apply map_eq_cons in E. destruct E as ((k' & r) & tl & EL & E3 & _). injection E3 as E3 E5.
    exists r, v. split.
    { apply (value_first f l key k' r tl W EL). intros p Q. rewrite (fin_less f key (fst p) FK (proj1 (FF p Q))). specialize (H (number f (fst p), number f (snd p))). cbn [fst] in H. apply H. unfold reals. apply in_map_iff. exists p. auto. }
    assert (IN : In (k', r) l) by (subst l; left; reflexivity). split; [apply (FF _ IN)|]. split; [exact B|]. intros M MB. cbn [fst snd] in *. rewrite <- E5. apply TRIV. pose proof (MB _ IN). pose proof (Rabs_pos (number f r)). cbn [snd] in *. lra.
  - assert (B : Broken (reals f l) (number f key) v) by exact (BBetween _ _ v front k0 v0 k1 v1 tail E H V). unfold reals in E. destruct (map_eq_app _ _ _ _ E) as (lf & lt & EL & _ & E2). apply map_eq_cons in E2. destruct E2 as ((x0 & y0) & tl & -> & E3 & E4). apply map_eq_cons in E4. destruct E4 as ((x1 & y1) & tl' & -> & E5 & _). injection E3 as E3 E3'. injection E5 as E5 E5'. cbn [fst snd] in *.
    assert (IN0 : In (x0, y0) l) by (subst l; apply in_or_app; right; left; reflexivity). assert (IN1 : In (x1, y1) l) by (subst l; apply in_or_app; right; right; left; reflexivity). destruct (FF _ IN0) as [FX0 FY0]. destruct (FF _ IN1) as [FX1 FY1]. pose proof (G _ _ _ _ EL) as GA. cbn [fst snd] in *.
    pose proof (value_mid f l key lf x0 y0 x1 y1 tl' W S EL) as VM. rewrite (fin_lesseq f x0 key FX0 FK), (fin_less f key x1 FK FX1) in VM. specialize (VM ltac:(lra) ltac:(lra)).
    destruct FX0 as (a0 & n0 & -> & FX0). destruct FX1 as (a1 & n1 & -> & FX1). destruct FY0 as (b0 & m0 & -> & FY0). destruct FY1 as (b1 & m1 & -> & FY1). destruct FK as (c & k & -> & FK). cbn [number] in *. subst k0 k1 v0 v1.
    destruct (weight f c k a0 n0 a1 n1 I FK FX0 FX1 ltac:(lra) ltac:(lra) GA) as (s & w & EW & FW & WB & WE). rewrite EW in VM.
    destruct (mix_parts f s w b0 m0 b1 m1 W FW FY0 FY1 WB) as (_ & _ & _ & r & q & _ & _ & _ & _ & FQ & _ & _ & EM). rewrite EM in VM. exists (FFin r q), v. split; [exact VM|]. split; [exists r, q; auto|]. split; [exact B|]. intros M MB. pose proof (MB _ IN0) as M0. pose proof (MB _ IN1) as M1. cbn [snd number] in *.
    pose proof (mix_error f s w b0 m0 b1 m1 _ _ r q M I FW FY0 FY1 WB WE M0 M1 EM) as ER. rewrite V. unfold chord. set (t := (val f c k - val f a0 n0) / (val f a1 n1 - val f a0 n0)) in *. replace (val f b0 m0 + t * (val f b1 m1 - val f b0 m0)) with ((1 - t) * val f b0 m0 + t * val f b1 m1) by ring.
    eapply Rle_trans; [exact ER|]. unfold Rdiv. lra.
Qed.
Print Assumptions C98_value.
Lemma one_finite f : Sane f -> Finite f (2 ^ fm_low f).
Proof. intros W. pose proof W as [W1 W2]. rewrite <- (Z.mul_1_l (2 ^ fm_low f)). apply count_fin; [exact W|lia|]. pose proof (pow_pos_ (fm_prec f) ltac:(lia)). lia. Qed.
Lemma add_zero_same f v z : Sane f -> Valid f v -> Num v -> Same f (f_add f v (FFin z 0)) v.
Proof.
  intros W V N. destruct v as [|a|a n]; [exfalso; apply N; reflexivity| |].
  - exists (if a then Below else Above). destruct a; split; reflexivity.
  - pose proof (add_correct f a n z 0 W) as C. rewrite (val_zero f z), Rplus_0_r in C. exact (correct_same f _ _ _ W C (correct_fin f a n W V)).
Qed.
(* weight zero gives the first value *)
Lemma mix_zero f s v b : Sane f -> Valid f v -> Fin f b -> exists z, f_mix f (FFin s 0) v b = f_add f v (FFin z 0).
Proof.
  intros W V (t & m & -> & F). pose proof W as [W1 W2]. pose proof (unit_scale f W) as US. unfold f_mix. assert (E : f_sub f (f_one f) (FFin s 0) = f_one f).
  { unfold f_one, f_sub, f_neg, f_add. cbn [signed]. replace (signed (negb s) 0) with 0%Z by (destruct s; reflexivity). rewrite Z.add_0_r. pose proof (pow_pos_ (fm_low f) ltac:(lia)) as P. destruct (Z.eqb_spec (2 ^ fm_low f) 0) as [Q|_]; [lia|]. rewrite (proj2 (Z.ltb_ge (2 ^ fm_low f) 0)), Z.abs_eq by lia.
    apply (to_fnum_fin f false _ _ (IZR (2 ^ fm_low f) / IZR (2 ^ fm_low f))); [exact W|apply (round_correct f false); [exact W|lia|lia]|apply one_finite, W|]. rewrite (one_val f W). field. lra. }
  rewrite E, (mul_one f v W V). exists (xorb s t). f_equal. unfold f_mul. rewrite Z.mul_0_l. apply to_zero; [exact W|]. pose proof (pow_pos_ (fm_low f) ltac:(lia)). nia.
Qed.
Lemma mix_zero_same f s v b : Sane f -> Valid f v -> Fin f b -> (Num v -> Same f (f_mix f (FFin s 0) v b) v) /\ (NaN v -> NaN (f_mix f (FFin s 0) v b)).
Proof.
  intros W V B. destruct (mix_zero f s v b W V B) as [z ->]. split; [intros N; apply add_zero_same; assumption|]. intros ->. reflexivity.
Qed.
(* at a stored key: the value of the last sample with that key, if the next one
   is finite *)
Theorem C98_stored : forall f front k v tail key, IEEE f -> SortedF f (front ++ (k, v) :: tail) -> (forall p, In p tail -> Valid f (fst p) /\ Less f k (fst p)) -> Fin f key -> Same f key k ->
  Valid f v -> Num v -> (forall p t, tail = p :: t -> Fin f (snd p)) ->
  exists r, f_interpolated_value f (front ++ (k, v) :: tail) key = Ok r /\ Same f r v.
Proof.
  intros f front k v tail key I S T FK K V N B. pose proof (ieee_sane f I) as W. destruct tail as [|(k1, v1) tail].
  - exists v. split.
    + apply (value_last f _ key front k v W eq_refl). intros p Q L. apply In_nth_error in Q. destruct Q as [i Q]. assert (LI : (i <= length front)%nat). { assert (nth_error (front ++ [(k, v)]) i <> None) by congruence. apply nth_error_Some in H. rewrite app_length in H. cbn in H. lia. }
      pose proof (S i (length front) p (k, v) LI Q (nth_error_app_mid front (k, v) [])) as Z. cbn [fst] in Z. apply (less_not_lesseq f _ _ L). apply (lesseq_trans f _ k); [exact Z|right; apply same_sym; exact K].
    + destruct (num_place f v N) as [p P]. exists p. auto.
  - destruct (T (k1, v1) (or_introl eq_refl)) as [VK1 L1]. cbn [fst] in *. assert (L0 : LessEq f k key) by (right; apply same_sym; exact K). assert (L2 : Less f key k1) by (apply (lesseq_less_trans f _ k); [right; exact K|exact L1]).
    rewrite (value_mid f _ key front k v k1 v1 tail W S eq_refl L0 L2). eexists. split; [reflexivity|]. specialize (B _ _ eq_refl). cbn [snd] in B.
    assert (WZ : exists s, f_div f (f_sub f key k) (f_sub f k1 k) = FFin s 0).
    { destruct FK as (a & n & -> & FK). destruct k as [|b|b m]; [destruct K as (? & _ & K); contradiction|destruct K as (? & K1 & K2); cbn in K1, K2; subst; destruct b; discriminate|].
      assert (E : signed a n = signed b m). { destruct K as (p & K1 & K2). cbn in K1, K2. subst p. injection K2 as K2. apply (val_eq f _ _ _ _ W) in K2. congruence. }
      assert (D : exists z, f_sub f (FFin a n) (FFin b m) = FFin z 0). { exists (a && negb b)%bool. unfold f_sub, f_neg, f_add. rewrite E. replace (signed (negb b) m) with (- signed b m)%Z by (destruct b; cbn; lia). rewrite Z.add_opp_diag_r. reflexivity. }
      destruct D as [z ->]. pose proof (sub_positive f _ _ W L1) as SP. destruct (f_sub f k1 (FFin b m)) as [|c|c j] eqn:EG; [destruct SP as (? & ? & _ & [] & _)|eexists; reflexivity|].
      exists (xorb z c). unfold f_div. assert (J : j <> 0%Z). { intros ->. destruct SP as (p & q & P & Q & L). cbn in P, Q. subst p q. cbn in L. rewrite !val_zero in L. lra. }
      destruct (Z.eqb_spec j 0) as [|_]; [contradiction|]. apply to_zero; [exact W|]. assert (VJ : Valid f (FFin c j)). { rewrite <- EG. destruct k1 as [|d|d i]; try discriminate. eapply correct_valid. apply sub_correct. exact W. } pose proof (fin_pos f c j VJ). lia. }
    destruct WZ as [s ->]. apply mix_zero_same; assumption.
Qed.
Print Assumptions C98_stored.
(* values of one sign give values of that sign *)
Theorem C98_sign : forall f l key r, IEEE f -> Forall (FinPair f) l -> SortedF f l -> Gaps f l -> Fin f key -> f_interpolated_value f l key = Ok r ->
  ((forall p, In p l -> 0 <= number f (snd p)) -> 0 <= number f r) /\ ((forall p, In p l -> number f (snd p) <= 0) -> number f r <= 0).
Proof.
  intros f l key r I F S G FK E. pose proof (ieee_sane f I) as W. assert (FF := F). rewrite Forall_forall in FF.
  assert (CASES : (exists k v, In (k, v) l /\ r = v) \/ exists k0 v0 k1 v1 s w, In (k0, v0) l /\ In (k1, v1) l /\ Finite f w /\ 0 <= val f s w <= 1 /\ r = f_mix f (FFin s w) v0 v1).
  { destruct l as [|p0 l0]; [discriminate|]. set (l := p0 :: l0) in *. destruct (partition_exists (fun p => f_lt key (fst p)) l) as [k (K1 & K2 & K3)].
    { intros i j x y L X Y P. apply (lt_less f _ _ W) in P. apply (lt_less f _ _ W). exact (less_lesseq_trans f _ _ _ P (S i j x y L X Y)). }
    destruct (Nat.eq_dec k (length l)) as [EK|EK].
    - left. destruct (exists_last (l := l) ltac:(discriminate)) as (front & [kk v] & EL). exists kk, v. split; [rewrite EL; apply in_or_app; right; left; reflexivity|]. rewrite (value_last f l key front kk v W EL) in E; [congruence|]. intros p Q. apply In_nth_error in Q. destruct Q as [i Q]. apply (lt_false f _ _ W). apply (K2 i p Q). assert (nth_error l i <> None) by congruence. apply nth_error_Some in H. lia.
    - destruct k as [|k].
      + left. destruct p0 as [kk v]. exists kk, v. split; [left; reflexivity|]. rewrite (value_first f l key kk v l0 W eq_refl) in E; [congruence|]. intros p Q. apply In_nth_error in Q. destruct Q as [i Q]. apply (lt_less f _ _ W). apply (K3 i p Q). lia.
      + right. destruct (nth_error l k) as [[k0 v0]|] eqn:X0; [|apply nth_error_None in X0; lia]. destruct (nth_error_split l k X0) as (front & rest & EL & LF). destruct rest as [|[k1 v1] tail]; [rewrite EL, app_length in *; cbn in *; lia|].
        assert (X1 : nth_error l (Datatypes.S k) = Some (k1, v1)). { rewrite EL, <- LF, nth_error_app2 by lia. replace (Datatypes.S (length front) - length front)%nat with 1%nat by lia. reflexivity. }
        pose proof (K2 k _ X0 ltac:(lia)) as Y0. pose proof (K3 _ _ X1 ltac:(lia)) as Y1. cbn [fst] in Y0, Y1. apply (lt_false f _ _ W) in Y0. apply (lt_less f _ _ W) in Y1.
        pose proof (nth_error_In _ _ X0) as IN0. pose proof (nth_error_In _ _ X1) as IN1. destruct (FF _ IN0) as [FX0 FY0]. destruct (FF _ IN1) as [FX1 FY1]. pose proof (G _ _ _ _ EL) as GA. cbn [fst snd] in *.
        assert (L0 : LessEq f k0 key) by (apply fin_lesseq; [assumption..|]; rewrite (fin_less f key k0 FK FX0) in Y0; lra). rewrite (value_mid f l key front k0 v0 k1 v1 tail W S EL L0 Y1) in E.
        apply (fin_lesseq f _ _ FX0 FK) in L0. apply (fin_less f _ _ FK FX1) in Y1. destruct FX0 as (a0 & n0 & -> & FX0). destruct FX1 as (a1 & n1 & -> & FX1). destruct FK as (c & j & -> & FK). cbn [number] in *.
        destruct (weight f c j a0 n0 a1 n1 I FK FX0 FX1 ltac:(lra) ltac:(lra) GA) as (s & w & EW & FW & WB & _). rewrite EW in E. exists (FFin a0 n0), v0, (FFin a1 n1), v1, s, w. repeat match goal with |- _ /\ _ => split end; try assumption; try apply WB. congruence. }
  destruct CASES as [(k & v & IN & ->)|(k0 & v0 & k1 & v1 & s & w & IN0 & IN1 & FW & WB & ->)].
  - split; intros H; exact (H _ IN).
  - destruct (FF _ IN0) as [_ (b0 & m0 & EY0 & FY0)]. destruct (FF _ IN1) as [_ (b1 & m1 & EY1 & FY1)]. cbn [snd] in *. subst v0 v1. destruct (mix_parts f s w b0 m0 b1 m1 W FW FY0 FY1 WB) as (c & p & q & r & i & NC & NP & NQ & NR & FR & _ & _ & ->). cbn [number]. pose proof (exact_near f _ (grid_zero f W)) as Z. pose proof (near_mono f _ _ _ _ Z NC ltac:(lra)) as C0.
    split; intros H; pose proof (H _ IN0) as H0; pose proof (H _ IN1) as H1; cbn [snd number] in *.
    + pose proof (near_mono f _ _ _ _ Z NP ltac:(nra)). pose proof (near_mono f _ _ _ _ Z NQ ltac:(nra)). apply (near_mono f _ _ _ _ Z NR). lra.
    + pose proof (near_mono f _ _ _ _ NP Z ltac:(nra)). pose proof (near_mono f _ _ _ _ NQ Z ltac:(nra)). apply (near_mono f _ _ _ _ NR Z). lra.
Qed.
Print Assumptions C98_sign.
(* from a value that is not positive to one that is not negative it never
   decreases *)
Theorem C98_mono : forall f l front k0 v0 k1 v1 tail key key' r r', IEEE f -> SortedF f l -> l = front ++ (k0, v0) :: (k1, v1) :: tail -> FinPair f (k0, v0) -> FinPair f (k1, v1) -> Fin f (f_sub f k1 k0) -> Fin f key -> Fin f key' ->
  LessEq f k0 key -> LessEq f key key' -> Less f key' k1 -> number f v0 <= 0 <= number f v1 -> f_interpolated_value f l key = Ok r -> f_interpolated_value f l key' = Ok r' -> LessEq f r r'.
Proof.
  intros f l front k0 v0 k1 v1 tail key key' r r' I S EL [FX0 FY0] [FX1 FY1] GA FK FK' L0 L1 L2 V E E'. pose proof (ieee_sane f I) as W. cbn [fst snd] in *.
  rewrite (value_mid f l key' front k0 v0 k1 v1 tail W S EL (lesseq_trans f _ _ _ L0 L1) L2) in E'. rewrite (value_mid f l key front k0 v0 k1 v1 tail W S EL L0 (lesseq_less_trans f _ _ _ L1 L2)) in E. injection E as <-. injection E' as <-.
  pose proof (lesseq_trans f _ _ _ L0 L1) as L0'. pose proof (lesseq_less_trans f _ _ _ L1 L2) as L2'. apply (fin_lesseq f _ _ FX0 FK) in L0. apply (fin_lesseq f _ _ FK FK') in L1 as L1R. apply (fin_less f _ _ FK' FX1) in L2. apply (fin_lesseq f _ _ FX0 FK') in L0'. apply (fin_less f _ _ FK FX1) in L2'.
  destruct FX0 as (a0 & n0 & -> & FX0). destruct FX1 as (a1 & n1 & -> & FX1). destruct FK as (c & j & -> & FK). destruct FK' as (c' & j' & -> & FK'). destruct FY0 as (b0 & m0 & -> & FY0). destruct FY1 as (b1 & m1 & -> & FY1). cbn [number] in *.
  destruct (weight f c j a0 n0 a1 n1 I FK FX0 FX1 ltac:(lra) ltac:(lra) GA) as (s & w & EW & FW & WB & _). destruct (weight f c' j' a0 n0 a1 n1 I FK' FX0 FX1 ltac:(lra) ltac:(lra) GA) as (s' & w' & EW' & FW' & WB' & _).
  assert (WW : val f s w <= val f s' w').
  { apply lesseq_fin. rewrite <- EW, <- EW'. destruct GA as (g & d & EG & FG). rewrite EG in *. assert (GP : Less f f_zero (FFin g d)) by (rewrite <- EG; apply sub_positive; [exact W|]; apply fin_less; [exists a0, n0; auto|exists a1, n1; auto|cbn [number]; lra]).
    assert (g = false /\ (0 < d)%Z) as [-> DP]. { destruct GP as (p & q & P & Q & L). cbn in P, Q. subst p q. cbn in L. rewrite val_zero in L. pose proof (fin_pos f g d FG). apply (IZR_le 0) in H as HR. pose proof (unit_pos f W). unfold val in L. destruct g; [exfalso; nra|split; [reflexivity|]]. destruct (Z.eq_dec d 0) as [->|]; [rewrite Rmult_0_l in L; lra|lia]. }
    assert (VS : forall x y, Finite f y -> Valid f (f_sub f (FFin x y) (FFin a0 n0)) /\ Num (f_sub f (FFin x y) (FFin a0 n0))) by (intros x y FY; pose proof (sub_correct f x y a0 n0 W) as C; split; [exact (correct_valid f _ _ C)|exact (correct_num f _ _ C)]).
    apply div_mono; [exact W|apply VS, FK|apply VS, FK'| |exact DP]. apply sub_mono; [exact W|exact FK|exact FK'|exact FX0|exact L1|apply VS, FK|apply VS, FK']. }
  rewrite EW, EW'. destruct (mix_parts f s w b0 m0 b1 m1 W FW FY0 FY1 WB) as (x & p & q & r & i & NC & NP & NQ & NR & _ & _ & _ & ->). destruct (mix_parts f s' w' b0 m0 b1 m1 W FW' FY0 FY1 WB') as (x' & p' & q' & r' & i' & NC' & NP' & NQ' & NR' & _ & _ & _ & ->).
  apply val_lesseq. apply (near_mono f _ _ _ _ NR NR'). pose proof (near_mono f _ _ _ _ NC' NC ltac:(lra)) as XX. pose proof (near_mono f _ _ _ _ NP NP' ltac:(nra)). pose proof (near_mono f _ _ _ _ NQ NQ' ltac:(nra)). lra.
Qed.
Print Assumptions C98_mono.

(* plain vectors: the whole part of a key *)
Lemma whole_part f n : Sane f -> Rep f n -> Rep f (n / 2 ^ fm_low f * 2 ^ fm_low f) /\ Rep f (n mod 2 ^ fm_low f).
Proof.
  intros W R. pose proof W as [W1 W2]. pose proof (pow_pos_ (fm_low f) ltac:(lia)) as LP. pose proof (rep_nonneg f n R) as N0. assert (RL : Rep f (2 ^ fm_low f)) by (rewrite <- (Z.mul_1_l (2 ^ fm_low f)); apply rep_small; pose proof (Z.pow_le_mono_r 2 0 (fm_prec f) ltac:(lia) ltac:(lia)); lia).
  split; [|apply rem_rep; assumption]. destruct (Z_le_gt_dec (n / 2 ^ fm_low f) (2 ^ fm_prec f)) as [L|L].
  - apply rep_small; [lia|lia|]. split; [apply Z.div_pos; lia|exact L].
  - destruct (rep_large f n (fm_low f) ltac:(lia) ltac:(lia) R) as [k K].
    + rewrite Z.pow_add_r by lia. pose proof (Z.mul_div_le n (2 ^ fm_low f) LP). pose proof (Z.pow_le_mono_r 2 (fm_prec f - 1) (fm_prec f) ltac:(lia) ltac:(lia)). nia.
    + rewrite K at 1. rewrite Z.div_mul by lia. rewrite <- K. exact R.
Qed.
Lemma index_weight f n : IEEE f -> Finite f n -> exists s w, f_sub f (FFin false n) (f_of_int f (n / 2 ^ fm_low f)) = FFin s w /\ Finite f w /\ val f s w = val f false n - IZR (n / 2 ^ fm_low f).
Proof.
  intros I F. pose proof (ieee_sane f I) as W. pose proof W as [W1 W2]. pose proof (pow_pos_ (fm_low f) ltac:(lia)) as LP. assert (N0 : (0 <= n)%Z) by (destruct F as [R _]; exact (rep_nonneg f n R)). destruct (whole_part f n W (proj1 F)) as [R1 R2]. set (z := (n / 2 ^ fm_low f)%Z) in *. assert (Z0 : (0 <= z)%Z) by (apply Z.div_pos; lia). pose proof (Z.mul_div_le n (2 ^ fm_low f) LP) as ML. fold z in ML.
  assert (FZ : Finite f (z * 2 ^ fm_low f)) by (split; [exact R1|destruct F as [_ F]; lia]). pose proof (unit_scale f W) as US.
  assert (EZ : f_of_int f z = FFin false (z * 2 ^ fm_low f)). { unfold f_of_int. rewrite (proj2 (Z.ltb_ge z 0)), Z.abs_eq by lia. apply (to_fnum_fin f false _ _ (IZR z / 1)); [exact W|apply (round_correct f false z 1); [exact W|lia|lia]|exact FZ|]. rewrite (count_val f z W). field. }
  rewrite EZ. pose proof (sub_correct f false n false (z * 2 ^ fm_low f) W) as C. rewrite (count_val f z W) in C.
  assert (V : val f false n - IZR z = val f false (n mod 2 ^ fm_low f)). { rewrite <- (count_val f z W). unfold val. rewrite <- Rmult_minus_distr_r, <- minus_IZR. f_equal. f_equal. unfold z. rewrite Z.mod_eq by lia. lia. }
  assert (FM : Finite f (n mod 2 ^ fm_low f)). { split; [exact R2|]. pose proof (Z.mod_pos_bound n (2 ^ fm_low f) LP). pose proof (Z.pow_le_mono_r 2 (fm_low f) (fm_top f + fm_low f) ltac:(lia) ltac:(lia)). lia. }
  destruct (correct_within f _ _ false _ W C FM ltac:(rewrite V; lra)) as (s & w & E & FW & NW & _). exists s, w. split; [exact E|]. split; [exact FW|]. apply (near_exact f _ _ NW). rewrite V. exists false, (n mod 2 ^ fm_low f)%Z. auto.
Qed.
(* what a plain vector yields for a key *)
Theorem C98_index : forall f l key, IEEE f -> l <> [] -> Forall (Fin f) l ->
  (forall v t, l = v :: t -> Less f key f_zero -> f_interpolated_index f l key = Ok v) /\
  (forall front v, l = front ++ [v] -> (Z.of_nat (length l) < 2 ^ 64)%Z -> Fin f key -> 0 <= number f key < IZR (2 ^ 64) -> INR (length front) <= number f key -> f_interpolated_index f l key = Ok v) /\
  (forall front a b tail, l = front ++ a :: b :: tail -> (Z.of_nat (length l) < 2 ^ 64)%Z -> Fin f key -> INR (length front) <= number f key < INR (length front) + 1 ->
     exists r, f_interpolated_index f l key = Ok r /\ Fin f r /\ (number f key = INR (length front) -> Same f r a) /\
     forall M, Rabs (number f a) <= M -> Rabs (number f b) <= M -> Rabs (number f r - chord (INR (length front)) (number f a) (INR (length front) + 1) (number f b) (number f key)) <= 4 / IZR (2 ^ fm_prec f) * M + 2 * unit_of f).
Proof.
  intros f l key I N F. pose proof (ieee_sane f I) as W. pose proof W as [W1 W2]. pose proof (pow_pos_ (fm_low f) ltac:(lia)) as LP. pose proof (unit_scale f W) as US. rewrite Forall_forall in F.
  assert (NE : (length l =? 0)%nat = false) by (destruct l; [contradiction|reflexivity]).
  assert (KEY : forall i, Fin f key -> 0 <= number f key -> IZR i <= number f key < IZR (i + 1) -> (0 <= i < 2 ^ 64)%Z -> f_lt key f_zero = false /\ f_to_size f key = Ok i /\ exists s w, f_sub f key (f_of_int f i) = FFin s w /\ Finite f w /\ val f s w = number f key - IZR i).
  { intros i (a & n & -> & FN) K0 KI I64. cbn [number] in *. assert (N0 : (0 <= n)%Z) by (destruct FN as [R _]; exact (rep_nonneg f n R)).
    assert (SG : signed a n = n). { destruct a; [|reflexivity]. cbn [signed]. apply (IZR_le 0) in N0 as NR. pose proof (unit_pos f W). unfold val in K0. assert (IZR n = 0) by nra. apply eq_IZR in H0. lia. }
    assert (VN : val f a n = val f false n) by (rewrite val_signed, SG; reflexivity). rewrite VN in *.
    assert (IZ : i = (n / 2 ^ fm_low f)%Z). { rewrite <- !(count_val f _ W) in KI. destruct KI as [KA KB]. apply (val_le f _ _ _ _ W) in KA. apply (val_lt f _ _ _ _ W) in KB. cbn [signed] in *. apply (Z.div_unique n (2 ^ fm_low f) i (n - i * 2 ^ fm_low f)); [left; lia|lia]. }
    split; [unfold f_lt, f_zero; rewrite SG; apply Z.ltb_ge; cbn [signed]; lia|]. split.
    - unfold f_to_size. replace (signed a (n / 2 ^ fm_low f)) with i. { rewrite (proj2 (Z.leb_le 0 i)), (proj2 (Z.ltb_lt i (2 ^ 64))) by lia. reflexivity. } destruct a; [|exact IZ]. cbn [signed] in *. assert (n = 0%Z) by lia. subst n. rewrite Z.div_0_l in * by lia. lia.
    - destruct (index_weight f n I FN) as (s & w & E & FW & V). rewrite <- IZ in E, V. destruct a; [|exists s, w; auto].
      assert (n = 0%Z) by (cbn [signed] in SG; lia). subst n. rewrite Z.div_0_l in IZ by lia. subst i. exists true, 0%Z. split; [|split; [apply zero_finite; exact W|rewrite !val_zero; lra]]. unfold f_of_int. cbn [Z.ltb Z.compare Z.abs]. rewrite to_zero by (try exact W; lia). reflexivity. }
  split; [|split].
  - intros v t -> L. unfold f_interpolated_index. cbn [length Nat.eqb negb assert_ bind]. rewrite (proj2 (lt_less f _ _ W) L). reflexivity.
  - intros front v EL L64 FK KB KF. unfold f_interpolated_index. rewrite NE. cbn [negb assert_ bind]. assert (LL : length l = Datatypes.S (length front)) by (subst l; rewrite app_length; cbn; lia).
    set (i := (up (number f key) - 1)%Z). destruct (archimed (number f key)) as [A1 A2]. assert (KI : IZR i <= number f key < IZR (i + 1)) by (unfold i; rewrite plus_IZR, minus_IZR; lra).
    assert (IB : (0 <= i < 2 ^ 64)%Z). { split; [assert (0 < IZR (i + 1)) by lra; apply lt_IZR in H; lia|apply lt_IZR; lra]. } destruct (KEY i FK ltac:(lra) KI IB) as (E1 & E2 & _). rewrite E1, E2. cbn [bind].
    assert (LI : (Z.of_nat (length front) <= i)%Z). { rewrite INR_IZR_INZ in KF. assert (IZR (Z.of_nat (length front)) < IZR (i + 1)) by lra. apply lt_IZR in H. lia. }
    assert (IM : (Z.of_nat (length l) <= (i + 1) mod 2 ^ 64)%Z).
    { rewrite Z.mod_small; [lia|]. split; [lia|]. destruct (Z.eq_dec i (2 ^ 64 - 1)) as [Q|Q]; [|lia]. exfalso. destruct FK as (a & n & -> & FN). cbn [number] in *.
      assert (GK : Grid f (val f a n)) by (exists a, n; split; [apply FN|reflexivity]). assert (TOP : IZR (2 ^ 64 - 1) <= val f a n < IZR (2 ^ 64)) by (rewrite <- Q; split; [lra|lra]). clear - I W W1 W2 TOP GK FN LP. pose proof (unit_scale f W) as US.
      destruct FN as [R _]. pose proof (rep_nonneg f n R) as N0. assert (a = false). { destruct a; [|reflexivity]. pose proof (unit_pos f W). unfold val in TOP. apply (IZR_le 0) in N0. assert (0 < IZR (2 ^ 64 - 1)) by (apply IZR_lt; reflexivity). nra. } subst a. rewrite <- !(count_val f _ W) in TOP. destruct TOP as [TA TB]. apply (val_le f _ _ _ _ W) in TA. apply (val_lt f _ _ _ _ W) in TB. cbn [signed] in *.
      assert (PR : (fm_prec f <= 60)%Z) by (destruct I as [-> | ->]; cbn; lia). destruct (rep_large f n (fm_low f + 64 - fm_prec f) ltac:(lia) ltac:(lia) R) as [k K].
      { replace (fm_prec f - 1 + (fm_low f + 64 - fm_prec f))%Z with (63 + fm_low f)%Z by lia. rewrite Z.pow_add_r by lia. nia. }
      replace (fm_low f + 64 - fm_prec f)%Z with ((64 - fm_prec f) + fm_low f)%Z in K by lia. rewrite Z.pow_add_r in K by lia. pose proof (Z.pow_le_mono_r 2 4 (64 - fm_prec f) ltac:(lia) ltac:(lia)) as P4. assert (PD : (2 ^ 64 = 2 ^ fm_prec f * 2 ^ (64 - fm_prec f))%Z) by (rewrite <- Z.pow_add_r by lia; f_equal; lia). set (d := (2 ^ (64 - fm_prec f))%Z) in *. set (e := (2 ^ fm_prec f)%Z) in *. set (w := (2 ^ fm_low f)%Z) in *. change (2 ^ 4)%Z with 16%Z in P4.
      rewrite Z.mul_assoc in K. rewrite K in TA, TB. apply (proj2 (Z.mul_le_mono_pos_r _ _ _ LP)) in TA. apply (proj2 (Z.mul_lt_mono_pos_r _ _ _ LP)) in TB. rewrite PD in TA, TB. apply (proj2 (Z.mul_lt_mono_pos_r d _ _ ltac:(lia))) in TB. assert (TC : (k * d <= (e - 1) * d)%Z) by (apply Z.mul_le_mono_nonneg_r; lia). lia. }
    rewrite (proj2 (Z.leb_le _ _) IM). unfold vget. rewrite LL. replace (Datatypes.S (length front) - 1)%nat with (length front) by lia. rewrite EL, nth_error_app_mid. reflexivity.
  - intros front a b tail EL L64 FK KB. unfold f_interpolated_index. rewrite NE. cbn [negb assert_ bind]. assert (LL : (length front + 2 <= length l)%nat) by (subst l; rewrite app_length; cbn; lia). set (i := Z.of_nat (length front)). rewrite INR_IZR_INZ in *. fold i in KB. fold i.
    assert (KI : IZR i <= number f key < IZR (i + 1)) by (rewrite plus_IZR; lra). assert (I0 : 0 <= IZR i) by (apply (IZR_le 0); lia). destruct (KEY i FK ltac:(lra) KI ltac:(lia)) as (E1 & E2 & s & w & E3 & FW & VW). rewrite E1, E2. cbn [bind]. rewrite Z.mod_small by lia. rewrite (proj2 (Z.leb_gt (Z.of_nat (length l)) (i + 1))) by lia.
    unfold zget. rewrite (proj2 (Z.ltb_ge i 0)), (proj2 (Z.ltb_ge (i + 1) 0)) by lia. replace (Z.to_nat i) with (length front) by lia. replace (Z.to_nat (i + 1)) with (Datatypes.S (length front)) by lia. unfold vget. rewrite EL, nth_error_app_mid.
    replace (nth_error (front ++ a :: b :: tail) (Datatypes.S (length front))) with (Some b) by (rewrite nth_error_app2 by lia; replace (Datatypes.S (length front) - length front)%nat with 1%nat by lia; reflexivity). cbn [bind]. rewrite E3.
    assert (FA : Fin f a) by (apply F; rewrite EL; apply in_or_app; right; left; reflexivity). assert (FB : Fin f b) by (apply F; rewrite EL; apply in_or_app; right; right; left; reflexivity).
    assert (WB : 0 <= val f s w <= 1) by (rewrite VW; rewrite plus_IZR in KI; lra). pose proof FA as (b0 & m0 & EA & FA0). pose proof FB as (b1 & m1 & EB & FB0).
    destruct (mix_parts f s w b0 m0 b1 m1 W FW FA0 FB0 WB) as (_ & _ & _ & r & q & _ & _ & _ & _ & FQ & _ & _ & EM). exists (FFin r q). rewrite EA, EB, EM. split; [reflexivity|]. split; [exists r, q; auto|]. split.
    + intros KK. rewrite KK in VW. assert (w = 0%Z). { apply (val_inj f s w 0 W). rewrite val_zero. lra. } subst w. rewrite <- EM, <- EA, <- EB. apply mix_zero_same; [exact W|exact (fin_valid f a FA)|exact FB|]. intros Z. rewrite EA in Z. discriminate.
    + intros M MA MB. cbn [number] in *. unfold chord. replace (IZR i + 1 - IZR i) with 1 by ring. pose proof (mix_error f s w b0 m0 b1 m1 (val f s w) 0 r q M I FW FA0 FB0 WB ltac:(replace (val f s w - val f s w) with 0 by ring; rewrite Rabs_R0; lra) MA MB EM) as ER.
      rewrite VW in ER at 1 2. replace (val f b0 m0 + (number f key - IZR i) / 1 * (val f b1 m1 - val f b0 m0)) with ((1 - (number f key - IZR i)) * val f b0 m0 + (number f key - IZR i) * val f b1 m1) by field. eapply Rle_trans; [exact ER|]. pose proof (unit_pos f W). destruct (prec_small f I) as (U & _ & _). pose proof (Rabs_pos (val f b0 m0)). assert (0 <= / IZR (2 ^ fm_prec f) * M) by (apply Rmult_le_pos; lra). unfold Rdiv. lra.
Qed.
Print Assumptions C98_index.
(* nan, infinity and keys beyond 2^64 are undefined *)
Theorem C98_index_refuted : forall f l key, IEEE f -> l <> [] -> NaN key \/ key = FInf false \/ Fin f key /\ IZR (2 ^ 64) <= number f key -> f_interpolated_index f l key = UB.
Proof.
  intros f l key I N K. pose proof (ieee_sane f I) as W. pose proof W as [W1 W2]. pose proof (pow_pos_ (fm_low f) ltac:(lia)) as LP. unfold f_interpolated_index. assert (NE : (length l =? 0)%nat = false) by (destruct l; [contradiction|reflexivity]). rewrite NE. cbn [negb assert_ bind].
  destruct K as [->|[->|[(a & n & -> & FN) K]]]; [reflexivity|reflexivity|]. cbn [number] in K. assert (N0 : (0 <= n)%Z) by (destruct FN as [R _]; exact (rep_nonneg f n R)).
  assert (a = false). { destruct a; [|reflexivity]. pose proof (unit_pos f W). unfold val in K. apply (IZR_le 0) in N0. assert (0 < IZR (2 ^ 64)) by (apply IZR_lt; reflexivity). nra. } subst a. rewrite <- (count_val f _ W) in K. apply (val_le f _ _ _ _ W) in K. cbn [signed] in K.
  unfold f_lt, f_zero. cbn [signed]. rewrite (proj2 (Z.ltb_ge n 0)) by lia. unfold f_to_size. cbn [signed]. assert (2 ^ 64 <= n / 2 ^ fm_low f)%Z by (apply Z.div_le_lower_bound; lia). rewrite (proj2 (Z.ltb_ge _ _) H), andb_false_r. reflexivity.
Qed.
Print Assumptions C98_index_refuted.
Lemma sorted_two f k0 v0 k1 v1 : Less f k0 k1 -> SortedF f [(k0, v0); (k1, v1)].
Proof.
  intros L. destruct (less_num f _ _ L) as [N0 N1]. intros i j p q IJ P Q. destruct i as [|[|i]]; [| |destruct i; discriminate]; destruct j as [|[|j]]; try lia; try (destruct j; discriminate); injection P as <-; injection Q as <-; cbn [fst]; [apply lesseq_refl; exact N0|left; exact L|apply lesseq_refl; exact N1].
Qed.
Lemma gaps_two f p q : Fin f (f_sub f (fst q) (fst p)) -> Gaps f [p; q].
Proof.
  intros F front a b tail E. destruct front as [|c [|d front]]; [injection E as <- <- _; exact F|injection E as _ E; discriminate|]. exfalso. apply (f_equal (@length _)) in E. cbn in E. rewrite app_length in E. cbn in E. lia.
Qed.
Definition two_samples (k1 v0 v1 : fnum) : list (fnum * fnum) := [(f_zero, v0); (k1, v1)].
(* equal neighbours do not keep the result between them, on either side *)
Theorem C98_constant_refuted : let t := float_fmt in let three := flt 3 0 in
  exists r r', SortedF t (two_samples (flt 10 0) three three) /\ f_interpolated_value t (two_samples (flt 10 0) three three) (flt 1 0) = Ok r /\ Less t r three /\
  SortedF t (two_samples (flt 9 0) three three) /\ f_interpolated_value t (two_samples (flt 9 0) three three) (flt 2 0) = Ok r' /\ Less t three r'.
Proof.
  assert (W : Sane float_fmt) by (apply ieee_sane; right; reflexivity). cbv zeta. eexists. eexists. split; [apply sorted_two; apply (lt_less _ _ _ W); vm_compute; reflexivity|]. split; [vm_compute; reflexivity|]. split; [apply (lt_less _ _ _ W); vm_compute; reflexivity|]. split; [apply sorted_two; apply (lt_less _ _ _ W); vm_compute; reflexivity|]. split; [vm_compute; reflexivity|]. apply (lt_less _ _ _ W). vm_compute. reflexivity.
Qed.
Print Assumptions C98_constant_refuted.
(* nor is it monotone between rising samples *)
Theorem C98_mono_refuted : let t := float_fmt in let l := two_samples (flt 10 0) (flt 3 0) (flt (3 * 2 ^ 21 + 1) (-21)) in
  exists r r', SortedF t l /\ Less t (flt 3 0) (flt (3 * 2 ^ 21 + 1) (-21)) /\ f_interpolated_value t l (flt 2 0) = Ok r /\ f_interpolated_value t l (flt 3 0) = Ok r' /\ Less t r' r.
Proof.
  assert (W : Sane float_fmt) by (apply ieee_sane; right; reflexivity). cbv zeta. eexists. eexists. split; [apply sorted_two; apply (lt_less _ _ _ W); vm_compute; reflexivity|]. split; [apply (lt_less _ _ _ W); vm_compute; reflexivity|]. split; [vm_compute; reflexivity|]. split; [vm_compute; reflexivity|]. apply (lt_less _ _ _ W). vm_compute. reflexivity.
Qed.
Print Assumptions C98_mono_refuted.
(* keys further apart than the largest number: nan, or the wrong value; an
   infinite value spoils the sample before it *)
Theorem C98_gap_refuted : let t := float_fmt in let one := f_one t in let two := flt 2 0 in
  SortedF t [(f_lowest t, one); (f_max t, two)] /\ f_interpolated_value t [(f_lowest t, one); (f_max t, two)] (flt 1 127) = Ok FNan /\ f_interpolated_value t [(f_lowest t, one); (f_max t, two)] f_zero = Ok one /\
  SortedF t (two_samples one two (FInf false)) /\ f_interpolated_value t (two_samples one two (FInf false)) f_zero = Ok FNan.
Proof.
  assert (W : Sane float_fmt) by (apply ieee_sane; right; reflexivity). cbv zeta. split; [apply sorted_two; apply (lt_less _ _ _ W); vm_compute; reflexivity|]. split; [vm_compute; reflexivity|]. split; [vm_compute; reflexivity|]. split; [apply sorted_two; apply (lt_less _ _ _ W); vm_compute; reflexivity|]. vm_compute. reflexivity.
Qed.
Print Assumptions C98_gap_refuted.
(* the samples (0, 1), (2, 5), (4, -3); a key between, one before, one after, a
   stored one; the same values without keys *)
Example C98_example : let t := float_fmt in let l := [(f_zero, flt 1 0); (flt 2 0, flt 5 0); (flt 4 0, flt (-3) 0)] in let m := [flt 1 0; flt 5 0; flt (-3) 0] in
  f_interpolated_value t l (flt 1 0) = Ok (flt 3 0) /\ f_interpolated_value t l (flt 7 (-1)) = Ok (flt (-1) 0) /\ f_interpolated_value t l (flt (-1) 0) = Ok (flt 1 0) /\ f_interpolated_value t l (flt 9 0) = Ok (flt (-3) 0) /\
  f_interpolated_value t l FNan = Ok (flt (-3) 0) /\ f_interpolated_value t l (flt 2 0) = Ok (flt 5 0) /\ f_interpolated_index t m (flt 1 (-1)) = Ok (flt 3 0) /\ f_interpolated_index t m (flt 7 (-2)) = Ok (flt (-1) 0) /\
  f_interpolated_index t m (FInf true) = Ok (flt 1 0) /\ f_interpolated_index t m (flt 1 60) = Ok (flt (-3) 0) /\ f_interpolated_index t m (flt 1 64) = UB /\ f_interpolated_index t m (FFin true 0) = Ok (flt 1 0) /\
  SortedF t (firstn 2 l) /\ Gaps t (firstn 2 l) /\ Forall (FinPair t) (firstn 2 l).
Proof.
  assert (W : Sane float_fmt) by (apply ieee_sane; right; reflexivity). assert (Z : Fin float_fmt f_zero) by (exists false, 0%Z; split; [reflexivity|apply zero_finite, W]). cbv zeta. do 12 (split; [vm_compute; reflexivity|]). cbn [firstn]. split; [apply sorted_two, (lt_less _ _ _ W); vm_compute; reflexivity|]. split.
  - apply gaps_two. cbn [fst]. assert (E : f_sub float_fmt (flt 2 0) f_zero = flt 2 0) by (vm_compute; reflexivity). rewrite E. apply flt_fin; lia.
  - constructor; [|constructor; [|constructor]]; split; cbn [fst snd]; try exact Z; apply flt_fin; lia.
Qed.
