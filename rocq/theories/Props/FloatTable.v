(* C99: tables of a function of floating point numbers. *)
From Coq Require Import Reals ZArith Lia Lra List Bool.
From Verif Require Import Model.Base Model.FloatText Model.Math Model.Ieee Model.FloatMath Model.Interp Model.FloatInterp Model.FloatTable Spec.FloatText Spec.Ieee Spec.Interp Spec.FloatTable Proofs.FloatTextProofs Proofs.IeeeProofs Proofs.IeeeErrorProofs Proofs.IeeeSqrtProofs Proofs.FloatInterpProofs Proofs.FloatOpsProofs Proofs.FloatTableProofs Props.FloatAverage Props.FloatSqrt Props.FloatVec Props.FloatInterp.
Import ListNotations.
Local Open Scope R_scope.

(* when a table can be made; no number of intervals is a division by zero *)
Theorem C99_make : forall f a b n fn, (- 2 ^ 31 <= n < 2 ^ 31)%Z ->
  ((exists t, f_rpl_make f a b n fn = Ok t) <-> (-1 <= n < 2 ^ 31 - 1)%Z) /\
  (f_rpl_make f a b n fn = Throw <-> (n < -1)%Z) /\
  (f_rpl_make f a b n fn = UB <-> n = (2 ^ 31 - 1)%Z).
Proof.
  intros f a b n fn N. unfold f_rpl_make, to_int. rewrite (proj2 (Z.leb_le _ _)) by lia. destruct (Z.ltb_spec (n + 1) (2 ^ 31)) as [L|L]; cbn [andb bind]; [destruct (Z.ltb_spec (n + 1) 0) as [G|G]|].
  - split; [split; [intros [t H]; discriminate|lia]|]. split; split; intros; try discriminate; try reflexivity; lia.
  - split; [split; [lia|intros _; eexists; reflexivity]|]. split; split; intros; try discriminate; try reflexivity; lia.
  - split; [split; [intros [t H]; discriminate|lia]|]. split; split; intros; try discriminate; try reflexivity; lia.
Qed.
Print Assumptions C99_make.
(* a table of n intervals has n + 1 values, and is what the constructor makes *)
Lemma made f a b n fn t : (1 <= n <= 2 ^ 31 - 2)%Z -> f_rpl_make f a b n fn = Ok t ->
  t = mkFrpl a (ft_step t) (n + 1) (ft_data t) /\ ft_step t = f_div f (f_sub f b a) (f_of_int f n) /\ Z.of_nat (length (ft_data t)) = (n + 1)%Z /\
  forall i, (0 <= i <= n)%Z -> nth (Z.to_nat i) (ft_data t) f_zero = f_conv double_fmt f (fn (f_conv f double_fmt (f_add f a (f_mul f (f_of_int f i) (ft_step t))))).
Proof.
  intros N E. unfold f_rpl_make, to_int in E. rewrite (proj2 (Z.leb_le _ _)), (proj2 (Z.ltb_lt (n + 1) (2 ^ 31))) in E by lia. cbn [andb bind] in E. rewrite (proj2 (Z.ltb_ge (n + 1) 0)) in E by lia. injection E as <-. cbn [ft_step ft_data]. split; [reflexivity|]. split; [reflexivity|].
  split; [rewrite map_length, seq_length; lia|]. intros i B. set (g := fun j => f_conv double_fmt f _). rewrite (nth_indep _ f_zero (g 0%nat)) by (rewrite map_length, seq_length; lia). rewrite (map_nth g), seq_nth by lia. unfold g, f_node. cbn [Nat.add]. rewrite Z2Nat.id by lia. reflexivity.
Qed.
(* which arguments are defined: those whose index is an int *)
Theorem C99_defined : forall f base step n l x, IEEE f -> (1 <= n <= 2 ^ 31 - 2)%Z -> Z.of_nat (length l) = (n + 1)%Z -> let idx := f_div f (f_sub f x base) step in
  (f_rpl_eval f (mkFrpl base step (n + 1) l) x = UB <-> ~ (exists a m, idx = FFin a m /\ IZR (- 2 ^ 31) <= val f a m < IZR (2 ^ 31))) /\
  (f_rpl_eval f (mkFrpl base step (n + 1) l) x <> UB -> exists r, f_rpl_eval f (mkFrpl base step (n + 1) l) x = Ok r).
Proof.
  intros f base step n l x I N L idx. pose proof (ieee_sane f I) as W. destruct idx as [|s|a m] eqn:E.
  - assert (U : f_rpl_eval f (mkFrpl base step (n + 1) l) x = UB) by (unfold f_rpl_eval; cbn [ft_base ft_step]; fold idx; rewrite E; reflexivity). rewrite U. split; [|congruence]. split; [|reflexivity]. intros _ (a & m & Q & _). discriminate.
  - assert (U : f_rpl_eval f (mkFrpl base step (n + 1) l) x = UB) by (unfold f_rpl_eval; cbn [ft_base ft_step]; fold idx; rewrite E; reflexivity). rewrite U. split; [|congruence]. split; [|reflexivity]. intros _ (a & m & Q & _). discriminate.
  - destruct (table_eval f base step n l x W N L a m E) as [Y Q]. pose proof (floor_int f a m W) as FL. set (i := (signed a m / 2 ^ fm_low f)%Z) in *.
    assert (EQ : (- 2 ^ 31 <= i < 2 ^ 31)%Z <-> IZR (- 2 ^ 31) <= val f a m < IZR (2 ^ 31)).
    { split; intros [A B].
      - assert (IZR (- 2 ^ 31) <= IZR i) by (apply IZR_le; exact A). assert (IZR (i + 1) <= IZR (2 ^ 31)) by (apply IZR_le; lia). lra.
      - assert (H1 : IZR (- 2 ^ 31) < IZR (i + 1)) by lra. assert (H2 : IZR i < IZR (2 ^ 31)) by lra. apply lt_IZR in H1, H2. lia. }
    destruct (Z_le_gt_dec (- 2 ^ 31) i) as [A|A]; [destruct (Z_lt_le_dec i (2 ^ 31)) as [B|B]|].
    + destruct (Y (conj A B)) as (k & _ & _ & R). rewrite R. split; [|intros _; eexists; reflexivity]. split; [discriminate|]. intros H. exfalso. apply H. exists a, m. split; [reflexivity|]. apply EQ. lia.
    + rewrite Q by lia. split; [|congruence]. split; [|reflexivity]. intros _ (a' & m' & S & C). injection S as <- <-. apply EQ in C. lia.
    + rewrite Q by lia. split; [|congruence]. split; [|reflexivity]. intros _ (a' & m' & S & C). injection S as <- <-. apply EQ in C. lia.
Qed.
Print Assumptions C99_defined.
(* the error, for arguments inside and outside *)
Lemma table_error f base step n l x T S M : IEEE f -> Fin f base -> Fin f step -> 0 < number f step -> (1 <= n <= 2 ^ 31 - 2)%Z -> (n <= 2 ^ fm_prec f)%Z -> Z.of_nat (length l) = (n + 1)%Z -> Forall (Fin f) l ->
  Fin f x -> Fin f (f_sub f x base) -> let t := (number f x - number f base) / number f step in 1 <= T <= IZR (2 ^ 30) -> Rabs t <= T ->
  1 <= S <= IZR (2 ^ 32) -> (forall q k, Rabs (q - t) <= 201 / 100 * ulp f * T -> (0 <= t -> 0 <= q) -> part n k q -> Rabs (q - IZR k) <= S) -> (forall y, In y l -> Rabs (number f y) <= M) -> 4 * (S * M) <= room f ->
  exists r, f_rpl_eval f (mkFrpl base step (n + 1) l) x = Ok r /\ Fin f r /\ forall v, Along (number f base) (number f step) (samples f l) n (number f x) v -> Rabs (number f r - v) <= (5 * T + 11 * S) * ulp f * M + 2 * unit_of f.
Proof.
  intros I FB FS SP N NP L FL FX FD t TB TT SB PK BM RM. pose proof (ieee_sane f I) as W. destruct (ulp_small f I) as [U US]. pose proof (unit_pos f W) as UP.
  destruct (table_index f base step x T I FB FS FX SP FD TB TT) as (FQ & EQ & PQ). fold t in EQ, PQ. pose proof FQ as (a & m & Q & FM). destruct (table_eval f base step n l x W N L a m Q) as [Y _]. pose proof (floor_int f a m W) as FI. set (i := (signed a m / 2 ^ fm_low f)%Z) in *. rewrite Q in *. cbn [number] in *.
  assert (M0 : 0 <= M). { destruct l as [|y l]; [cbn in L; lia|]. pose proof (BM y (or_introl eq_refl)). pose proof (Rabs_pos (number f y)). lra. }
  assert (QB : Rabs (val f a m) < 2 * T). { pose proof (abs_near _ _ _ EQ). nra. } assert (IB : (- 2 ^ 31 <= i < 2 ^ 31)%Z).
  { apply Rabs_def2 in QB. assert (P : 2 * IZR (2 ^ 30) = IZR (2 ^ 31)) by (rewrite <- mult_IZR; reflexivity). assert (H1 : IZR i < IZR (2 ^ 31)) by lra. assert (H2 : IZR (- 2 ^ 31) < IZR (i + 1)) by (rewrite opp_IZR; lra). apply lt_IZR in H1, H2. lia. }
  destruct (Y IB) as (k & P & _ & R). rewrite R. set (y0 := nth (Z.to_nat k) l f_zero) in *. set (y1 := nth (Z.to_nat (k + 1)) l f_zero) in *. pose proof P as (K & _ & _).
  pose proof (samples_bound f l M M0 BM) as SBD.
  destruct (mix_fin f (FFin a m) k y0 y1 M S I FQ (samples_fin f l k W FL) (samples_fin f l (k + 1) W FL) ltac:(lia) SB (PK _ k EQ PQ P) (SBD k) (SBD (k + 1)%Z) RM) as [FR ER]. cbn [number] in ER.
  eexists. split; [reflexivity|]. split; [exact FR|]. intros v A. apply (along_part _ _ _ _ _ _ SP) in A. destruct A as (k' & P' & ->). fold t in P'. fold t. set (r := f_mix f _ y0 y1) in *.
  pose proof (line_diff (samples f l) M n k k' (val f a m) t SBD P P') as LD. replace ((1 - (val f a m - IZR k)) * number f y0 + (val f a m - IZR k) * number f y1) with (line (samples f l) k (val f a m)) in ER by (unfold line, samples, y0, y1; ring).
  replace (number f r - line (samples f l) k' t) with ((number f r - line (samples f l) k (val f a m)) + (line (samples f l) k (val f a m) - line (samples f l) k' t)) by ring. eapply Rle_trans; [apply Rabs_triang|].
  assert (2 * M * Rabs (val f a m - t) <= 2 * M * (201 / 100 * ulp f * T)) by (apply Rmult_le_compat_l; [lra|exact EQ]). assert (0 <= ulp f * M) by nra. assert (0 <= ulp f * M * T) by (apply Rmult_le_pos; lra). nra.
Qed.
(* inside the table *)
Theorem C99_inside : forall f base step n l x M, IEEE f -> Fin f base -> Fin f step -> 0 < number f step -> (1 <= n <= 2 ^ 30)%Z -> (4 * n <= 2 ^ fm_prec f)%Z -> Z.of_nat (length l) = (n + 1)%Z -> Forall (Fin f) l ->
  Fin f x -> Fin f (f_sub f x base) -> number f base <= number f x <= number f base + IZR n * number f step ->
  (forall y, In y l -> Rabs (number f y) <= M) -> 16 * M <= IZR (2 ^ fm_top f) ->
  exists r v, f_rpl_eval f (mkFrpl base step (n + 1) l) x = Ok r /\ Fin f r /\ Along (number f base) (number f step) (samples f l) n (number f x) v /\
  Rabs (number f r - v) <= (5 * IZR n + 22) / IZR (2 ^ fm_prec f) * M + 2 * unit_of f.
Proof.
  intros f base step n l x M I FB FS SP N NP L FL FX FD XB BM MT. pose proof (ieee_sane f I) as W. destruct (ulp_small f I) as [U US]. set (t := (number f x - number f base) / number f step).
  assert (XT : number f x - number f base = t * number f step) by (unfold t; field; lra). assert (N1 : 1 <= IZR n) by (apply IZR_le; lia). assert (TB : 0 <= t <= IZR n) by (split; nra). assert (NT : IZR n <= IZR (2 ^ 30)) by (apply IZR_le; lia).
  assert (NU : IZR n * ulp f <= / 4). { unfold ulp. apply (Rmult_le_reg_r (IZR (2 ^ fm_prec f))); [apply prec_pos; exact W|]. rewrite Rmult_assoc, Rinv_l, Rmult_1_r by (pose proof (prec_pos f W); lra). assert (IZR (4 * n) <= IZR (2 ^ fm_prec f)) by (apply IZR_le; exact NP). rewrite mult_IZR in H. lra. }
  destruct (table_error f base step n l x (IZR n) 2 M I FB FS SP ltac:(lia) ltac:(lia) L FL FX FD ltac:(lra)) as (r & E & FR & D).
  - fold t. rewrite Rabs_right; lra.
  - split; [lra|apply IZR_le; vm_compute; discriminate].
  - fold t. intros q k EQ PQ (K1 & K2 & K3). specialize (PQ (proj1 TB)). apply abs_le_inv in EQ. assert (QN : q <= IZR n + 1) by nra. apply Rabs_le. rewrite plus_IZR in K3. split.
    + destruct K2 as [-> |K2]; [lra|lra].
    + destruct K3 as [-> |K3]; [rewrite minus_IZR; lra|lra].
  - exact BM.
  - unfold room. lra.
  - assert (EX : exists v, Along (number f base) (number f step) (samples f l) n (number f x) v).
    { set (i := (up t - 1)%Z). destruct (archimed t) as [A1 A2]. exists (line (samples f l) (clamp Z.ltb i 0%Z (n - 1)%Z) t). apply along_part; [exact SP|]. fold t. eexists. split; [apply clamp_part with (i := i); [lia|]|reflexivity]. unfold i. rewrite plus_IZR, minus_IZR. lra. }
    destruct EX as [v A]. exists r, v. split; [exact E|]. split; [exact FR|]. split; [exact A|]. specialize (D v A). unfold ulp in D. unfold Rdiv. replace (5 * IZR n + 22) with (5 * IZR n + 11 * 2) by ring. exact D.
Qed.
Print Assumptions C99_inside.
(* outside, where the first and the last line go on *)
Theorem C99_outside : forall f base step n l x T M, IEEE f -> Fin f base -> Fin f step -> 0 < number f step -> (1 <= n <= 2 ^ 31 - 2)%Z -> (n <= 2 ^ fm_prec f)%Z -> Z.of_nat (length l) = (n + 1)%Z -> Forall (Fin f) l ->
  Fin f x -> Fin f (f_sub f x base) -> IZR n <= T <= IZR (2 ^ 30) -> Rabs (number f x - number f base) <= T * number f step ->
  (forall y, In y l -> Rabs (number f y) <= M) -> 9 * (T * M) <= IZR (2 ^ fm_top f) ->
  exists r v, f_rpl_eval f (mkFrpl base step (n + 1) l) x = Ok r /\ Fin f r /\ Along (number f base) (number f step) (samples f l) n (number f x) v /\
  Rabs (number f r - v) <= 17 / IZR (2 ^ fm_prec f) * (T * M) + 2 * unit_of f.
Proof.
  intros f base step n l x T M I FB FS SP N NP L FL FX FD TB XB BM MT. pose proof (ieee_sane f I) as W. destruct (ulp_small f I) as [U US]. set (t := (number f x - number f base) / number f step).
  assert (XT : number f x - number f base = t * number f step) by (unfold t; field; lra). assert (N1 : 1 <= IZR n) by (apply IZR_le; lia). assert (TT : Rabs t <= T). { rewrite XT, Rabs_mult, (Rabs_right (number f step)) in XB by lra. apply (Rmult_le_reg_r (number f step)); assumption. }
  assert (M0 : 0 <= M). { destruct l as [|y l]; [cbn in L; lia|]. pose proof (BM y (or_introl eq_refl)). pose proof (Rabs_pos (number f y)). lra. } assert (TM : 0 <= T * M) by (apply Rmult_le_pos; lra).
  destruct (table_error f base step n l x T (101 / 100 * T) M I FB FS SP ltac:(lia) NP L FL FX FD ltac:(lra) TT) as (r & E & FR & D).
  - split; [lra|]. assert (4 * IZR (2 ^ 30) = IZR (2 ^ 32)) by (rewrite <- mult_IZR; reflexivity). lra.
  - fold t. intros q k EQ _ (K1 & K2 & K3). assert (BQ : Rabs q <= 101 / 100 * T) by (pose proof (abs_near _ _ _ EQ); nra). assert (K0 : 0 <= IZR k) by (apply (IZR_le 0); lia). destruct K2 as [-> |K2]; [rewrite Rminus_0_r; exact BQ|]. apply abs_le_inv in BQ. apply Rabs_le. lra.
  - exact BM.
  - unfold room. nra.
  - assert (EX : exists v, Along (number f base) (number f step) (samples f l) n (number f x) v).
    { set (i := (up t - 1)%Z). destruct (archimed t) as [A1 A2]. exists (line (samples f l) (clamp Z.ltb i 0%Z (n - 1)%Z) t). apply along_part; [exact SP|]. fold t. eexists. split; [apply clamp_part with (i := i); [lia|]|reflexivity]. unfold i. rewrite plus_IZR, minus_IZR. lra. }
    destruct EX as [v A]. exists r, v. split; [exact E|]. split; [exact FR|]. split; [exact A|]. specialize (D v A). unfold ulp in *. unfold Rdiv. assert (0 <= / IZR (2 ^ fm_prec f) * (T * M)) by (apply Rmult_le_pos; lra). nra.
Qed.
Print Assumptions C99_outside.
(* exact results *)
Lemma same_number f x y : Sane f -> Fin f x -> Fin f y -> (Same f x y <-> number f x = number f y).
Proof.
  intros W (a & n & -> & _) (b & m & -> & _). cbn [number]. split.
  - intros (p & P & Q). cbn in P, Q. rewrite P in Q. injection Q. auto.
  - intros E. exists (Real (val f a n)). split; [reflexivity|]. cbn. rewrite E. reflexivity.
Qed.
Lemma correct_number f r x y : Sane f -> Correct f r x -> Fin f y -> r = number f y -> Fin f x /\ number f x = r.
Proof.
  intros W C F ->. pose proof F as (a & n & E & FN). subst y. cbn [number] in *. destruct (correct_within f _ _ a n W C FN ltac:(lra)) as (b & m & -> & FM & N & _). split; [exists b, m; auto|]. cbn [number]. apply (near_exact f _ _ N). exists a, n. split; [apply FN|reflexivity].
Qed.
Lemma fin_correct f x y : Sane f -> Fin f x -> Fin f y -> Correct f (number f x + number f y) (f_add f x y) /\ Correct f (number f x * number f y) (f_mul f x y) /\ Correct f (number f x - number f y) (f_sub f x y).
Proof.
  intros W (a & n & -> & FN) (b & m & -> & FM). cbn [number]. split; [apply add_correct; exact W|]. split; [apply mul_correct; [exact W|exact (rep_nonneg f n (proj1 FN))|exact (rep_nonneg f m (proj1 FM))]|apply sub_correct; exact W].
Qed.
(* a mean with the weight 0 or 1 *)
Lemma mix_exact f w a b : IEEE f -> Fin f w -> Fin f a -> Fin f b -> number f w = 0 \/ number f w = 1 -> let c := if Req_EM_T (number f w) 0 then a else b in Fin f (f_mix f w a b) /\ number f (f_mix f w a b) = number f c.
Proof.
  intros I FW FA FB E. pose proof (ieee_sane f I) as W. assert (F1 : Fin f (f_one f)) by (exists false, (2 ^ fm_low f)%Z; split; [reflexivity|apply one_finite; exact W]). assert (E1 : number f (f_one f) = 1) by (apply one_val; exact W). assert (F0 : Fin f f_zero) by (exists false, 0%Z; split; [reflexivity|apply zero_finite; exact W]). assert (E0 : number f f_zero = 0) by apply val_zero.
  destruct (fin_correct f (f_one f) w W F1 FW) as (_ & _ & CC). unfold f_mix. destruct (Req_EM_T (number f w) 0) as [Z|Z]; cbv zeta.
  - destruct (correct_number f _ _ (f_one f) W CC F1 ltac:(lra)) as [FC EC]. destruct (fin_correct f _ a W FC FA) as (_ & CP & _). destruct (correct_number f _ _ a W CP FA ltac:(rewrite EC; nra)) as [FP EP]. destruct (fin_correct f w b W FW FB) as (_ & CQ & _). destruct (correct_number f _ _ f_zero W CQ F0 ltac:(rewrite E0, Z; ring)) as [FQ EQ].
    destruct (fin_correct f _ _ W FP FQ) as (CS & _ & _). destruct (correct_number f _ _ a W CS FA ltac:(rewrite EP, EQ, EC, Z, E1; ring)) as [FS ES]. split; [exact FS|]. rewrite ES, EP, EQ, EC, Z, E1. ring.
  - assert (Z1 : number f w = 1) by (destruct E; [contradiction|assumption]). destruct (correct_number f _ _ f_zero W CC F0 ltac:(lra)) as [FC EC]. destruct (fin_correct f _ a W FC FA) as (_ & CP & _). destruct (correct_number f _ _ f_zero W CP F0 ltac:(rewrite EC, E0, E1, Z1; ring)) as [FP EP]. destruct (fin_correct f w b W FW FB) as (_ & CQ & _). destruct (correct_number f _ _ b W CQ FB ltac:(rewrite Z1; ring)) as [FQ EQ].
    destruct (fin_correct f _ _ W FP FQ) as (CS & _ & _). destruct (correct_number f _ _ b W CS FB ltac:(rewrite EP, EQ, EC, E1, Z1; ring)) as [FS ES]. split; [exact FS|]. rewrite ES, EP, EQ, EC, E1, Z1. ring.
Qed.
(* at a node whose distance from the first one is a number of the format, the
   value is the stored one; in particular at the first node *)
Theorem C99_node : forall f base step n l x i, IEEE f -> Fin f base -> Fin f step -> 0 < number f step -> (1 <= n <= 2 ^ 31 - 2)%Z -> (n <= 2 ^ fm_prec f)%Z -> Z.of_nat (length l) = (n + 1)%Z -> Forall (Fin f) l ->
  Fin f x -> Fin f (f_sub f x base) -> (0 <= i <= n)%Z -> Grid f (IZR i * number f step) -> number f x = number f base + IZR i * number f step ->
  exists r, f_rpl_eval f (mkFrpl base step (n + 1) l) x = Ok r /\ Same f r (nth (Z.to_nat i) l f_zero).
Proof.
  intros f base step n l x i I FB FS SP N NP L FL FX FD IB G X. pose proof (ieee_sane f I) as W.
  assert (ND : number f (f_sub f x base) = IZR i * number f step). { pose proof FX as (a & k & EX & FN). pose proof FB as (b & m & EB & FM). destruct FD as (c & j & E & FK). pose proof (sub_correct f a k b m W) as C. rewrite EX, EB in E. rewrite E in C. destruct (correct_parts f _ _ _ C) as [_ NN]. rewrite EX, EB, E. cbn [number]. rewrite EX, EB in X. cbn [number] in X. assert (Y : val f a k - val f b m = IZR i * number f step) by lra. rewrite Y in NN. exact (near_exact f _ _ NN G). }
  destruct (int_fin f i I ltac:(lia)) as [FI EI]. assert (QQ : number f (f_sub f x base) / number f step = IZR i) by (rewrite ND; field; lra).
  assert (FQ : Fin f (f_div f (f_sub f x base) step) /\ number f (f_div f (f_sub f x base) step) = IZR i).
  { assert (C : Correct f (IZR i) (f_div f (f_sub f x base) step)). { rewrite <- QQ. pose proof FD as (c & j & E & FK). pose proof FS as (b & m & ES & FM). rewrite E, ES in *. cbn [number] in *. apply div_correct; [exact W|exact (rep_nonneg f j (proj1 FK))|]. pose proof (rep_nonneg f m (proj1 FM)). destruct (Z.eq_dec m 0) as [->|]; [rewrite val_zero in SP; lra|lia]. }
    exact (correct_number f _ _ (f_of_int f i) W C FI (eq_sym EI)). }
  destruct FQ as [FQ EQ]. pose proof FQ as (a & m & Q & FM). rewrite Q in EQ. cbn [number] in EQ. destruct (table_eval f base step n l x W N L a m Q) as [Y _]. pose proof (floor_int f a m W) as FI'. rewrite EQ in FI'. assert (II : (signed a m / 2 ^ fm_low f)%Z = i). { apply (whole_unique (IZR i)); [exact FI'|]. rewrite plus_IZR. lra. } rewrite II in Y.
  destruct (Y ltac:(lia)) as (k & P & K & R). rewrite R. eexists. split; [reflexivity|].
  assert (KI : k = i /\ (i < n)%Z \/ (k + 1 = i)%Z /\ i = n). { rewrite K. unfold clamp. rewrite (proj2 (Z.ltb_ge i 0)) by lia. destruct (Z.ltb_spec (n - 1) i); lia. } destruct (int_fin f k I ltac:(lia)) as [FK EK].
  assert (WT : number f (FFin a m) - number f (f_of_int f k) = IZR (i - k)) by (rewrite EK, minus_IZR; cbn [number]; lra). destruct (fin_correct f _ (f_of_int f k) W FQ FK) as (_ & _ & CW). rewrite Q in CW. rewrite WT in CW.
  destruct (int_fin f (i - k) I ltac:(pose proof (pow_pos_ (fm_prec f) ltac:(destruct W; lia)); lia)) as [FT ET]. destruct (correct_number f _ _ (f_of_int f (i - k)) W CW FT (eq_sym ET)) as [FW EW]. rewrite Q.
  pose proof (samples_fin f l k W FL) as F0. pose proof (samples_fin f l (k + 1) W FL) as F1.
  destruct (mix_exact f _ _ _ I FW F0 F1) as [FR ER]. { rewrite EW. destruct KI as [[KI _]|[KI _]]; [left|right]; f_equal; lia. }
  apply same_number; [exact W|exact FR|exact (samples_fin f l i W FL)|]. rewrite ER. destruct (Req_EM_T _ 0) as [Z|Z]; rewrite EW in Z.
  - apply eq_IZR in Z. replace k with i by lia. reflexivity.
  - destruct KI as [[KI _]|[KI _]]; [exfalso; apply Z; f_equal; lia|rewrite KI; reflexivity].
Qed.
Print Assumptions C99_node.
(* where the function is sampled: near to the nodes, which need not be numbers
   of the format *)
Theorem C99_abscissa : forall f a b n i X, IEEE f -> Fin f a -> Fin f b -> number f a <= number f b -> (1 <= n <= 2 ^ fm_prec f)%Z -> (0 <= i <= n)%Z -> Rabs (number f a) <= X -> Rabs (number f b) <= X -> 8 * X <= IZR (2 ^ fm_top f) ->
  let step := f_div f (f_sub f b a) (f_of_int f n) in let x := f_add f a (f_mul f (f_of_int f i) step) in
  Fin f step /\ Fin f x /\ 0 <= number f step /\ Rabs (number f x - node (number f a) (number f b) n i) <= 8 / IZR (2 ^ fm_prec f) * X + (IZR n + 1) * unit_of f /\
  Rabs (number f x - (number f a + IZR i * number f step)) <= 4 / IZR (2 ^ fm_prec f) * X + (IZR n + 1) * unit_of f.
Proof.
  intros f a b n i X I FA FB AB N IB BA BB XT step x. pose proof (ieee_sane f I) as W. destruct (ulp_small f I) as [U US]. pose proof (unit_pos f W) as UP. pose proof (room_large f I) as RL. assert (RM : 4 * X <= room f) by (unfold room; lra). assert (P60 : 1000 <= IZR (2 ^ 60)) by (apply IZR_le; vm_compute; discriminate).
  set (D := number f b - number f a) in *. assert (D0 : 0 <= D <= 2 * X). { unfold D. apply abs_le_inv in BA, BB. lra. } assert (N1 : 1 <= IZR n) by (apply IZR_le; lia). assert (I0 : 0 <= IZR i <= IZR n) by (split; apply IZR_le; lia).
  assert (NU : IZR n * ulp f <= 1). { unfold ulp. apply (Rmult_le_reg_r (IZR (2 ^ fm_prec f))); [apply prec_pos; exact W|]. rewrite Rmult_assoc, Rinv_l, Rmult_1_r by (pose proof (prec_pos f W); lra). rewrite Rmult_1_l. apply IZR_le. lia. }
  destruct (sub_fin f b a I FB FA) as (FD & ND & ED); [fold D; rewrite Rabs_right; lra|]. fold D in ND, ED. rewrite (Rabs_right D) in ED by lra. set (d := number f (f_sub f b a)) in *. destruct (int_fin f n I ltac:(lia)) as [FN EN]. destruct (int_fin f i I ltac:(lia)) as [FI EI].
  assert (d0 : 0 <= d) by (apply (near_mono f 0 0 D d (near_zero f W) ND); lra). apply abs_le_inv in ED. assert (dN : 0 <= d / IZR n <= d). { assert (0 < / IZR n <= 1) by (split; [apply Rinv_0_lt_compat; lra|rewrite <- Rinv_1; apply Rinv_le_contravar; lra]). unfold Rdiv. nra. }
  destruct (div_fin f (f_sub f b a) (f_of_int f n) I FD FN) as (FS & NS & ES); [rewrite EN; lra|rewrite EN; fold d; rewrite Rabs_right; nra|]. rewrite EN in NS, ES. fold d in NS, ES. fold step in FS, NS, ES. rewrite (Rabs_right (d / IZR n)) in ES by lra.
  assert (S0 : 0 <= number f step) by (apply (near_mono f 0 0 _ _ (near_zero f W) NS); lra). set (s := number f step) in *. apply abs_le_inv in ES.
  set (p := D / IZR n). assert (PD : IZR n * p = D) by (unfold p; field; lra). assert (DP : d / IZR n = d * / IZR n) by reflexivity. assert (dP : Rabs (d / IZR n - p) <= ulp f * p). { apply Rabs_le. assert (0 < / IZR n) by (apply Rinv_0_lt_compat; lra). unfold p, Rdiv. nra. } apply abs_le_inv in dP. assert (P0 : 0 <= p) by (unfold p; apply Rmult_le_pos; [lra|left; apply Rinv_0_lt_compat; lra]).
  assert (SP : Rabs (s - p) <= 2001 / 1000 * ulp f * p + unit_of f / 2) by (apply Rabs_le; nra). set (T := IZR i * p) in *. assert (T0 : 0 <= T <= D) by (unfold T; nra).
  assert (IS : Rabs (IZR i * s - T) <= 2001 / 1000 * ulp f * T + IZR n * (unit_of f / 2)). { replace (IZR i * s - T) with (IZR i * (s - p)) by (unfold T; ring). rewrite Rabs_mult, (Rabs_right (IZR i)) by lra. assert (IZR i * Rabs (s - p) <= IZR i * (2001 / 1000 * ulp f * p + unit_of f / 2)) by (apply Rmult_le_compat_l; lra). unfold T. nra. }
  assert (NUU : IZR n * (unit_of f / 2) <= / 2000). { assert (IZR n * (unit_of f * 1000) <= IZR n * ulp f) by (apply Rmult_le_compat_l; lra). lra. } assert (TU : 0 <= ulp f * T <= / 1000 * T) by nra.
  assert (BS : 0 <= IZR i * s <= 1003 / 1000 * T + / 2000) by (split; [nra|apply abs_le_inv in IS; nra]).
  destruct (mul_fin f (f_of_int f i) step I FI FS) as (FM & NM & EM); [rewrite EI; fold s; rewrite Rabs_right; lra|]. rewrite EI in EM. fold s in EM. rewrite (Rabs_right (IZR i * s)) in EM by lra. set (m := number f (f_mul f (f_of_int f i) step)) in *.
  assert (MT : Rabs (m - T) <= 301 / 100 * (ulp f * T) + 101 / 100 * (IZR n * (unit_of f / 2)) + 101 / 100 * (unit_of f / 2)).
  { replace (m - T) with ((m - IZR i * s) + (IZR i * s - T)) by ring. eapply Rle_trans; [apply Rabs_triang|]. apply abs_le_inv in IS. assert (ulp f * (IZR i * s) <= ulp f * (1003 / 1000 * T + IZR n * (unit_of f / 2))) by (apply Rmult_le_compat_l; nra). assert (0 <= IZR n * (unit_of f / 2)) by nra. assert (ulp f * (IZR n * (unit_of f / 2)) <= / 1000 * (IZR n * (unit_of f / 2))) by (apply Rmult_le_compat_r; lra). assert (IS' : Rabs (IZR i * s - T) <= 2001 / 1000 * ulp f * T + IZR n * (unit_of f / 2)) by (apply Rabs_le; lra). nra. }
  assert (AT : number f a + T = node (number f a) (number f b) n i) by (unfold node, T, p, D; reflexivity). assert (BT : Rabs (number f a + T) <= X). { apply abs_le_inv in BA, BB. apply Rabs_le. unfold D in *. lra. }
  assert (BM : Rabs (number f a + m) <= Rabs (number f a + T) + Rabs (m - T)) by (replace (number f a + m) with ((number f a + T) + (m - T)) by ring; apply Rabs_triang). assert (UX : 0 <= ulp f * X <= / 1000 * X) by nra. assert (TX : ulp f * T <= 2 * (ulp f * X)) by nra.
  destruct (add_fin f a (f_mul f (f_of_int f i) step) I FA FM) as (FR & NR & ER); [fold m; lra|]. fold m in ER. fold x in FR, NR, ER. split; [exact FS|]. split; [exact FR|]. split; [exact S0|].
  set (Y := IZR n * (unit_of f / 2)) in *. assert (Y0 : 0 <= Y) by (unfold Y; nra). unfold ulp in *. change (8 / IZR (2 ^ fm_prec f)) with (8 * / IZR (2 ^ fm_prec f)). change (4 / IZR (2 ^ fm_prec f)) with (4 * / IZR (2 ^ fm_prec f)). set (u := / IZR (2 ^ fm_prec f)) in *. assert (UM : u * Rabs (number f a + m) <= u * (X + (301 / 100 * (u * T) + 101 / 100 * Y + 101 / 100 * (unit_of f / 2)))) by (apply Rmult_le_compat_l; lra).
  assert (UY : u * Y <= / 1000 * Y) by (apply Rmult_le_compat_r; lra). assert (UT : 0 <= u * T) by lra. assert (UUT : u * (u * T) <= / 1000 * (u * T)) by (apply Rmult_le_compat_r; lra). assert (UUU : u * (unit_of f / 2) <= / 1000 * (unit_of f / 2)) by (apply Rmult_le_compat_r; lra). split.
  - rewrite <- AT. replace (number f x - (number f a + T)) with ((number f x - (number f a + m)) + (m - T)) by ring. eapply Rle_trans; [apply Rabs_triang|]. unfold Y in *. nra.
  - replace (number f x - (number f a + IZR i * s)) with ((number f x - (number f a + m)) + (m - IZR i * s)) by ring. eapply Rle_trans; [apply Rabs_triang|]. assert (IY : IZR i * s <= T + 2001 / 1000 * (u * T) + Y) by (apply abs_le_inv in IS; lra). assert (UI : u * (IZR i * s) <= u * (T + 2001 / 1000 * (u * T) + Y)) by (apply Rmult_le_compat_l; lra). unfold Y in *. nra.
Qed.
Print Assumptions C99_abscissa.
(* the conversions to and from double *)
Theorem C99_conv : forall f g a n, IEEE f -> IEEE g -> Finite f n -> Correct g (val f a n) (f_conv f g (FFin a n)) /\
  (f = g \/ f = float_fmt -> Fin g (f_conv f g (FFin a n)) /\ number g (f_conv f g (FFin a n)) = val f a n).
Proof.
  intros f g a n I J F. pose proof (ieee_sane f I) as W. pose proof (ieee_sane g J) as W'. assert (C : Correct g (val f a n) (f_conv f g (FFin a n))).
  { cbn [f_conv]. pose proof W as [W1 W2]. pose proof (round_correct g a n (2 ^ fm_low f) W' (rep_nonneg f n (proj1 F)) (pow_pos_ (fm_low f) ltac:(lia))) as C. unfold val, unit_of. exact C. }
  split; [exact C|]. intros E. assert (Y : exists y, Fin g y /\ val f a n = number g y).
  { destruct E as [<- | ->]; [exists (FFin a n); split; [exists a, n; auto|reflexivity]|]. destruct J as [-> | ->]; [|exists (FFin a n); split; [exists a, n; auto|reflexivity]].
    exists (FFin a (n * 2 ^ (1074 - 149))%Z). split.
    - exists a, (n * 2 ^ (1074 - 149))%Z. split; [reflexivity|]. destruct F as [(m & e & R1 & R2 & ->) B]. cbn [fm_prec fm_low fm_top float_fmt] in *. split.
      + exists m, (e + (1074 - 149))%Z. cbn [fm_prec double_fmt]. split; [lia|]. split; [lia|]. rewrite Z.pow_add_r by lia. ring.
      + cbn [fm_top fm_low double_fmt]. replace (2 ^ (1024 + 1074))%Z with (2 ^ (128 + 149 + 896) * 2 ^ (1074 - 149))%Z by (rewrite <- Z.pow_add_r by lia; reflexivity). apply Z.mul_lt_mono_pos_r; [apply pow_pos_; lia|]. eapply Z.lt_le_trans; [exact B|]. apply Z.pow_le_mono_r; lia.
    - cbn [number]. unfold val, unit_of. cbn [fm_low float_fmt double_fmt]. rewrite mult_IZR. replace (IZR (2 ^ 1074)) with (IZR (2 ^ 149) * IZR (2 ^ (1074 - 149))) by (rewrite <- pow_split by lia; reflexivity). assert (0 < IZR (2 ^ (1074 - 149))) by (apply IZR_lt, pow_pos_; lia). assert (0 < IZR (2 ^ 149)) by (apply IZR_lt, pow_pos_; lia). destruct a; field; lra. }
  destruct Y as (y & FY & EY). exact (correct_number g _ _ y W' C FY EY).
Qed.
Print Assumptions C99_conv.
(* the table of a function that follows F: what it gives inside *)
Theorem C99_function : forall f a b n fn t F K E X M x, IEEE f -> Fin f a -> Fin f b -> number f a <= number f b -> (1 <= n <= 2 ^ 30)%Z -> (4 * n <= 2 ^ fm_prec f)%Z -> Rabs (number f a) <= X -> Rabs (number f b) <= X -> 8 * X <= IZR (2 ^ fm_top f) ->
  f_rpl_make f a b n fn = Ok t -> 0 < number f (ft_step t) -> (forall y z, Rabs (F y - F z) <= K * Rabs (y - z)) ->
  (forall i, (0 <= i <= n)%Z -> let y := f_add f a (f_mul f (f_of_int f i) (ft_step t)) in let d := f_conv double_fmt f (fn (f_conv f double_fmt y)) in Fin f d /\ Rabs (number f d) <= M /\ Rabs (number f d - F (number f y)) <= E) -> 16 * M <= IZR (2 ^ fm_top f) ->
  Fin f x -> Fin f (f_sub f x a) -> number f a <= number f x <= number f a + IZR n * number f (ft_step t) ->
  exists r, f_rpl_eval f t x = Ok r /\ Fin f r /\
  Rabs (number f r - F (number f x)) <= E + K * (number f (ft_step t) / 2 + 4 / IZR (2 ^ fm_prec f) * X + (IZR n + 1) * unit_of f) + (5 * IZR n + 22) / IZR (2 ^ fm_prec f) * M + 2 * unit_of f.
Proof.
  intros f a b n fn t F K E X M x I FA FB AB N NP BA BB XT MK SP LIP DATA MT FX FD XB. pose proof (ieee_sane f I) as W. pose proof (unit_pos f W) as UP. destruct (made f a b n fn t ltac:(lia) MK) as (ET & ES & LN & NTH). set (step := ft_step t) in *. set (l := ft_data t) in *.
  assert (ALL : forall y, In y l -> exists i, (0 <= i <= n)%Z /\ y = nth (Z.to_nat i) l f_zero). { intros y H. destruct (In_nth l y f_zero H) as (j & J & <-). exists (Z.of_nat j). split; [lia|]. rewrite Nat2Z.id. reflexivity. }
  assert (FL : Forall (Fin f) l). { apply Forall_forall. intros y H. destruct (ALL y H) as (i & B & ->). rewrite (NTH i B). apply (DATA i B). } assert (BM : forall y, In y l -> Rabs (number f y) <= M). { intros y H. destruct (ALL y H) as (i & B & ->). rewrite (NTH i B). apply (DATA i B). }
  destruct (C99_abscissa f a b n 0 X I FA FB AB ltac:(lia) ltac:(lia) BA BB XT) as (FS & _). rewrite <- ES in FS. destruct (C99_inside f a step n l x M I FA FS SP N NP LN FL FX FD XB BM MT) as (r & v & EV & FR & A & D). rewrite ET. exists r. split; [exact EV|]. split; [exact FR|].
  assert (VF : Rabs (v - F (number f x)) <= E + K * (number f step / 2 + 4 / IZR (2 ^ fm_prec f) * X + (IZR n + 1) * unit_of f)); [|replace (number f r - F (number f x)) with ((number f r - v) + (v - F (number f x))) by ring; eapply Rle_trans; [apply Rabs_triang|lra]].
  destruct A as (k & KN & K1 & K2 & ->). set (s := number f step) in *. set (g := 4 / IZR (2 ^ fm_prec f) * X + (IZR n + 1) * unit_of f) in *. assert (K0 : 0 <= K) by (pose proof (LIP 1 0) as H; replace (1 - 0) with 1 in H by ring; rewrite Rabs_R1 in H; pose proof (Rabs_pos (F 1 - F 0)); lra).
  assert (X0 : number f a + IZR k * s <= number f x) by (destruct K1 as [-> |K1]; lra). assert (X1 : number f x <= number f a + IZR (k + 1) * s) by (destruct K2 as [-> |K2]; [replace (n - 1 + 1)%Z with n by lia|]; lra). rewrite plus_IZR in *.
  assert (NODE : forall i, (0 <= i <= n)%Z -> Rabs (samples f l i - F (number f a + IZR i * s)) <= E + K * g).
  { intros i B. unfold samples. rewrite (NTH i B). destruct (DATA i B) as (_ & _ & DF). destruct (C99_abscissa f a b n i X I FA FB AB ltac:(lia) B BA BB XT) as (_ & _ & _ & _ & DX). rewrite <- ES in DX. fold step s g in DX. set (y := f_add f a (f_mul f (f_of_int f i) step)) in *. set (d := f_conv double_fmt f (fn (f_conv f double_fmt y))) in *. pose proof (LIP (number f y) (number f a + IZR i * s)) as LF.
    replace (number f d - F (number f a + IZR i * s)) with ((number f d - F (number f y)) + (F (number f y) - F (number f a + IZR i * s))) by ring. eapply Rle_trans; [apply Rabs_triang|]. assert (K * Rabs (number f y - (number f a + IZR i * s)) <= K * g) by (apply Rmult_le_compat_l; assumption). lra. }
  pose proof (NODE k ltac:(lia)) as N0. pose proof (NODE (k + 1)%Z ltac:(lia)) as N1. rewrite plus_IZR in N1. pose proof (LIP (number f a + IZR k * s) (number f x)) as L0. pose proof (LIP (number f a + (IZR k + 1) * s) (number f x)) as L1. set (w := (number f x - (number f a + IZR k * s)) / s). assert (XW : number f x = number f a + IZR k * s + w * s) by (unfold w; field; lra). assert (WB : 0 <= w <= 1) by (split; nra).
  assert (CH : chord (number f a + IZR k * s) (samples f l k) (number f a + (IZR k + 1) * s) (samples f l (k + 1)) (number f x) = (1 - w) * samples f l k + w * samples f l (k + 1)) by (unfold chord; replace (number f x - (number f a + IZR k * s)) with (w * s) by lra; field; lra). rewrite CH.
  assert (WS : 0 <= w * s /\ 0 <= (1 - w) * s) by (split; apply Rmult_le_pos; lra). assert (A0 : Rabs (number f a + IZR k * s - number f x) = w * s) by (replace (number f a + IZR k * s - number f x) with (- (w * s)) by lra; rewrite Rabs_Ropp, Rabs_right; lra). assert (A1 : Rabs (number f a + (IZR k + 1) * s - number f x) = (1 - w) * s) by (replace (number f a + (IZR k + 1) * s - number f x) with ((1 - w) * s) by lra; rewrite Rabs_right; lra). rewrite A0 in L0. rewrite A1 in L1.
  apply abs_le_inv in N0, N1, L0, L1. set (d0 := samples f l k) in *. set (d1 := samples f l (k + 1)) in *. set (p0 := F (number f a + IZR k * s)) in *. set (p1 := F (number f a + (IZR k + 1) * s)) in *. set (fx := F (number f x)) in *.
  assert (U0 : Rabs (d0 - fx) <= E + K * g + K * (w * s)) by (apply Rabs_le; lra). assert (U1 : Rabs (d1 - fx) <= E + K * g + K * ((1 - w) * s)) by (apply Rabs_le; lra).
  replace ((1 - w) * d0 + w * d1 - fx) with ((1 - w) * (d0 - fx) + w * (d1 - fx)) by ring. eapply Rle_trans; [apply Rabs_triang|]. rewrite !Rabs_mult, (Rabs_right w), (Rabs_right (1 - w)) by lra.
  assert (V0 : (1 - w) * Rabs (d0 - fx) <= (1 - w) * (E + K * g + K * (w * s))) by (apply Rmult_le_compat_l; lra). assert (V1 : w * Rabs (d1 - fx) <= w * (E + K * g + K * ((1 - w) * s))) by (apply Rmult_le_compat_l; lra). assert (KS : 0 <= K * s) by (apply Rmult_le_pos; lra). assert (WW : w * (1 - w) <= / 4) by (pose proof (Rle_0_sqr (w - / 2)) as SQ; unfold Rsqr in SQ; lra). assert (KSW : K * s * (w * (1 - w)) <= K * s * / 4) by (apply Rmult_le_compat_l; assumption).
  assert (EXP : (1 - w) * (E + K * g + K * (w * s)) + w * (E + K * g + K * ((1 - w) * s)) = E + K * g + 2 * (K * s * (w * (1 - w)))) by ring. replace (E + K * (s / 2 + 4 / IZR (2 ^ fm_prec f) * X + (IZR n + 1) * unit_of f)) with (E + K * g + 2 * (K * s * / 4)) by (unfold g; field; pose proof (prec_pos f W); lra). lra.
Qed.
Print Assumptions C99_function.
Lemma floor_cases f q : f_floor_int f q = UB \/ exists i, f_floor_int f q = Ok i.
Proof. destruct q as [|s|s n]; [left; reflexivity|left; reflexivity|]. cbn [f_floor_int]. unfold to_int. destruct (_ && _); [right; eexists; reflexivity|left; reflexivity]. Qed.
(* an empty interval, and a table of one value or none, have no defined value *)
Theorem C99_empty_refuted : forall f a b n fn t x, IEEE f -> f_rpl_make f a b n fn = Ok t -> Fin f a /\ a = b /\ (1 <= n <= 2 ^ fm_prec f)%Z \/ (n <= 0)%Z -> f_rpl_eval f t x = UB.
Proof.
  intros f a b n fn t x I MK H. pose proof (ieee_sane f I) as W. pose proof W as [W1 W2]. unfold f_rpl_make in MK. destruct (to_int (n + 1)) as [k| | |] eqn:E; cbn [bind] in MK; try discriminate. unfold to_int in E. destruct (_ && _); [|discriminate]. injection E as <-. destruct (Z.ltb_spec (n + 1) 0); [discriminate|]. injection MK as <-. unfold f_rpl_eval. cbn [ft_base ft_step ft_points ft_data].
  destruct H as [(FA & <- & N)|N].
  - assert (Z : exists s, f_div f (f_sub f a a) (f_of_int f n) = FFin s 0).
    { destruct (int_fin f n I ltac:(lia)) as [FN EN]. destruct FA as (s & m & -> & FM). destruct FN as (s' & m' & EM & FM'). rewrite EM in *. cbn [number] in EN. assert (S : exists s'', f_sub f (FFin s m) (FFin s m) = FFin s'' 0). { unfold f_sub, f_add. cbn [f_neg]. replace (signed s m + signed (negb s) m)%Z with 0%Z by (destruct s; cbn [signed negb]; lia). cbn [Z.eqb]. eexists. reflexivity. }
      destruct S as [s'' S]. rewrite S. cbn [f_div]. pose proof (rep_nonneg f m' (proj1 FM')). assert (M' : m' <> 0%Z). { intros ->. rewrite val_zero in EN. apply (eq_IZR 0) in EN. lia. } rewrite (proj2 (Z.eqb_neq m' 0) M'). rewrite to_zero by (try exact W; lia). eexists. reflexivity. }
    destruct Z as [s Z]. rewrite Z. destruct (f_sub f x a) as [|c|c m]; cbn [f_div]; [reflexivity|reflexivity|]. cbn [Z.eqb]. destruct (Z.eqb_spec m 0); reflexivity.
  - set (l := map _ _). assert (L : (length l <= 1)%nat) by (unfold l; rewrite map_length, seq_length; lia). match goal with |- context [f_floor_int f ?q] => destruct (floor_cases f q) as [U|[i U]]; rewrite U end; [reflexivity|]. cbn [bind].
    set (k := clamp Z.ltb i 0%Z (n + 1 - 2)%Z). unfold zget. destruct (Z.ltb_spec k 0); [reflexivity|]. unfold vget at 1. destruct (nth_error l (Z.to_nat k)) eqn:E0; [|reflexivity]. cbn [bind]. rewrite (proj2 (Z.ltb_ge (k + 1) 0)) by lia. unfold vget. replace (nth_error l (Z.to_nat (k + 1))) with (@None fnum); [reflexivity|]. symmetry. apply nth_error_None. lia.
Qed.
Print Assumptions C99_empty_refuted.
(* through double and back *)
Lemma conv_back x : Fin float_fmt x -> f_conv double_fmt float_fmt (f_conv float_fmt double_fmt x) = x /\ f_conv double_fmt float_fmt (f_abs (f_conv float_fmt double_fmt x)) = f_abs x.
Proof.
  intros (a & n & -> & F). assert (I : IEEE float_fmt) by (right; reflexivity). assert (J : IEEE double_fmt) by (left; reflexivity). pose proof (ieee_sane _ I) as W.
  assert (G : forall b, exists m, f_conv float_fmt double_fmt (FFin b n) = FFin b m /\ f_conv double_fmt float_fmt (FFin b m) = FFin b n).
  { intros b. destruct (proj2 (C99_conv _ _ b n I J F) (or_intror eq_refl)) as [(c & m & E & FM) V]. rewrite E in V. cbn [number] in V. assert (c = b) by (cbn [f_conv to_fnum] in E; destruct (_ <=? _)%Z in E; congruence). subst c. exists m. split; [exact E|].
    pose proof (proj1 (C99_conv _ _ b m J I FM)) as C. rewrite V in C. destruct (correct_number float_fmt _ _ (FFin b n) W C ltac:(exists b, n; auto) eq_refl) as [(d & k & E' & _) V']. rewrite E' in V' |- *. cbn [number] in V'. assert (d = b) by (cbn [f_conv to_fnum] in E'; destruct (_ <=? _)%Z in E'; congruence). subst d. f_equal. apply (val_inj float_fmt b _ _ W V'). }
  destruct (G a) as (m & E & E'). rewrite E. split; [exact E'|]. destruct (G false) as (k & E1 & E2). cbn [f_abs]. enough (k = m) by congruence. cbn [f_conv to_fnum] in E, E1. destruct (_ <=? _)%Z; congruence.
Qed.
Lemma make_same a b n g h X : (forall x, Fin float_fmt x -> f_conv double_fmt float_fmt (g (f_conv float_fmt double_fmt x)) = h x) ->
  Fin float_fmt a -> Fin float_fmt b -> number float_fmt a <= number float_fmt b -> (1 <= n <= 2 ^ 24)%Z -> Rabs (number float_fmt a) <= X -> Rabs (number float_fmt b) <= X -> 8 * X <= IZR (2 ^ fm_top float_fmt) ->
  let step := f_div float_fmt (f_sub float_fmt b a) (f_of_int float_fmt n) in
  f_rpl_make float_fmt a b n g = Ok (mkFrpl a step (n + 1) (map (fun i => h (f_node float_fmt a step i)) (seq 0 (Z.to_nat (n + 1))))).
Proof.
  intros H FA FB AB N BA BB XT step. unfold f_rpl_make, to_int. fold step. rewrite (proj2 (Z.leb_le _ _)), (proj2 (Z.ltb_lt (n + 1) _)) by lia. cbn [andb bind]. rewrite (proj2 (Z.ltb_ge _ _)) by lia. do 2 f_equal. apply map_ext_in. intros i M. apply in_seq in M. apply H.
  exact (proj1 (proj2 (C99_abscissa float_fmt a b n (Z.of_nat i) X (or_intror eq_refl) FA FB AB N ltac:(lia) BA BB XT))).
Qed.
Lemma one_number : number float_fmt (f_one float_fmt) = 1 /\ Fin float_fmt (f_one float_fmt) /\ number float_fmt f_zero = 0 /\ Fin float_fmt f_zero.
Proof.
  assert (W : Sane float_fmt) by (apply ieee_sane; right; reflexivity). split; [apply (one_val float_fmt W)|]. split; [apply (flt_fin 1 0); lia|]. split; [apply val_zero|apply zero_fin].
Qed.
(* seven intervals of the identity on [0, 1]: not 1 at 1, though 1 is stored *)
Theorem C99_node_refuted : let f := float_fmt in exists t r, f_rpl_make f f_zero (f_one f) 7 (fun x => x) = Ok t /\ nth 7 (ft_data t) FNan = f_one f /\ f_rpl_eval f t (f_one f) = Ok r /\ Less f r (f_one f).
Proof.
  assert (W : Sane float_fmt) by (apply ieee_sane; right; reflexivity). destruct one_number as (N1 & F1 & N0 & F0). cbv zeta. eexists. eexists. split.
  { apply (make_same _ _ 7 (fun x => x) (fun x => x) 1 (fun x F => proj1 (conv_back x F)) F0 F1); [lra|lia|rewrite N0, Rabs_R0; lra|rewrite N1, Rabs_R1; lra|]. rewrite Rmult_1_r. apply (IZR_le 8). cbn. lia. }
  split; [vm_compute; reflexivity|]. split; [vm_compute; reflexivity|]. apply (lt_less _ _ _ W). vm_compute. reflexivity.
Qed.
Print Assumptions C99_node_refuted.
(* the absolute value on [-1, 1] in two intervals: inside, before, behind, and
   too far *)
Example C99_example : let f := float_fmt in exists t, f_rpl_make f (f_neg (f_one f)) (f_one f) 2 f_abs = Ok t /\ ft_step t = f_one f /\ ft_data t = [f_one f; f_zero; f_one f] /\
  f_rpl_eval f t (flt (-1) (-1)) = Ok (flt 1 (-1)) /\ f_rpl_eval f t (flt 1 (-2)) = Ok (flt 1 (-2)) /\ f_rpl_eval f t (flt (-3) 0) = Ok (flt 3 0) /\ f_rpl_eval f t (flt 7 0) = Ok (flt 7 0) /\ f_rpl_eval f t (flt 1 31) = UB.
Proof.
  destruct one_number as (N1 & F1 & N0 & F0). destruct (neg_fin float_fmt _ F1) as [FM NM]. rewrite N1 in NM. cbv zeta. eexists. split.
  { apply (make_same _ _ 2 f_abs f_abs 1 (fun x F => proj2 (conv_back x F)) FM F1); [lra|lia|rewrite NM, Rabs_Ropp, Rabs_R1; lra|rewrite N1, Rabs_R1; lra|]. rewrite Rmult_1_r. apply (IZR_le 8). cbn. lia. }
  repeat match goal with |- _ /\ _ => split end; vm_compute; reflexivity.
Qed.
