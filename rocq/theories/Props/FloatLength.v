(* C111: the length of a curve, computed with float distances added up in double *)
From Coq Require Import Reals ZArith List Lra Lia Bool.
From Verif Require Import Model.Base Model.FloatText Model.Ieee Model.FloatMath Model.FloatInterp Model.FloatFilter Model.FloatVec Model.FloatLength Spec.FloatText Spec.Ieee Spec.FloatStats Spec.FloatLength.
From Verif Require Import Proofs.BaseFacts Proofs.FloatTextProofs Proofs.IeeeProofs Proofs.IeeeErrorProofs Proofs.FloatOpsProofs Props.FloatAverage Proofs.RoundingProofs Props.FloatTable Props.FloatVec Props.FloatQuat Proofs.FloatStopwatchProofs.
Import ListNotations.
Local Open Scope R_scope.

Local Notation float := float_fmt.
Local Notation double := double_fmt.
Local Notation widen := (f_widen float double).
Lemma ieee_d : IEEE double. Proof. left. reflexivity. Qed.
Lemma ieee_f : IEEE float. Proof. right. reflexivity. Qed.

(* the conversion of a float to double is exact *)
Lemma widen_number s n : number double (FFin s (n * 2 ^ (fm_low double - fm_low float))) = number float (FFin s n).
Proof.
  cbn [number]. unfold val, unit_of. assert (E : (2 ^ fm_low double = 2 ^ (fm_low double - fm_low float) * 2 ^ fm_low float)%Z) by (rewrite <- Z.pow_add_r by (cbn; lia); f_equal; reflexivity).
  rewrite E, !mult_IZR. clear E. assert (A : 0 < IZR (2 ^ (fm_low double - fm_low float))) by (apply IZR_lt, pow_pos_; cbn; lia). assert (B : 0 < IZR (2 ^ fm_low float)) by (apply IZR_lt, pow_pos_; cbn; lia).
  destruct s; field; lra.
Qed.
Lemma widen_finite n : Finite float n -> Finite double (n * 2 ^ (fm_low double - fm_low float)).
Proof.
  intros [(m & e & E & M & ->) T]. split.
  - exists m, (e + (fm_low double - fm_low float))%Z. split; [cbn; lia|]. split.
    + split; [apply M|]. eapply Z.lt_trans; [apply M|]. apply Z.pow_lt_mono_r; cbn; lia.
    + rewrite Z.pow_add_r by (cbn; lia). ring.
  - assert (P : (0 < 2 ^ (fm_low double - fm_low float))%Z) by (apply pow_pos_; cbn; lia). eapply Z.lt_le_trans; [apply Zmult_lt_compat_r; [exact P|exact T]|]. rewrite <- Z.pow_add_r by (cbn; lia). apply Z.pow_le_mono_r; cbn; lia.
Qed.
Theorem C111_widen : forall x, (Fin float x -> Fin double (widen x) /\ number double (widen x) = number float x) /\ (widen x = FNan <-> x = FNan) /\ (forall s, widen x = FInf s <-> x = FInf s).
Proof.
  intros x. split; [|split; [destruct x; cbn; split; congruence|intros s; destruct x; cbn; split; congruence]].
  intros (s & n & -> & F). split; [|apply widen_number]. exists s, (n * 2 ^ (fm_low double - fm_low float))%Z. split; [reflexivity|apply widen_finite, F].
Qed.
Print Assumptions C111_widen.

(* the length is the rounded sum of the sides, in their order *)
Lemma loop_sum f g curve t0 t1 steps : forall n i pos dist, fl_loop f g curve t0 t1 steps (Z.of_nat i) n pos dist =
  fold_left (f_add g) (map (f_widen f g) (chords f pos (map curve (map (fl_parameter f t0 t1 steps) (map Z.of_nat (seq i n)))))) dist.
Proof.
  induction n as [|n IH]; intros i pos dist; [reflexivity|]. cbn [fl_loop seq map chords fold_left]. replace (Z.of_nat i + 1)%Z with (Z.of_nat (S i)) by lia. apply IH.
Qed.
Theorem C111_sides : forall f g curve t0 t1 steps, f_spline_length f g curve t0 t1 steps = rounded_sum g (map (f_widen f g) (sides f curve t0 (map (fl_parameter f t0 t1 steps) (upto steps)))).
Proof. intros. unfold f_spline_length, rounded_sum, sides, upto. exact (loop_sum f g curve t0 t1 steps (Z.to_nat steps) 1 (curve t0) f_zero). Qed.
Print Assumptions C111_sides.

(* every side is nan, or a number without a minus sign *)
Lemma chord_cases p q : Each (Valid float) p -> Each (Valid float) q -> fv_distance float p q = FNan \/ NonNeg float (fv_distance float p q).
Proof.
  intros VP VQ. pose proof ieee_f as I. assert (V : Each (Valid float) (fv_sub float p q)). { apply each_xyz in VP, VQ. destruct VP as (A & B & C), VQ as (D & E & F). apply each_xyz. unfold fv_sub, f_sub. cbn [fv_x fv_y fv_z]. repeat split; apply valid_add; auto; apply valid_neg; assumption. }
  destruct (C97_distance float p q I) as (_ & -> & _). destruct (C97_length float _ I V) as (N & _). assert (D : Each Num (fv_sub float p q) \/ ~ Each Num (fv_sub float p q)).
  { rewrite each_xyz. unfold Num. destruct (fv_x (fv_sub float p q)), (fv_y (fv_sub float p q)), (fv_z (fv_sub float p q)); (left; repeat split; discriminate) || (right; intros (? & ? & ?); congruence). }
  destruct D as [D|D]; [right|left; apply N, D]. apply sqrt_nonneg_; [exact I|]. apply squared_length_nonneg; assumption.
Qed.
Definition Side (x : fnum) : Prop := x = FNan \/ NonNeg float x.
Lemma sides_cases curve t0 ts : (forall t, Each (Valid float) (curve t)) -> Forall Side (sides float curve t0 ts).
Proof. intros V. unfold sides. revert t0. induction ts as [|t ts IH]; intros t0; cbn [map chords]; constructor; [apply chord_cases; apply V|apply IH]. Qed.
Lemma chords_length f p l : length (chords f p l) = length l.
Proof. revert p. induction l as [|q l IH]; intros p; [reflexivity|]. cbn. f_equal. apply IH. Qed.
Lemma sides_length f curve t0 t1 steps : length (sides f curve t0 (map (fl_parameter f t0 t1 steps) (upto steps))) = Z.to_nat steps.
Proof. unfold sides, upto. rewrite chords_length, !map_length, seq_length. reflexivity. Qed.

(* adding up *)
Lemma sum_snoc f l x : sum_of f (l ++ [x]) = sum_of f l + number f x.
Proof. unfold sum_of. induction l as [|y l IH]; cbn; [lra|]. rewrite IH. lra. Qed.
Lemma rounded_snoc g l x : rounded_sum g (l ++ [x]) = f_add g (rounded_sum g l) x.
Proof. unfold rounded_sum. rewrite fold_left_app. reflexivity. Qed.
Lemma widen_plus x : Plus float x -> Plus double (widen x) /\ number double (widen x) = number float x.
Proof. intros (n & -> & F). split; [|apply widen_number]. eexists. split; [reflexivity|apply widen_finite, F]. Qed.
Lemma plus_top x : Plus float x -> number float x <= IZR (2 ^ fm_top float).
Proof.
  intros (n & -> & [_ T]). cbn [number]. unfold val, unit_of. assert (P : 0 < IZR (2 ^ fm_low float)) by (apply IZR_lt, pow_pos_; cbn; lia). apply IZR_lt in T. rewrite Z.pow_add_r, mult_IZR in T by (cbn; lia).
  apply (Rmult_le_reg_r (IZR (2 ^ fm_low float))); [exact P|]. rewrite Rmult_assoc, Rinv_l by lra. lra.
Qed.
Lemma sum_nonneg l : Forall (Plus float) l -> 0 <= sum_of float l <= INR (length l) * IZR (2 ^ fm_top float).
Proof.
  induction 1 as [|x l P L IH]; [cbn; lra|]. pose proof (plus_nonneg float x ieee_f P). pose proof (plus_top x P). cbn [length]. rewrite S_INR. unfold sum_of in *. cbn [fold_right]. lra.
Qed.
Lemma sum_room : IZR (2 ^ 31) * (2 * IZR (2 ^ fm_top float)) <= room double.
Proof.
  unfold room. assert (H : (2 ^ 31 * (2 * 2 ^ fm_top float) * 2 <= 2 ^ fm_top double)%Z) by (vm_compute; discriminate). apply IZR_le in H. rewrite !mult_IZR in H. lra.
Qed.
Lemma ulp_double : IZR (2 ^ 31) * ulp double <= 1 / 2.
Proof. unfold ulp. apply (Rmult_le_reg_r (IZR (2 ^ fm_prec double))); [apply IZR_lt, pow_pos_; cbn; lia|]. rewrite Rmult_assoc, Rinv_l by (apply not_0_IZR; discriminate). change (2 ^ fm_prec double)%Z with (2 ^ 31 * 4194304)%Z. rewrite mult_IZR. assert (0 < IZR (2 ^ 31)) by (apply IZR_lt; reflexivity). lra. Qed.
Lemma sum_error l : Forall (Plus float) l -> (Z.of_nat (length l) < 2 ^ 31)%Z -> Plus double (rounded_sum double (map widen l)) /\
  Rabs (number double (rounded_sum double (map widen l)) - sum_of float l) <= ((1 + ulp double) ^ length l - 1) * sum_of float l.
Proof.
  pose proof ieee_d as I. destruct (ulp_small double I) as [[U0 _] _]. induction l as [|x l IH] using rev_ind; intros P N.
  - destruct (zero_plus double I) as [Z Z0]. split; [exact Z|]. change (rounded_sum double (map widen [])) with f_zero. rewrite Z0. cbn. rewrite Rminus_0_r, Rabs_R0. lra.
  - apply Forall_app in P. destruct P as [PL PX]. inversion PX as [|? ? P1 _]; subst. rewrite app_length in N. cbn [length] in N. specialize (IH PL ltac:(lia)). destruct IH as [PA EA]. destruct (widen_plus x P1) as [PW NW].
    rewrite map_app, app_length. cbn [map length]. rewrite rounded_snoc, sum_snoc, Nat.add_1_r. set (a := rounded_sum double (map widen l)) in *. pose proof (sum_nonneg l PL) as [S0 S1]. pose proof (plus_nonneg float x ieee_f P1) as X0. pose proof (plus_top x P1) as X1.
    assert (KN : INR (length l) + 1 <= IZR (2 ^ 31)) by (rewrite INR_IZR_INZ, <- plus_IZR; apply IZR_le; lia). pose proof (pos_INR (length l)) as K0. pose proof ulp_double as UD. assert (KU : INR (length l) * ulp double <= 1 / 2) by (eapply Rle_trans; [apply Rmult_le_compat_r; [lra|apply Rle_trans with (INR (length l) + 1); [lra|exact KN]]|exact UD]).
    pose proof (pow_linear (ulp double) (length l) ltac:(lra) KU) as PLN. assert (A2 : number double a <= 2 * sum_of float l). { apply abs_inv in EA. assert (((1 + ulp double) ^ length l - 1) * sum_of float l <= 1 * sum_of float l) by (apply Rmult_le_compat_r; lra). lra. }
    assert (FA : Fin double (f_add double a (widen x))). { apply (add_fin double _ _ I (plus_fin _ _ PA) (plus_fin _ _ PW)). rewrite NW. pose proof (plus_nonneg double a I PA). rewrite Rabs_right by lra. eapply Rle_trans; [|apply sum_room]. assert ((INR (length l) + 1) * (2 * IZR (2 ^ fm_top float)) <= IZR (2 ^ 31) * (2 * IZR (2 ^ fm_top float))) by (apply Rmult_le_compat_r; [lra|exact KN]). lra. }
    split; [apply add_plus; assumption|]. destruct l as [|y l'].
    + unfold a in *. change (rounded_sum double (map widen [])) with f_zero in *. destruct (add_zero_exact double (widen x) I PW) as [_ E]; [rewrite NW; eapply Rle_trans; [exact X1|]; eapply Rle_trans; [|apply sum_room]; cbn [length INR] in KN; assert (1 * (2 * IZR (2 ^ fm_top float)) <= IZR (2 ^ 31) * (2 * IZR (2 ^ fm_top float))) by (apply Rmult_le_compat_r; lra); lra|]. rewrite E, NW. change (sum_of float []) with 0. rewrite Rplus_0_l, Rminus_eq_0, Rabs_R0. apply Rmult_le_pos; [cbn; lra|exact X0].
    + apply (step_error double a (widen x) _ (length (y :: l')) (sum_of float (y :: l')) (number float x) I PA PW FA eq_refl S0 X0); [cbn; lia|exact EA|]. rewrite NW, Rminus_eq_0, Rabs_R0. apply Rmult_le_pos; lra.
Qed.
Lemma nan_sum g l : In FNan l -> forall a, fold_left (f_add g) l a = FNan.
Proof.
  induction l as [|x l IH]; [intros []|]. intros [->|H] a; cbn [fold_left]; [|apply IH, H]. replace (f_add g a FNan) with FNan by (destruct a; reflexivity). clear. induction l as [|x l IH]; [reflexivity|exact IH].
Qed.
Lemma nonneg_sum l : Forall (NonNeg float) l -> forall a, NonNeg double a -> NonNeg double (fold_left (f_add double) (map widen l) a) /\ (In (FInf false) l \/ a = FInf false -> fold_left (f_add double) (map widen l) a = FInf false).
Proof.
  assert (AI : forall x, NonNeg double x -> f_add double (FInf false) x = FInf false /\ f_add double x (FInf false) = FInf false) by (intros x [->|(n & -> & _)]; split; reflexivity).
  induction 1 as [|x l P L IH]; intros a A; [split; [exact A|intros [[]|H]; exact H]|]. cbn [map fold_left]. assert (W : NonNeg double (widen x)) by (destruct P as [->|(n & -> & F)]; [left; reflexivity|right; eexists; split; [reflexivity|apply widen_finite, F]]).
  specialize (IH (f_add double a (widen x)) (add_nonneg double _ _ (ieee_sane _ ieee_d) A W)). destruct IH as [N H]. split; [exact N|]. intros [[->|X]|X]; apply H; [right; apply AI, A|left; exact X|right; rewrite X; apply AI, W].
Qed.
Lemma sides_split l : Forall Side l -> In FNan l \/ Forall (NonNeg float) l.
Proof. induction 1 as [|x l [->|P] L IH]; [right; constructor|left; left; reflexivity|]. destruct IH as [H|H]; [left; right; exact H|right; constructor; assumption]. Qed.
Lemma nonneg_split l : Forall (NonNeg float) l -> In (FInf false) l \/ Forall (Plus float) l.
Proof. induction 1 as [|x l [->|P] L IH]; [right; constructor|left; left; reflexivity|]. destruct IH as [H|H]; [left; right; exact H|right; constructor; assumption]. Qed.

(* when the length is nan, infinite or finite, for every curve and number of steps *)
Theorem C111_outcome : forall curve t0 t1 steps, (forall t, Each (Valid float) (curve t)) -> (steps < 2 ^ 31)%Z ->
  let l := sides float curve t0 (map (fl_parameter float t0 t1 steps) (upto steps)) in let x := f_spline_length float double curve t0 t1 steps in
  (x = FNan <-> In FNan l) /\ (x = FInf false <-> ~ In FNan l /\ In (FInf false) l) /\ (Fin double x <-> Forall (Fin float) l) /\ (~ In FNan l -> LessEq double f_zero x).
Proof.
  intros curve t0 t1 steps V B l x. unfold x. rewrite C111_sides. fold l. assert (S : Forall Side l) by (apply sides_cases, V). assert (LL : (Z.of_nat (length l) < 2 ^ 31)%Z) by (unfold l; rewrite sides_length; lia). assert (Z : NonNeg double f_zero) by (right; exists 0%Z; split; [reflexivity|apply zero_finite, ieee_sane, ieee_d]).
  assert (NF : forall y, Fin float y -> y <> FNan /\ y <> FInf false) by (intros y (s & n & -> & _); split; discriminate). unfold rounded_sum. destruct (sides_split l S) as [H|H].
  - rewrite (nan_sum double (map widen l)) by (change FNan with (widen FNan); apply in_map, H). split; [split; auto|]. split; [split; [discriminate|intros [K _]; contradiction]|]. split; [split; [intros (s & n & E & _); discriminate|intros K; rewrite Forall_forall in K; destruct (NF _ (K _ H)); congruence]|intros K; contradiction].
  - assert (NN : ~ In FNan l) by (intros K; rewrite Forall_forall in H; destruct (H _ K) as [E|(n & E & _)]; discriminate). destruct (nonneg_sum l H f_zero Z) as [N J]. assert (LE : LessEq double f_zero (fold_left (f_add double) (map widen l) f_zero)) by (apply nonneg_zero; [apply ieee_sane, ieee_d|exact N]). destruct (nonneg_split l H) as [K|K].
    + rewrite (J (or_introl K)) in *. split; [split; [discriminate|contradiction]|]. split; [split; auto|]. split; [split; [intros (s & n & E & _); discriminate|intros Q; rewrite Forall_forall in Q; destruct (NF _ (Q _ K)); congruence]|auto].
    + destruct (sum_error l K LL) as [P _]. fold (rounded_sum double (map widen l)) in *. pose proof P as (n & E & _). assert (FL : Forall (Fin float) l) by (eapply Forall_impl; [|exact K]; intros y; apply plus_fin). split; [rewrite E; split; [discriminate|contradiction]|]. split; [rewrite E; split; [discriminate|intros [_ Q]; rewrite Forall_forall in FL; destruct (NF _ (FL _ Q)); congruence]|]. split; [split; [auto|intros _; apply plus_fin, P]|auto].
Qed.
Print Assumptions C111_outcome.

(* the error of a finite length, with respect to the sum of the sides: it never overflows *)
Lemma finite_sides l : Forall Side l -> Forall (Fin float) l -> Forall (Plus float) l.
Proof. induction 1 as [|x l P L IH]; intros F; inversion F as [|? ? (s & n & -> & FN) FL]; subst; constructor; [|apply IH, FL]. destruct P as [P|[P|(m & P & M)]]; [discriminate|discriminate|]. exists m. split; [exact P|exact M]. Qed.
Theorem C111_error : forall curve t0 t1 steps, (forall t, Each (Valid float) (curve t)) -> (0 <= steps < 2 ^ 31)%Z ->
  let l := sides float curve t0 (map (fl_parameter float t0 t1 steps) (upto steps)) in let x := f_spline_length float double curve t0 t1 steps in
  Forall (Fin float) l -> Fin double x /\ 0 <= number double x /\ Rabs (number double x - sum_of float l) <= 2 * IZR steps / IZR (2 ^ 53) * sum_of float l.
Proof.
  intros curve t0 t1 steps V B l x FL. unfold x. rewrite C111_sides. fold l. assert (S : Forall Side l) by (apply sides_cases, V). assert (LN : length l = Z.to_nat steps) by (unfold l; apply sides_length). assert (LL : (Z.of_nat (length l) < 2 ^ 31)%Z) by (rewrite LN; lia).
  pose proof (finite_sides l S FL) as P. destruct (sum_error l P LL) as [PS E]. split; [apply plus_fin, PS|]. split; [apply plus_nonneg; [apply ieee_d|exact PS]|]. eapply Rle_trans; [exact E|]. apply Rmult_le_compat_r; [apply sum_nonneg, P|].
  destruct (ulp_small double ieee_d) as [[U0 _] _]. assert (K : INR (length l) = IZR steps) by (rewrite INR_IZR_INZ, LN, Z2Nat.id by lia; reflexivity). assert (KU : INR (length l) * ulp double <= 1 / 2). { eapply Rle_trans; [|apply ulp_double]. apply Rmult_le_compat_r; [lra|]. rewrite K. apply IZR_le. lia. }
  pose proof (pow_linear (ulp double) (length l) ltac:(lra) KU) as Q. rewrite K in Q. unfold ulp in Q at 2. change (fm_prec double) with 53%Z in Q. unfold Rdiv. lra.
Qed.
Print Assumptions C111_error.

(* the length is zero if and only if every side is *)
Lemma zero_sum l : Forall (Plus float) l -> sum_of float l = 0 -> Forall (eq f_zero) l.
Proof.
  induction 1 as [|x l P L IH]; intros S; constructor.
  - pose proof (plus_nonneg float x ieee_f P) as X. pose proof (sum_nonneg l L) as [Y _]. unfold sum_of in *. cbn [fold_right] in S. assert (Z : number float x = 0) by lra. destruct P as (n & -> & F). cbn [number] in Z. unfold val in Z. pose proof (unit_pos float (ieee_sane _ ieee_f)) as U. apply Rmult_integral in Z. destruct Z as [Z|Z]; [|lra]. apply eq_IZR in Z. subst n. reflexivity.
  - apply IH. pose proof (plus_nonneg float x ieee_f P) as X. pose proof (sum_nonneg l L) as [Y _]. unfold sum_of in *. cbn [fold_right] in S. lra.
Qed.
Theorem C111_zero : forall curve t0 t1 steps, (forall t, Each (Valid float) (curve t)) -> (steps < 2 ^ 31)%Z ->
  (f_spline_length float double curve t0 t1 steps = f_zero <-> Forall (eq f_zero) (sides float curve t0 (map (fl_parameter float t0 t1 steps) (upto steps)))).
Proof.
  intros curve t0 t1 steps V B. set (l := sides float curve t0 (map (fl_parameter float t0 t1 steps) (upto steps))). split.
  - intros Z. destruct (C111_outcome curve t0 t1 steps V B) as (_ & _ & F & _). fold l in F. rewrite Z in F. assert (FL : Forall (Fin float) l) by (apply F; exists false, 0%Z; split; [reflexivity|apply zero_finite, ieee_sane, ieee_d]).
    assert (LL : (Z.of_nat (length l) < 2 ^ 31)%Z) by (unfold l; rewrite sides_length; lia). pose proof (finite_sides l (sides_cases curve t0 _ V) FL) as P. destruct (sum_error l P LL) as [_ E]. rewrite C111_sides in Z. fold l in Z. rewrite Z in E. rewrite (proj2 (zero_plus double ieee_d)) in E. pose proof (sum_nonneg l P) as [S0 _].
    apply zero_sum; [exact P|]. destruct (ulp_small double ieee_d) as [[U0 _] _]. assert (KN : INR (length l) + 1 <= IZR (2 ^ 31)) by (rewrite INR_IZR_INZ, <- plus_IZR; apply IZR_le; lia). pose proof ulp_double as UD. assert (KU : INR (length l) * ulp double + ulp double <= 1 / 2). { eapply Rle_trans; [|exact UD]. rewrite <- (Rmult_1_l (ulp double)) at 2. rewrite <- Rmult_plus_distr_r. apply Rmult_le_compat_r; lra. }
    pose proof (pow_linear (ulp double) (length l) ltac:(lra) ltac:(lra)) as Q. rewrite Rminus_0_l, Rabs_Ropp, Rabs_right in E by lra. set (w := (1 + ulp double) ^ length l) in *. assert (Q1 : w - 1 < 1) by lra. destruct (Req_dec (sum_of float l) 0) as [|N]; [assumption|]. assert ((w - 1) * sum_of float l < 1 * sum_of float l) by (apply Rmult_lt_compat_r; lra). lra.
  - intros H. rewrite C111_sides. fold l. unfold rounded_sum. induction H as [|y k <- H IH]; [reflexivity|]. cbn [map fold_left]. exact IH.
Qed.
Print Assumptions C111_zero.

(* a curve that stays where it is has length 0, and so has every curve in no steps *)
Lemma chords_still p l : Each (Fin float) p -> Forall (eq p) l -> Forall (eq f_zero) (chords float p l).
Proof. intros F H. induction H as [|q l E H IH]; cbn [chords]; [constructor|]. subst q. constructor; [symmetry; exact (proj1 (proj2 (proj2 (proj2 (C97_distance float p p ieee_f)))) F)|exact IH]. Qed.
Theorem C111_still : forall curve t0 t1 steps, (steps <= 0)%Z \/ (Each (Fin float) (curve t0) /\ forall t, curve t = curve t0) -> f_spline_length float double curve t0 t1 steps = f_zero.
Proof.
  intros curve t0 t1 steps [N|[F E]].
  - unfold f_spline_length. replace (Z.to_nat steps) with O by lia. reflexivity.
  - rewrite C111_sides. assert (H : Forall (eq f_zero) (sides float curve t0 (map (fl_parameter float t0 t1 steps) (upto steps)))). { apply chords_still; [exact F|]. apply Forall_forall. intros q Q. apply in_map_iff in Q. destruct Q as (t & <- & _). symmetry. apply E. }
    unfold rounded_sum. induction H as [|y k <- H IH]; [reflexivity|]. cbn [map fold_left]. exact IH.
Qed.
Print Assumptions C111_still.

(* from 0 to 1 the parameters are i / steps, correctly rounded, in order; the last is 1 *)
Theorem C111_parameters : forall f steps i, IEEE f -> (1 <= i <= steps)%Z -> (steps <= 2 ^ fm_prec f)%Z -> let p := fl_parameter f f_zero (f_one f) steps in
  Fin f (p i) /\ Near f (IZR i / IZR steps) (number f (p i)) /\ 0 <= number f (p i) <= 1 /\ number f (p steps) = 1 /\ forall j, (i <= j <= steps)%Z -> number f (p i) <= number f (p j).
Proof.
  intros f steps i I Bi Bs p. pose proof (ieee_sane f I) as W. destruct (one_fin_ f I) as [F1 N1]. destruct (zero_plus f I) as [PZ Z0]. pose proof (plus_fin f _ PZ) as FZ. pose proof (room_large f I) as RL. assert (R60 : 1 <= IZR (2 ^ 60)) by (apply IZR_le; discriminate).
  assert (PP : 0 < IZR (2 ^ fm_prec f)) by (apply IZR_lt, pow_pos_; destruct W; lia). assert (PR : IZR (2 ^ fm_prec f) <= room f). { eapply Rle_trans; [|exact RL]. apply IZR_le, Z.pow_le_mono_r; [lia|]. destruct I as [-> | ->]; cbn; lia. }
  destruct (sub_fin f (f_one f) f_zero I F1 FZ) as (FD & ND & _); [rewrite N1, Z0, Rminus_0_r, Rabs_R1; lra|]. rewrite N1, Z0, Rminus_0_r in ND. apply near_exact in ND; [|apply (grid_whole f 1 W); destruct I as [-> | ->]; cbn; lia].
  assert (G : forall j, (1 <= j <= steps)%Z -> Fin f (p j) /\ Near f (IZR j / IZR steps) (number f (p j))).
  { intros j Bj. destruct (int_fin f j I ltac:(lia)) as [FJ NJ]. destruct (int_fin f steps I ltac:(lia)) as [FS NS]. assert (J1 : 1 <= IZR j <= IZR steps) by (split; apply IZR_le; lia). assert (JS : IZR steps <= IZR (2 ^ fm_prec f)) by (apply IZR_le; lia).
    destruct (mul_fin f _ _ I FD FJ) as (FM & NM & _); [rewrite ND, NJ, Rmult_1_l, Rabs_right by lra; lra|]. rewrite ND, NJ, Rmult_1_l in NM. apply near_exact in NM; [|apply grid_whole; [exact W|lia]].
    assert (Q : 0 <= IZR j / IZR steps <= 1) by (split; [apply Rmult_le_pos; [lra|left; apply Rinv_0_lt_compat; lra]|apply (Rmult_le_reg_r (IZR steps)); [lra|]; unfold Rdiv; rewrite Rmult_assoc, Rinv_l by lra; lra]).
    destruct (div_fin f _ _ I FM FS) as (FQ & NQ & _); [rewrite NS; lra|rewrite NM, NS, Rabs_right by lra; lra|]. rewrite NM, NS in NQ. set (d := f_div f _ _) in *. assert (Q2 : 0 <= number f d <= 1). { split; [apply (near_mono f 0 0 _ _ (near_zero f W) NQ); lra|apply (near_mono f _ _ 1 1 NQ); [|lra]]. apply exact_near. apply (grid_whole f 1 W). destruct I as [-> | ->]; cbn; lia. }
    destruct (add_fin f f_zero d I FZ FQ) as (FA & NA & _); [rewrite Z0, Rplus_0_l, Rabs_right by lra; lra|]. rewrite Z0, Rplus_0_l in NA. apply near_exact in NA; [|apply fin_grid, FQ]. split; [exact FA|]. unfold p, fl_parameter. fold d. rewrite NA. exact NQ. }
  destruct (G i Bi) as [FI NI]. destruct (G steps ltac:(lia)) as [_ NN]. assert (S1 : 1 <= IZR steps) by (apply IZR_le; lia). assert (G1 : Near f 1 1) by (apply exact_near, (grid_whole f 1 W); destruct I as [-> | ->]; cbn; lia). split; [exact FI|]. split; [exact NI|]. assert (J1 : 1 <= IZR i <= IZR steps) by (split; apply IZR_le; lia). assert (IS : 0 < / IZR steps) by (apply Rinv_0_lt_compat; lra). split; [split|split].
  - apply (near_mono f 0 0 _ _ (near_zero f W) NI). apply Rmult_le_pos; lra.
  - apply (near_mono f _ _ 1 1 NI G1). apply (Rmult_le_reg_r (IZR steps)); [lra|]. unfold Rdiv. rewrite Rmult_assoc, Rinv_l by lra. lra.
  - replace (IZR steps / IZR steps) with 1 in NN by (field; lra). apply (near_exact f _ _ NN), G1.
  - intros j Bj. destruct (G j ltac:(lia)) as [_ NJ]. apply (near_mono f _ _ _ _ NI NJ). apply Rmult_le_compat_r; [lra|]. apply IZR_le. lia.
Qed.
Print Assumptions C111_parameters.

(* in general the parameters are close to those of equal steps from t0 to t1 *)
Lemma abs_sum a b e : Rabs (a - b) <= e -> Rabs a <= Rabs b + e.
Proof. intros H. pose proof (Rabs_triang (a - b) b) as T. replace (a - b + b) with a in T by ring. lra. Qed.
Theorem C111_parameter : forall f t0 t1 steps i, IEEE f -> Fin f t0 -> Fin f t1 -> (0 <= i <= steps)%Z -> (1 <= steps <= 2 ^ fm_prec f)%Z ->
  let D := number f t1 - number f t0 in let p := fl_parameter f t0 t1 steps i in 4 * IZR steps * Rabs D + 4 * Rabs (number f t0) + 4 <= room f ->
  Fin f p /\ Rabs (number f p - (number f t0 + D * IZR i / IZR steps)) <= ulp f * Rabs (number f t0) + 7 * ulp f * Rabs D + 3 * unit_of f.
Proof.
  intros f t0 t1 steps i I F0 F1 Bi Bs D p R. destruct (ulp_small f I) as [[U0 U1] UU]. pose proof (unit_pos f (ieee_sane f I)) as E0. set (u := ulp f) in *. set (e := unit_of f) in *. set (X := Rabs D) in *. pose proof (Rabs_pos D) as X0. fold X in X0. pose proof (Rabs_pos (number f t0)) as T0.
  assert (S1 : 1 <= IZR steps) by (apply IZR_le; lia). assert (J : 0 <= IZR i <= IZR steps) by (split; apply IZR_le; lia). assert (XS : X <= IZR steps * X) by (rewrite <- (Rmult_1_l X) at 1; apply Rmult_le_compat_r; lra). assert (uX : 0 <= u * X <= / 1000 * X) by (split; [apply Rmult_le_pos; lra|apply Rmult_le_compat_r; lra]). assert (uuX : 0 <= u * (u * X) <= / 1000 * (u * X)) by (split; [apply Rmult_le_pos; lra|apply Rmult_le_compat_r; lra]). assert (ue : 0 <= u * e <= / 1000 * e) by (split; [apply Rmult_le_pos; lra|apply Rmult_le_compat_r; lra]).
  destruct (sub_fin f t1 t0 I F1 F0) as (FD & _ & ED); [fold D X; lra|]. fold D X u in ED. set (d := f_sub f t1 t0) in *. pose proof (abs_sum _ _ _ ED) as AD. fold X in AD.
  destruct (int_fin f i I ltac:(lia)) as [FI NI]. destruct (int_fin f steps I ltac:(lia)) as [FS NS].
  assert (IX : 0 <= IZR i * X <= IZR steps * X) by (split; [apply Rmult_le_pos; lra|apply Rmult_le_compat_r; lra]). assert (dI : Rabs (number f d * IZR i) <= IZR i * (X + u * X)) by (rewrite Rabs_mult, (Rabs_right (IZR i)) by lra; rewrite Rmult_comm; apply Rmult_le_compat_l; lra). assert (iuX : IZR i * (u * X) <= / 1000 * (IZR i * X)) by (replace (/ 1000 * (IZR i * X)) with (IZR i * (/ 1000 * X)) by ring; apply Rmult_le_compat_l; lra).
  destruct (mul_fin f _ _ I FD FI) as (FM & _ & EM); [rewrite NI; lra|]. rewrite NI in EM. fold u e in EM. set (m := f_mul f d (f_of_int f i)) in *.
  assert (MD : Rabs (number f m - D * IZR i) <= 3 * (u * X) * IZR i + e / 2). { replace (number f m - D * IZR i) with (number f m - number f d * IZR i + (number f d - D) * IZR i) by ring. eapply Rle_trans; [apply Rabs_triang|]. rewrite (Rabs_mult (number f d - D)), (Rabs_right (IZR i)) by lra. assert (Rabs (number f d - D) * IZR i <= u * X * IZR i) by (apply Rmult_le_compat_r; lra). assert (u * Rabs (number f d * IZR i) <= u * (IZR i * (X + u * X))) by (apply Rmult_le_compat_l; lra). assert (IZR i * (u * (u * X)) <= IZR i * (/ 1000 * (u * X))) by (apply Rmult_le_compat_l; lra). assert (0 <= IZR i * (u * X)) by (apply Rmult_le_pos; lra). lra. }
  set (r := D * IZR i / IZR steps). assert (IS : 0 < / IZR steps <= 1) by (split; [apply Rinv_0_lt_compat; lra|rewrite <- Rinv_1; apply Rinv_le_contravar; lra]). assert (IR : 0 <= IZR i * / IZR steps <= 1) by (split; [apply Rmult_le_pos; lra|apply (Rmult_le_reg_r (IZR steps)); [lra|rewrite Rmult_assoc, Rinv_l by lra; lra]]).
  assert (RX : Rabs r <= X) by (unfold r, Rdiv; rewrite Rmult_assoc, Rabs_mult, (Rabs_right (IZR i * / IZR steps)) by lra; fold X; rewrite <- (Rmult_1_r X) at 2; apply Rmult_le_compat_l; lra).
  assert (MQ : Rabs (number f m / IZR steps - r) <= 3 * (u * X) + e / 2). { unfold r, Rdiv. rewrite <- Rmult_minus_distr_r, Rabs_mult, (Rabs_right (/ IZR steps)) by lra. eapply Rle_trans; [apply Rmult_le_compat_r; [lra|exact MD]|]. assert (3 * (u * X) * (IZR i * / IZR steps) <= 3 * (u * X) * 1) by (apply Rmult_le_compat_l; lra). assert (e * / IZR steps <= e * 1) by (apply Rmult_le_compat_l; lra). lra. }
  pose proof (abs_sum _ _ _ MQ) as AQ. destruct (div_fin f _ _ I FM FS) as (FQ & _ & EQ); [rewrite NS; lra|rewrite NS; lra|]. rewrite NS in EQ. fold u e in EQ. set (q := f_div f m (f_of_int f steps)) in *.
  assert (QR : Rabs (number f q - r) <= 5 * (u * X) + 2 * e). { replace (number f q - r) with (number f q - number f m / IZR steps + (number f m / IZR steps - r)) by ring. eapply Rle_trans; [apply Rabs_triang|]. assert (u * Rabs (number f m / IZR steps) <= u * (X + (3 * (u * X) + e / 2))) by (apply Rmult_le_compat_l; lra). lra. }
  pose proof (abs_sum _ _ _ QR) as BQ. pose proof (Rabs_triang (number f t0) (number f q)) as TQ. destruct (add_fin f t0 q I F0 FQ) as (FP & _ & EP); [lra|]. change (f_add f t0 q) with p in *. fold u in EP. split; [exact FP|].
  replace (number f p - (number f t0 + r)) with (number f p - (number f t0 + number f q) + (number f q - r)) by ring. eapply Rle_trans; [apply Rabs_triang|]. assert (u * Rabs (number f t0 + number f q) <= u * (Rabs (number f t0) + (X + (5 * (u * X) + 2 * e)))) by (apply Rmult_le_compat_l; lra). lra.
Qed.
Print Assumptions C111_parameter.

(* the last parameter is not always t1: for 1.7 in three steps it is past the end *)
Definition seventeen_tenths : fnum := f_div float (f_of_int float 17) (f_of_int float 10).
Theorem C111_last_refuted : ~ (forall t1 steps, Fin float t1 -> (1 <= steps)%Z -> number float (fl_parameter float f_zero t1 steps steps) <= number float t1).
Proof.
  intros H. assert (F : Fin float seventeen_tenths). { assert (B : (Z.abs 17 <= 2 ^ fm_prec float)%Z) by (cbn; lia). assert (C : (Z.abs 10 <= 2 ^ fm_prec float)%Z) by (cbn; lia). destruct (int_fin float 17 ieee_f B) as [FA NA]. destruct (int_fin float 10 ieee_f C) as [FB NB]. apply (div_fin float _ _ ieee_f FA FB); [rewrite NB; lra|]. rewrite NA, NB, Rabs_right by lra. pose proof (room_large float ieee_f). assert (17 <= IZR (2 ^ 60)) by (apply IZR_le; discriminate). lra. }
  specialize (H seventeen_tenths 3%Z F ltac:(lia)). let a := eval vm_compute in seventeen_tenths in let b := eval vm_compute in (fl_parameter float f_zero seventeen_tenths 3 3) in
    assert (EA : seventeen_tenths = a) by (vm_compute; reflexivity); assert (EB : fl_parameter float f_zero seventeen_tenths 3 3 = b) by (vm_compute; reflexivity).
  rewrite EB, EA in H. cbn [number] in H. unfold val in H. pose proof (unit_pos float (ieee_sane _ ieee_f)) as U. apply Rmult_le_reg_r in H; [|exact U]. apply le_IZR in H. vm_compute in H. apply H. reflexivity.
Qed.
Print Assumptions C111_last_refuted.

(* a straight line of length > 0 may have length 0: the squares underflow *)
Definition tiny_line (t : fnum) : f_vec := mkFv (f_mul float t (FFin false (2 ^ 60))) f_zero f_zero.
Theorem C111_positive_refuted : ~ (forall curve steps, (1 <= steps)%Z -> fv_eq (curve f_zero) (curve (f_one float)) = false -> f_spline_length float double curve f_zero (f_one float) steps <> f_zero).
Proof. intros H. apply (H tiny_line 2%Z); [lia|vm_compute; reflexivity|vm_compute; reflexivity]. Qed.
Print Assumptions C111_positive_refuted.

(* a line from 0 to 3 in four steps *)
Definition line3 (t : fnum) : f_vec := mkFv (f_mul float t (f_of_int float 3)) f_zero f_zero.
Example C111_example : sides float line3 f_zero (map (fl_parameter float f_zero (f_one float) 4) (upto 4)) = repeat (FFin false (3 * 2 ^ 147)) 4.
Proof. vm_compute. reflexivity. Qed.
