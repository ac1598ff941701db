(* C108: means, covariances and regression of float and double *)
From Coq Require Import Reals ZArith List Lra Lia Bool.
From Verif Require Import Model.Base Model.DataHeader Model.Table Model.Storage Model.FloatText Model.Ieee Model.FloatInterp Model.FloatContainers Model.FloatStats Spec.FloatText Spec.Ieee.
From Verif Require Import Proofs.BaseFacts Proofs.MatrixFacts Proofs.FloatTextProofs Proofs.IeeeProofs Proofs.IeeeErrorProofs Proofs.FloatOpsProofs Props.FloatAverage Proofs.RoundingProofs Proofs.ReportProofs Proofs.FloatStopwatchProofs Props.FloatPoly Props.FloatVec Spec.FloatStats Proofs.FloatStatsProofs.
Import ListNotations.
Local Open Scope R_scope.

(* what storage holds: X r c is channel c of frame r *)
Definition Holds {L} (s : storage fnum L) (X : nat -> nat -> fnum) : Prop :=
  length (data_ s) = (frame_size s * channel_size s)%nat /\ forall r c, (r < frame_size s)%nat -> (c < channel_size s)%nat -> at_ s r c = Ok (X r c).
Definition channel (X : nat -> nat -> fnum) (frames c : nat) : list fnum := map (fun r => X r c) (seq 0 frames).

Lemma holds_column {L} (s : storage fnum L) X c : Holds s X -> (c < channel_size s)%nat -> column s c = channel X (frame_size s) c.
Proof.
  intros [H A] C. unfold column, channel. apply map_ext_in. intros r R. apply in_seq in R. specialize (A r c ltac:(lia) C). unfold at_ in A. rewrite (proj2 (Nat.ltb_lt r _)), (proj2 (Nat.ltb_lt c _)) in A by lia. cbn [andb assert_ bind] in A. rewrite (cell_ok s r c H) in A by lia. congruence.
Qed.
(* Each mean is the rounded sum of the channel, in the order of the frames,
   divided by the number of frames. *)
Theorem C108_means : forall (L : Type) f (s : storage fnum L) X, Holds s X -> exists ms, f_channel_means f s = Ok ms /\ length ms = channel_size s /\
  forall c, (c < channel_size s)%nat -> nth_error ms c = Some (f_div f (rounded_sum f (channel X (frame_size s) c)) (f_of_int f (Z.of_nat (frame_size s)))).
Proof.
  intros L f s X H. destruct (means_loop f s (proj1 H)) as (ms & E & LM & M). exists ms. split; [exact E|]. split; [exact LM|]. intros c C. rewrite (M c C), (holds_column s X c H C). unfold f_average_of. replace (length (channel X (frame_size s) c)) with (frame_size s); [reflexivity|]. unfold channel. rewrite map_length, seq_length. reflexivity.
Qed.
Print Assumptions C108_means.
(* Each covariance is the rounded sum of the products of the deviations from
   these means, divided by the number of frames. *)
Definition covariance (f : fmt) (xs ys : list fnum) : fnum :=
  f_div f (rounded_sum f (products f (f_average_of f xs) (f_average_of f ys) xs ys)) (f_of_int f (Z.of_nat (length xs))).
Theorem C108_covariance : forall (L : Type) (l0 : L) f (s : storage fnum L) X, Holds s X -> exists cv, f_covariance l0 f s = Ok cv /\ row_size cv = channel_size s /\ column_size cv = channel_size s /\
  forall i j, (i < channel_size s)%nat -> (j < channel_size s)%nat -> Table.at_ cv i j = Ok (covariance f (channel X (frame_size s) i) (channel X (frame_size s) j)).
Proof.
  intros L l0 f s X H. destruct (covariance_loop l0 f s (proj1 H)) as (cv & E & R & C & A). exists cv. repeat (split; [assumption|]). intros i j IC JC. rewrite (A i j IC JC), (holds_column s X i H IC), (holds_column s X j H JC). reflexivity.
Qed.
Print Assumptions C108_covariance.

(* The table is symmetric, bit by bit, *)
Lemma mul_comm f x y : f_mul f x y = f_mul f y x.
Proof. destruct x as [|a|a n], y as [|b|b m]; cbn [f_mul]; try reflexivity; rewrite ?(xorb_comm a b), ?(Z.mul_comm n m); reflexivity. Qed.
Lemma products_swap f mx my xs : forall ys, products f mx my xs ys = products f my mx ys xs.
Proof. unfold products. induction xs as [|x xs IH]; intros [|y ys]; try reflexivity. cbn [combine map fst snd]. rewrite IH, mul_comm. reflexivity. Qed.
Theorem C108_symmetric : forall (L : Type) (l0 : L) f (s : storage fnum L) X, Holds s X -> exists cv, f_covariance l0 f s = Ok cv /\
  forall i j, (i < channel_size s)%nat -> (j < channel_size s)%nat -> exists v, Table.at_ cv i j = Ok v /\ Table.at_ cv j i = Ok v.
Proof.
  intros L l0 f s X H. destruct (C108_covariance L l0 f s X H) as (cv & E & _ & _ & A). exists cv. split; [exact E|]. intros i j IC JC. eexists. split; [apply A; assumption|]. rewrite A by assumption. f_equal. unfold covariance, channel. rewrite !map_length, products_swap. reflexivity.
Qed.
Print Assumptions C108_symmetric.

(* and no variance is negative or -0, *)
Definition Unsigned (x : fnum) : Prop := match x with FNan => True | FInf a => a = false | FFin a n => a = false /\ (0 <= n)%Z end.
Lemma unsigned_to_fnum f n d : Sane f -> (0 <= n)%Z -> (0 < d)%Z -> Unsigned (to_fnum f false (VNum n d)).
Proof.
  intros W N D. pose proof (round_correct f false n d W N D) as C. pose proof (correct_valid f _ _ C) as V. destruct (to_fnum f false (VNum n d)) as [|a|a k] eqn:E; [exact Logic.I| |split].
  - cbn [to_fnum] in E. destruct (_ <=? _)%Z; congruence.
  - apply (to_fnum_sign f _ _ _ _ E).
  - apply (rep_nonneg f k (proj1 V)).
Qed.
Lemma unsigned_square f x : IEEE f -> Valid f x -> Unsigned (f_mul f x x).
Proof.
  intros I V. pose proof (ieee_sane f I) as W. destruct x as [|a|a n]; cbn [f_mul]; [exact Logic.I|cbn; apply xorb_nilpotent|]. rewrite xorb_nilpotent. apply unsigned_to_fnum; [exact W| |destruct I as [-> | ->]; reflexivity]. pose proof (rep_nonneg f n (proj1 V)). nia.
Qed.
Lemma unsigned_add f x y : IEEE f -> Unsigned x -> Unsigned y -> Unsigned (f_add f x y).
Proof.
  intros I UX UY. pose proof (ieee_sane f I) as W. destruct x as [|a|a n], y as [|b|b m]; cbn [f_add Unsigned] in *; try exact Logic.I; subst; try reflexivity; try tauto.
  destruct UX as [-> N], UY as [-> M]. cbn [Ieee.signed andb]. destruct (Z.eqb_spec (n + m) 0); [split; [reflexivity|lia]|]. rewrite (proj2 (Z.ltb_ge (n + m) 0)) by lia. apply unsigned_to_fnum; [exact W|lia|destruct I as [-> | ->]; reflexivity].
Qed.
Lemma unsigned_div f x k : IEEE f -> Unsigned x -> Unsigned (f_div f x (f_of_int f (Z.of_nat k))).
Proof.
  intros I UX. pose proof (ieee_sane f I) as W. assert (UK : Unsigned (f_of_int f (Z.of_nat k))) by (unfold f_of_int; rewrite (proj2 (Z.ltb_ge (Z.of_nat k) 0)) by lia; apply unsigned_to_fnum; [exact W|lia|lia]).
  destruct (f_of_int f (Z.of_nat k)) as [|b|b m], x as [|a|a n]; cbn [f_div Unsigned] in *; try exact Logic.I; subst; try reflexivity.
  - destruct UX as [-> N]. split; [reflexivity|lia].
  - destruct UK as [-> M]. reflexivity.
  - destruct UX as [-> N], UK as [-> M]. destruct (Z.eqb_spec m 0); [destruct (n =? 0)%Z; [exact Logic.I|reflexivity]|]. apply unsigned_to_fnum; [exact W|lia|lia].
Qed.
Lemma valid_sub f x y : IEEE f -> Valid f x -> Valid f y -> Valid f (f_sub f x y).
Proof. intros I VX VY. apply valid_add; [exact I|exact VX|apply valid_neg, VY]. Qed.
Lemma valid_sum f l : IEEE f -> Forall (Valid f) l -> Valid f (rounded_sum f l).
Proof. intros I. induction l as [|x l IH] using rev_ind; intros F; [apply (zero_finite f (ieee_sane f I))|]. apply Forall_app in F. destruct F as [FL FX]. inversion FX; subst. rewrite rounded_snoc. apply valid_add; [exact I|apply IH, FL|assumption]. Qed.
Lemma valid_div f x y : IEEE f -> Valid f x -> Valid f y -> Valid f (f_div f x y).
Proof.
  intros I VX VY. pose proof (ieee_sane f I) as W. destruct x as [|a|a n], y as [|b|b m]; cbn [f_div]; try exact Logic.I; [apply (zero_finite f W)|]. destruct (Z.eqb_spec m 0); [destruct (n =? 0)%Z; exact Logic.I|].
  pose proof (rep_nonneg f n (proj1 VX)). pose proof (rep_nonneg f m (proj1 VY)). apply (correct_valid f _ _ (round_correct f _ n m W ltac:(lia) ltac:(lia))).
Qed.
Lemma valid_int f z : IEEE f -> Valid f (f_of_int f z).
Proof. intros I. apply (correct_valid f _ _ (int_correct f z (ieee_sane f I))). Qed.
Lemma valid_mean f l : IEEE f -> Forall (Valid f) l -> Valid f (f_average_of f l).
Proof. intros I F. apply valid_div; [exact I|apply (valid_sum f l I F)|apply valid_int, I]. Qed.
Theorem C108_variance : forall f xs, IEEE f -> Forall (Valid f) xs -> Unsigned (covariance f xs xs).
Proof.
  intros f xs I F. apply unsigned_div; [exact I|]. pose proof (valid_mean f xs I F) as VM. set (m := f_average_of f xs) in *. assert (U : Forall Unsigned (products f m m xs xs)).
  { unfold products. clearbody m. induction F as [|x xs V F IH]; cbn [combine map fst snd]; constructor; [apply unsigned_square; [exact I|apply valid_sub; assumption]|exact IH]. }
  induction (products f m m xs xs) as [|p l IH] using rev_ind; [split; [reflexivity|lia]|]. apply Forall_app in U. destruct U as [UL UP]. inversion UP; subst. rewrite rounded_snoc. apply unsigned_add; [exact I|apply IH, UL|assumption].
Qed.
Print Assumptions C108_variance.

(* and near the exact covariance. *)
Theorem C108_error : forall f xs ys X Y, IEEE f -> xs <> [] -> length xs = length ys -> INR (length xs) * ulp f <= / 100 -> Bounded f X xs -> Bounded f Y ys -> unit_of f <= ulp f * (X * Y) -> INR (length xs) * (X * Y) <= room f / 10 ->
  Fin f (covariance f xs ys) /\ Rabs (number f (covariance f xs ys) - scatter f xs ys / INR (length xs)) <= 50 * (INR (length xs) * ulp f) * (X * Y).
Proof.
  intros f xs ys X Y I NE LE K BX BY UXY RXY. destruct (scatter_error f I xs ys X Y NE LE K BX BY UXY RXY) as (FV & EV & BV). cbv zeta in *. unfold covariance. set (v := rounded_sum f _) in *. pose proof (inr_one xs NE) as N1. set (n := INR (length xs)) in *.
  destruct (ulp_small f I) as [[U0 U1] UN]. pose proof (unit_pos f (ieee_sane f I)) as UP. pose proof (room_huge f I) as RH. assert (XY0 : 0 <= X * Y) by (apply Rmult_le_pos; [apply BX|apply BY]). set (P := X * Y) in *. assert (NP : P <= n * P) by (assert (1 * P <= n * P) by (apply Rmult_le_compat_r; lra); lra).
  assert (NU0 : 0 <= n * ulp f) by (apply Rmult_le_pos; lra). assert (NUP0 : 0 <= n * ulp f * P) by (apply Rmult_le_pos; lra). assert (NUP : n * ulp f * P <= / 100 * P) by (apply Rmult_le_compat_r; lra). assert (UPP : ulp f * P <= n * ulp f * P) by (apply Rmult_le_compat_r; [lra|]; assert (1 * ulp f <= n * ulp f) by (apply Rmult_le_compat_r; lra); lra).
  assert (BVn : Rabs (number f v) <= 443 / 100 * P * n). { assert (n * ulp f * P * n <= / 100 * P * n) by (apply Rmult_le_compat_r; lra). apply abs_inv in EV. apply abs_inv in BV. apply Rabs_le. split; lra. }
  destruct (frames_div f v (length xs) (443 / 100 * P) (43 * (n * ulp f) * P) (scatter f xs ys) I FV N1 K ltac:(lra) ltac:(lra) ltac:(lra) EV BVn) as [FD ED]. fold n in ED. split; [exact FD|]. eapply Rle_trans; [exact ED|]. lra.
Qed.
Print Assumptions C108_error.
(* One frame has no covariance. *)
Lemma int_pos f z : IEEE f -> (0 < z <= 2 ^ fm_prec f)%Z -> exists m, f_of_int f z = FFin false m /\ (0 < m)%Z /\ val f false m = IZR z.
Proof.
  intros I B. destruct (int_fin f z I ltac:(lia)) as [(t & m & E & F) V]. assert (T : t = false) by (unfold f_of_int in E; rewrite (to_fnum_sign f _ _ _ _ E); apply Z.ltb_ge; lia). subst t. rewrite E in V. cbn [number] in V. exists m. split; [exact E|]. split; [|exact V]. apply (val_lt f false 0 false m (ieee_sane f I)). rewrite val_zero, V. apply IZR_lt. lia.
Qed.
Lemma small_int f z : IEEE f -> (0 < z <= 3)%Z -> (0 < z <= 2 ^ fm_prec f)%Z.
Proof. intros I B. split; [lia|]. transitivity (2 ^ 2)%Z; [lia|]. apply Z.pow_le_mono_r; [lia|]. destruct I as [-> | ->]; cbn; lia. Qed.
Lemma mean_one f x : IEEE f -> Fin f x -> Fin f (f_average_of f [x]) /\ number f (f_average_of f [x]) = number f x.
Proof.
  intros I F. pose proof (ieee_sane f I) as W. destruct (add_zero f x false W F) as [FA EA]. unfold f_average_of. cbn [fold_left length]. change (FFin false 0) with f_zero in FA, EA. rewrite add_comm. replace (f_of_int f (Z.of_nat 1)) with (f_one f); [rewrite (div_one f _ W (fin_valid f _ FA)); auto|]. destruct (int_pos f 1 I (small_int f 1 I ltac:(lia))) as (m & E & _ & V). change (Z.of_nat 1) with 1%Z. rewrite E. unfold f_one. rewrite <- (one_val f W) in V. apply (val_eq f false m false _ W) in V. cbn [Ieee.signed] in V. rewrite V. reflexivity.
Qed.
Lemma sub_same f x y : IEEE f -> Fin f x -> Fin f y -> number f x = number f y -> exists b, f_sub f x y = FFin b 0.
Proof.
  intros I (a & n & -> & FN) (b & m & -> & FM) E. cbn [number] in E. apply (val_eq f a n b m (ieee_sane f I)) in E. exists (a && negb b)%bool. unfold f_sub. cbn [f_neg f_add]. replace (Ieee.signed a n + Ieee.signed (negb b) m)%Z with 0%Z; [reflexivity|]. destruct a, b; cbn in *; lia.
Qed.
Lemma zero_sum f l : Forall (fun x => exists b, x = FFin b 0) l -> rounded_sum f l = f_zero.
Proof. induction l as [|x l IH] using rev_ind; intros F; [reflexivity|]. apply Forall_app in F. destruct F as [FL FX]. inversion FX as [|? ? (b & ->) _]; subst. rewrite rounded_snoc, (IH FL). destruct b; reflexivity. Qed.
Lemma products_one f x y : IEEE f -> Fin f x -> Fin f y -> rounded_sum f (products f (f_average_of f [x]) (f_average_of f [y]) [x] [y]) = f_zero.
Proof.
  intros I FX FY. pose proof (ieee_sane f I) as W. apply zero_sum. constructor; [|constructor]. cbn [fst snd]. destruct (mean_one f x I FX) as [FMX EMX]. destruct (mean_one f y I FY) as [FMY EMY]. destruct (sub_same f x _ I FX FMX (eq_sym EMX)) as (b & ->). destruct (sub_same f y _ I FY FMY (eq_sym EMY)) as (c & ->). apply zero_mul; [exact W|]. exists c, 0%Z. split; [reflexivity|apply (zero_finite f W)].
Qed.
Theorem C108_one : forall f x y, IEEE f -> Fin f x -> Fin f y -> covariance f [x] [y] = f_zero.
Proof. intros f x y I FX FY. unfold covariance. rewrite (products_one f x y I FX FY). cbn [length]. destruct (int_pos f 1 I (small_int f 1 I ltac:(lia))) as (m & E & M & _). change (Z.of_nat 1) with 1%Z. rewrite E. unfold f_zero. cbn [f_div]. rewrite (proj2 (Z.eqb_neq m 0)) by lia. apply to_zero; [apply (ieee_sane f I)|exact M]. Qed.
Print Assumptions C108_one.

(* The slope is the quotient of two such sums, and the line goes through the
   means, both rounded. *)
Lemma both_sums f mx my xs : forall ys n d, length xs = length ys ->
  fold_left (fun '(num, den) '(x, y) => (f_add f num (f_mul f (f_sub f x mx) (f_sub f y my)), f_add f den (f_mul f (f_sub f x mx) (f_sub f x mx)))) (combine xs ys) (n, d) =
  (fold_left (f_add f) (products f mx my xs ys) n, fold_left (f_add f) (products f mx mx xs xs) d).
Proof. unfold products. induction xs as [|x xs IH]; intros [|y ys] n d LE; try discriminate; [reflexivity|]. cbn [combine fold_left map fst snd]. apply IH. injection LE as ->. reflexivity. Qed.
Definition slope_of (f : fmt) (xs ys : list fnum) : fnum :=
  let mx := f_average_of f xs in f_div f (rounded_sum f (products f mx (f_average_of f ys) xs ys)) (rounded_sum f (products f mx mx xs xs)).
Theorem C108_regression : forall f xs ys, (length xs <> length ys -> f_regression f xs ys = Throw) /\
  (length xs = length ys -> f_regression f xs ys = Ok (f_sub f (f_average_of f ys) (f_mul f (slope_of f xs ys) (f_average_of f xs)), slope_of f xs ys)).
Proof.
  intros f xs ys. unfold f_regression. split; intros LE; [rewrite (proj2 (Nat.eqb_neq _ _) LE); reflexivity|]. rewrite (proj2 (Nat.eqb_eq _ _) LE). cbn [assert_ bind]. rewrite (both_sums f _ _ xs ys f_zero f_zero LE). reflexivity.
Qed.
Print Assumptions C108_regression.
(* There is no line through nothing, or through one point. *)
Lemma nan_line f my mx : f_sub f my (f_mul f FNan mx) = FNan.
Proof. destruct my; reflexivity. Qed.
Theorem C108_degenerate : forall f x y, IEEE f -> Fin f x -> Fin f y -> f_regression f [] [] = Ok (FNan, FNan) /\ f_regression f [x] [y] = Ok (FNan, FNan).
Proof.
  intros f x y I FX FY. split.
  - rewrite (proj2 (C108_regression f [] []) eq_refl). assert (E : slope_of f [] [] = FNan) by reflexivity. rewrite E, nan_line. reflexivity.
  - rewrite (proj2 (C108_regression f [x] [y]) eq_refl). assert (E : slope_of f [x] [y] = FNan) by (unfold slope_of; rewrite !products_one by assumption; reflexivity). rewrite E, nan_line. reflexivity.
Qed.
Print Assumptions C108_degenerate.

(* The slope is near the one of the exact line, unless the x are too close
   together for their size. *)
Theorem C108_slope : forall f xs ys X Y, IEEE f -> xs <> [] -> length xs = length ys -> INR (length xs) * ulp f <= / 100 -> Bounded f X xs -> Bounded f Y ys ->
  unit_of f <= ulp f * (X * Y) -> INR (length xs) * (X * Y) <= room f / 10 -> unit_of f <= ulp f * (X * X) -> INR (length xs) * (X * X) <= room f / 10 ->
  let n := INR (length xs) in let D := scatter f xs xs in let s := scatter f xs ys / D in let G := 43 * (n * ulp f) * n * (X * Y + Rabs s * (X * X)) / D in
  0 < D -> 43 * (n * ulp f) * n * (X * X) <= D / 2 -> Rabs s + 2 * G <= room f ->
  Fin f (slope_of f xs ys) /\ Rabs (number f (slope_of f xs ys) - s) <= 3 * G + unit_of f / 2.
Proof.
  intros f xs ys X Y I NE LE K BX BY UXY RXY UXX RXX n D s G DP ED RG. destruct (scatter_error f I xs ys X Y NE LE K BX BY UXY RXY) as (FN & EN & _). destruct (scatter_error f I xs xs X X NE eq_refl K BX BX UXX RXX) as (FD & EDD & BD). cbv zeta in *.
  pose proof (inr_one xs NE) as N1. fold n in EN, EDD, BD, N1, K, RXY, RXX. fold D in EDD, BD. unfold slope_of. set (num := rounded_sum f (products f _ (f_average_of f ys) xs ys)) in *. set (den := rounded_sum f (products f (f_average_of f xs) (f_average_of f xs) xs xs)) in *. set (S := scatter f xs ys) in *.
  destruct (ulp_small f I) as [[U0 U1] UN]. pose proof (unit_pos f (ieee_sane f I)) as UP. pose proof (room_huge f I) as RH. assert (P0 : 0 <= X * Y) by (apply Rmult_le_pos; [apply BX|apply BY]). assert (Q0 : 0 <= X * X) by (apply Rmult_le_pos; apply BX). set (P := X * Y) in *. set (Q := X * X) in *. set (u := ulp f) in *.
  assert (NU : 0 <= n * u) by (apply Rmult_le_pos; lra). set (e := 43 * (n * u) * n) in *. assert (E0 : 0 <= e) by (unfold e; apply Rmult_le_pos; lra). clearbody P Q. 
  assert (EN2 : Rabs (number f num - S) <= e * P) by (eapply Rle_trans; [exact EN|right; unfold e; ring]). assert (ED2 : Rabs (number f den - D) <= e * Q) by (eapply Rle_trans; [exact EDD|right; unfold e; ring]).
  set (a := number f num) in *. set (d := number f den) in *. clearbody n D S. assert (DD : D / 2 <= d) by (apply abs_inv in ED2; lra). assert (ID : 0 < / D) by (apply Rinv_0_lt_compat; lra). assert (Id : 0 < / d) by (apply Rinv_0_lt_compat; lra). assert (IdD : / d <= 2 * / D) by (replace (2 * / D) with (/ (D / 2)) by (field; lra); apply Rinv_le_contravar; lra).
  assert (AS : 0 <= Rabs s) by apply Rabs_pos. assert (EP0 : 0 <= e * P) by (apply Rmult_le_pos; lra). assert (EQ0 : 0 <= e * Q) by (apply Rmult_le_pos; lra). assert (SQ : 0 <= Rabs s * Q) by (apply Rmult_le_pos; lra).
  assert (GE : G = e * (P + Rabs s * Q) * / D) by reflexivity. assert (G0 : 0 <= G) by (rewrite GE; apply Rmult_le_pos; [apply Rmult_le_pos|]; lra).
  assert (QE : Rabs (a / d - s) <= 2 * G).
  { replace (a / d - s) with (((a - S) - s * (d - D)) * / d) by (unfold s; field; split; lra). rewrite Rabs_mult, (Rabs_right (/ d)) by lra. assert (NE2 : Rabs (a - S - s * (d - D)) <= e * (P + Rabs s * Q)).
    { eapply Rle_trans; [apply Rabs_triang|]. rewrite Rabs_Ropp, Rabs_mult. assert (Rabs s * Rabs (d - D) <= Rabs s * (e * Q)) by (apply Rmult_le_compat_l; assumption). replace (e * (P + Rabs s * Q)) with (e * P + Rabs s * (e * Q)) by ring. lra. }
    apply Rle_trans with (e * (P + Rabs s * Q) * (2 * / D)); [apply Rmult_le_compat; [apply Rabs_pos|lra|exact NE2|exact IdD]|rewrite GE; right; ring]. }
  assert (QB : Rabs (a / d) <= Rabs s + 2 * G) by (replace (a / d) with (s + (a / d - s)) by ring; eapply Rle_trans; [apply Rabs_triang|lra]).
  assert (US : 10 * (u * Rabs s) <= G).
  { assert (Q1 : D * / D = 1) by (field; lra). assert (e * Q * / D >= 10 * u). { assert (n * u <= n * u * n) by (assert (n * u * 1 <= n * u * n) by (apply Rmult_le_compat_l; lra); lra). assert (u <= n * u) by (assert (1 * u <= n * u) by (apply Rmult_le_compat_r; lra); lra). assert (HD : 10 * u * D <= e * Q). { apply Rle_trans with (10 * u * (4 * Q * n)); [apply Rmult_le_compat_l; [lra|]; apply abs_inv in BD; lra|]. unfold e. assert (u * (n * Q) <= n * u * (n * Q)) by (apply Rmult_le_compat_r; [apply Rmult_le_pos; lra|lra]). assert (0 <= n * u * (n * Q)) by (apply Rmult_le_pos; [lra|apply Rmult_le_pos; lra]). replace (43 * (n * u) * n * Q) with (43 * (n * u * (n * Q))) by ring. replace (10 * u * (4 * Q * n)) with (40 * (u * (n * Q))) by ring. lra. }
      apply Rle_ge. replace (10 * u) with (10 * u * D * / D) by (rewrite Rmult_assoc, Q1; ring). apply Rmult_le_compat_r; lra. }
    rewrite GE. replace (e * (P + Rabs s * Q) * / D) with (e * P * / D + Rabs s * (e * Q * / D)) by ring. assert (0 <= e * P * / D) by (apply Rmult_le_pos; lra). assert (Rabs s * (10 * u) <= Rabs s * (e * Q * / D)) by (apply Rmult_le_compat_l; lra). lra. }
  destruct (div_fin f num den I FN FD) as (F & _ & EF); [fold d; lra|fold a d; lra|]. fold a d u in EF. split; [exact F|]. assert (u * Rabs (a / d) <= u * (Rabs s + 2 * G)) by (apply Rmult_le_compat_l; lra). assert (u * G <= / 1000 * G) by (apply Rmult_le_compat_r; lra). apply abs_inv in EF. apply abs_inv in QE. apply Rabs_le. lra.
Qed.
Print Assumptions C108_slope.

(* Whole numbers with whole means lose nothing but in the last division, *)
Lemma pair_length {A B} (P : A -> B -> Prop) l m : Forall2 P l m -> length l = length m.
Proof. induction 1; cbn; congruence. Qed.
Definition Int (f : fmt) (x : fnum) (z : Z) : Prop := Fin f x /\ number f x = IZR z.
Lemma int_rounded f z x : IEEE f -> (Z.abs z <= 2 ^ fm_prec f)%Z -> Correct f (IZR z) x -> Int f x z.
Proof.
  intros I B C. apply (correct_exact f (IZR z) x I C); [apply (grid_whole f z (ieee_sane f I) B)|]. rewrite <- abs_IZR. eapply Rle_lt_trans; [apply IZR_le, B|]. apply (prec_top f I).
Qed.
Lemma int_add f x y a b : IEEE f -> Int f x a -> Int f y b -> (Z.abs (a + b) <= 2 ^ fm_prec f)%Z -> Int f (f_add f x y) (a + b).
Proof. intros I [FX EX] [FY EY] B. apply int_rounded; [exact I|exact B|]. rewrite plus_IZR, <- EX, <- EY. apply add_correct'; assumption. Qed.
Lemma int_sub f x y a b : IEEE f -> Int f x a -> Int f y b -> (Z.abs (a - b) <= 2 ^ fm_prec f)%Z -> Int f (f_sub f x y) (a - b).
Proof. intros I HX [FY EY] B. destruct (neg_fin f y FY) as [FN EN]. apply (int_add f x (f_neg y) a (- b)); [exact I|exact HX| |exact B]. split; [exact FN|]. rewrite EN, EY, opp_IZR. reflexivity. Qed.
Lemma int_mul f x y a b : IEEE f -> Int f x a -> Int f y b -> (Z.abs (a * b) <= 2 ^ fm_prec f)%Z -> Int f (f_mul f x y) (a * b).
Proof. intros I [FX EX] [FY EY] B. apply int_rounded; [exact I|exact B|]. rewrite mult_IZR, <- EX, <- EY. apply mul_correct'; assumption. Qed.
Lemma quotient_correct f x y : IEEE f -> Fin f x -> Fin f y -> number f y <> 0 -> Correct f (number f x / number f y) (f_div f x y).
Proof.
  intros I (a & n & -> & FN) (b & m & -> & FM) N. pose proof (rep_nonneg f m (proj1 FM)). apply (div_correct f a n b m (ieee_sane f I) (rep_nonneg f n (proj1 FN))). destruct (Z.eq_dec m 0) as [->|]; [|lia]. exfalso. apply N. apply val_zero.
Qed.
Lemma int_div f x y a b c : IEEE f -> Int f x a -> Int f y b -> (b <> 0)%Z -> (a = c * b)%Z -> (Z.abs c <= 2 ^ fm_prec f)%Z -> Int f (f_div f x y) c.
Proof.
  intros I [FX EX] [FY EY] N E B. apply int_rounded; [exact I|exact B|]. pose proof (IZR_neq _ _ N) as NR. replace (IZR c) with (number f x / number f y) by (rewrite EX, EY, E, mult_IZR; field; exact NR). apply quotient_correct; try assumption. rewrite EY. exact NR.
Qed.
Definition zsum (l : list Z) : Z := fold_right Z.add 0%Z l.
Definition zabs (l : list Z) : Z := fold_right (fun z a => Z.abs z + a)%Z 0%Z l.
Lemma zabs_nonneg l : (0 <= zabs l)%Z.
Proof. unfold zabs. induction l; cbn [fold_right]; lia. Qed.
Lemma zabs_bound l A : Forall (fun z => Z.abs z <= A)%Z l -> (zabs l <= Z.of_nat (length l) * A)%Z.
Proof. unfold zabs. induction 1; cbn [fold_right length]; [lia|]. rewrite Nat2Z.inj_succ. lia. Qed.
Lemma int_fold f l zs : IEEE f -> Forall2 (Int f) l zs -> forall acc a, Int f acc a -> (Z.abs a + zabs zs <= 2 ^ fm_prec f)%Z -> Int f (fold_left (f_add f) l acc) (a + zsum zs).
Proof.
  intros I. induction 1 as [|x z l zs HX F IH]; intros acc a HA B; cbn [fold_left]; unfold zsum, zabs in *; cbn [fold_right] in *; [rewrite Z.add_0_r; exact HA|]. pose proof (zabs_nonneg zs) as N. unfold zabs in N. replace (a + (z + fold_right Z.add 0 zs))%Z with (a + z + fold_right Z.add 0 zs)%Z by lia. apply IH; [apply int_add; try assumption; lia|lia].
Qed.
Lemma int_zero f : IEEE f -> Int f f_zero 0.
Proof. intros I. split; [exists false, 0%Z; split; [reflexivity|apply (zero_finite f (ieee_sane f I))]|apply val_zero]. Qed.
Lemma int_sum f l zs : IEEE f -> Forall2 (Int f) l zs -> (zabs zs <= 2 ^ fm_prec f)%Z -> Int f (rounded_sum f l) (zsum zs).
Proof. intros I F B. apply (int_fold f l zs I F f_zero 0%Z); [apply int_zero, I|exact B]. Qed.
Lemma total_int f l zs : Forall2 (Int f) l zs -> total f l = IZR (zsum zs).
Proof. induction 1 as [|x z l zs [_ E] F IH]; [reflexivity|]. change (total f (x :: l)) with (number f x + total f l). change (zsum (z :: zs)) with (z + zsum zs)%Z. rewrite plus_IZR, E, IH. reflexivity. Qed.
Lemma int_mean f l zs m : IEEE f -> Forall2 (Int f) l zs -> l <> [] -> (zabs zs <= 2 ^ fm_prec f)%Z -> (Z.of_nat (length l) <= 2 ^ fm_prec f)%Z -> mean_of f l = IZR m -> Int f (f_average_of f l) m /\ zsum zs = (m * Z.of_nat (length l))%Z.
Proof.
  intros I F NE B BL M. assert (E : zsum zs = (m * Z.of_nat (length l))%Z). { apply eq_IZR. rewrite mult_IZR, <- M, <- INR_IZR_INZ, <- (total_int f l zs F). unfold mean_of. field. pose proof (inr_one l NE). lra. }
  split; [|exact E]. assert (L0 : (0 < Z.of_nat (length l))%Z) by (destruct l; [contradiction|cbn [length]; lia]). apply (int_div f _ _ (zsum zs) (Z.of_nat (length l)) m I (int_sum f l zs I F B)); [|lia|exact E|].
  - apply int_fin; [exact I|lia].
  - assert (S : forall l, (Z.abs (zsum l) <= zabs l)%Z) by (clear; unfold zsum, zabs; induction l; cbn [fold_right]; lia). specialize (S zs). rewrite E in S. nia.
Qed.
Definition zproducts (mx my : Z) (xs ys : list Z) : list Z := map (fun p => (fst p - mx) * (snd p - my))%Z (combine xs ys).
Lemma int_products f MX MY mx my A B xs zx : IEEE f -> Int f MX mx -> Int f MY my -> (1 <= A)%Z -> (1 <= B)%Z -> (4 * A * B <= 2 ^ fm_prec f)%Z -> (Z.abs mx <= A)%Z -> (Z.abs my <= B)%Z ->
  Forall2 (Int f) xs zx -> Forall (fun z => Z.abs z <= A)%Z zx -> forall ys zy, Forall2 (Int f) ys zy -> Forall (fun z => Z.abs z <= B)%Z zy ->
  Forall2 (Int f) (products f MX MY xs ys) (zproducts mx my zx zy) /\ Forall (fun z => Z.abs z <= 4 * A * B)%Z (zproducts mx my zx zy).
Proof.
  intros I HMX HMY A1 B1 AB MA MB. unfold products, zproducts. induction 1 as [|x a xs zx HX FX IH]; intros BX ys zy FY BY; [cbn; split; constructor|]. destruct FY as [|y b ys zy HY FY]; [cbn; split; constructor|]. inversion BX; subst. inversion BY; subst. destruct (IH H2 ys zy FY H4) as [IH1 IH2]. cbn [combine map fst snd].
  assert (Z.abs ((a - mx) * (b - my)) <= 4 * A * B)%Z by (rewrite Z.abs_mul; assert (Z.abs (a - mx) <= 2 * A)%Z by lia; assert (Z.abs (b - my) <= 2 * B)%Z by lia; nia).
  split; constructor; [|exact IH1|assumption|exact IH2]. apply int_mul; [exact I|apply int_sub; try assumption; nia|apply int_sub; try assumption; nia|lia].
Qed.
Lemma scatter_int f xs zx mx my : mean_of f xs = IZR mx -> Forall2 (Int f) xs zx -> forall ys zy, mean_of f ys = IZR my -> Forall2 (Int f) ys zy -> scatter f xs ys = IZR (zsum (zproducts mx my zx zy)).
Proof.
  intros MX FX ys zy MY FY. unfold scatter. rewrite MX, MY. clear MX MY. revert ys zy FY. unfold zproducts. induction FX as [|x a xs zx [_ EX] FX IH]; intros ys zy FY; [reflexivity|]. destruct FY as [|y b ys zy [_ EY] FY]; [reflexivity|]. cbn [combine fold_right map fst snd]. rewrite (IH ys zy FY), EX, EY. unfold zsum at 2. cbn [fold_right]. rewrite plus_IZR, mult_IZR, !minus_IZR. reflexivity.
Qed.
Definition Wholes (f : fmt) (A : Z) (l : list fnum) : Prop := (1 <= A)%Z /\ (exists m, mean_of f l = IZR m) /\ Forall (fun x => Fin f x /\ exists z, number f x = IZR z /\ (Z.abs z <= A)%Z) l.
Lemma wholes_list f A l : Wholes f A l -> exists zs, Forall2 (Int f) l zs /\ Forall (fun z => Z.abs z <= A)%Z zs.
Proof. intros (_ & _ & F). induction F as [|x l (FX & z & E & B) F (zs & I1 & I2)]; [exists []; split; constructor|]. exists (z :: zs). split; constructor; try assumption. split; assumption. Qed.
Lemma mean_whole f l zs A m : Forall2 (Int f) l zs -> Forall (fun z => Z.abs z <= A)%Z zs -> l <> [] -> mean_of f l = IZR m -> (Z.abs m <= A)%Z.
Proof.
  intros F B NE M. assert (TB : Rabs (total f l) <= INR (length l) * IZR A). { apply total_bound. clear M NE. induction F as [|x z l zs [_ E] F IH]; constructor; inversion B; subst; [rewrite E, <- abs_IZR; apply IZR_le; assumption|apply IH; assumption]. }
  pose proof (inr_one l NE) as N1. assert (ME : total f l = INR (length l) * IZR m) by (rewrite <- M; unfold mean_of; field; lra). rewrite ME, Rabs_mult, (Rabs_right (INR _)) in TB by lra. apply le_IZR. rewrite abs_IZR. apply Rmult_le_reg_l with (INR (length l)); [lra|exact TB].
Qed.
Lemma whole_sums f A B xs ys : IEEE f -> xs <> [] -> length xs = length ys -> Wholes f A xs -> Wholes f B ys -> (Z.of_nat (length xs) * (4 * A * B) <= 2 ^ fm_prec f)%Z ->
  exists mx my z, mean_of f xs = IZR mx /\ mean_of f ys = IZR my /\ Int f (f_average_of f xs) mx /\ Int f (f_average_of f ys) my /\ (Z.abs mx <= A)%Z /\ (Z.abs my <= B)%Z /\
    Int f (rounded_sum f (products f (f_average_of f xs) (f_average_of f ys) xs ys)) z /\ scatter f xs ys = IZR z /\ (Z.abs z <= 2 ^ fm_prec f)%Z.
Proof.
  intros I NE LE WX WY B4. destruct (wholes_list f A xs WX) as (zx & FX & BX). destruct (wholes_list f B ys WY) as (zy & FY & BY). destruct WX as (A1 & (mx & MX) & _). destruct WY as (B1 & (my & MY) & _). assert (NEY : ys <> []) by (intros ->; destruct xs; [contradiction|discriminate]).
  assert (L1 : (1 <= Z.of_nat (length xs))%Z) by (destruct xs; [contradiction|cbn [length]; lia]). pose proof (pair_length _ _ _ FX) as LX. pose proof (pair_length _ _ _ FY) as LY. pose proof (zabs_bound zx A BX) as ZX. pose proof (zabs_bound zy B BY) as ZY. rewrite <- LX in ZX. rewrite <- LY, <- LE in ZY. pose proof (mean_whole f xs zx A mx FX BX NE MX) as BMX. pose proof (mean_whole f ys zy B my FY BY NEY MY) as BMY.
  assert (AB : (1 <= A * B)%Z) by nia. assert (A <= A * B)%Z by nia. assert (B <= A * B)%Z by nia. assert (N : forall t, (0 <= t)%Z -> (t <= 4 * A * B)%Z -> (Z.of_nat (length xs) * t <= 2 ^ fm_prec f)%Z) by (intros t T0 T; etransitivity; [|exact B4]; apply Z.mul_le_mono_nonneg_l; lia).
  destruct (int_mean f xs zx mx I FX NE ltac:(etransitivity; [exact ZX|apply N; lia]) ltac:(rewrite <- (Z.mul_1_r (Z.of_nat _)); apply N; lia) MX) as [HMX _]. destruct (int_mean f ys zy my I FY NEY ltac:(etransitivity; [exact ZY|apply N; lia]) ltac:(rewrite <- LE, <- (Z.mul_1_r (Z.of_nat _)); apply N; lia) MY) as [HMY _].
  assert (AB4 : (4 * A * B <= 2 ^ fm_prec f)%Z) by (etransitivity; [|exact B4]; nia). destruct (int_products f _ _ mx my A B xs zx I HMX HMY A1 B1 AB4 BMX BMY FX BX ys zy FY BY) as [FP BP]. pose proof (zabs_bound _ _ BP) as ZP. assert (LP : length (zproducts mx my zx zy) = length xs) by (unfold zproducts; rewrite map_length, combine_length; lia). rewrite LP in ZP.
  exists mx, my, (zsum (zproducts mx my zx zy)). repeat (split; [assumption|]). split; [apply int_sum; [exact I|exact FP|lia]|]. split; [apply scatter_int; assumption|]. assert (S : forall l, (Z.abs (zsum l) <= zabs l)%Z) by (clear; unfold zsum, zabs; induction l; cbn [fold_right]; lia). specialize (S (zproducts mx my zx zy)). lia.
Qed.
Theorem C108_exact : forall f A B xs ys, IEEE f -> xs <> [] -> length xs = length ys -> Wholes f A xs -> Wholes f B ys -> (Z.of_nat (length xs) * (4 * A * B) <= 2 ^ fm_prec f)%Z ->
  Correct f (scatter f xs ys / INR (length xs)) (covariance f xs ys) /\
  ((Z.of_nat (length xs) * (4 * A * A) <= 2 ^ fm_prec f)%Z -> scatter f xs xs <> 0 -> Correct f (scatter f xs ys / scatter f xs xs) (slope_of f xs ys)).
Proof.
  intros f A B xs ys I NE LE WX WY B4. destruct (whole_sums f A B xs ys I NE LE WX WY B4) as (mx & my & z & MX & MY & HMX & HMY & BMX & BMY & [FZ EZ] & SZ & BZ). assert (L1 : (1 <= Z.of_nat (length xs))%Z) by (destruct xs; [contradiction|cbn [length]; lia]). pose proof WX as (A1 & _ & _). pose proof WY as (B1 & _ & _). split.
  - assert (BL : (Z.of_nat (length xs) <= 2 ^ fm_prec f)%Z) by (etransitivity; [|exact B4]; assert (1 <= 4 * A * B)%Z by nia; nia). destruct (int_fin f (Z.of_nat (length xs)) I ltac:(lia)) as [FL EL]. rewrite SZ, INR_IZR_INZ, <- EZ, <- EL. apply quotient_correct; try assumption. rewrite EL. apply IZR_neq. lia.
  - intros A4 SN. destruct (whole_sums f A A xs xs I NE eq_refl WX WX A4) as (_ & _ & d & _ & _ & _ & _ & _ & _ & [FD ED] & SD & _). rewrite SZ, SD, <- EZ, <- ED. apply quotient_correct; try assumption. rewrite ED, <- SD. exact SN.
Qed.
Print Assumptions C108_exact.
(* and whole points on a line with whole coefficients give that line. *)
Lemma scatter_line f a b xs : forall ys m, Forall2 (fun x y => number f y = IZR a + IZR b * number f x) xs ys ->
  fold_right (fun p t => (number f (fst p) - m) * (number f (snd p) - (IZR a + IZR b * m)) + t) 0 (combine xs ys) = IZR b * fold_right (fun p t => (number f (fst p) - m) * (number f (snd p) - m) + t) 0 (combine xs xs).
Proof. intros ys m. induction 1 as [|x y xs ys E F IH]; cbn [combine fold_right fst snd]; [ring|]. rewrite IH, E. ring. Qed.
Lemma total_line f a b xs ys : Forall2 (fun x y => number f y = IZR a + IZR b * number f x) xs ys -> total f ys = INR (length xs) * IZR a + IZR b * total f xs.
Proof. induction 1 as [|x y xs ys E F IH]; [cbn; ring|]. change (total f (x :: xs)) with (number f x + total f xs). change (total f (y :: ys)) with (number f y + total f ys). cbn [length]. rewrite S_INR, IH, E. ring. Qed.
Lemma scatter_square f l m : 0 <= fold_right (fun p t => (number f (fst p) - m) * (number f (snd p) - m) + t) 0 (combine l l) /\ (fold_right (fun p t => (number f (fst p) - m) * (number f (snd p) - m) + t) 0 (combine l l) = 0 -> Forall (fun x => number f x = m) l).
Proof.
  induction l as [|x l [P Z]]; cbn [combine fold_right fst snd]; [split; [lra|constructor]|]. pose proof (Rle_0_sqr (number f x - m)) as Q. unfold Rsqr in Q. split; [lra|]. intros E. constructor; [|apply Z; lra]. assert (E2 : (number f x - m) * (number f x - m) = 0) by lra. apply Rmult_integral in E2. lra.
Qed.
Theorem C108_line : forall f A B a b xs ys x1 x2, IEEE f -> Wholes f A xs -> Wholes f B ys -> (Z.of_nat (length xs) * (4 * A * B) <= 2 ^ fm_prec f)%Z -> (Z.of_nat (length xs) * (4 * A * A) <= 2 ^ fm_prec f)%Z ->
  Forall2 (fun x y => number f y = IZR a + IZR b * number f x) xs ys -> In x1 xs -> In x2 xs -> number f x1 <> number f x2 ->
  exists o s, f_regression f xs ys = Ok (o, s) /\ Fin f o /\ Fin f s /\ number f o = IZR a /\ number f s = IZR b.
Proof.
  intros f A B a b xs ys x1 x2 I WX WY B4 A4 FL I1 I2 ND. assert (NE : xs <> []) by (intros ->; contradiction). pose proof (pair_length _ _ _ FL) as LE. destruct (whole_sums f A B xs ys I NE LE WX WY B4) as (mx & my & z & MX & MY & HMX & HMY & BMX & BMY & HZ & SZ & BZ). destruct (whole_sums f A A xs xs I NE eq_refl WX WX A4) as (_ & _ & d & _ & _ & _ & _ & _ & _ & HD & SD & BD).
  pose proof WX as (A1 & _ & FX). pose proof WY as (B1 & _ & FY). pose proof (inr_one xs NE) as N1. assert (L1 : (1 <= Z.of_nat (length xs))%Z) by (destruct xs; [contradiction|cbn [length]; lia]).
  assert (MYE : my = (a + b * mx)%Z). { apply eq_IZR. rewrite plus_IZR, mult_IZR, <- MX, <- MY. unfold mean_of. rewrite <- LE, (total_line f a b xs ys FL). field. lra. }
  assert (SE : z = (b * d)%Z). { apply eq_IZR. rewrite mult_IZR, <- SZ, <- SD. unfold scatter. rewrite MX, MY, MYE, plus_IZR, mult_IZR. apply scatter_line, FL. }
  assert (D0 : d <> 0%Z). { intros ->. unfold scatter in SD. rewrite MX in SD. apply (proj2 (scatter_square f xs (IZR mx))) in SD. rewrite Forall_forall in SD. apply ND. rewrite (SD x1 I1), (SD x2 I2). reflexivity. }
  assert (BB : (Z.abs b <= 2 * B)%Z).
  { rewrite Forall_forall in FX. destruct (FX x1 I1) as (_ & z1 & E1 & _). destruct (FX x2 I2) as (_ & z2 & E2 & _). assert (Y : forall x, In x xs -> exists y, In y ys /\ number f y = IZR a + IZR b * number f x) by (clear - FL; induction FL as [|x y xs ys E F IH]; intros v V; [contradiction|]; destruct V as [<-|V]; [exists y; split; [left; reflexivity|exact E]|]; destruct (IH v V) as (w & W & EW); exists w; split; [right; exact W|exact EW]).
    destruct (Y x1 I1) as (y1 & J1 & F1). destruct (Y x2 I2) as (y2 & J2 & F2). rewrite Forall_forall in FY. destruct (FY y1 J1) as (_ & w1 & G1 & W1). destruct (FY y2 J2) as (_ & w2 & G2 & W2). assert (NZ : z1 <> z2) by (intros ->; apply ND; congruence). rewrite G1, E1, <- mult_IZR, <- plus_IZR in F1. rewrite G2, E2, <- mult_IZR, <- plus_IZR in F2. apply eq_IZR in F1. apply eq_IZR in F2. assert (b * (z1 - z2) = w1 - w2)%Z by lia. assert (Z.abs b * Z.abs (z1 - z2) <= 2 * B)%Z by (rewrite <- Z.abs_mul, H; lia). assert (1 <= Z.abs (z1 - z2))%Z by lia. nia. }
  assert (AB4 : (4 * A * B <= 2 ^ fm_prec f)%Z) by (etransitivity; [|exact B4]; nia). assert (B <= A * B)%Z by nia. assert (BM : (Z.abs (b * mx) <= 2 * (A * B))%Z) by (rewrite Z.abs_mul; nia). 
  assert (HS : Int f (slope_of f xs ys) b) by (apply (int_div f _ _ z d b I HZ HD D0 SE); lia). assert (HO : Int f (f_sub f (f_average_of f ys) (f_mul f (slope_of f xs ys) (f_average_of f xs))) a).
  { replace a with (my - b * mx)%Z by lia. apply int_sub; [exact I|exact HMY|apply int_mul; [exact I|exact HS|exact HMX|lia]|lia]. }
  rewrite (proj2 (C108_regression f xs ys) LE). eexists _, _. split; [reflexivity|]. destruct HO as [FO EO]. destruct HS as [FS ES]. auto.
Qed.
Print Assumptions C108_line.

(* With fixed steps too, if their number is even; *)
Fixpoint steps (s ax ay x : Z) (zs : list Z) : Z := match zs with [] => 0 | z :: r => (x - ax) * (z - ay) + steps s ax ay (x + s) r end%Z.
Lemma int_steps f S AX AY s ax ay A B : IEEE f -> Int f S s -> Int f AX ax -> Int f AY ay -> (1 <= A)%Z -> (1 <= B)%Z -> (4 * A * B <= 2 ^ fm_prec f)%Z -> (Z.abs ax <= A)%Z -> (Z.abs ay <= B)%Z -> (Z.abs s <= A)%Z ->
  forall ys zs, Forall2 (Int f) ys zs -> Forall (fun z => Z.abs z <= B)%Z zs -> forall N X n x, Int f N n -> Int f X x -> (Z.abs x <= 2 * A)%Z -> (zs <> [] -> Z.abs x <= A /\ Z.abs (x + (Z.of_nat (length zs) - 1) * s) <= A)%Z -> (Z.abs n + Z.of_nat (length zs) * (4 * A * B) <= 2 ^ fm_prec f)%Z ->
  Int f (fst (fold_left (fun '(num, xval) y => (f_add f num (f_mul f (f_sub f xval AX) (f_sub f y AY)), f_add f xval S)) ys (N, X))) (n + steps s ax ay x zs).
Proof.
  intros I HS HAX HAY A1 B1 AB BAX BAY BS ys zs F. induction F as [|y z ys zs HY F IH]; intros BZ N X n x HN HX XA XE BN; cbn [fold_left fst steps]; [rewrite Z.add_0_r; exact HN|]. inversion BZ; subst. destruct (XE ltac:(discriminate)) as [X1 X2]. cbn [length] in *. rewrite Nat2Z.inj_succ in *.
  assert (A <= A * B)%Z by nia. assert (B <= A * B)%Z by nia. assert (P : (Z.abs ((x - ax) * (z - ay)) <= 4 * A * B)%Z) by (rewrite Z.abs_mul; assert (Z.abs (x - ax) <= 2 * A)%Z by lia; assert (Z.abs (z - ay) <= 2 * B)%Z by lia; nia).
  assert (NB : (0 <= Z.of_nat (length zs) * (4 * A * B))%Z) by nia. replace (n + ((x - ax) * (z - ay) + steps s ax ay (x + s) zs))%Z with (n + (x - ax) * (z - ay) + steps s ax ay (x + s) zs)%Z by lia. apply IH; try assumption.
  - apply int_add; [exact I|exact HN| |lia]. apply int_mul; [exact I|apply int_sub; try assumption; lia|apply int_sub; try assumption; lia|lia].
  - apply int_add; try assumption. lia.
  - lia.
  - intros NZ. destruct zs as [|z' zs]; [contradiction|]. cbn [length] in *. rewrite Nat2Z.inj_succ in *. replace (x + s + (Z.succ (Z.of_nat (length zs)) - 1) * s)%Z with (x + (Z.succ (Z.succ (Z.of_nat (length zs))) - 1) * s)%Z by ring. split; [|exact X2]. set (m := Z.of_nat (length zs)) in *. assert (0 <= m)%Z by lia. replace (Z.succ (Z.succ m) - 1)%Z with (m + 1)%Z in X2 by lia.
    destruct (Z.le_gt_cases 0 s); [assert (0 <= m * s)%Z by nia|assert (m * s <= 0)%Z by nia]; lia.
  - lia.
Qed.
Lemma steps_line s ax a b n : forall x, steps s ax (a + b * ax) x (map (fun i => a + b * (x + Z.of_nat i * s)) (seq 0 n))%Z = (b * steps s ax ax x (map (fun i => x + Z.of_nat i * s) (seq 0 n)))%Z.
Proof.
  induction n as [|n IH]; intros x; cbn [seq map steps]; [ring|]. rewrite <- seq_shift, !map_map. rewrite (map_ext (fun i => a + b * (x + Z.of_nat (S i) * s))%Z (fun i => a + b * (x + s + Z.of_nat i * s))%Z) by (intros i; rewrite Nat2Z.inj_succ; ring). rewrite (map_ext (fun i => x + Z.of_nat (S i) * s)%Z (fun i => x + s + Z.of_nat i * s)%Z) by (intros i; rewrite Nat2Z.inj_succ; ring). rewrite IH. change (Z.of_nat 0) with 0%Z. ring.
Qed.
Lemma steps_square s ax n : forall x, (6 * steps s ax ax x (map (fun i => x + Z.of_nat i * s) (seq 0 n)) = 6 * Z.of_nat n * (x - ax) * (x - ax) + 6 * Z.of_nat n * (Z.of_nat n - 1) * (x - ax) * s + Z.of_nat n * (Z.of_nat n - 1) * (2 * Z.of_nat n - 1) * s * s)%Z.
Proof.
  induction n as [|n IH]; intros x; [cbn; ring|]. cbn [seq map steps]. rewrite <- seq_shift, !map_map. rewrite (map_ext (fun i => x + Z.of_nat (S i) * s)%Z (fun i => x + s + Z.of_nat i * s)%Z) by (intros i; rewrite Nat2Z.inj_succ; ring). rewrite Z.mul_add_distr_l, IH, Nat2Z.inj_succ. change (Z.of_nat 0) with 0%Z. unfold Z.succ. ring.
Qed.
Lemma sum_steps a b s n : forall x, (2 * zsum (map (fun i => a + b * (x + Z.of_nat i * s)) (seq 0 n)) = 2 * Z.of_nat n * (a + b * x) + b * Z.of_nat n * (Z.of_nat n - 1) * s)%Z.
Proof.
  induction n as [|n IH]; intros x; [cbn; ring|]. cbn [seq map]. rewrite <- seq_shift, !map_map. rewrite (map_ext (fun i => a + b * (x + Z.of_nat (S i) * s))%Z (fun i => a + b * (x + s + Z.of_nat i * s))%Z) by (intros i; rewrite Nat2Z.inj_succ; ring).
  match goal with |- (2 * zsum (?z :: ?l) = _)%Z => change (zsum (z :: l)) with (z + zsum l)%Z end. rewrite Z.mul_add_distr_l, IH, Nat2Z.inj_succ. change (Z.of_nat 0) with 0%Z. unfold Z.succ. ring.
Qed.
Lemma abs_mul_le a b x y : (Z.abs a <= x -> Z.abs b <= y -> Z.abs (a * b) <= x * y)%Z.
Proof. intros. rewrite Z.abs_mul. apply Z.mul_le_mono_nonneg; lia. Qed.
Lemma cube_pos A : (2 <= A -> A <= A * A /\ 4 * A <= A * A * A /\ A * A <= A * A * A)%Z.
Proof. intros. split; [nia|]. split; nia. Qed.
Lemma steps_pos k s d : (1 <= k -> s <> 0 -> 6 * d = 2 * k * (k + 1) * (2 * k + 1) * (s * s) -> 1 <= d)%Z.
Proof. intros K S E. assert (1 <= s * s)%Z by nia. assert (0 < k * (k + 1) * (2 * k + 1))%Z by nia. assert (0 < k * (k + 1) * (2 * k + 1) * (s * s))%Z by (apply Z.mul_pos_pos; lia). lia. Qed.
Lemma step_den f H S k s d A : IEEE f -> Int f H (k * s) -> Int f S s -> (s <> 0)%Z -> (2 <= A)%Z -> (2 * Z.abs s <= A)%Z -> (2 * Z.abs (k * s) <= A)%Z -> (8 * A * A * A <= 2 ^ fm_prec f)%Z -> (k * s * (k * s + s) * (2 * (k * s) + s) = d * (3 * s))%Z ->
  Int f (f_div f (f_mul f (f_mul f H (f_add f H S)) (f_add f (f_mul f (f_of_int f 2) H) S)) (f_mul f (f_of_int f 3) S)) d.
Proof.
  intros I HH HS S0 A1 S2 KS A8 DE. destruct (cube_pos A A1) as (AA & A3 & AAA). assert (C8 : (8 * (A * A * A) <= 2 ^ fm_prec f)%Z) by (etransitivity; [|exact A8]; lia). clear A8. set (C := (A * A * A)%Z) in *. set (Q := (A * A)%Z) in *. set (h := (k * s)%Z) in *. set (M := (2 ^ fm_prec f)%Z) in *. assert (HA : (Z.abs h <= A)%Z) by lia. assert (HA1 : (Z.abs (h + s) <= A)%Z) by lia. assert (HA2 : (Z.abs (2 * h + s) <= 2 * A)%Z) by lia.
  pose proof (abs_mul_le h (h + s) A A HA HA1) as P1. fold Q in P1. pose proof (abs_mul_le (h * (h + s)) (2 * h + s) Q (2 * A) P1 HA2) as P2. replace (Q * (2 * A))%Z with (2 * C)%Z in P2 by (unfold C, Q; ring). assert (D0 : (Z.abs d <= 2 * C)%Z). { rewrite DE, Z.abs_mul in P2. assert (Z.abs d * 1 <= Z.abs d * Z.abs (3 * s))%Z by (apply Z.mul_le_mono_nonneg_l; lia). lia. } clearbody C Q h.
  assert (H2 : Int f (f_of_int f 2) 2) by (apply int_fin; [exact I|destruct I as [-> | ->]; cbn; lia]). assert (H3 : Int f (f_of_int f 3) 3) by (apply int_fin; [exact I|destruct I as [-> | ->]; cbn; lia]).
  assert (HK1 : Int f (f_add f H S) (h + s)) by (apply int_add; try assumption; fold M; clear - HA1 A3 C8 A1; lia). assert (H2K : Int f (f_mul f (f_of_int f 2) H) (2 * h)) by (apply int_mul; try assumption; fold M; clear - HA A3 C8 A1; lia). assert (H2K1 : Int f (f_add f (f_mul f (f_of_int f 2) H) S) (2 * h + s)) by (apply int_add; try assumption; fold M; clear - HA2 A3 C8 A1; lia).
  assert (H3S : Int f (f_mul f (f_of_int f 3) S) (3 * s)) by (apply int_mul; try assumption; fold M; clear - S2 A3 C8 A1; lia). assert (HP1 : Int f (f_mul f H (f_add f H S)) (h * (h + s))) by (apply int_mul; try assumption; fold M; clear - P1 AAA C8 AA A1; lia).
  assert (HP2 : Int f (f_mul f (f_mul f H (f_add f H S)) (f_add f (f_mul f (f_of_int f 2) H) S)) (h * (h + s) * (2 * h + s))) by (apply int_mul; try assumption; fold M; clear - P2 C8 AA A3 A1; lia).
  apply (int_div f _ _ _ (3 * s) d I HP2 H3S); [lia|exact DE|fold M; clear - D0 C8 A3 A1; lia].
Qed.
Lemma step_end f AY SL AX a b ax A B : IEEE f -> Int f AY (a + b * ax) -> Int f SL b -> Int f AX ax -> (Z.abs b <= 2 * B)%Z -> (Z.abs ax <= A)%Z -> (Z.abs (a + b * ax) <= B)%Z -> (1 <= B)%Z -> (1 <= A)%Z -> (4 * A * B <= 2 ^ fm_prec f)%Z -> Int f (f_sub f AY (f_mul f SL AX)) a.
Proof.
  intros I HY HSL HX BB BX BY B1 A1 AB. set (M := (2 ^ fm_prec f)%Z) in *. pose proof (abs_mul_le b ax (2 * B) A BB BX) as BM. assert (B <= A * B)%Z by nia. replace (2 * B * A)%Z with (2 * (A * B))%Z in BM by ring. replace (4 * A * B)%Z with (4 * (A * B))%Z in AB by ring. set (P := (A * B)%Z) in *. set (t := (b * ax)%Z) in *. clearbody P. replace a with (a + t - t)%Z at 1 by lia. apply int_sub; [exact I|exact HY|apply int_mul; try assumption; fold M; fold t; lia|fold M; lia].
Qed.
Lemma slope_bound a b x s B : (s <> 0 -> Z.abs (a + b * (x + Z.of_nat 0 * s)) <= B -> Z.abs (a + b * (x + Z.of_nat 1 * s)) <= B -> Z.abs b <= 2 * B)%Z.
Proof.
  intros S0 Y0 Y1. change (Z.of_nat 0) with 0%Z in Y0. change (Z.of_nat 1) with 1%Z in Y1. assert (E : (b * s = a + b * (x + 1 * s) - (a + b * (x + 0 * s)))%Z) by ring. set (p := (a + b * (x + 1 * s))%Z) in *. set (q := (a + b * (x + 0 * s))%Z) in *. clearbody p q. assert (Z.abs b * Z.abs s <= 2 * B)%Z by (rewrite <- Z.abs_mul, E; lia). assert (Z.abs b * 1 <= Z.abs b * Z.abs s)%Z by (apply Z.mul_le_mono_nonneg_l; lia). lia.
Qed.
Theorem C108_step : forall f A B a b x0 s k X0 S ys, IEEE f -> Int f X0 x0 -> Int f S s -> (s <> 0)%Z -> (1 <= k)%nat -> (Z.abs x0 + 2 * Z.of_nat k * Z.abs s <= A)%Z -> (8 * A * A * A <= 2 ^ fm_prec f)%Z -> ((2 * Z.of_nat k + 1) * (4 * A * B) <= 2 ^ fm_prec f)%Z -> (1 <= B)%Z ->
  Forall2 (fun y i => Int f y (a + b * (x0 + Z.of_nat i * s)) /\ (Z.abs (a + b * (x0 + Z.of_nat i * s)) <= B)%Z) ys (seq 0 (2 * k + 1)) ->
  Int f (fst (f_regression_step f X0 S ys)) a /\ Int f (snd (f_regression_step f X0 S ys)) b.
Proof.
  intros f A B a b x0 s k X0 S ys I HX0 HS S0 K1 BA A8 B4 B1 F. set (kz := Z.of_nat k) in *. assert (KZ : (1 <= kz)%Z) by (unfold kz; lia). assert (SA : (2 * kz * Z.abs s <= A)%Z) by lia. assert (S2 : (2 * Z.abs s <= A)%Z) by nia. assert (A1 : (2 <= A)%Z) by lia. assert (KS : (2 * Z.abs (kz * s) <= A)%Z) by (rewrite Z.abs_mul; lia).
  pose proof (pair_length _ _ _ F) as LY. rewrite seq_length in LY. set (zs := map (fun i => a + b * (x0 + Z.of_nat i * s))%Z (seq 0 (2 * k + 1))). assert (FZ : Forall2 (Int f) ys zs) by (unfold zs; clear - F; induction F as [|y i ys l [H _] F IH]; cbn [map]; constructor; assumption). assert (BZ : Forall (fun z => Z.abs z <= B)%Z zs) by (unfold zs; clear - F; induction F as [|y i ys l [_ H] F IH]; cbn [map]; constructor; assumption).
  assert (LZ : length zs = (2 * k + 1)%nat) by (unfold zs; rewrite map_length, seq_length; reflexivity). assert (LN : Z.of_nat (2 * k + 1) = (2 * kz + 1)%Z) by (unfold kz; lia). assert (AB : (A <= A * B)%Z) by nia. assert (BAB : (2 * B <= A * B)%Z) by nia. assert (AB4 : (4 * A * B <= 2 ^ fm_prec f)%Z) by (etransitivity; [|exact B4]; nia). assert (LB : (2 * kz + 1 <= 2 ^ fm_prec f)%Z) by (etransitivity; [|exact B4]; nia).
  assert (SM : zsum zs = ((2 * kz + 1) * (a + b * (x0 + kz * s)))%Z). { pose proof (sum_steps a b s (2 * k + 1) x0) as E. fold zs in E. rewrite LN in E. lia. } set (ax := (x0 + kz * s)%Z) in *. set (ay := (a + b * ax)%Z) in *.
  assert (NE : ys <> []) by (intros ->; cbn in LY; lia). pose proof (zabs_bound zs B BZ) as ZB. rewrite LZ, LN in ZB. assert (ME : mean_of f ys = IZR ay). { unfold mean_of. rewrite (total_int f ys zs FZ), SM, LY, INR_IZR_INZ, LN, mult_IZR. field. apply IZR_neq. lia. }
  destruct (int_mean f ys zs ay I FZ NE ltac:(etransitivity; [exact ZB|etransitivity; [|exact B4]; nia]) ltac:(rewrite LY, LN; exact LB) ME) as [HAY _]. pose proof (mean_whole f ys zs B ay FZ BZ NE ME) as BAY.
  assert (H2 : Int f (f_of_int f 2) 2) by (apply int_fin; [exact I|destruct I as [-> | ->]; cbn; lia]). assert (H3 : Int f (f_of_int f 3) 3) by (apply int_fin; [exact I|destruct I as [-> | ->]; cbn; lia]). assert (HN1 : Int f (f_of_int f ((Z.of_nat (length ys) - 1) mod 2 ^ 64)) (2 * kz)).
  { rewrite LY, LN. replace (2 * kz + 1 - 1)%Z with (2 * kz)%Z by lia. rewrite Z.mod_small; [apply int_fin; [exact I|lia]|]. split; [lia|]. eapply Z.le_lt_trans with (2 ^ fm_prec f)%Z; [lia|]. destruct I as [-> | ->]; cbn; lia. }
  unfold f_regression_step. set (N1 := f_of_int f ((Z.of_nat (length ys) - 1) mod 2 ^ 64)) in *. assert (HNS : Int f (f_mul f N1 S) (2 * kz * s)) by (apply int_mul; try assumption; rewrite Z.abs_mul; lia). assert (HH : Int f (f_div f (f_mul f N1 S) (f_of_int f 2)) (kz * s)) by (apply (int_div f _ _ (2 * kz * s) 2 (kz * s) I HNS H2); lia).
  set (H := f_div f (f_mul f N1 S) (f_of_int f 2)) in *. assert (BAX : (Z.abs ax <= A)%Z) by (unfold ax; lia). assert (HAX : Int f (f_add f X0 H) ax) by (apply int_add; try assumption; fold ax; lia). set (AX := f_add f X0 H) in *. set (AY := f_average_of f ys) in *.
  assert (XE : (zs <> [] -> Z.abs x0 <= A /\ Z.abs (x0 + (Z.of_nat (length zs) - 1) * s) <= A)%Z). { intros _. rewrite LZ, LN. assert (Z.abs ((2 * kz + 1 - 1) * s) <= 2 * kz * Z.abs s)%Z by (rewrite Z.abs_mul; nia). lia. }
  pose proof (int_steps f S AX AY s ax ay A B I HS HAX HAY ltac:(lia) B1 AB4 BAX BAY ltac:(lia) ys zs FZ BZ f_zero X0 0%Z x0 (int_zero f I) HX0 ltac:(lia) XE ltac:(rewrite LZ, LN; lia)) as HN. destruct (fold_left _ ys (f_zero, X0)) as [num xv]. cbn [fst] in HN.
  set (d := steps s ax ax x0 (map (fun i => x0 + Z.of_nat i * s)%Z (seq 0 (2 * k + 1)))). assert (SN : (0 + steps s ax ay x0 zs = b * d)%Z) by (unfold ay, zs, d; rewrite Z.add_0_l; apply steps_line). rewrite SN in HN.
  assert (SD : (6 * d = 2 * kz * (kz + 1) * (2 * kz + 1) * (s * s))%Z) by (unfold d; rewrite steps_square, LN; unfold ax; ring). pose proof (steps_pos kz s d KZ S0 SD) as D1.
  assert (DE : (kz * s * (kz * s + s) * (2 * (kz * s) + s) = d * (3 * s))%Z). { assert (2 * (kz * s * (kz * s + s) * (2 * (kz * s) + s)) = 6 * d * s)%Z by (rewrite SD; ring). lia. }
  clear SD SM ZB SN XE LN LZ LY.
  assert (HD : Int f (f_div f (f_mul f (f_mul f H (f_add f H S)) (f_add f (f_mul f (f_of_int f 2) H) S)) (f_mul f (f_of_int f 3) S)) d) by (apply (step_den f H S kz s d A); assumption).
  assert (BB : (Z.abs b <= 2 * B)%Z). { assert (Y : forall i, (i < 2 * k + 1)%nat -> (Z.abs (a + b * (x0 + Z.of_nat i * s)) <= B)%Z) by (intros i L; rewrite Forall_forall in BZ; apply BZ; unfold zs; apply (in_map (fun i => a + b * (x0 + Z.of_nat i * s))%Z), in_seq; lia). pose proof (Y 0%nat ltac:(lia)) as Y0. pose proof (Y 1%nat ltac:(lia)) as Y1. apply (slope_bound a b x0 s B S0 Y0 Y1). }
  assert (HSL : Int f (f_div f num (f_div f (f_mul f (f_mul f H (f_add f H S)) (f_add f (f_mul f (f_of_int f 2) H) S)) (f_mul f (f_of_int f 3) S))) b). { apply (int_div f _ _ (b * d) d b I HN HD); [clear - D1; lia|reflexivity|clear - BB AB4 BAB B1 A1; nia]. } set (SL := f_div f num _) in *. cbn [fst snd]. split; [|exact HSL]. apply (step_end f AY SL AX a b ax A B); try assumption. clear - A1. lia.
Qed.
Print Assumptions C108_step.
(* one value gives no line, and nothing no offset. *)
Lemma zero_int f : IEEE f -> f_of_int f 0 = FFin false 0.
Proof. intros I. apply (to_zero f false 1 (ieee_sane f I)). lia. Qed.
Lemma zero_quotient f a y : IEEE f -> Valid f y -> f_div f (FFin a 0) y = FNan \/ exists b, f_div f (FFin a 0) y = FFin b 0.
Proof.
  intros I V. destruct y as [|b|b m]; cbn [f_div]; [left; reflexivity|right; eexists; reflexivity|]. destruct (Z.eqb_spec m 0); [left; reflexivity|right]. pose proof (rep_nonneg f m (proj1 V)). exists (xorb a b). apply to_zero; [apply (ieee_sane f I)|lia].
Qed.
Theorem C108_step_degenerate : forall f x0 s y, IEEE f -> Fin f x0 -> Fin f s -> Fin f y -> f_regression_step f x0 s [y] = (FNan, FNan) /\ fst (f_regression_step f x0 s []) = FNan.
Proof.
  intros f x0 s y I FX FS FY. pose proof (ieee_sane f I) as W. split.
  - unfold f_regression_step. cbn [length fold_left]. change ((Z.of_nat 1 - 1) mod 2 ^ 64)%Z with 0%Z. rewrite (zero_int f I). assert (F0 : forall b, Fin f (FFin b 0)) by (intros b; exists b, 0%Z; split; [reflexivity|apply (zero_finite f W)]). destruct (zero_mul f false s W FS) as (b1 & ->).
    destruct (int_fin f 2 I) as [F2 _]; [pose proof (small_int f 2 I ltac:(lia)); lia|]. assert (ZB : exists b2, f_div f (FFin b1 0) (f_of_int f 2) = FFin b2 0). { destruct (int_pos f 2 I (small_int f 2 I ltac:(lia))) as (m & E & M & _). rewrite E. exists (xorb b1 false). cbn [f_div]. rewrite (proj2 (Z.eqb_neq m 0)) by lia. apply to_zero; [exact W|exact M]. } destruct ZB as (b2 & ->).
    destruct (add_zero f x0 b2 W FX) as [FA EA]. destruct (mean_one f y I FY) as [FM EM]. destruct (sub_same f x0 _ I FX FA (eq_sym EA)) as (b3 & ->). destruct (sub_same f y _ I FY FM (eq_sym EM)) as (b4 & ->). destruct (zero_mul f b3 (FFin b4 0) W (F0 b4)) as (b5 & ->). replace (f_add f f_zero (FFin b5 0)) with f_zero by (destruct b5; reflexivity).
    destruct (add_zero f s b2 W FS) as [FS2 _]. rewrite (add_comm f (FFin b2 0) s). destruct (zero_mul f b2 _ W FS2) as (b6 & ->). assert (F2S : Fin f (f_add f (f_mul f (f_of_int f 2) (FFin b2 0)) s)). { rewrite mul_comm. destruct (zero_mul f b2 _ W F2) as (b7 & ->). rewrite add_comm. apply (add_zero f s b7 W FS). } destruct (zero_mul f b6 _ W F2S) as (b8 & ->).
    assert (E : f_div f f_zero (f_div f (FFin b8 0) (f_mul f (f_of_int f 3) s)) = FNan). { destruct (zero_quotient f b8 (f_mul f (f_of_int f 3) s) I) as [-> |(b9 & ->)]; [apply valid_mul; [exact I|apply valid_int, I|apply fin_valid, FS]|reflexivity|reflexivity]. }
    rewrite E, nan_line. reflexivity.
  - unfold f_regression_step. cbn [length fold_left]. replace (f_average_of f []) with FNan by (unfold f_average_of; cbn [length fold_left]; change (Z.of_nat 0) with 0%Z; rewrite (zero_int f I); reflexivity). reflexivity.
Qed.
Print Assumptions C108_step_degenerate.

Definition whole (z : Z) : fnum := f_of_int float_fmt z.
Example C108_example : f_regression float_fmt (map whole [0; 1; 5])%Z (map whole [3; 5; 13])%Z = Ok (whole 3, whole 2) /\
  f_regression_step float_fmt (whole 1) (whole 2) (map whole [3; 7; 11])%Z = (whole 1, whole 2) /\
  covariance float_fmt (map whole [0; 1; 5])%Z (map whole [3; 5; 13])%Z = f_div float_fmt (whole 28) (whole 3) /\
  (let s := mkS 2 (DataHeader.create 0%nat 2) (map whole [1; 4; 3; 8])%Z in Holds s (fun r c => nth (r * 2 + c) (map whole [1; 4; 3; 8])%Z FNan) /\
     f_channel_means float_fmt s = Ok [whole 2; whole 6] /\ (let* cv := f_covariance 0%nat float_fmt s in Ok (Table.data_ cv)) = Ok (map whole [1; 2; 2; 4]%Z)).
Proof.
  split; [vm_compute; reflexivity|]. split; [vm_compute; reflexivity|]. split; [vm_compute; reflexivity|]. split; [|split; [vm_compute; reflexivity|vm_compute; reflexivity]].
  split; [reflexivity|]. intros r c R C. cbn in R, C. assert (r = 0 \/ r = 1)%nat as [-> | ->] by lia; assert (c = 0 \/ c = 1)%nat as [-> | ->] by lia; vm_compute; reflexivity.
Qed.

(* C108: a constant channel may have a variance, *)
Definition short (k e : Z) : fnum := FFin false (k * 2 ^ e).
Lemma short_fin k e : (0 <= k < 2 ^ 24)%Z -> (0 <= e <= 253)%Z -> Fin float_fmt (short k e).
Proof.
  intros K E. exists false, (k * 2 ^ e)%Z. split; [reflexivity|]. split; [exists k, e; split; [lia|]; split; [exact K|reflexivity]|]. change (2 ^ (fm_top float_fmt + fm_low float_fmt))%Z with (2 ^ (24 + 253))%Z. rewrite Z.pow_add_r by lia. assert (0 < 2 ^ e)%Z by (apply Z.pow_pos_nonneg; lia). apply Z.lt_le_trans with (2 ^ 24 * 2 ^ e)%Z; [apply Z.mul_lt_mono_pos_r; lia|]. apply Z.mul_le_mono_nonneg_l; [lia|]. apply Z.pow_le_mono_r; lia.
Qed.
Theorem C108_constant_refuted : exists x, Fin float_fmt x /\ Less float_fmt f_zero (covariance float_fmt [x; x; x] [x; x; x]).
Proof. exists (short 14260634 126). split; [apply short_fin; lia|]. apply lt_less; [apply (ieee_sane _ (or_intror eq_refl))|]. vm_compute. reflexivity. Qed.
Print Assumptions C108_constant_refuted.
(* adding a constant to a channel may change its variance, even if nothing is
   rounded in doing so, *)
Theorem C108_shift_refuted : exists x y c, Fin float_fmt x /\ Fin float_fmt y /\ Fin float_fmt c /\ number float_fmt (f_add float_fmt x c) = number float_fmt x + number float_fmt c /\ number float_fmt (f_add float_fmt y c) = number float_fmt y + number float_fmt c /\
  Less float_fmt (covariance float_fmt [x; y] [x; y]) (covariance float_fmt (map (fun v => f_add float_fmt v c) [x; y]) (map (fun v => f_add float_fmt v c) [x; y])).
Proof.
  exists f_zero, (short 1 150), (short 1 173). split; [apply (short_fin 0 0); lia|]. split; [apply short_fin; lia|]. split; [apply short_fin; lia|]. assert (E1 : f_add float_fmt f_zero (short 1 173) = short 1 173) by (vm_compute; reflexivity). assert (E2 : f_add float_fmt (short 1 150) (short 1 173) = short (1 + 2 ^ 23) 150) by (vm_compute; reflexivity). rewrite E1, E2. split; [|split].
  - cbn [number f_zero]. unfold short. cbn [number]. rewrite val_zero. ring.
  - unfold short. cbn [number]. unfold val. rewrite <- Rmult_plus_distr_r, <- plus_IZR. apply f_equal2; [|reflexivity]. apply f_equal. vm_compute. reflexivity.
  - cbn [map]. rewrite E1, E2. apply lt_less; [apply (ieee_sane _ (or_intror eq_refl))|]. vm_compute. reflexivity.
Qed.
Print Assumptions C108_shift_refuted.
(* and the line through two points need not have their slope. *)
Theorem C108_slope_refuted : exists x1 x2 y1 y2 o s, Forall (Fin float_fmt) [x1; x2; y1; y2] /\ f_regression float_fmt [x1; x2] [y1; y2] = Ok (o, s) /\ Fin float_fmt s /\ number float_fmt s * (number float_fmt x2 - number float_fmt x1) = (number float_fmt y2 - number float_fmt y1) / 2 /\ number float_fmt x1 < number float_fmt x2 /\ number float_fmt y1 < number float_fmt y2.
Proof.
  exists (short 1 173), (short (1 + 2 ^ 23) 150), f_zero, (short 1 149), (FFin true (2993154996441765999991176272831455261881565752328192)), (short 1 147). split; [repeat constructor; try (apply short_fin; lia); apply (short_fin 0 0); lia|]. split; [vm_compute; reflexivity|]. split; [apply short_fin; lia|]. pose proof (unit_pos float_fmt (ieee_sane _ (or_intror eq_refl))) as U. unfold short. cbn [number f_zero]. unfold val.
  assert (E : unit_of float_fmt * IZR (2 ^ 149) = 1) by (unfold unit_of; apply Rinv_l; apply IZR_neq; discriminate).
  assert (P0 : (0 < 2 ^ 147)%Z) by reflexivity. change (1 * 2 ^ 173)%Z with (2 ^ 23 * (8 * 2 ^ 147))%Z. change ((1 + 2 ^ 23) * 2 ^ 150)%Z with ((1 + 2 ^ 23) * (8 * 2 ^ 147))%Z. change (1 * 2 ^ 149)%Z with (4 * 2 ^ 147)%Z. change (1 * 2 ^ 147)%Z with (2 ^ 147)%Z. change (2 ^ 149)%Z with (4 * 2 ^ 147)%Z in E. generalize dependent (2 ^ 147)%Z. intros q E Q. apply IZR_lt in Q. rewrite ?mult_IZR, ?plus_IZR in *. change (IZR (2 ^ 23)) with 8388608. set (a := IZR q * unit_of float_fmt). assert (A : a * 4 = 1) by (unfold a; lra). assert (A0 : 0 < a) by lra.
  replace (IZR (2 ^ 23)) with 8388608 in * by reflexivity. split; [|split].
  - replace (IZR q * unit_of float_fmt * ((1 + 8388608) * (8 * IZR q) * unit_of float_fmt - 8388608 * (8 * IZR q) * unit_of float_fmt)) with (a * (8 * a)) by (unfold a; ring). replace (4 * IZR q * unit_of float_fmt) with (4 * a) by (unfold a; ring). nra.
  - replace (8388608 * (8 * IZR q) * unit_of float_fmt) with (67108864 * a) by (unfold a; ring). replace ((1 + 8388608) * (8 * IZR q) * unit_of float_fmt) with (67108872 * a) by (unfold a; ring). lra.
  - replace (4 * IZR q * unit_of float_fmt) with (4 * a) by (unfold a; ring). lra.
Qed.
Print Assumptions C108_slope_refuted.
