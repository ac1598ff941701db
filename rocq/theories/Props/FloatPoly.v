(* C100: polynomials of floating point numbers. *)
From Coq Require Import Reals ZArith Lia Lra List Bool.
From Verif Require Import Model.Base Model.FloatText Model.Ieee Model.FloatPoly Spec.FloatText Spec.Ieee Spec.Regression Proofs.FloatTextProofs Proofs.IeeeProofs Proofs.IeeeErrorProofs Proofs.FloatInterpProofs Proofs.FloatOpsProofs Proofs.FloatTableProofs Proofs.FloatPolyProofs Props.FloatEquals Props.FloatAverage Props.FloatSqrt Props.FloatVec Props.FloatInterp Props.FloatTable.
Import ListNotations.
Local Open Scope R_scope.

(* the error: D + 1 roundings, relative to the sum of the sizes of the terms,
   and what is lost below the smallest normal number *)
Theorem C100_error : forall f cs v V C D, IEEE f -> length cs = S D -> Forall (fun c => Fin f c /\ Rabs (number f c) <= C) cs -> Fin f v -> Rabs (number f v) <= V -> 1 <= V ->
  2 * INR (S D) <= IZR (2 ^ fm_prec f) -> 16 * (C + 1) * (INR (S D) * INR (S D)) * V ^ D <= IZR (2 ^ fm_top f) ->
  exists r, f_poly_eval f cs v = Ok r /\ Fin f r /\
  Rabs (number f r - polynomial (map (number f) cs) (number f v)) <= ((1 + / IZR (2 ^ fm_prec f)) ^ S D - 1) * polynomial (map (fun c => Rabs (number f c)) cs) (Rabs (number f v)) + INR D * INR D * (C + 1) * V ^ D * unit_of f.
Proof.
  intros f cs v V C D I L FC FV VB V1 N T. pose proof (ieee_sane f I) as W. destruct (ulp_small f I) as [U _]. pose proof (unit_pos f W) as UP. destruct cs as [|c cs]; [discriminate|]. injection L as L. inversion FC as [|? ? [FC0 CB0] FC1]; subst. assert (C0 : 0 <= C) by (pose proof (Rabs_pos (number f c)); lra).
  assert (G2 : (1 + ulp f) ^ S (length cs) <= 2). { apply pow_two; [lra|]. pose proof (pow_scale f W) as P. apply (Rmult_le_compat_r (ulp f)) in N; [|lra]. unfold ulp in N at 2. rewrite Rinv_r in N by lra. exact N. }
  assert (RM : 8 * ((C + 1) * (INR (S (length cs)) * INR (S (length cs))) * V ^ length cs) <= room f) by (unfold room; lra).
  destruct (loop_error f I v FV V C VB V1 C0 (length cs) G2 RM cs 0%nat c v (number f c) (Rabs (number f c)) (Nat.le_refl _) FC1 FC0) as [FR E].
  - rewrite Rminus_eq_0, Rabs_R0. unfold sum_err. cbn [INR]. pose proof (Rabs_pos (number f c)). cbn [pow]. nra.
  - lra.
  - cbn [INR pow]. lra.
  - intros _. split; [exact FV|]. unfold fac_err. cbn [pow INR]. rewrite Rmult_1_r, Rminus_eq_0, Rabs_R0. lra.
  - exists (f_poly_loop f v c v cs). split; [reflexivity|]. split; [exact FR|]. cbn [map polynomial powers]. unfold polynomial. cbn [powers pow]. rewrite !Rmult_1_r. cbn [Nat.add] in E. eapply Rle_trans; [exact E|]. unfold ulp at 1. apply Rplus_le_compat_l. unfold sum_err. set (n := INR (length cs)). pose proof (pow_le V (length cs) ltac:(lra)) as VP.
    assert (X : 0 <= n * n * (C + 1) * V ^ length cs * (unit_of f / 2)). { apply Rmult_le_pos; [|lra]. apply Rmult_le_pos; [|exact VP]. apply Rmult_le_pos; [|lra]. apply Rmult_le_pos; apply pos_INR. }
    replace ((1 + ulp f) ^ S (length cs) * V ^ length cs * (C + 1) * (n * n) * (unit_of f / 2)) with ((1 + ulp f) ^ S (length cs) * (n * n * (C + 1) * V ^ length cs * (unit_of f / 2))) by ring. apply (Rmult_le_compat_r _ _ _ X) in G2. lra.
Qed.
Print Assumptions C100_error.
(* nan goes through *)
Lemma add_nan f x : f_add f x FNan = FNan. Proof. destruct x; reflexivity. Qed.
Lemma mul_nan f x : f_mul f x FNan = FNan. Proof. destruct x; reflexivity. Qed.
Lemma loop_nan f v cs : forall F, f_poly_loop f v FNan F cs = FNan.
Proof. induction cs as [|c cs IH]; intros F; [reflexivity|]. cbn. apply IH. Qed.
Lemma loop_nan_factor f v cs r : cs <> [] -> f_poly_loop f v r FNan cs = FNan.
Proof. destruct cs as [|c cs]; [contradiction|]. intros _. cbn [f_poly_loop]. change (f_mul f FNan c) with FNan. rewrite add_nan. apply loop_nan. Qed.
Theorem C100_nan : forall f cs v, (2 <= length cs)%nat -> v = FNan \/ In FNan cs -> f_poly_eval f cs v = Ok FNan.
Proof.
  intros f [|c cs] v L H; [cbn in L; lia|]. unfold f_poly_eval. cbn [vget nth_error bind tl]. f_equal. destruct H as [->|[->|H]]; [apply loop_nan_factor; destruct cs; [cbn in L; lia|discriminate]|apply loop_nan|]. assert (G : forall r F, f_poly_loop f v r F cs = FNan); [|apply G]. clear L c. induction cs as [|d cs IH]; [contradiction|]. intros r F. cbn [f_poly_loop]. destruct H as [->|H]; [rewrite mul_nan, add_nan; apply loop_nan|apply (IH H)].
Qed.
Print Assumptions C100_nan.

(* p( -v ) is, bit by bit, p( v ) with every second coefficient negated *)
Lemma to_neg f s x : to_fnum f (negb s) x = f_neg (to_fnum f s x).
Proof. destruct x as [num den| |]; cbn; [destruct (_ <=? _)%Z|..]; reflexivity. Qed.
Lemma mul_neg_l f x y : f_mul f (f_neg x) y = f_neg (f_mul f x y).
Proof. destruct x as [|a|a n], y as [|b|b m]; cbn [f_neg f_mul]; try reflexivity; rewrite <- ?negb_xorb_l; try destruct (_ =? 0)%Z; try reflexivity. apply to_neg. Qed.
Lemma mul_neg_r f x y : f_mul f x (f_neg y) = f_neg (f_mul f x y).
Proof. destruct x as [|a|a n], y as [|b|b m]; cbn [f_neg f_mul]; try reflexivity; rewrite <- ?negb_xorb_r; try destruct (_ =? 0)%Z; try reflexivity. apply to_neg. Qed.
Definition flip (b : bool) (x : fnum) : fnum := if b then f_neg x else x.
Lemma loop_flip f v cs : forall cs' b r F, length cs' = length cs -> (forall i, nth i cs' FNan = flip (xorb b (Nat.odd i)) (nth i cs FNan)) -> f_poly_loop f (f_neg v) r (flip b F) cs = f_poly_loop f v r F cs'.
Proof.
  induction cs as [|c cs IH]; intros [|c' cs'] b r F L H; try discriminate; [reflexivity|]. cbn [f_poly_loop]. pose proof (H 0%nat) as H0. cbn in H0. rewrite xorb_false_r in H0. subst c'.
  replace (f_mul f (flip b F) c) with (f_mul f F (flip b c)) by (destruct b; cbn [flip]; [rewrite mul_neg_l, mul_neg_r|]; reflexivity).
  replace (f_mul f (flip b F) (f_neg v)) with (flip (negb b) (f_mul f F v)) by (destruct b; cbn [flip negb]; rewrite ?mul_neg_l, mul_neg_r, ?neg_neg; reflexivity). apply IH; [injection L as L; exact L|]. intros i. specialize (H (S i)). cbn [nth] in H. rewrite H, Nat.odd_succ, <- Nat.negb_odd. f_equal. destruct b, (Nat.odd i); reflexivity.
Qed.
Theorem C100_mirror : forall f cs cs' v, length cs' = length cs -> (forall i, nth i cs' FNan = if Nat.odd i then f_neg (nth i cs FNan) else nth i cs FNan) -> f_poly_eval f cs (f_neg v) = f_poly_eval f cs' v.
Proof.
  intros f [|c cs] [|c' cs'] v L H; try discriminate; [reflexivity|]. unfold f_poly_eval. cbn [vget nth_error bind tl]. f_equal. pose proof (H 0%nat) as H0. cbn in H0. subst c'. apply (loop_flip f v cs cs' true); [injection L as L; exact L|]. intros i. specialize (H (S i)). cbn [nth] in H. rewrite H, Nat.odd_succ, <- Nat.negb_odd. cbn [xorb]. destruct (Nat.odd i); reflexivity.
Qed.
Print Assumptions C100_mirror.

(* equal but for the sign of zero *)
Definition Alike (x y : fnum) : Prop := x = y \/ exists a b, x = FFin a 0 /\ y = FFin b 0.
Lemma alike_same f x y : Alike x y -> Same f x y \/ x = FNan /\ y = FNan.
Proof.
  intros [<- |(a & b & -> & ->)]; [destruct x as [|a|a n]; [right; auto|left..]|left].
  - destruct a; [exists Below|exists Above]; split; reflexivity.
  - exists (Real (val f a n)). split; reflexivity.
  - exists (Real 0). cbn. rewrite !val_zero. split; reflexivity.
Qed.
Lemma alike_add f x y x' y' : Alike x x' -> Alike y y' -> Alike (f_add f x y) (f_add f x' y').
Proof.
  intros [<- |(a & b & -> & ->)] [<- |(c & d & -> & ->)]; [left; reflexivity|..].
  - destruct x as [|e|e n]; [left; reflexivity..|]. cbn [f_add]. replace (signed c 0) with 0%Z by (destruct c; reflexivity). replace (signed d 0) with 0%Z by (destruct d; reflexivity). destruct (_ =? 0)%Z; [right; eexists; eexists; split; reflexivity|left; reflexivity].
  - destruct y as [|e|e n]; [left; reflexivity..|]. cbn [f_add]. replace (signed a 0) with 0%Z by (destruct a; reflexivity). replace (signed b 0) with 0%Z by (destruct b; reflexivity). destruct (_ =? 0)%Z; [right; eexists; eexists; split; reflexivity|left; reflexivity].
  - right. destruct a, b, c, d; cbn; eexists; eexists; split; reflexivity.
Qed.
Lemma mul_zero f a x : Sane f -> f_mul f x (FFin a 0) = FNan \/ exists b, f_mul f x (FFin a 0) = FFin b 0.
Proof. intros W. pose proof W as [W1 W2]. pose proof (pow_pos_ (fm_low f) ltac:(lia)) as P. destruct x as [|b|b n]; [left; reflexivity|left; reflexivity|]. right. exists (xorb b a). cbn [f_mul]. rewrite Z.mul_0_r. apply to_zero; [exact W|nia]. Qed.
Lemma mul_zero_nan f a b x : Sane f -> f_mul f x (FFin a 0) = FNan -> f_mul f x (FFin b 0) = FNan.
Proof. intros W. pose proof W as [W1 W2]. pose proof (pow_pos_ (fm_low f) ltac:(lia)) as P. destruct x as [|c|c n]; try reflexivity. cbn [f_mul]. rewrite Z.mul_0_r, to_zero; [discriminate|exact W|nia]. Qed.
Lemma alike_mul f x y y' : Sane f -> Alike y y' -> Alike (f_mul f x y) (f_mul f x y').
Proof.
  intros W [<- |(a & b & -> & ->)]; [left; reflexivity|]. destruct (mul_zero f a x W) as [E|(c & E)]; [left; rewrite E; symmetry; apply (mul_zero_nan f a); assumption|]. destruct (mul_zero f b x W) as [E'|(d & E')]; [left; rewrite E'; apply (mul_zero_nan f b); assumption|]. right. exists c, d. auto.
Qed.
Lemma alike_trans x y z : Alike x y -> Alike y z -> Alike x z.
Proof. intros [<- |(a & b & -> & ->)] [<- |(c & d & E & ->)]; unfold Alike; eauto 6. Qed.
Lemma alike_neg x y : Alike x y -> Alike (f_neg x) (f_neg y).
Proof. intros [<- |(a & b & -> & ->)]; [left; reflexivity|right; cbn; eauto]. Qed.
Lemma loop_alike f v cs cs' : Sane f -> Forall2 Alike cs cs' -> forall r r' F, Alike r r' -> Alike (f_poly_loop f v r F cs) (f_poly_loop f v r' F cs').
Proof. intros W H. induction H as [|c c' cs cs' A H IH]; intros r r' F R; [exact R|]. cbn [f_poly_loop]. apply IH. apply alike_add; [exact R|apply alike_mul; assumption]. Qed.
Lemma add_neg f x y : Alike (f_add f (f_neg x) (f_neg y)) (f_neg (f_add f x y)).
Proof.
  destruct x as [|a|a n], y as [|b|b m]; cbn [f_neg f_add]; try (left; reflexivity).
  - left. destruct a, b; reflexivity.
  - replace (signed (negb a) n + signed (negb b) m)%Z with (- (signed a n + signed b m))%Z by (destruct a, b; cbn; lia). set (s := (signed a n + signed b m)%Z). destruct (Z.eqb_spec s 0) as [E|E]; [rewrite E; cbn; right; eauto|]. rewrite (proj2 (Z.eqb_neq _ _)) by lia. left. rewrite Z.abs_opp, <- to_neg. f_equal. destruct (Z.ltb_spec (- s) 0), (Z.ltb_spec s 0); try reflexivity; lia.
Qed.
Lemma loop_neg f v cs : Sane f -> forall r r' F, Alike r' (f_neg r) -> Alike (f_poly_loop f v r' F (map f_neg cs)) (f_neg (f_poly_loop f v r F cs)).
Proof. intros W. induction cs as [|c cs IH]; intros r r' F R; [exact R|]. cbn [f_poly_loop map]. apply IH. rewrite mul_neg_r. eapply alike_trans; [apply alike_add; [exact R|left; reflexivity]|apply add_neg]. Qed.
Lemma eval_alike f cs cs' v : Sane f -> cs <> [] -> Forall2 Alike cs cs' -> exists r r', f_poly_eval f cs v = Ok r /\ f_poly_eval f cs' v = Ok r' /\ Alike r r'.
Proof. intros W N H. destruct H as [|c c' cs cs' A H]; [contradiction|]. eexists. eexists. split; [reflexivity|]. split; [reflexivity|]. apply loop_alike; assumption. Qed.
Definition alternate (cs : list fnum) : list fnum := map (fun i => flip (Nat.odd i) (nth i cs FNan)) (seq 0 (length cs)).
Lemma alternate_nth cs i : nth i (alternate cs) FNan = if Nat.odd i then f_neg (nth i cs FNan) else nth i cs FNan.
Proof.
  unfold alternate. destruct (Nat.lt_ge_cases i (length cs)) as [L|L].
  - rewrite (nth_indep _ FNan (flip (Nat.odd 0) (nth 0 cs FNan))) by (rewrite map_length, seq_length; exact L). rewrite (map_nth (fun i => flip (Nat.odd i) (nth i cs FNan)) (seq 0 (length cs)) 0%nat i), seq_nth by exact L. reflexivity.
  - rewrite (nth_overflow (map _ _)) by (rewrite map_length, seq_length; exact L). rewrite (nth_overflow cs) by exact L. destruct (Nat.odd i); reflexivity.
Qed.
Lemma alternate_length cs : length (alternate cs) = length cs.
Proof. unfold alternate. rewrite map_length, seq_length. reflexivity. Qed.
Lemma forall2_nth (P : fnum -> fnum -> Prop) l : forall l', length l = length l' -> (forall i, (i < length l)%nat -> P (nth i l FNan) (nth i l' FNan)) -> Forall2 P l l'.
Proof. induction l as [|x l IH]; intros [|y l'] L H; try discriminate; constructor; [apply (H 0%nat); cbn; lia|]. apply IH; [injection L as L; exact L|]. intros i B. apply (H (S i)). cbn. lia. Qed.
(* even and odd polynomials, and the negative of a polynomial *)
Definition Zero (x : fnum) : Prop := exists a, x = FFin a 0.
Theorem C100_even : forall f cs v, IEEE f -> cs <> [] -> (forall i, (i < length cs)%nat -> Nat.odd i = true -> Zero (nth i cs FNan)) ->
  exists r r', f_poly_eval f cs v = Ok r /\ f_poly_eval f cs (f_neg v) = Ok r' /\ (Same f r r' \/ r = FNan /\ r' = FNan).
Proof.
  intros f cs v I N H. pose proof (ieee_sane f I) as W. rewrite (C100_mirror f cs (alternate cs) v (alternate_length cs) (alternate_nth cs)). destruct (eval_alike f cs (alternate cs) v W N) as (r & r' & E & E' & A).
  - apply forall2_nth; [symmetry; apply alternate_length|]. intros i B. rewrite alternate_nth. destruct (Nat.odd i) eqn:O; [|left; reflexivity]. destruct (H i B O) as [a ->]. right. cbn. eauto.
  - exists r, r'. split; [exact E|]. split; [exact E'|]. apply alike_same, A.
Qed.
Print Assumptions C100_even.
Theorem C100_negative : forall f cs v, IEEE f -> cs <> [] -> exists r r', f_poly_eval f cs v = Ok r /\ f_poly_eval f (map f_neg cs) v = Ok r' /\ (Same f r' (f_neg r) \/ r = FNan /\ r' = FNan).
Proof.
  intros f [|c cs] v I N; [contradiction|]. pose proof (ieee_sane f I) as W. eexists. eexists. split; [reflexivity|]. split; [reflexivity|]. cbn [map tl]. destruct (alike_same f _ _ (loop_neg f v cs W c (f_neg c) v (or_introl eq_refl))) as [S|[E1 E2]]; [left; exact S|right]. split; [|exact E1]. destruct (f_poly_loop f v c v cs); try discriminate. reflexivity.
Qed.
Print Assumptions C100_negative.
Theorem C100_odd : forall f cs v, IEEE f -> cs <> [] -> (forall i, (i < length cs)%nat -> Nat.odd i = false -> Zero (nth i cs FNan)) ->
  exists r r', f_poly_eval f cs v = Ok r /\ f_poly_eval f cs (f_neg v) = Ok r' /\ (Same f r' (f_neg r) \/ r = FNan /\ r' = FNan).
Proof.
  intros f cs v I N H. pose proof (ieee_sane f I) as W. rewrite (C100_mirror f cs (alternate cs) v (alternate_length cs) (alternate_nth cs)). destruct (eval_alike f (alternate cs) (map f_neg cs) v W) as (r' & r & E' & E & A).
  - intros Z. apply N. apply length_zero_iff_nil. rewrite <- alternate_length, Z. reflexivity.
  - apply forall2_nth; [rewrite map_length; apply alternate_length|]. intros i B. rewrite alternate_length in B. rewrite alternate_nth. change FNan with (f_neg FNan) at 3. rewrite map_nth. destruct (Nat.odd i) eqn:O; [left; reflexivity|]. destruct (H i B O) as [a ->]. right. cbn. eauto.
  - destruct cs as [|c cs]; [contradiction|]. exists (f_poly_loop f v c v cs), r'. split; [reflexivity|]. split; [exact E'|]. cbn in E. injection E as E. pose proof (loop_neg f v cs W c (f_neg c) v (or_introl eq_refl)) as A'. rewrite E in A'. destruct (alike_same f _ _ (alike_trans _ _ _ A A')) as [S|[E1 E2]]; [left; exact S|right]. split; [|exact E1]. destruct (f_poly_loop f v c v cs); try discriminate. reflexivity.
Qed.
Print Assumptions C100_odd.

(* the value at zero is the first coefficient *)
Lemma add_zero f x b : Sane f -> Fin f x -> Fin f (f_add f x (FFin b 0)) /\ number f (f_add f x (FFin b 0)) = number f x.
Proof.
  intros W (a & n & -> & F). pose proof (add_correct f a n b 0 W) as C. rewrite val_zero, Rplus_0_r in C. apply (correct_number f _ _ (FFin a n) W C); [exists a, n; auto|reflexivity].
Qed.
Lemma zero_mul f a x : Sane f -> Fin f x -> exists b, f_mul f (FFin a 0) x = FFin b 0.
Proof. intros W (b & n & -> & F). pose proof W as [W1 W2]. pose proof (pow_pos_ (fm_low f) ltac:(lia)) as P. exists (xorb a b). cbn [f_mul]. rewrite Z.mul_0_l. apply to_zero; [exact W|nia]. Qed.
Theorem C100_zero : forall f cs c a, IEEE f -> Forall (Fin f) (c :: cs) -> exists r, f_poly_eval f (c :: cs) (FFin a 0) = Ok r /\ Same f r c.
Proof.
  intros f cs c a I FC. pose proof (ieee_sane f I) as W. inversion FC as [|? ? F0 F1]; subst. eexists. split; [reflexivity|]. cbn [tl].
  assert (G : forall r b, Fin f r -> Fin f (f_poly_loop f (FFin a 0) r (FFin b 0) cs) /\ number f (f_poly_loop f (FFin a 0) r (FFin b 0) cs) = number f r).
  { clear FC F0. induction F1 as [|d cs FD F1 IH]; intros r b FR; [split; [exact FR|reflexivity]|]. cbn [f_poly_loop]. destruct (zero_mul f b d W FD) as [e ->]. destruct (zero_mul f b (FFin a 0) W) as [e' ->]; [exists a, 0%Z; split; [reflexivity|apply (zero_finite f W)]|]. destruct (add_zero f r e W FR) as [FA EA]. rewrite <- EA. apply IH, FA. }
  destruct (G c a F0) as [FR E]. apply (same_number f _ _ W FR F0). exact E.
Qed.
Print Assumptions C100_zero.

(* polynomials with coefficients that are not negative grow with v >= 0, also
   where they overflow *)
Definition IsZero (x : fnum) : bool := match x with FFin _ n => (n =? 0)%Z | _ => false end.
Lemma above f x : Num x -> LessEq f x (FInf false).
Proof. intros N. destruct (num_place f x N) as [p P]. apply lesseq_iff. exists p, Above. split; [exact P|]. split; [reflexivity|]. unfold xle. destruct p; cbn; auto. Qed.
Lemma nonneg_cases f x : Sane f -> Valid f x -> LessEq f f_zero x -> x = FInf false \/ exists a n, x = FFin a n /\ Finite f n /\ 0 <= val f a n.
Proof.
  intros W V L. pose proof (lesseq_num f _ _ L) as [_ N]. destruct x as [|[]|a n]; [contradiction|exfalso; destruct L as [(p & q & P & Q & L)|(p & P & Q)]; cbn in *; subst; [contradiction|discriminate]|left; reflexivity|]. right. exists a, n. split; [reflexivity|]. split; [exact V|]. apply lesseq_fin in L. rewrite val_zero in L. exact L.
Qed.
Lemma inf_mul f a n : Sane f -> 0 <= val f a n -> n <> 0%Z -> (0 <= n)%Z -> f_mul f (FInf false) (FFin a n) = FInf false /\ f_mul f (FFin a n) (FInf false) = FInf false.
Proof.
  intros W V N P. cbn [f_mul]. rewrite (proj2 (Z.eqb_neq _ _)) by exact N. destruct a; [|split; reflexivity]. exfalso. rewrite val_signed in V. cbn [signed] in V. pose proof (unit_pos f W). assert (IZR (- n) <= -1) by (apply IZR_le; lia). nra.
Qed.
Lemma mul_mono f x x' y y' : Sane f -> Valid f x -> Valid f x' -> Valid f y -> Valid f y' -> LessEq f f_zero x -> LessEq f x x' -> LessEq f f_zero y -> LessEq f y y' -> Num (f_mul f x y) -> Num (f_mul f x' y') ->
  LessEq f f_zero (f_mul f x y) /\ LessEq f (f_mul f x y) (f_mul f x' y') /\ Valid f (f_mul f x y) /\ Valid f (f_mul f x' y').
Proof.
  intros W VX VX' VY VY' X0 XX Y0 YY N N'. pose proof (lesseq_trans f _ _ _ X0 XX) as X0'. pose proof (lesseq_trans f _ _ _ Y0 YY) as Y0'. assert (Z : Correct f 0 f_zero) by (rewrite <- (val_zero f false); apply correct_fin; [exact W|apply (zero_finite f W)]).
  assert (K : forall x y, Valid f x -> Valid f y -> LessEq f f_zero x -> LessEq f f_zero y -> Num (f_mul f x y) -> f_mul f x y = FInf false \/ exists a n b m, x = FFin a n /\ y = FFin b m /\ 0 <= val f a n /\ 0 <= val f b m /\ Correct f (val f a n * val f b m) (f_mul f x y)).
  { clear - W Z. intros x y VX VY X0 Y0 N. destruct (nonneg_cases f x W VX X0) as [->|(a & n & -> & FN & AN)]; destruct (nonneg_cases f y W VY Y0) as [->|(b & m & -> & FM & BM)].
    - left. reflexivity.
    - left. apply inf_mul; [exact W|exact BM| |exact (fin_pos f b m VY)]. intros ->. apply N. reflexivity.
    - left. apply inf_mul; [exact W|exact AN| |exact (fin_pos f a n VX)]. intros ->. apply N. reflexivity.
    - right. exists a, n, b, m. repeat (split; [reflexivity||assumption|]). apply mul_correct; [exact W|exact (fin_pos f a n VX)|exact (fin_pos f b m VY)]. }
  assert (VM : forall x y, Valid f x -> Valid f y -> LessEq f f_zero x -> LessEq f f_zero y -> Num (f_mul f x y) -> Valid f (f_mul f x y)).
  { intros p q P1 P2 P3 P4 P5. destruct (K p q P1 P2 P3 P4 P5) as [->|(a & n & b & m & -> & -> & _ & _ & C)]; [exact I|apply (correct_valid _ _ _ C)]. }
  split; [|split; [|split; apply VM; assumption]].
  - destruct (K x y VX VY X0 Y0 N) as [->|(a & n & b & m & -> & -> & A & B & C)]; [apply above; discriminate|]. apply (correct_mono f _ _ _ _ W Z C). apply Rmult_le_pos; assumption.
  - destruct (K x' y' VX' VY' X0' Y0' N') as [E|(a & n & b & m & -> & -> & A & B & C)]; [rewrite E; apply above, N|]. destruct (nonneg_cases f x W VX X0) as [->|(a1 & n1 & -> & FN & AN)]; [exfalso; destruct XX as [(p & q & P & Q & XX)|(p & P & Q)]; cbn in *; subst; [contradiction|discriminate]|].
    destruct (nonneg_cases f y W VY Y0) as [->|(b1 & m1 & -> & FM & BM)]; [exfalso; destruct YY as [(p & q & P & Q & YY)|(p & P & Q)]; cbn in *; subst; [contradiction|discriminate]|]. apply lesseq_fin in XX, YY. apply (correct_mono f _ _ _ _ W (mul_correct f a1 n1 b1 m1 W (fin_pos f _ _ VX) (fin_pos f _ _ VY)) C). apply Rmult_le_compat; assumption.
Qed.
(* the running sum is a number or has become infinite *)
Definition Sum (f : fmt) (x : fnum) : Prop := x = FInf false \/ Fin f x.
Lemma sum_cases f x p : Sane f -> Sum f x -> Valid f p -> LessEq f f_zero p -> Sum f (f_add f x p) /\ (f_add f x p = FInf false \/ exists a n b m, x = FFin a n /\ p = FFin b m /\ Correct f (val f a n + val f b m) (f_add f x p)).
Proof.
  intros W SX VP P0. destruct (nonneg_cases f p W VP P0) as [->|(b & m & -> & FM & BM)].
  - assert (E : f_add f x (FInf false) = FInf false) by (destruct SX as [->|(a & n & -> & F)]; reflexivity). rewrite E. split; left; reflexivity.
  - destruct SX as [->|(a & n & -> & F)]; [split; left; reflexivity|]. pose proof (add_correct f a n b m W) as C. split; [|right; exists a, n, b, m; auto]. pose proof (correct_mono f _ _ _ _ W (correct_fin f a n W F) C ltac:(lra)) as L. pose proof (correct_num _ _ _ C) as N. pose proof (correct_valid _ _ _ C) as V. destruct (f_add f (FFin a n) (FFin b m)) as [|[]|c k]; [contradiction| |left; reflexivity|right; exists c, k; auto]. exfalso. destruct L as [(p & q & P & Q & L)|(p & P & Q)]; cbn in *; subst; [contradiction|discriminate].
Qed.
Lemma sum_mono f x x' p p' : Sane f -> Sum f x -> Sum f x' -> LessEq f x x' -> Valid f p -> Valid f p' -> LessEq f f_zero p -> LessEq f p p' -> LessEq f (f_add f x p) (f_add f x' p').
Proof.
  intros W SX SX' L VP VP' P0 PP. destruct (sum_cases f x p W SX VP P0) as [S C]. destruct (sum_cases f x' p' W SX' VP' (lesseq_trans f _ _ _ P0 PP)) as [S' C']. assert (N : Num (f_add f x p)) by (destruct S as [->|(a & n & -> & _)]; discriminate).
  destruct C' as [->|(a & n & b & m & -> & -> & C')]; [apply above, N|]. clear C. destruct SX as [->|(a' & n' & -> & F)]; [exfalso; destruct L as [(u & v & P & Q & L)|(u & P & Q)]; cbn in *; subst; [contradiction|discriminate]|]. destruct (nonneg_cases f p W VP P0) as [->|(b' & m' & -> & FM & BM)]; [exfalso; destruct PP as [(u & v & P & Q & PP)|(u & P & Q)]; cbn in *; subst; [contradiction|discriminate]|].
  apply lesseq_fin in L, PP. apply (correct_mono f _ _ _ _ W (add_correct f a' n' b' m' W) C'). lra.
Qed.
(* a factor of v: not nan, and zero if v is *)
Definition Power (f : fmt) (v F : fnum) : Prop := Valid f F /\ LessEq f f_zero F /\ (IsZero v = true -> IsZero F = true).
Lemma power_next f v F : Sane f -> Fin f v -> LessEq f f_zero v -> Power f v F -> Num (f_mul f F v) /\ Power f v (f_mul f F v).
Proof.
  intros W FV V0 (VF & F0 & Z). pose proof FV as (b & m & E & FM). subst v. assert (VV : Valid f (FFin b m)) by exact FM. pose proof W as [W1 W2]. pose proof (pow_pos_ (fm_low f) ltac:(lia)) as PL.
  assert (N : Num (f_mul f F (FFin b m))). { destruct (nonneg_cases f F W VF F0) as [->|(a & n & -> & FN & AN)]; [|apply (correct_num _ _ _ (mul_correct f a n b m W (fin_pos f a n VF) (fin_pos f b m VV)))]. cbn [f_mul]. destruct (Z.eqb_spec m 0) as [->|NE]; [cbn in Z; discriminate (Z eq_refl)|discriminate]. }
  split; [exact N|]. destruct (mul_mono f F F _ _ W VF VF VV VV F0 (lesseq_refl f F (proj2 (lesseq_num f _ _ F0))) V0 (lesseq_refl f _ (proj2 (lesseq_num f _ _ V0))) N N) as (A & _ & B & _). split; [exact B|]. split; [exact A|].
  cbn [IsZero]. intros M. apply Z.eqb_eq in M. subst m. destruct (mul_zero f b F W) as [E|(c & E)]; [contradiction|rewrite E; reflexivity].
Qed.
Lemma loop_mono f v v' cs : Sane f -> Fin f v -> Fin f v' -> LessEq f f_zero v -> LessEq f v v' -> Forall (fun c => Fin f c /\ LessEq f f_zero c) cs ->
  forall r r' F F', Sum f r -> Sum f r' -> LessEq f r r' -> Power f v F -> Power f v' F' -> LessEq f F F' -> Num (f_poly_loop f v' r' F' cs) -> LessEq f (f_poly_loop f v r F cs) (f_poly_loop f v' r' F' cs).
Proof.
  intros W FV FV' V0 VV H. pose proof (lesseq_trans f _ _ _ V0 VV) as V0'. assert (VAL : forall x, Fin f x -> Valid f x) by (intros x (a & n & -> & F); exact F).
  induction H as [|c cs [FC C0] H IH]; intros r r' F F' SR SR' L P P' LF N; [exact L|]. cbn [f_poly_loop] in *.
  assert (N' : Num (f_mul f F' c)) by (intros E; rewrite E, add_nan, loop_nan in N; apply N; reflexivity). destruct P as (VF & F0 & Z). destruct P' as (VF' & F0' & Z').
  assert (N1 : Num (f_mul f F c)). { destruct FC as (b & m & -> & FM). destruct (nonneg_cases f F W VF F0) as [->|(a & n & -> & FN & AN)]; [|apply (correct_num _ _ _ (mul_correct f a n b m W (fin_pos f a n VF) (fin_pos f b m FM)))]. destruct (nonneg_cases f F' W VF' F0') as [->|(a & n & -> & FN & AN)]; [exact N'|]. exfalso. destruct LF as [(p & q & P & Q & LF)|(p & P & Q)]; cbn in *; subst; [contradiction|discriminate]. }
  destruct (mul_mono f F F' c c W VF VF' (VAL c FC) (VAL c FC) F0 LF C0 (lesseq_refl f c (proj2 (lesseq_num f _ _ C0))) N1 N') as (P0 & PP & VP & VP').
  destruct (power_next f v F W FV V0 (conj VF (conj F0 Z))) as [NN PN]. destruct (power_next f v' F' W FV' V0' (conj VF' (conj F0' Z'))) as [NN' PN'].
  apply IH; [apply sum_cases; assumption|apply sum_cases; [exact W|exact SR'|exact VP'|apply (lesseq_trans f _ _ _ P0 PP)]|apply sum_mono; assumption|exact PN|exact PN'| |exact N].
  apply (mul_mono f F F' v v' W VF VF' (VAL v FV) (VAL v' FV') F0 LF V0 VV NN NN').
Qed.
Theorem C100_mono : forall f c cs v v' r', IEEE f -> Fin f c -> Forall (fun c => Fin f c /\ LessEq f f_zero c) cs -> Fin f v -> Fin f v' -> LessEq f f_zero v -> LessEq f v v' ->
  f_poly_eval f (c :: cs) v' = Ok r' -> r' <> FNan -> exists r, f_poly_eval f (c :: cs) v = Ok r /\ LessEq f r r'.
Proof.
  intros f c cs v v' r' I FC H FV FV' V0 VV E N. pose proof (ieee_sane f I) as W. assert (VAL : forall x, Fin f x -> Valid f x) by (intros x (a & n & -> & F); exact F). cbn in E. injection E as <-. eexists. split; [reflexivity|]. cbn [tl].
  assert (NC : Num c) by (destruct FC as (a & n & -> & _); discriminate). apply loop_mono; try assumption; try (right; exact FC); [apply (lesseq_refl f c NC)|split; [apply VAL, FV|]; auto|split; [apply VAL, FV'|]; split; [apply (lesseq_trans f _ _ _ V0 VV)|auto]].
Qed.
Print Assumptions C100_mono.

(* whole numbers that stay small are exact *)
Fixpoint whole (cs : list Z) (z : Z) : Z := match cs with [] => 0 | c :: cs' => c + z * whole cs' z end.
Lemma grid_correct f r x z : IEEE f -> Correct f r x -> r = IZR z -> (Z.abs z <= 2 ^ fm_prec f)%Z -> Fin f x /\ number f x = IZR z.
Proof. intros I C -> B. destruct (int_fin f z I B) as [F E]. destruct (correct_number f _ _ _ (ieee_sane f I) C F (eq_sym E)) as [G E']. split; assumption. Qed.
Lemma loop_whole f v z zs : IEEE f -> Fin f v -> number f v = IZR z -> forall cs r F s t, Forall2 (fun c k => Fin f c /\ number f c = IZR k) cs zs -> Fin f r -> number f r = IZR s ->
  (zs <> [] -> Fin f F /\ number f F = IZR t /\ (Z.abs t * Z.abs z ^ (Z.of_nat (length zs) - 1) <= 2 ^ fm_prec f)%Z) -> (Z.abs s + Z.abs t * whole (map Z.abs zs) (Z.abs z) <= 2 ^ fm_prec f)%Z ->
  Fin f (f_poly_loop f v r F cs) /\ number f (f_poly_loop f v r F cs) = IZR (s + t * whole zs z).
Proof.
  intros I FV EV. pose proof (ieee_sane f I) as W. induction zs as [|k zs IH]; intros cs r F s t H FR ER HF B; inversion H as [|c ? cs' ? [FC EC] H']; subst; [cbn; rewrite Z.mul_0_r, Z.add_0_r; auto|].
  cbn [f_poly_loop whole map] in *. destruct (HF ltac:(discriminate)) as (FF & EF & BF). assert (WP : (0 <= whole (map Z.abs zs) (Z.abs z))%Z) by (clear; induction zs; cbn; nia).
  assert (TP : (0 <= Z.abs t * (Z.abs z * whole (map Z.abs zs) (Z.abs z)))%Z) by (apply Z.mul_nonneg_nonneg; [lia|apply Z.mul_nonneg_nonneg; lia]). rewrite Z.mul_add_distr_l in B.
  destruct (fin_correct f F c W FF FC) as (_ & C1 & _). destruct (fin_correct f F v W FF FV) as (_ & C2 & _).
  destruct (grid_correct f _ _ (t * k) I C1) as [FP EP]; [rewrite EF, EC, mult_IZR; reflexivity|rewrite Z.abs_mul; lia|].
  destruct (fin_correct f r _ W FR FP) as (C3 & _). destruct (grid_correct f _ _ (s + t * k) I C3) as [FS ES]; [rewrite ER, EP, plus_IZR; reflexivity|pose proof (Z.abs_triangle s (t * k)); rewrite Z.abs_mul in *; lia|].
  destruct (IH cs' _ (f_mul f F v) _ (t * z)%Z H' FS ES) as [X1 X2].
  - intros NE. destruct zs as [|k' zs]; [contradiction|]. cbn [length] in *. replace (Z.of_nat (S (S (length zs))) - 1)%Z with (Z.succ (Z.of_nat (length zs))) in BF by lia. rewrite Z.pow_succ_r in BF by lia. replace (Z.of_nat (S (length zs)) - 1)%Z with (Z.of_nat (length zs)) by lia.
    assert (PP : (z <> 0 -> 1 <= Z.abs z ^ Z.of_nat (length zs))%Z) by (intros NZ; assert (0 < Z.abs z ^ Z.of_nat (length zs))%Z by (apply Z.pow_pos_nonneg; lia); lia).
    destruct (grid_correct f _ _ (t * z) I C2) as [FN EN]; [rewrite EF, EV, mult_IZR; reflexivity| |split; [exact FN|]; split; [exact EN|]; rewrite Z.abs_mul; nia]. rewrite Z.abs_mul. destruct (Z.eq_dec z 0) as [->|NZ]; [rewrite Z.mul_0_r; apply Z.pow_nonneg; lia|]. specialize (PP NZ). eapply Z.le_trans; [|exact BF]. apply Z.mul_le_mono_nonneg_l; [lia|]. nia.
  - rewrite (Z.abs_mul t z). pose proof (Z.abs_triangle s (t * k)). rewrite (Z.abs_mul t k) in *. rewrite <- Z.mul_assoc. lia.
  - split; [exact X1|]. rewrite X2. f_equal. ring.
Qed.
Theorem C100_whole : forall f cs v zs z, IEEE f -> zs <> [] -> Forall2 (fun c k => Fin f c /\ number f c = IZR k) cs zs -> Fin f v -> number f v = IZR z ->
  (whole (map Z.abs zs) (Z.abs z) <= 2 ^ fm_prec f)%Z -> (Z.abs z ^ (Z.of_nat (length zs) - 1) <= 2 ^ fm_prec f)%Z ->
  exists r, f_poly_eval f cs v = Ok r /\ Fin f r /\ number f r = IZR (whole zs z) /\ IZR (whole zs z) = polynomial (map IZR zs) (IZR z).
Proof.
  intros f cs v zs z I NE H FV EV B BZ. destruct H as [|c k cs zs [FC EC] H]; [contradiction|]. exists (f_poly_loop f v c v cs). split; [reflexivity|]. cbn [whole map] in B. destruct (loop_whole f v z zs I FV EV cs c v k z H FC EC) as [X1 X2].
  - intros N. split; [exact FV|]. split; [exact EV|]. cbn [length] in BZ. replace (Z.of_nat (S (length zs)) - 1)%Z with (Z.succ (Z.of_nat (length zs) - 1)) in BZ by lia. rewrite Z.pow_succ_r in BZ; [exact BZ|]. destruct zs; [contradiction|cbn [length]; lia].
  - exact B.
  - split; [exact X1|]. split; [exact X2|]. unfold polynomial. assert (G : forall l j, powers (map IZR l) (IZR z) j = IZR (whole l z) * IZR z ^ j) by (induction l as [|a l IH]; intros j; cbn [map powers whole]; [lra|]; rewrite IH, plus_IZR, mult_IZR; cbn [pow]; ring). rewrite (G (k :: zs)). cbn [pow]. lra.
Qed.
Print Assumptions C100_whole.

(* where a line meets y *)
Theorem C100_intersect : forall f a b y, IEEE f -> Fin f a -> Fin f b -> Fin f y -> Fin f (f_sub f y a) -> let x := f_intersect_y f (mkFl a b) y in let u := / IZR (2 ^ fm_prec f) in
  (number f b <> 0 -> Rabs (number f (f_sub f y a) / number f b) <= IZR (2 ^ fm_top f) / 2 ->
    Fin f x /\ Rabs (number f x - (number f y - number f a) / number f b) <= (2 * u + u * u) * Rabs ((number f y - number f a) / number f b) + unit_of f / 2 /\
    Rabs (number f a + number f b * number f x - number f y) <= (2 * u + u * u) * Rabs (number f y - number f a) + Rabs (number f b) * (unit_of f / 2)) /\
  (number f b <> 0 -> number f y = number f a -> Fin f x /\ number f x = 0) /\
  (number f b = 0 -> (number f y = number f a -> x = FNan) /\ (number f y <> number f a -> exists s, x = FInf s)).
Proof.
  intros f a b y I FA FB FY FS x u. pose proof (ieee_sane f I) as W. destruct (ulp_small f I) as [U _]. fold u in U. unfold ulp in U. fold u in U. pose proof (unit_pos f W) as UP. destruct (fin_correct f y a W FY FA) as (_ & _ & CS).
  assert (ES : Rabs (number f (f_sub f y a) - (number f y - number f a)) <= u * Rabs (number f y - number f a)).
  { destruct FS as (s & n & E & F). rewrite E in *. cbn [number] in *. destruct CS as (g & N & _ & -> & _). destruct FY as (c & k & -> & FK). destruct FA as (d & j & -> & FJ). cbn [number] in *. unfold Rminus in *. rewrite <- val_neg in *. rewrite Rmult_comm. exact (near_sum f c k (negb d) j _ W N). }
  assert (SZ : number f (f_sub f y a) = 0 <-> number f y = number f a).
  { split; intros E; [|rewrite E, Rminus_eq_0, Rabs_R0, Rmult_0_r, Rminus_0_r in ES; pose proof (Rabs_pos (number f (f_sub f y a))); destruct (Req_dec (number f (f_sub f y a)) 0) as [Z|Z]; [exact Z|apply Rabs_pos_lt in Z; lra]].
    rewrite E in ES. unfold Rminus at 1 in ES. rewrite Rplus_0_l, Rabs_Ropp in ES. destruct (Req_dec (number f y - number f a) 0) as [Z|Z]; [lra|apply Rabs_pos_lt in Z; nra]. }
  split; [|split].
  - intros NB R. destruct (div_fin f _ _ I FS FB NB R) as (FX & _ & EX). fold (f_intersect_y f (mkFl a b) y) in FX, EX. change (f_div f (f_sub f y a) b) with x in FX, EX. split; [exact FX|].
    set (d := number f y - number f a) in *. set (s := number f (f_sub f y a)) in *. set (bb := number f b) in *.
    assert (E1 : Rabs (number f x - d / bb) <= (2 * u + u * u) * Rabs (d / bb) + unit_of f / 2).
    { replace (number f x - d / bb) with ((number f x - s / bb) + (s - d) / bb) by (unfold Rdiv; ring). eapply Rle_trans; [apply Rabs_triang|]. assert (A1 : Rabs ((s - d) / bb) <= u * Rabs (d / bb)) by (unfold Rdiv; rewrite !Rabs_mult, <- Rmult_assoc; apply Rmult_le_compat_r; [apply Rabs_pos|exact ES]).
      assert (A2 : Rabs (s / bb) <= (1 + u) * Rabs (d / bb)). { replace (s / bb) with (d / bb + (s - d) / bb) by (unfold Rdiv; ring). eapply Rle_trans; [apply Rabs_triang|lra]. }
      apply (Rmult_le_compat_l u) in A2; [|lra]. fold (ulp f) in u. change (ulp f) with u in EX. lra. }
    split; [exact E1|]. replace (number f a + bb * number f x - number f y) with (bb * (number f x - d / bb)) by (unfold d; field; exact NB). rewrite Rabs_mult. apply (Rmult_le_compat_l (Rabs bb)) in E1; [|apply Rabs_pos]. eapply Rle_trans; [exact E1|]. right. replace (Rabs d) with (Rabs bb * Rabs (d / bb)) by (rewrite <- Rabs_mult; f_equal; field; exact NB). ring.
  - intros NB E. apply SZ in E. destruct FS as (s & n & ES' & FN). rewrite ES' in E. cbn [number] in E. destruct FB as (t & m & -> & FM). cbn [number] in NB. assert (n = 0%Z) by (apply (val_inj f s n 0 W); rewrite val_zero; exact E). subst n. assert (M : (0 < m)%Z) by (pose proof (rep_nonneg f m (proj1 FM)); destruct (Z.eq_dec m 0) as [->|]; [rewrite val_zero in NB; contradiction|lia]).
    unfold x, f_intersect_y. cbn [fl_offset fl_slope]. rewrite ES'. cbn [f_div]. rewrite (proj2 (Z.eqb_neq m 0)) by lia. rewrite (to_zero f _ m W M). split; [eexists; eexists; split; [reflexivity|exact FN]|apply val_zero].
  - intros B0. destruct FB as (t & m & -> & FM). cbn [number] in B0. assert (m = 0%Z) by (apply (val_inj f t m 0 W); rewrite val_zero; exact B0). subst m. destruct FS as (s & n & ES' & FN). rewrite ES' in SZ. cbn [number] in SZ. unfold x, f_intersect_y. cbn [fl_offset fl_slope]. rewrite ES'. cbn [f_div Z.eqb]. split; intros E.
    + apply SZ in E. assert (n = 0%Z) by (apply (val_inj f s n 0 W); rewrite val_zero; exact E). subst n. reflexivity.
    + destruct (Z.eqb_spec n 0) as [->|NN]; [exfalso; apply E, SZ, val_zero|eexists; reflexivity].
Qed.
Print Assumptions C100_intersect.

(* a coefficient zero times an infinite power *)
Theorem C100_zero_coefficient_refuted : let f := float_fmt in exists v, Fin f v /\ f_poly_eval f [f_one f; f_one f] v = Ok v /\ f_poly_eval f [f_one f; f_one f; f_zero] v = Ok FNan.
Proof. exists (flt 1 70). split; [apply flt_fin; lia|]. split; vm_compute; reflexivity. Qed.
Print Assumptions C100_zero_coefficient_refuted.
(* the line need not have the value y where it meets y *)
Theorem C100_intersect_refuted : let f := float_fmt in exists l y r, Fin f (fl_slope l) /\ Fin f y /\ fl_eval f l (f_intersect_y f l y) = Ok r /\ Less f r y.
Proof.
  assert (W : Sane float_fmt) by (apply ieee_sane; right; reflexivity). exists (mkFl f_zero (flt 41 0)), (f_one float_fmt). eexists. split; [apply flt_fin; lia|]. split; [apply (flt_fin 1 0); lia|]. split; [vm_compute; reflexivity|]. apply (lt_less _ _ _ W). vm_compute. reflexivity.
Qed.
Print Assumptions C100_intersect_refuted.
(* 1 + 2 v - 3 v^2 at 2, -2 and 1/2; an overflow; 5 + 2 x meets 8 at 3/2 *)
Example C100_example : let f := float_fmt in let p := [flt 1 0; flt 2 0; flt (-3) 0] in
  f_poly_eval f p (flt 2 0) = Ok (flt (-7) 0) /\ f_poly_eval f p (flt (-2) 0) = Ok (flt (-15) 0) /\ f_poly_eval f p (flt 1 (-1)) = Ok (flt 5 (-2)) /\ f_poly_eval f p (flt 1 70) = Ok (FInf true) /\ f_poly_eval f p f_zero = Ok (flt 1 0) /\
  f_poly_eval f p (FInf false) = Ok FNan /\ f_intersect_y f (mkFl (flt 5 0) (flt 2 0)) (flt 8 0) = flt 3 (-1) /\ f_intersect_y f (mkFl (flt 5 0) f_zero) (flt 8 0) = FInf false.
Proof. cbv zeta. repeat match goal with |- _ /\ _ => split end; vm_compute; reflexivity. Qed.
