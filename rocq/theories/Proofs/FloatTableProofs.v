(* Lemmas about tables of floating point numbers. *)
From Coq Require Import Reals ZArith Lia Lra List Bool.
From Verif Require Import Model.Base Model.FloatText Model.Math Model.Ieee Model.Interp Model.FloatInterp Model.FloatTable Spec.FloatText Spec.Ieee Spec.Interp Spec.FloatTable Proofs.FloatTextProofs Proofs.IeeeProofs Proofs.IeeeErrorProofs Proofs.FloatInterpProofs Proofs.FloatOpsProofs Props.FloatAverage Props.FloatSqrt Props.FloatVec Props.FloatInterp.
Import ListNotations.
Local Open Scope R_scope.

Lemma abs_le_inv x a : Rabs x <= a -> - a <= x <= a.
Proof. unfold Rabs. destruct (Rcase_abs x); lra. Qed.
Lemma mul_bound x y X Y : Rabs x <= X -> Rabs y <= Y -> Rabs (x * y) <= X * Y.
Proof. intros A B. rewrite Rabs_mult. apply Rmult_le_compat; try apply Rabs_pos; assumption. Qed.
Lemma abs_near x y d : Rabs (x - y) <= d -> Rabs x <= Rabs y + d.
Proof. intros H. replace x with (y + (x - y)) by ring. pose proof (Rabs_triang y (x - y)). lra. Qed.
(* the error of a mean, for any weight *)
Lemma mix_wide u h s w c a b p q g M S : 0 < u <= / 1000 -> 0 <= h -> 1 <= S -> Rabs s <= S -> Rabs a <= M -> Rabs b <= M ->
  Rabs (w - s) <= u * Rabs s -> Rabs (c - (1 - w)) <= u * Rabs (1 - w) -> Rabs (p - c * a) <= u * Rabs (c * a) + h -> Rabs (q - w * b) <= u * Rabs (w * b) + h -> Rabs (g - (p + q)) <= u * Rabs (p + q) ->
  Rabs (g - ((1 - s) * a + s * b)) <= 11 * u * (S * M) + 3 * h.
Proof.
  intros U H S1 BS A B EW EC EP EQ EG. assert (M0 : 0 <= M) by (pose proof (Rabs_pos a); lra). assert (SM : 0 <= S * M) by nra.
  assert (EW' : Rabs (w - s) <= u * S) by nra. assert (BW : Rabs w <= 1001 / 1000 * S) by (pose proof (abs_near _ _ _ EW'); nra).
  assert (B1 : Rabs (1 - w) <= 2001 / 1000 * S). { pose proof (Rabs_triang 1 (- w)). rewrite Rabs_R1, Rabs_Ropp in H0. unfold Rminus. nra. }
  assert (EC' : Rabs (c - (1 - w)) <= u * (2001 / 1000 * S)) by nra. assert (BC : Rabs c <= 2004 / 1000 * S) by (pose proof (abs_near _ _ _ EC'); nra).
  pose proof (mul_bound c a _ _ BC A) as BCA. pose proof (mul_bound w b _ _ BW B) as BWB.
  assert (EP' : Rabs (p - c * a) <= 2004 / 1000 * (u * (S * M)) + h) by nra. assert (EQ' : Rabs (q - w * b) <= 1001 / 1000 * (u * (S * M)) + h) by nra.
  assert (USM : u * (S * M) <= / 1000 * (S * M)) by nra. assert (USM0 : 0 <= u * (S * M)) by nra.
  assert (BP : Rabs p <= 2007 / 1000 * (S * M) + h) by (pose proof (abs_near _ _ _ EP'); nra). assert (BQ : Rabs q <= 1003 / 1000 * (S * M) + h) by (pose proof (abs_near _ _ _ EQ'); nra).
  assert (BPQ : Rabs (p + q) <= 3010 / 1000 * (S * M) + 2 * h) by (pose proof (Rabs_triang p q); lra).
  assert (EG' : Rabs (g - (p + q)) <= 3010 / 1000 * (u * (S * M)) + / 500 * h) by nra.
  pose proof (mul_bound _ _ _ _ EC' A) as D1. assert (BD : Rabs (b - a) <= 2 * M). { pose proof (Rabs_triang b (- a)). rewrite Rabs_Ropp in H0. unfold Rminus. lra. } pose proof (mul_bound _ _ _ _ EW' BD) as D2.
  replace (g - ((1 - s) * a + s * b)) with ((g - (p + q)) + ((p - c * a) + ((q - w * b) + ((c - (1 - w)) * a + (w - s) * (b - a))))) by ring.
  pose proof (Rabs_triang (g - (p + q)) ((p - c * a) + ((q - w * b) + ((c - (1 - w)) * a + (w - s) * (b - a))))). pose proof (Rabs_triang (p - c * a) ((q - w * b) + ((c - (1 - w)) * a + (w - s) * (b - a)))). pose proof (Rabs_triang (q - w * b) ((c - (1 - w)) * a + (w - s) * (b - a))). pose proof (Rabs_triang ((c - (1 - w)) * a) ((w - s) * (b - a))). nra.
Qed.
(* parts of the broken line, with the distance of the points for unit *)
Definition line (d : Z -> R) (k : Z) (t : R) : R := d k + (t - IZR k) * (d (k + 1)%Z - d k).
Definition part (n k : Z) (t : R) : Prop := (0 <= k < n)%Z /\ (k = 0%Z \/ IZR k <= t) /\ (k = (n - 1)%Z \/ t <= IZR (k + 1)).
Lemma line_lip d M k s t : (forall i, Rabs (d i) <= M) -> Rabs (line d k s - line d k t) <= 2 * M * Rabs (s - t).
Proof.
  intros B. unfold line. replace (d k + (s - IZR k) * (d (k + 1)%Z - d k) - (d k + (t - IZR k) * (d (k + 1)%Z - d k))) with ((d (k + 1)%Z - d k) * (s - t)) by ring. apply mul_bound; [|lra].
  pose proof (Rabs_triang (d (k + 1)%Z) (- d k)) as T. rewrite Rabs_Ropp in T. pose proof (B k). pose proof (B (k + 1)%Z). unfold Rminus. lra.
Qed.
Lemma line_end d k : line d k (IZR (k + 1)) = line d (k + 1) (IZR (k + 1)).
Proof. unfold line. rewrite plus_IZR. ring. Qed.
Lemma part_lip d M n : (forall i, Rabs (d i) <= M) -> forall m k k' s t, (k' - k <= Z.of_nat m)%Z -> part n k s -> part n k' t -> s <= t -> Rabs (line d k s - line d k' t) <= 2 * M * (t - s).
Proof.
  intros B. assert (M0 : 0 <= M) by (pose proof (B 0%Z); pose proof (Rabs_pos (d 0%Z)); lra).
  assert (EQ : forall k s t, s <= t -> Rabs (line d k s - line d k t) <= 2 * M * (t - s)) by (intros k s t L; rewrite <- (Rabs_right (t - s)), (Rabs_minus_sym t s) by lra; apply line_lip; exact B).
  assert (GE : forall k k' s t, (k' <= k)%Z -> part n k s -> part n k' t -> s <= t -> Rabs (line d k s - line d k' t) <= 2 * M * (t - s)).
  { intros k k' s t L (P1 & P2 & P3) (Q1 & Q2 & Q3) ST. destruct (Z.eq_dec k' k) as [->|N]; [apply EQ; exact ST|]. assert (KS : IZR k <= s) by (destruct P2 as [->|P2]; [lia|exact P2]). assert (KT : t <= IZR (k' + 1)) by (destruct Q3 as [->|Q3]; [lia|exact Q3]).
    assert (IZR (k' + 1) <= IZR k) by (apply IZR_le; lia). assert (KK : k = (k' + 1)%Z) by (apply eq_IZR; lra). subst k. assert (S1 : s = IZR (k' + 1)) by lra. assert (T1 : t = IZR (k' + 1)) by lra. rewrite S1, T1, line_end. replace (line d (k' + 1) (IZR (k' + 1)) - line d (k' + 1) (IZR (k' + 1))) with 0 by ring. rewrite Rabs_R0. lra. }
  induction m as [|m IH]; intros k k' s t L P Q ST; [apply GE; [lia|exact P|exact Q|exact ST]|]. destruct (Z_le_gt_dec k' k) as [C|C]; [apply GE; [lia|exact P|exact Q|exact ST]|].
  destruct P as (P1 & P2 & P3), Q as (Q1 & Q2 & Q3). assert (KT : IZR k' <= t) by (destruct Q2 as [->|Q2]; [lia|exact Q2]). assert (KS : s <= IZR (k + 1)) by (destruct P3 as [->|P3]; [lia|exact P3]). assert (KK : IZR (k + 1) <= IZR k') by (apply IZR_le; lia).
  pose proof (IH k (k' - 1)%Z s (IZR k') ltac:(lia) (conj P1 (conj P2 P3))) as H. assert (PP : part n (k' - 1) (IZR k')). { split; [lia|]. split; [right; apply IZR_le; lia|right; apply IZR_le; lia]. }
  specialize (H PP ltac:(lra)). pose proof (line_end d (k' - 1)) as LE. replace (k' - 1 + 1)%Z with k' in LE by lia. rewrite LE in H. pose proof (EQ k' (IZR k') t KT) as H2.
  replace (line d k s - line d k' t) with ((line d k s - line d k' (IZR k')) + (line d k' (IZR k') - line d k' t)) by ring. eapply Rle_trans; [apply Rabs_triang|]. lra.
Qed.
Lemma line_diff d M n k k' s t : (forall i, Rabs (d i) <= M) -> part n k s -> part n k' t -> Rabs (line d k s - line d k' t) <= 2 * M * Rabs (s - t).
Proof.
  intros B P Q. destruct (Rle_dec s t) as [L|L].
  - rewrite (Rabs_minus_sym s t), (Rabs_right (t - s)) by lra. apply (part_lip d M n B (Z.to_nat (k' - k)) k k' s t); [lia|exact P|exact Q|exact L].
  - rewrite Rabs_minus_sym, (Rabs_right (s - t)) by lra. apply (part_lip d M n B (Z.to_nat (k - k')) k' k t s); [lia|exact Q|exact P|lra].
Qed.
Lemma along_part base step d n x v : 0 < step -> (Along base step d n x v <-> exists k, part n k ((x - base) / step) /\ v = line d k ((x - base) / step)).
Proof.
  intros SP. set (t := (x - base) / step). assert (X : x = base + t * step) by (unfold t; field; lra). assert (C : forall k, chord (base + IZR k * step) (d k) (base + IZR (k + 1) * step) (d (k + 1)%Z) x = line d k t).
  { intros k. unfold chord, line. rewrite X, plus_IZR. field. lra. } clearbody t. subst x. assert (LE : forall r q, base + r * step <= base + q * step <-> r <= q) by (intros r q; split; intros; nra).
  split; intros (k & K1 & K2); exists k; [destruct K2 as (K2 & K3 & K4)|destruct K1 as (K1 & K3 & K4)].
  - rewrite C in K4. split; [|exact K4]. split; [exact K1|]. rewrite (LE (IZR k) t) in K2. rewrite (LE t (IZR (k + 1))) in K3. auto.
  - rewrite C. split; [exact K1|]. rewrite (LE (IZR k) t), (LE t (IZR (k + 1))). auto.
Qed.
(* clamped whole parts *)
Lemma clamp_part n t i : (1 <= n)%Z -> IZR i <= t < IZR (i + 1) -> part n (clamp Z.ltb i 0%Z (n - 1)%Z) t.
Proof.
  intros N [L U]. unfold clamp. destruct (Z.ltb_spec i 0).
  - split; [lia|]. split; [left; reflexivity|right]. assert (IZR (i + 1) <= IZR (0 + 1)) by (apply IZR_le; lia). lra.
  - destruct (Z.ltb_spec (n - 1) i).
    + split; [lia|]. split; [right; assert (IZR (n - 1) <= IZR i) by (apply IZR_le; lia); lra|left; reflexivity].
    + split; [lia|]. split; [right; exact L|right; lra].
Qed.
(* the samples as real numbers *)
Definition samples (f : fmt) (l : list fnum) (i : Z) : R := number f (nth (Z.to_nat i) l f_zero).
Lemma samples_bound f l M : 0 <= M -> (forall y, In y l -> Rabs (number f y) <= M) -> forall i, Rabs (samples f l i) <= M.
Proof.
  intros M0 B i. unfold samples. destruct (nth_in_or_default (Z.to_nat i) l f_zero) as [I| ->]; [apply B; exact I|]. cbn [f_zero number]. rewrite val_zero, Rabs_R0. exact M0.
Qed.
Lemma samples_fin f l i : Sane f -> Forall (Fin f) l -> Fin f (nth (Z.to_nat i) l f_zero).
Proof. intros W F. rewrite Forall_forall in F. destruct (nth_in_or_default (Z.to_nat i) l f_zero) as [I| ->]; [apply F; exact I|]. exists false, 0%Z. split; [reflexivity|apply zero_finite; exact W]. Qed.
(* whole parts *)
Lemma floor_int f a n : Sane f -> let z := (signed a n / 2 ^ fm_low f)%Z in IZR z <= val f a n < IZR (z + 1).
Proof.
  intros W z. pose proof W as [W1 W2]. pose proof (pow_pos_ (fm_low f) ltac:(lia)) as LP. rewrite <- !(count_val f _ W). pose proof (Z.mul_div_le (signed a n) (2 ^ fm_low f) LP) as L. pose proof (Z.mul_succ_div_gt (signed a n) (2 ^ fm_low f) LP) as G. fold z in L, G.
  split; [apply (val_le f _ _ _ _ W)|apply (val_lt f _ _ _ _ W)]; cbn [signed]; lia.
Qed.
Lemma whole_unique r i j : IZR i <= r < IZR (i + 1) -> IZR j <= r < IZR (j + 1) -> i = j.
Proof. intros [A B] [C D]. assert (IZR i < IZR (j + 1)) by lra. assert (IZR j < IZR (i + 1)) by lra. apply lt_IZR in H, H0. lia. Qed.
(* the index of x *)
Lemma table_index f base step x T : IEEE f -> Fin f base -> Fin f step -> Fin f x -> 0 < number f step -> Fin f (f_sub f x base) -> let t := (number f x - number f base) / number f step in
  1 <= T <= IZR (2 ^ 30) -> Rabs t <= T -> Fin f (f_div f (f_sub f x base) step) /\ Rabs (number f (f_div f (f_sub f x base) step) - t) <= 201 / 100 * ulp f * T /\ (0 <= t -> 0 <= number f (f_div f (f_sub f x base) step)).
Proof.
  intros I FB FS FX SP FD t TB TT. pose proof (ieee_sane f I) as W. destruct (ulp_small f I) as [U US]. pose proof (unit_pos f W) as UP.
  assert (ND : Near f (number f x - number f base) (number f (f_sub f x base))). { pose proof FX as (a & n & -> & FN). pose proof FB as (b & m & -> & FM). pose proof (sub_correct f a n b m W) as C. destruct FD as (c & k & E & FK). rewrite E in *. destruct (correct_parts f _ _ _ C) as [_ N]. exact N. }
  assert (ED : Rabs (number f (f_sub f x base) - (number f x - number f base)) <= ulp f * Rabs (number f x - number f base)) by (rewrite Rmult_comm; exact (near_gsub f _ _ _ W (fin_grid f x FX) (fin_grid f base FB) ND)).
  set (d := number f (f_sub f x base)) in *. assert (XT : number f x - number f base = t * number f step) by (unfold t; field; lra). rewrite XT in ED.
  assert (EQ : Rabs (d / number f step - t) <= ulp f * Rabs t). { replace (d / number f step - t) with ((d - t * number f step) / number f step) by (field; lra). unfold Rdiv at 1. rewrite Rabs_mult, Rabs_inv, (Rabs_right (number f step)) by lra. rewrite Rabs_mult, (Rabs_right (number f step)) in ED by lra. apply (Rmult_le_reg_r (number f step)); [exact SP|]. rewrite Rmult_assoc, Rinv_l, Rmult_1_r by lra. nra. }
  assert (BQ : Rabs (d / number f step) <= 1001 / 1000 * T). { pose proof (abs_near _ _ _ EQ). pose proof (Rabs_pos t). nra. }
  destruct (div_fin f (f_sub f x base) step I FD FS ltac:(lra)) as (FQ & NQ & DQ). { fold d. pose proof (room_large f I). assert (IZR (2 ^ 60) = IZR (2 ^ 30) * IZR (2 ^ 30)) by (rewrite <- mult_IZR; reflexivity). assert (2 <= IZR (2 ^ 30)) by (apply (IZR_le 2); reflexivity || lia). nra. }
  fold d in NQ, DQ. set (q := number f (f_div f (f_sub f x base) step)) in *. split; [exact FQ|]. split.
  - replace (q - t) with ((q - d / number f step) + (d / number f step - t)) by ring. eapply Rle_trans; [apply Rabs_triang|]. nra.
  - intros T0. assert (D0 : 0 <= d). { apply (near_mono f 0 0 (number f x - number f base) d (near_zero f W) ND). rewrite XT. nra. } apply (near_mono f 0 0 (d / number f step) q (near_zero f W) NQ). apply Rmult_le_pos; [exact D0|]. left. apply Rinv_0_lt_compat. exact SP.
Qed.
(* what operator() computes *)
Lemma table_eval f base step n l x : Sane f -> (1 <= n <= 2 ^ 31 - 2)%Z -> Z.of_nat (length l) = (n + 1)%Z -> let q := f_div f (f_sub f x base) step in forall a m, q = FFin a m -> let i := (signed a m / 2 ^ fm_low f)%Z in
  ((- 2 ^ 31 <= i < 2 ^ 31)%Z -> exists k, part n k (val f a m) /\ k = clamp Z.ltb i 0%Z (n - 1)%Z /\ f_rpl_eval f (mkFrpl base step (n + 1) l) x = Ok (f_mix f (f_sub f q (f_of_int f k)) (nth (Z.to_nat k) l f_zero) (nth (Z.to_nat (k + 1)) l f_zero))) /\
  (~ (- 2 ^ 31 <= i < 2 ^ 31)%Z -> f_rpl_eval f (mkFrpl base step (n + 1) l) x = UB).
Proof.
  intros W N L q a m Q i. unfold f_rpl_eval. cbn [ft_base ft_step ft_points ft_data]. fold q. rewrite Q. cbn [f_floor_int]. fold i. unfold to_int. split.
  - intros B. rewrite (proj2 (Z.leb_le _ _) (proj1 B)), (proj2 (Z.ltb_lt _ _) (proj2 B)). cbn [andb bind]. replace (n + 1 - 2)%Z with (n - 1)%Z by lia. set (k := clamp Z.ltb i 0%Z (n - 1)%Z).
    assert (P : part n k (val f a m)) by (apply clamp_part; [lia|apply (floor_int f a m W)]). exists k. split; [exact P|]. split; [reflexivity|]. destruct P as (K & _ & _). unfold zget. rewrite (proj2 (Z.ltb_ge k 0)), (proj2 (Z.ltb_ge (k + 1) 0)) by lia. unfold vget.
    rewrite (nth_error_nth' l f_zero) by lia. rewrite (nth_error_nth' l f_zero) by lia. reflexivity.
  - intros B. destruct (Z.leb_spec (- 2 ^ 31) i); [|reflexivity]. destruct (Z.ltb_spec i (2 ^ 31)); [lia|reflexivity].
Qed.
(* the mean, for weights that are not too large *)
Lemma mix_fin f x k a b M S : IEEE f -> Fin f x -> Fin f a -> Fin f b -> (Z.abs k <= 2 ^ fm_prec f)%Z -> 1 <= S <= IZR (2 ^ 32) -> Rabs (number f x - IZR k) <= S -> Rabs (number f a) <= M -> Rabs (number f b) <= M -> 4 * (S * M) <= room f ->
  let r := f_mix f (f_sub f x (f_of_int f k)) a b in let s := number f x - IZR k in
  Fin f r /\ Rabs (number f r - ((1 - s) * number f a + s * number f b)) <= 11 * ulp f * (S * M) + 3 / 2 * unit_of f.
Proof.
  intros I FX FA FB K SB BS BA BB RM r s. pose proof (ieee_sane f I) as W. destruct (ulp_small f I) as [U US]. pose proof (unit_pos f W) as UP. destruct (int_fin f k I K) as [FK EK]. pose proof (room_large f I) as RL. assert (M0 : 0 <= M) by (pose proof (Rabs_pos (number f a)); lra). assert (SM : 0 <= S * M) by nra.
  assert (P60 : 4 * IZR (2 ^ 32) <= IZR (2 ^ 60)) by (rewrite <- mult_IZR; apply IZR_le; vm_compute; discriminate). assert (P1 : 1000 <= IZR (2 ^ 32)) by (apply IZR_le; vm_compute; discriminate).
  destruct (sub_fin f x (f_of_int f k) I FX FK) as (FW & NW & EW); [rewrite EK; lra|]. rewrite EK in EW. fold s in EW, BS. set (w := f_sub f x (f_of_int f k)) in *.
  assert (EW' : Rabs (number f w - s) <= ulp f * S) by nra. assert (BW : Rabs (number f w) <= 1001 / 1000 * S) by (pose proof (abs_near _ _ _ EW'); nra).
  assert (F1 : Fin f (f_one f)) by (exists false, (2 ^ fm_low f)%Z; split; [reflexivity|apply one_finite; exact W]). assert (E1 : number f (f_one f) = 1) by (apply one_val; exact W).
  assert (B1 : Rabs (1 - number f w) <= 2001 / 1000 * S). { pose proof (Rabs_triang 1 (- number f w)). rewrite Rabs_R1, Rabs_Ropp in H. unfold Rminus. nra. }
  destruct (sub_fin f (f_one f) w I F1 FW) as (FC & NC & EC); [rewrite E1; lra|]. rewrite E1 in EC. set (c := f_sub f (f_one f) w) in *.
  assert (EC' : Rabs (number f c - (1 - number f w)) <= ulp f * (2001 / 1000 * S)) by nra. assert (BC : Rabs (number f c) <= 2004 / 1000 * S) by (pose proof (abs_near _ _ _ EC'); nra).
  pose proof (mul_bound _ _ _ _ BC BA) as BCA. pose proof (mul_bound _ _ _ _ BW BB) as BWB.
  destruct (mul_fin f c a I FC FA ltac:(nra)) as (FP & NP & EP). destruct (mul_fin f w b I FW FB ltac:(nra)) as (FQ & NQ & EQ). set (p := f_mul f c a) in *. set (q := f_mul f w b) in *.
  assert (USM : ulp f * (S * M) <= / 1000 * (S * M)) by nra. assert (HU : unit_of f <= / 1000) by lra.
  assert (BP : Rabs (number f p) <= 2007 / 1000 * (S * M) + 1). { pose proof (abs_near _ _ _ EP). nra. } assert (BQ : Rabs (number f q) <= 1003 / 1000 * (S * M) + 1). { pose proof (abs_near _ _ _ EQ). nra. }
  destruct (add_fin f p q I FP FQ) as (FR & NR & ER). { pose proof (Rabs_triang (number f p) (number f q)). nra. }
  split; [exact FR|]. replace (3 / 2 * unit_of f) with (3 * (unit_of f / 2)) by lra. apply (mix_wide (ulp f) (unit_of f / 2) s (number f w) (number f c) (number f a) (number f b) (number f p) (number f q) (number f r) M S); try assumption; lra.
Qed.
