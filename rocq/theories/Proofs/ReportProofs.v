From Coq Require Import Reals Lra String Sorted Permutation.
From Verif Require Import Model.Base Model.StdString Model.Strings Model.Number Model.PropTree Model.PropNode Model.FloatText Model.Ieee Model.FloatInterp Model.Profiler Model.Report.
From Verif Require Import Spec.Strings Spec.Decimal Spec.FloatText Spec.Ieee Spec.PropNode Spec.Profiler.
From Verif Require Import Proofs.NumberProofs Proofs.FloatTextProofs Proofs.IeeeProofs Proofs.IeeeErrorProofs Props.FloatAverage Proofs.FloatOpsProofs.
From Verif Require Import Spec.Report.
Local Notation signed := Ieee.signed.
Local Open Scope list_scope.
Local Open Scope Z_scope.

(* ---------- text ---------- *)
Lemma ten_pos D : 0 < 10 ^ Z.of_nat D. Proof. apply Z.pow_pos_nonneg; lia. Qed.
Definition rounded (f : fmt) (D : nat) (n : Z) : Z := rhe (n * 10 ^ Z.of_nat D) (2 ^ fm_low f).
Lemma rounded_rounds f D n : 0 <= fm_low f -> Rounds (n * 10 ^ Z.of_nat D) (2 ^ fm_low f) (rounded f D n).
Proof. intros U. apply rhe_rounds, pow_pos_, U. Qed.
Lemma rounded_nonneg f D n : 0 <= fm_low f -> 0 <= n -> 0 <= rounded f D n.
Proof. intros U N. pose proof (ten_pos D). apply (rounds_nonneg (n * 10 ^ Z.of_nat D) (2 ^ fm_low f)); [apply pow_pos_, U|nia|apply rounded_rounds, U]. Qed.
Lemma printf_fixed nan f D neg n : IEEE f -> Finite f n -> Fixed D neg (rounded f D n) (printf_f nan f D (FFin neg n)).
Proof.
  intros I [R F]. pose proof (ieee_wide f I) as [[W1 W2] W3]. pose proof (rep_nonneg f n R) as N. pose proof (rounded_nonneg f D n ltac:(lia) N) as K0. pose proof (rounded_rounds f D n ltac:(lia)) as K. pose proof (ten_pos D) as TP. cbn [printf_f]. fold (rounded f D n). set (k := rounded f D n) in *.
  pose proof (pow_pos_ (fm_low f) ltac:(lia)) as PU.
  assert (KT : k <= 2 ^ fm_top f * 10 ^ Z.of_nat D).
  { apply (rounds_mono (n * 10 ^ Z.of_nat D) (2 ^ fm_low f) k (2 ^ fm_top f * 10 ^ Z.of_nat D * 2 ^ fm_low f) (2 ^ fm_low f)); [exact PU|exact PU|exact K|apply rounds_exact; exact PU|]. rewrite Z.pow_add_r in F by lia. nia. }
  assert (Q : 0 <= k / 10 ^ Z.of_nat D < 10 ^ Z.of_nat 400). { split; [apply Z.div_pos; lia|]. eapply Z.le_lt_trans; [|apply (ieee_top f I)]. apply Z.div_le_upper_bound; lia. }
  pose proof (Z.mod_pos_bound k (10 ^ Z.of_nat D) TP) as M. destruct (last_digits_spec D (k mod 10 ^ Z.of_nat D) M) as (L & FD & V).
  pose proof (Fixed_intro D neg _ _ _ (digits_canonical _ Q) (proj1 Q) L FD) as X. rewrite V in X.
  replace (k / 10 ^ Z.of_nat D * 10 ^ Z.of_nat D + k mod 10 ^ Z.of_nat D) with k in X by (rewrite (Z.div_mod k (10 ^ Z.of_nat D)) at 1 by lia; ring).
  replace (match D with O => [] | _ => "."%char :: last_digits D (k mod 10 ^ Z.of_nat D) end) with (match last_digits D (k mod 10 ^ Z.of_nat D) with [] => [] | _ => lit "." ++ last_digits D (k mod 10 ^ Z.of_nat D) end); [destruct neg; exact X|].
  destruct D as [|D]; [reflexivity|]. destruct (last_digits (S D) _) as [|c r] eqn:E; [discriminate L|reflexivity].
Qed.
Lemma field_field W s : Field W s (field W s).
Proof. exists (W - List.length s)%nat. split; [reflexivity|]. unfold field. rewrite app_length, repeat_length. lia. Qed.
(* no NUL, and how long it is *)
Definition Clear (s : str) : Prop := Forall (fun c => c <> NUL) s.
Lemma clear_app a b : Clear a -> Clear b -> Clear (a ++ b). Proof. intros A B. apply Forall_app. auto. Qed.
Lemma digits_clear ds : Forall IsDigit ds -> Clear ds.
Proof. intros F. eapply Forall_impl; [|exact F]. intros c D ->. unfold IsDigit, dval in D. cbn in D. lia. Qed.
Lemma fixed_clear D neg k s : Fixed D neg k s -> Clear s.
Proof.
  intros [neg' ip i fp C P L F]. destruct (canonical_digits ip i C P) as (_ & FI & _). apply clear_app; [destruct neg'; repeat constructor; discriminate|]. apply clear_app; [apply digits_clear, FI|].
  destruct fp as [|c fp]; [constructor|]. apply clear_app; [repeat constructor; discriminate|apply digits_clear, F].
Qed.
Lemma field_clear W s v : Clear s -> Field W s v -> Clear v.
Proof. intros C (j & -> & _). apply clear_app; [|exact C]. clear. induction j; constructor; [discriminate|assumption]. Qed.
Lemma digits_value_bound ds : Forall IsDigit ds -> 0 <= digits_value ds < 10 ^ Z.of_nat (List.length ds).
Proof.
  induction 1 as [|d ds D F IH]; cbn [digits_value List.length]; [cbn; lia|]. rewrite Nat2Z.inj_succ, Z.pow_succ_r by lia. unfold IsDigit in D. nia.
Qed.
Lemma canonical_length ip i m : Canonical ip i -> 0 <= i < 10 ^ Z.of_nat m -> (1 <= m)%nat -> (List.length ip <= m)%nat.
Proof.
  intros C B M. inversion C as [E1 E2|d ds D1 D2 D3 E1 E2|d ds D1 D2 D3 E1 E2]; subst; cbn [List.length].
  - lia.
  - destruct (Nat.le_gt_cases (S (List.length ds)) m) as [|G]; [assumption|exfalso]. cbn [digits_value] in B. pose proof (digits_value_bound ds D3) as V.
    assert (1 <= dval d). { unfold IsDigit in D1. assert (dval d <> 0); [|lia]. intros Z. apply D2. unfold dval in Z. rewrite <- (ascii_nat_embedding d). replace (nat_of_ascii d) with 48%nat by lia. reflexivity. }
    assert (10 ^ Z.of_nat m <= 10 ^ Z.of_nat (List.length ds)) by (apply Z.pow_le_mono_r; lia). nia.
  - pose proof (digits_value_bound (d :: ds) ltac:(constructor; assumption)) as V. assert (1 <= dval d). { unfold IsDigit in D1. assert (dval d <> 0); [|lia]. intros Z. apply D2. unfold dval in Z. rewrite <- (ascii_nat_embedding d). replace (nat_of_ascii d) with 48%nat by lia. reflexivity. }
    cbn [digits_value] in *. pose proof (digits_value_bound ds D3) as V'. assert (0 < 10 ^ Z.of_nat (List.length ds)) by (apply ten_pos). nia.
Qed.
Lemma fixed_length D neg k s m : Fixed D neg k s -> k < 10 ^ Z.of_nat m -> (1 <= m)%nat -> (List.length s <= 2 + m + D)%nat.
Proof.
  intros [neg' ip i fp C P L F] K M. pose proof (digits_value_bound fp F) as V. pose proof (ten_pos D) as T. pose proof (canonical_length ip i m C ltac:(nia) M) as LI. rewrite !app_length. destruct fp as [|c fp]; destruct neg'; cbn [lit String.list_ascii_of_string List.length app] in *; lia.
Qed.
Lemma field_length W s v m : Field W s v -> (List.length s <= m)%nat -> (List.length v <= W + m)%nat.
Proof. intros (j & _ & L) S. rewrite L. lia. Qed.
Lemma stringf_id s : Clear s -> (List.length s <= 255)%nat -> stringf s = s.
Proof. intros C L. unfold stringf. rewrite firstn_all2 by exact L. apply cstr_id, C. Qed.

(* ---------- numbers ---------- *)
Local Open Scope R_scope.
Lemma near_rel f r g : IEEE f -> Near f r g -> r = 0 \/ / 1152921504606846976 <= Rabs r -> Rabs (g - r) <= ulp f * Rabs r.
Proof.
  intros I N [Z|B]; pose proof (ieee_sane f I) as W.
  - subst r. rewrite (near_exact f _ _ N (grid_zero f W)). replace (0 - 0) with 0 by ring. rewrite Rabs_R0. lra.
  - destruct (near_error f r g W N) as [H|(_ & H & _)]; [unfold ulp; rewrite Rmult_comm; exact H|exfalso].
    assert (X : IZR (2 ^ fm_prec f) * unit_of f <= / IZR (2 ^ 60)).
    { unfold unit_of. pose proof W as [W1 W2]. assert (E : (2 ^ fm_low f = 2 ^ fm_prec f * 2 ^ (fm_low f - fm_prec f))%Z) by (rewrite <- Z.pow_add_r by (destruct I as [-> | ->]; cbn; lia); f_equal; lia). rewrite E, mult_IZR.
      pose proof (pow_scale f W) as P. assert (Q : IZR (2 ^ 60) <= IZR (2 ^ (fm_low f - fm_prec f))) by (apply IZR_le, Z.pow_le_mono_r; [lia|destruct I as [-> | ->]; cbn; lia]). assert (0 < IZR (2 ^ 60)) by (apply IZR_lt; reflexivity).
      rewrite Rinv_mult, <- Rmult_assoc, Rinv_r, Rmult_1_l by lra. apply Rinv_le_contravar; lra. }
    change (IZR (2 ^ 60)) with 1152921504606846976 in X. lra.
Qed.
Lemma rel_factor r g u : 0 <= u -> Rabs (g - r) <= u * Rabs r -> exists e, Rabs e <= u /\ g = r * (1 + e).
Proof.
  intros U H. destruct (Req_dec r 0) as [Z|Z].
  - subst r. rewrite Rabs_R0, Rmult_0_r in H. exists 0. rewrite Rabs_R0. split; [exact U|]. pose proof (Rabs_pos (g - 0)) as P. destruct (Req_dec (g - 0) 0) as [E|E]; [lra|]. apply Rabs_pos_lt in E. lra.
  - exists ((g - r) / r). split; [|field; exact Z]. unfold Rdiv. rewrite Rabs_mult, Rabs_inv. apply Rabs_pos_lt in Z. apply (Rmult_le_reg_r (Rabs r)); [exact Z|]. rewrite Rmult_assoc, Rinv_l by lra. lra.
Qed.
Lemma abs_le a b : Rabs a <= b -> - b <= a <= b.
Proof. unfold Rabs. destruct (Rcase_abs a); lra. Qed.
Lemma errors_bound u e1 e2 e3 e4 : 0 <= u <= / 1000 -> Rabs e1 <= u -> Rabs e2 <= u -> Rabs e3 <= u -> Rabs e4 <= u ->
  Rabs ((1 + e1) * (1 + e3) * (1 + e4) / (1 + e2) - 1) <= 5 * u.
Proof.
  intros [U0 U1] A1 A2 A3 A4. apply abs_le in A1, A2, A3, A4.
  assert (P1 : (1 - u) * (1 - u) <= (1 + e1) * (1 + e3) <= (1 + u) * (1 + u)) by (split; apply Rmult_le_compat; lra).
  assert (S2 : 0 <= u * u <= u / 1000) by (split; [apply Rmult_le_pos; lra|replace (u / 1000) with (u * / 1000) by field; apply Rmult_le_compat_l; lra]).
  assert (P2 : 1 - 2 * u <= (1 + e1) * (1 + e3) <= 1 + 2 * u + u / 1000) by lra. set (A := (1 + e1) * (1 + e3)) in *. clearbody A.
  assert (P3 : (1 - 2 * u) * (1 - u) <= A * (1 + e4) <= (1 + 2 * u + u / 1000) * (1 + u)) by (split; apply Rmult_le_compat; lra).
  assert (P4 : 1 - 3 * u <= A * (1 + e4) <= 1 + 3 * u + u / 100) by lra. set (B := A * (1 + e4)) in *. clearbody B.
  assert (E : B / (1 + e2) - 1 = (B - (1 + e2)) / (1 + e2)) by (field; lra). rewrite E. unfold Rdiv. rewrite Rabs_mult, Rabs_inv, (Rabs_right (1 + e2)) by lra.
  apply (Rmult_le_reg_r (1 + e2)); [lra|]. rewrite Rmult_assoc, Rinv_l, Rmult_1_r by lra.
  assert (Q : 5 * u * (1 - u) <= 5 * u * (1 + e2)) by (apply Rmult_le_compat_l; lra). assert (5 * u * (1 - u) = 5 * u - 5 * (u * u)) by ring.
  unfold Rabs. destruct (Rcase_abs (B - (1 + e2))); lra.
Qed.
Lemma scale_bound A e : 0 <= A -> - / 1000 <= e <= / 1000 -> A / 2 <= A * (1 + e) <= A * 2.
Proof. intros P E. split; [unfold Rdiv|]; apply Rmult_le_compat_l; lra. Qed.
Definition Brief (f : fmt) (a : Z) : Prop := (Z.abs a <= 2 ^ fm_prec f)%Z.
Lemma brief_large f a : IEEE f -> Brief f a -> Rabs (IZR a) <= IZR (2 ^ 53).
Proof. intros I B. rewrite <- abs_IZR. apply IZR_le. etransitivity; [exact B|]. apply Z.pow_le_mono_r; [lia|]. destruct I as [-> | ->]; cbn; lia. Qed.
Lemma abs_int a : a = 0%Z \/ 1 <= Rabs (IZR a).
Proof. destruct (Z.eq_dec a 0) as [|N]; [left; assumption|right]. rewrite <- abs_IZR. apply IZR_le. lia. Qed.
Lemma million_fin f : IEEE f -> Fin f (f_of_int f 1000000) /\ number f (f_of_int f 1000000) = 1000000.
Proof. intros I. apply int_fin; [exact I|]. destruct I as [-> | ->]; vm_compute; discriminate. Qed.
Lemma hundred_fin f : IEEE f -> Fin f (f_of_int f 100) /\ number f (f_of_int f 100) = 100.
Proof. intros I. apply int_fin; [exact I|]. destruct I as [-> | ->]; vm_compute; discriminate. Qed.
Lemma big_53 : IZR (2 ^ 53) = 9007199254740992. Proof. reflexivity. Qed.
Lemma room_huge f : IEEE f -> 1000000000000000000000000000 <= room f.
Proof.
  intros I. unfold room. assert (H : IZR (2 * 1000000000000000000000000000) <= IZR (2 ^ fm_top f)).
  { apply IZR_le. apply Z.le_trans with (2 ^ 120)%Z; [vm_compute; discriminate|]. apply Z.pow_le_mono_r; [lia|destruct I as [-> | ->]; cbn; lia]. }
  rewrite mult_IZR in H. lra.
Qed.
Lemma millis_near f a : IEEE f -> Brief f a -> Fin f (millis f a) /\ Near f (IZR a / 1000000) (number f (millis f a)) /\ Rabs (number f (millis f a) - IZR a / 1000000) <= ulp f * Rabs (IZR a / 1000000).
Proof.
  intros I B. destruct (int_fin f a I B) as [FA EA]. destruct (million_fin f I) as [FM EM]. pose proof (brief_large f a I B) as L. rewrite big_53 in L. pose proof (room_huge f I) as R.
  assert (Q : Rabs (IZR a / 1000000) = Rabs (IZR a) / 1000000) by (unfold Rdiv; rewrite Rabs_mult, (Rabs_right (/ 1000000)) by lra; reflexivity).
  destruct (div_fin f _ _ I FA FM) as (F & N & _); [rewrite EM; lra|rewrite EA, EM, Q; lra|]. rewrite EA, EM in N. split; [exact F|]. split; [exact N|]. apply near_rel; [exact I|exact N|].
  destruct (abs_int a) as [-> |G]; [left; unfold Rdiv; ring|right]. rewrite Q. lra.
Qed.
Lemma percent_error f a b : IEEE f -> Brief f a -> Brief f b -> b <> 0%Z ->
  Fin f (percent f (millis f a) (millis f b)) /\ Rabs (number f (percent f (millis f a) (millis f b)) - 100 * IZR a / IZR b) <= 5 * ulp f * Rabs (100 * IZR a / IZR b).
Proof.
  intros I BA BB NB. destruct (ulp_small f I) as [[U0 U1] _]. destruct (millis_near f a I BA) as (FA & _ & EA). destruct (millis_near f b I BB) as (FB & _ & EB). destruct (hundred_fin f I) as [FH EH].
  set (T := millis f a) in *. set (S := millis f b) in *. destruct (rel_factor _ _ _ (Rlt_le _ _ U0) EA) as (e1 & E1 & HT). destruct (rel_factor _ _ _ (Rlt_le _ _ U0) EB) as (e2 & E2 & HS).
  pose proof (brief_large f a I BA) as LA. pose proof (brief_large f b I BB) as LB. rewrite big_53 in *. pose proof (room_huge f I) as R.
  pose proof (abs_le _ _ E1) as A1. pose proof (abs_le _ _ E2) as A2. destruct (abs_int b) as [|GB]; [contradiction|]. assert (BR : IZR b <> 0) by (intros X; rewrite X, Rabs_R0 in GB; lra).
  assert (TB : Rabs (number f T) <= Rabs (IZR a) / 1000000 * 2 /\ Rabs (IZR a) / 1000000 / 2 <= Rabs (number f T)).
  { rewrite HT. unfold Rdiv. rewrite !Rabs_mult, (Rabs_right (/ 1000000)), (Rabs_right (1 + e1)) by lra. pose proof (Rabs_pos (IZR a)). pose proof (scale_bound (Rabs (IZR a) * / 1000000) e1 ltac:(lra) ltac:(lra)). unfold Rdiv in *. lra. }
  assert (SB : Rabs (IZR b) / 1000000 / 2 <= Rabs (number f S)).
  { rewrite HS. unfold Rdiv. rewrite !Rabs_mult, (Rabs_right (/ 1000000)), (Rabs_right (1 + e2)) by lra. pose proof (scale_bound (Rabs (IZR b) * / 1000000) e2 ltac:(lra) ltac:(lra)). unfold Rdiv in *. lra. }
  assert (NS : number f S <> 0) by (intros X; rewrite X, Rabs_R0 in SB; lra).
  destruct (mul_fin f _ _ I FH FA) as (FP & NP & _). { rewrite EH, Rabs_mult, (Rabs_right 100) by lra. lra. }
  rewrite EH in NP. set (P := f_mul f (f_of_int f 100) T) in *.
  assert (EP : Rabs (number f P - 100 * number f T) <= ulp f * Rabs (100 * number f T)).
  { apply near_rel; [exact I|exact NP|]. rewrite Rabs_mult, (Rabs_right 100) by lra. destruct (abs_int a) as [Z|G]; [left; rewrite HT, Z; unfold Rdiv; ring|right; lra]. }
  destruct (rel_factor _ _ _ (Rlt_le _ _ U0) EP) as (e3 & E3 & HP). pose proof (abs_le _ _ E3) as A3.
  assert (PB : Rabs (number f P) <= Rabs (number f T) * 200 /\ Rabs (number f T) * 50 <= Rabs (number f P)).
  { rewrite HP, !Rabs_mult, (Rabs_right 100), (Rabs_right (1 + e3)) by lra. pose proof (Rabs_pos (number f T)). pose proof (scale_bound (100 * Rabs (number f T)) e3 ltac:(lra) ltac:(lra)). lra. }
  assert (QB : Rabs (number f P / number f S) = Rabs (number f P) * / Rabs (number f S)) by (unfold Rdiv; rewrite Rabs_mult, Rabs_inv; reflexivity).
  assert (IS : 0 < / Rabs (number f S) <= 2000000). { assert (0 < Rabs (number f S)) by lra. split; [apply Rinv_0_lt_compat; assumption|]. replace 2000000 with (/ (/ 2000000)) by (field; lra). apply Rinv_le_contravar; lra. }
  assert (SU : Rabs (number f S) <= 18014398509482). { rewrite HS. unfold Rdiv. rewrite !Rabs_mult, (Rabs_right (/ 1000000)), (Rabs_right (1 + e2)) by lra. pose proof (scale_bound (Rabs (IZR b) * / 1000000) e2 ltac:(lra) ltac:(lra)). lra. }
  assert (IL : / 20000000000000 <= / Rabs (number f S)) by (apply Rinv_le_contravar; lra).
  destruct (div_fin f _ _ I FP FB NS) as (FQ & NQ & _). { fold S P. rewrite QB. apply Rle_trans with (Rabs (number f T) * 200 * 2000000); [apply Rmult_le_compat; lra || apply Rabs_pos|lra]. }
  fold S P in FQ, NQ. unfold percent. fold P. split; [exact FQ|].
  assert (EQ : Rabs (number f (f_div f P S) - number f P / number f S) <= ulp f * Rabs (number f P / number f S)).
  { apply near_rel; [exact I|exact NQ|]. destruct (abs_int a) as [Z|G]; [left; rewrite HP, HT, Z; unfold Rdiv; ring|right]. rewrite QB.
    apply Rle_trans with (/ 40000 * / 20000000000000); [lra|]. apply Rmult_le_compat; lra. }
  destruct (rel_factor _ _ _ (Rlt_le _ _ U0) EQ) as (e4 & E4 & HQ).
  assert (E : number f (f_div f P S) = 100 * IZR a / IZR b * ((1 + e1) * (1 + e3) * (1 + e4) / (1 + e2))) by (rewrite HQ, HP, HT, HS; field; repeat split; lra).
  rewrite E. set (y := 100 * IZR a / IZR b). set (X := (1 + e1) * (1 + e3) * (1 + e4) / (1 + e2)).
  replace (y * X - y) with (y * (X - 1)) by ring. rewrite Rabs_mult, Rmult_comm. apply Rmult_le_compat_r; [apply Rabs_pos|]. apply errors_bound; try assumption. lra.
Qed.
Lemma rounds_real a b k : (0 < b)%Z -> Rounds a b k -> Rabs (IZR k - IZR a / IZR b) <= 1 / 2 /\ (Rabs (IZR k - IZR a / IZR b) = 1 / 2 -> Z.Even k).
Proof.
  intros B [H E]. assert (BP : 0 < IZR b) by (apply IZR_lt; exact B).
  assert (X : Rabs (IZR k - IZR a / IZR b) = IZR (Z.abs (k * b - a)) / IZR b).
  { rewrite abs_IZR, minus_IZR, mult_IZR. unfold Rdiv. rewrite <- (Rabs_right (/ IZR b)) at 2 by (left; apply Rinv_0_lt_compat; exact BP). rewrite <- Rabs_mult. f_equal. field. lra. }
  rewrite X. apply IZR_le in H. rewrite mult_IZR in H. split.
  - apply (Rmult_le_reg_r (IZR b)); [exact BP|]. unfold Rdiv at 1. rewrite Rmult_assoc, Rinv_l by lra. lra.
  - intros Q. apply E. apply eq_IZR. rewrite mult_IZR. apply (f_equal (fun z => z * IZR b)) in Q. unfold Rdiv at 1 in Q. rewrite Rmult_assoc, Rinv_l in Q by lra. lra.
Qed.
Lemma real_rounds a b k : (0 < b)%Z -> Rabs (IZR k - IZR a / IZR b) <= 1 / 2 -> (Rabs (IZR k - IZR a / IZR b) = 1 / 2 -> Z.Even k) -> Rounds a b k.
Proof.
  intros B H E. assert (BP : 0 < IZR b) by (apply IZR_lt; exact B).
  assert (X : IZR (Z.abs (k * b - a)) = Rabs (IZR k - IZR a / IZR b) * IZR b).
  { rewrite abs_IZR, minus_IZR, mult_IZR. rewrite <- (Rabs_right (IZR b)) at 3 by lra. rewrite <- Rabs_mult. f_equal. field. lra. }
  split.
  - apply le_IZR. rewrite mult_IZR, X. apply (Rmult_le_compat_r (IZR b)) in H; lra.
  - intros Q. apply E. apply (f_equal IZR) in Q. rewrite mult_IZR, X in Q. apply (Rmult_eq_reg_r (IZR b)); lra.
Qed.
Lemma printed_near f D neg n : Sane f -> Rabs (IZR (signed neg (rounded f D n)) - IZR (10 ^ Z.of_nat D) * val f neg n) <= 1 / 2.
Proof.
  intros W. pose proof W as [W1 W2]. destruct (rounds_real _ _ _ (pow_pos_ (fm_low f) ltac:(lia)) (rounded_rounds f D n ltac:(lia))) as [H _].
  rewrite val_signed. unfold unit_of. rewrite mult_IZR in H. unfold signed. destruct neg.
  - rewrite !opp_IZR. rewrite <- Rabs_Ropp. eapply Rle_trans; [|exact H]. right. f_equal. unfold Rdiv. ring.
  - eapply Rle_trans; [|exact H]. right. f_equal. unfold Rdiv. ring.
Qed.
Lemma to_fnum_sign f s v neg n : to_fnum f s v = FFin neg n -> neg = s.
Proof. destruct v; cbn [to_fnum]; [destruct (_ <=? _)%Z; congruence|discriminate|discriminate]. Qed.
Lemma millis_sign f a neg n : IEEE f -> Brief f a -> millis f a = FFin neg n -> neg = (a <? 0)%Z.
Proof.
  intros I BA E. unfold millis in E. destruct (million_fin f I) as [(m & q & EM & FM) VM]. destruct (int_fin f a I BA) as [(s & p & EA & FA) _].
  pose proof (to_fnum_sign _ _ _ _ _ EA) as SA. pose proof (to_fnum_sign _ _ _ _ _ EM) as SM. change (1000000 <? 0)%Z with false in SM.
  rewrite EA, EM in E. cbn [f_div] in E. rewrite EM in VM. cbn [number] in VM. destruct (Z.eqb_spec q 0) as [Q0|_]; [rewrite Q0, val_zero in VM; lra|]. rewrite SM, xorb_false_r in E. rewrite <- SA. exact (to_fnum_sign _ _ _ _ _ E).
Qed.
Lemma percent_sign f a b neg n : IEEE f -> Brief f a -> Brief f b -> percent f (millis f a) (millis f b) = FFin neg n -> neg = xorb (a <? 0)%Z (b <? 0)%Z.
Proof.
  intros I BA BB E. destruct (millis_near f a I BA) as ((sa & na & EA & _) & _). destruct (millis_near f b I BB) as ((sb & nb & EB & _) & _). rewrite <- (millis_sign f a _ _ I BA EA), <- (millis_sign f b _ _ I BB EB).
  destruct (hundred_fin f I) as [(sh & nh & EH & _) _]. pose proof (to_fnum_sign _ _ _ _ _ EH) as SH. change (100 <? 0)%Z with false in SH. unfold percent in E. rewrite EA, EB, EH, SH in E. cbn [f_mul] in E. rewrite xorb_false_l in E.
  destruct (to_fnum f sa _) as [| |s m] eqn:EM in E; [discriminate|discriminate|]. apply to_fnum_sign in EM. subst s. cbn [f_div] in E. destruct (nb =? 0)%Z; [destruct (m =? 0)%Z; discriminate|]. exact (to_fnum_sign _ _ _ _ _ E).
Qed.
Lemma percent_text nan f a b : IEEE f -> Brief f a -> Brief f b -> b <> 0%Z -> exists neg k, let s := printf_f nan f 2 (percent f (millis f a) (millis f b)) in
  neg = xorb (a <? 0)%Z (b <? 0)%Z /\ Fixed 2 neg k s /\ Hundredths f a b (signed neg k) /\ Clear s /\ (List.length s <= 25)%nat.
Proof.
  intros I BA BB NB. destruct (percent_error f a b I BA BB NB) as [(neg & n & E & F) B]. pose proof (percent_sign f a b _ _ I BA BB E) as SG. rewrite E in B. cbn [number] in B. exists neg, (rounded f 2 n). cbv zeta. rewrite E. pose proof (printf_fixed nan f 2 neg n I F) as X. split; [exact SG|]. split; [exact X|].
  pose proof (printed_near f 2 neg n (ieee_sane f I)) as P. change (IZR (10 ^ Z.of_nat 2)) with 100 in P. destruct (ulp_small f I) as [[U0 U1] _].
  assert (H : Hundredths f a b (signed neg (rounded f 2 n))).
  { unfold Hundredths. replace (5 / IZR (2 ^ fm_prec f)) with (5 * ulp f) by reflexivity. set (y := 100 * IZR a / IZR b) in *. replace (10000 * IZR a / IZR b) with (100 * y) by (unfold y, Rdiv; ring). rewrite Rabs_mult, (Rabs_right 100) by lra.
    set (K := IZR (signed neg (rounded f 2 n))) in *. set (v := val f neg n) in *. replace (K - 100 * y) with ((K - 100 * v) + 100 * (v - y)) by ring. eapply Rle_trans; [apply Rabs_triang|]. rewrite (Rabs_mult 100), (Rabs_right 100) by lra. lra. }
  split; [exact H|]. split; [exact (fixed_clear _ _ _ _ X)|]. change 25%nat with (2 + 21 + 2)%nat. apply (fixed_length _ _ _ _ 21 X); [|lia]. apply lt_IZR.
  unfold Hundredths in H. replace (5 / IZR (2 ^ fm_prec f)) with (5 * ulp f) in H by reflexivity. set (y := 10000 * IZR a / IZR b) in *.
  assert (Y : Rabs y <= 10000 * IZR (2 ^ 53)).
  { unfold y, Rdiv. rewrite !Rabs_mult, Rabs_inv, (Rabs_right 10000) by lra. pose proof (brief_large f a I BA) as LA. destruct (abs_int b) as [|GB]; [contradiction|].
    assert (0 < / Rabs (IZR b) <= 1) by (split; [apply Rinv_0_lt_compat; lra|rewrite <- Rinv_1; apply Rinv_le_contravar; lra]). apply Rle_trans with (10000 * IZR (2 ^ 53) * 1); [|lra]. apply Rmult_le_compat; try lra. pose proof (Rabs_pos (IZR a)). lra. }
  rewrite big_53 in Y. pose proof (Rabs_triang_inv (IZR (signed neg (rounded f 2 n))) y) as TI. assert (Z : 5 * ulp f * Rabs y <= 1 * Rabs y) by (apply Rmult_le_compat_r; [apply Rabs_pos|lra]).
  assert (V : IZR (rounded f 2 n) <= Rabs (IZR (signed neg (rounded f 2 n)))) by (unfold signed; destruct neg; [rewrite opp_IZR, Rabs_Ropp|]; apply Rle_abs).
  replace (IZR (10 ^ Z.of_nat 21)) with 1000000000000000000000 by reflexivity. lra.
Qed.
Lemma millis_text nan f a : IEEE f -> (Z.abs a < 2 ^ fm_prec f)%Z -> let s := printf_f nan f 0 (millis f a) in
  exists k, Fixed 0 (a <? 0)%Z k s /\ Rounds (Z.abs a) (10 ^ 6) k /\ Clear s /\ (List.length s <= 15)%nat.
Proof.
  intros I BA. assert (BA' : Brief f a) by (unfold Brief; lia). pose proof (ieee_sane f I) as W. destruct (millis_near f a I BA') as ((neg & n & E & F) & N & B). rewrite E in *. cbn [number] in *.
  pose proof (millis_sign f a _ _ I BA' E) as S.
  cbv zeta. exists (rounded f 0 n). pose proof (printf_fixed nan f 0 neg n I F) as X. rewrite <- S. split; [exact X|].
  assert (NN : (0 <= n)%Z) by (apply (rep_nonneg f), F). set (y := IZR (Z.abs a) / 1000000).
  assert (VY : Rabs (IZR n * unit_of f - y) <= ulp f * y /\ (Grid f y -> IZR n * unit_of f = y)).
  { assert (G : val f neg n = IZR n * unit_of f /\ IZR a / 1000000 = y \/ val f neg n = - (IZR n * unit_of f) /\ IZR a / 1000000 = - y).
    { unfold val, y. rewrite S. destruct (Z.ltb_spec a 0); [right; rewrite Z.abs_neq, opp_IZR by lia; unfold Rdiv; split; ring|left; rewrite Z.abs_eq by lia; split; ring]. }
    assert (YP : 0 <= y) by (unfold y, Rdiv; apply Rmult_le_pos; [apply IZR_le; lia|lra]).
    destruct G as [[G1 G2]|[G1 G2]]; rewrite G1, G2 in *.
    - split; [rewrite (Rabs_right y) in B by lra; exact B|]. intros G. exact (near_exact f _ _ N G).
    - split; [rewrite Rabs_Ropp, (Rabs_right y) in B by lra; rewrite <- Rabs_Ropp; replace (- (IZR n * unit_of f - y)) with (- (IZR n * unit_of f) - - y) by ring; exact B|]. intros G. pose proof (near_exact f _ _ N (grid_opp f _ G)). lra. }
  assert (T : Rabs (IZR n * unit_of f - y) < / 1000000).
  { destruct VY as [V _]. eapply Rle_lt_trans; [exact V|]. unfold y, ulp, Rdiv. pose proof (pow_scale f W) as PS. apply IZR_lt in BA. apply (Rmult_lt_reg_l (IZR (2 ^ fm_prec f))); [exact PS|]. rewrite <- Rmult_assoc, Rinv_r by lra. rewrite Rmult_1_l. apply Rmult_lt_compat_r; lra. }
  destruct VY as [_ VY]. pose proof W as [W1 W2].
  destruct (rounds_real _ _ _ (pow_pos_ (fm_low f) ltac:(lia)) (rounded_rounds f 0 n ltac:(lia))) as [K KE]. set (k := rounded f 0 n) in *. replace (IZR (n * 10 ^ Z.of_nat 0) / IZR (2 ^ fm_low f)) with (IZR n * unit_of f) in K, KE by (rewrite mult_IZR; unfold unit_of, Rdiv; cbn [Z.of_nat Z.pow]; ring).
  set (x := IZR n * unit_of f) in *.
  assert (R : Rounds (Z.abs a) (10 ^ 6) k).
  { destruct (Z.eq_dec (2 * Z.abs (k * 10 ^ 6 - Z.abs a)) (10 ^ 6)) as [TIE|NT].
    - (* half way *)
      assert (G : Grid f y).
      { assert (D : exists m, (Z.abs a = m * 500000)%Z) by (destruct (Z.abs_spec (k * 10 ^ 6 - Z.abs a)) as [[_ Q]|[_ Q]]; rewrite Q in TIE; [exists (2 * k - 1)%Z|exists (2 * k + 1)%Z]; lia).
        destruct D as [m D]. replace y with (IZR m / 2) by (unfold y; rewrite D, mult_IZR; field).
        replace (IZR m / 2) with (IZR (m * 2 ^ (fm_low f - 1)) * unit_of f); [apply grid_int; [exact W|lia|lia]|]. rewrite mult_IZR. unfold unit_of. pose proof (unit_scale f W) as US.
        assert (E2 : IZR (2 ^ fm_low f) = 2 * IZR (2 ^ (fm_low f - 1))) by (rewrite <- mult_IZR, <- Z.pow_succ_r by lia; do 2 f_equal; lia). rewrite E2 in *. field. lra. }
      rewrite (VY G) in K, KE. apply real_rounds; [lia|exact K|exact KE].
    - assert (C : (2 * Z.abs (k * 10 ^ 6 - Z.abs a) <= 10 ^ 6)%Z).
      { apply abs_le in K. assert (T' : - / 1000000 < x - y < / 1000000) by (unfold Rabs in T; destruct (Rcase_abs (x - y)); lra).
        assert (Q : IZR k * 1000000 - 500001 < IZR (Z.abs a) < IZR k * 1000000 + 500001) by (unfold y in T'; lra). rewrite <- mult_IZR, <- minus_IZR, <- plus_IZR in Q. destruct Q as [Q1 Q2]. apply lt_IZR in Q1, Q2. change (10 ^ 6)%Z with 1000000%Z in *. lia. }
      split; [exact C|]. intros; contradiction. }
  split; [exact R|]. split; [exact (fixed_clear _ _ _ _ X)|]. change 15%nat with (2 + 13 + 0)%nat. apply (fixed_length _ _ _ _ 13 X); [|lia].
  assert (A53 : (Z.abs a <= 2 ^ 53)%Z) by (apply le_IZR; rewrite abs_IZR; apply (brief_large f a I BA')). destruct R as [R _]. change (10 ^ 6)%Z with 1000000%Z in R. change (2 ^ 53)%Z with 9007199254740992%Z in A53. change (10 ^ Z.of_nat 13)%Z with 10000000000000%Z. lia.
Qed.
Lemma percent_zero nan f a : IEEE f -> Brief f a -> let s := printf_f nan f 2 (percent f (millis f a) (millis f 0)) in
  (0 < a)%Z /\ s = lit "inf" \/ (a < 0)%Z /\ s = lit "-inf" \/ a = 0%Z /\ s = nan.
Proof.
  intros I BA. pose proof (ieee_sane f I) as W. destruct (ulp_small f I) as [[U0 U1] _]. destruct (millis_near f a I BA) as (FA & _ & EA). destruct (hundred_fin f I) as [FH EH].
  assert (B0 : (Z.abs 0 < 2 ^ fm_prec f)%Z) by (destruct W; cbn [Z.abs]; apply pow_pos_; lia). assert (Z0 : millis f 0 = FFin false 0).
  { destruct (millis_near f 0 I) as ((neg & n & E & F) & N & _); [unfold Brief; lia|]. rewrite E in N. cbn [number] in N. replace (0 / 1000000) with 0 in N by (unfold Rdiv; ring). pose proof (near_exact f _ _ N (grid_zero f W)) as V.
    assert (n = 0%Z). { pose proof (rep_nonneg f n (proj1 F)) as NN. destruct (Z.eq_dec n 0) as [|NZ]; [assumption|exfalso]. unfold val in V. assert (0 < IZR n) by (apply IZR_lt; lia). pose proof (unit_pos f W). destruct neg; nra. }
    subst n. rewrite E. f_equal. unfold millis in E. destruct (million_fin f I) as [(m & q & EM & FM) VM]. destruct (int_fin f 0 I ltac:(unfold Brief; lia)) as [(s & p & EA0 & FA0) _].
    pose proof (to_fnum_sign _ _ _ _ _ EA0) as SA. pose proof (to_fnum_sign _ _ _ _ _ EM) as SM. change (1000000 <? 0)%Z with false in SM. change (0 <? 0)%Z with false in SA.
    rewrite EA0, EM in E. cbn [f_div] in E. rewrite EM in VM. cbn [number] in VM. destruct (Z.eqb_spec q 0) as [Q0|_]; [rewrite Q0, val_zero in VM; lra|]. rewrite SM, SA in E. exact (to_fnum_sign _ _ _ _ _ E). }
  cbv zeta. rewrite Z0. set (T := millis f a) in *. destruct (rel_factor _ _ _ (Rlt_le _ _ U0) EA) as (e1 & E1 & HT). pose proof (brief_large f a I BA) as LA. rewrite big_53 in *. pose proof (room_huge f I) as R. pose proof (abs_le _ _ E1) as A1.
  assert (TB : Rabs (number f T) <= Rabs (IZR a) / 1000000 * 2 /\ Rabs (IZR a) / 1000000 / 2 <= Rabs (number f T)).
  { rewrite HT. unfold Rdiv. rewrite !Rabs_mult, (Rabs_right (/ 1000000)), (Rabs_right (1 + e1)) by lra. pose proof (Rabs_pos (IZR a)). pose proof (scale_bound (Rabs (IZR a) * / 1000000) e1 ltac:(lra) ltac:(lra)). unfold Rdiv in *. lra. }
  destruct (mul_fin f _ _ I FH FA) as (FP & NP & _). { rewrite EH, Rabs_mult, (Rabs_right 100) by lra. lra. }
  rewrite EH in NP. unfold percent. fold T in FP, NP. set (P := f_mul f (f_of_int f 100) T) in *.
  assert (EP : Rabs (number f P - 100 * number f T) <= ulp f * Rabs (100 * number f T)).
  { apply near_rel; [exact I|exact NP|]. rewrite Rabs_mult, (Rabs_right 100) by lra. destruct (abs_int a) as [Z|G]; [left; rewrite HT, Z; unfold Rdiv; ring|right; lra]. }
  destruct (rel_factor _ _ _ (Rlt_le _ _ U0) EP) as (e3 & E3 & HP). pose proof (abs_le _ _ E3) as A3.
  assert (V : number f P = IZR a * (100 / 1000000 * (1 + e1) * (1 + e3))) by (rewrite HP, HT; field).
  assert (C : 0 < 100 / 1000000 * (1 + e1) * (1 + e3)) by (apply Rmult_lt_0_compat; [apply Rmult_lt_0_compat|]; lra). set (c := 100 / 1000000 * (1 + e1) * (1 + e3)) in *. clearbody c.
  destruct FP as (neg & n & EQ & F). rewrite EQ in V |- *. cbn [number] in V. pose proof (rep_nonneg f n (proj1 F)) as NN. pose proof (unit_pos f W) as UP. cbn [f_div]. change (0 =? 0)%Z with true. cbv iota.
  assert (NR : 0 <= IZR n) by (apply IZR_le; exact NN). assert (NU : 0 <= IZR n * unit_of f) by (apply Rmult_le_pos; lra).
  destruct (Z.lt_trichotomy a 0) as [L|[L|L]].
  - right. left. split; [exact L|]. apply IZR_lt in L. assert (IZR a * c < 0) by nra. destruct (Z.eqb_spec n 0) as [Q|Q]; [rewrite Q, val_zero in V; lra|]. destruct neg; [reflexivity|]. unfold val in V. lra.
  - right. right. split; [exact L|]. subst a. rewrite Rmult_0_l in V. destruct (Z.eqb_spec n 0) as [Q|Q]; [reflexivity|exfalso]. assert (0 < IZR n) by (apply IZR_lt; lia). assert (0 < IZR n * unit_of f) by (apply Rmult_lt_0_compat; lra). unfold val in V. destruct neg; lra.
  - left. split; [exact L|]. apply IZR_lt in L. assert (0 < IZR a * c) by nra. destruct (Z.eqb_spec n 0) as [Q|Q]; [rewrite Q, val_zero in V; lra|]. destruct neg; [|reflexivity]. unfold val in V. lra.
Qed.
Lemma percent_told nan f W a b : IEEE f -> Brief f a -> Brief f b -> Clear nan -> (List.length nan <= 25)%nat ->
  let v := field W (printf_f nan f 2 (percent f (millis f a) (millis f b))) in Percent nan f W a b v /\ Clear v /\ (List.length v <= W + 25)%nat.
Proof.
  intros I BA BB CN LN v. destruct (Z.eq_dec b 0) as [-> |NB].
  - pose proof (percent_zero nan f a I BA) as H. cbv zeta in H. unfold v. set (s := printf_f nan f 2 _) in *. pose proof (field_field W s) as FF.
    assert (C : Clear s /\ (List.length s <= 25)%nat) by (destruct H as [[_ ->]|[[_ ->]|[_ ->]]]; [split; [repeat constructor; discriminate|cbn; lia]|split; [repeat constructor; discriminate|cbn; lia]|auto]).
    split; [|split; [exact (field_clear _ _ _ (proj1 C) FF)|exact (field_length _ _ _ _ FF (proj2 C))]].
    right. destruct H as [[P E]|[[P E]|[P E]]]; rewrite E in FF; rewrite E; auto.
  - destruct (percent_text nan f a b I BA BB NB) as (neg & k & SG & X & H & C & L). unfold v. set (s := printf_f nan f 2 _) in *. pose proof (field_field W s) as FF.
    split; [|split; [exact (field_clear _ _ _ C FF)|exact (field_length _ _ _ _ FF L)]]. left. split; [exact NB|]. exists neg, k, s. auto.
Qed.
Lemma told_text nan f a all own over : IEEE f -> (Z.abs a < 2 ^ fm_prec f)%Z -> Brief f all -> Brief f own -> Brief f over -> Clear nan -> (List.length nan <= 25)%nat ->
  Told nan f a all own over (section_text nan f (millis f a) (percent f (millis f a) (millis f all)) (percent f (millis f own) (millis f all)) (percent f (millis f over) (millis f a))).
Proof.
  intros I BA BL BO BV CN LN. assert (BA' : Brief f a) by (unfold Brief; lia). destruct (millis_text nan f a I BA) as (k & X & R & C & L). pose proof (field_field 6 (printf_f nan f 0 (millis f a))) as FF.
  pose proof (percent_told nan f 6 a all I BA' BL CN LN) as (P2 & C2 & L2). pose proof (percent_told nan f 5 own all I BO BL CN LN) as (P3 & C3 & L3). pose proof (percent_told nan f 5 over a I BV BA' CN LN) as (P4 & C4 & L4).
  pose proof (field_clear _ _ _ C FF) as C1. pose proof (field_length _ _ _ _ FF L) as L1. unfold section_text.
  set (v1 := field 6 (printf_f nan f 0 (millis f a))) in *. set (v2 := field 6 (printf_f nan f 2 (percent f (millis f a) (millis f all)))) in *. set (v3 := field 5 (printf_f nan f 2 (percent f (millis f own) (millis f all)))) in *. set (v4 := field 5 (printf_f nan f 2 (percent f (millis f over) (millis f a)))) in *.
  exists v1, v2, v3, v4. split; [exists k; eexists; split; [exact X|]; auto|]. split; [exact P2|]. split; [exact P3|]. split; [exact P4|]. clearbody v1 v2 v3 v4.
  apply stringf_id.
  - repeat (apply clear_app; [first [assumption|repeat constructor; discriminate]|]). repeat constructor; discriminate.
  - rewrite !app_length. cbn [lit String.list_ascii_of_string List.length]. lia.
Qed.
