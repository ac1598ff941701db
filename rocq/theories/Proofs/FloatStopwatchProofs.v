(* Proofs about stopwatches on floating point numbers. *)
From Coq Require Import Reals ZArith List Lra Lia Ascii.
From Verif Require Import Model.Base Model.StdString Model.PropTree Model.FloatText Model.Ieee Model.FloatInterp Model.Timer Model.FloatStopwatch Spec.FloatText Spec.Ieee.
From Verif Require Import Proofs.BaseFacts Proofs.DictionaryProofs Proofs.FloatTextProofs Proofs.IeeeProofs Proofs.IeeeErrorProofs Proofs.FloatOpsProofs Props.FloatAverage Proofs.RoundingProofs Spec.FloatStopwatch.
Import ListNotations.
Local Open Scope list_scope.
Local Open Scope R_scope.
Local Notation dec := (list_eq_dec ascii_dec).

Definition after (f : fmt) (x0 : fnum) (h : list fs_op) : f_stopwatch := fold_left (fs_step f) (rev h) (fs_new f x0).
Lemma after_cons f x0 o h : after f x0 (o :: h) = fs_step f (after f x0 h) o.
Proof. unfold after. cbn [rev]. rewrite fold_left_app. reflexivity. Qed.
Lemma add_to_in f (g : str -> fnum) s d ls : NoDup ls -> In s ls -> fs_add_to f (map (fun n => (n, g n)) ls) s d = map (fun n => (n, if dec s n then f_add f (g n) d else g n)) ls.
Proof.
  induction ls as [|n ls IH]; intros N I; [destruct I|]. inversion N as [|? ? NI N']; subst. cbn [map fs_add_to]. destruct (str_eqb n s) eqn:E.
  - apply str_eqb_eq in E. subst n. destruct (dec s s) as [_|C]; [|congruence]. f_equal. apply map_ext_in. intros x X. destruct (dec s x) as [->|_]; [contradiction|reflexivity].
  - assert (NE : s <> n) by (intros ->; rewrite (proj2 (str_eqb_eq n n) eq_refl) in E; discriminate). destruct (dec s n) as [|_]; [contradiction|]. f_equal. apply IH; [exact N'|]. destruct I; [congruence|assumption].
Qed.
Lemma add_to_out f (g : str -> fnum) s d ls : ~ In s ls -> fs_add_to f (map (fun n => (n, g n)) ls) s d = map (fun n => (n, g n)) ls ++ [(s, d)].
Proof.
  induction ls as [|n ls IH]; intros I; [reflexivity|]. cbn [map fs_add_to app]. destruct (str_eqb n s) eqn:E; [apply str_eqb_eq in E; subst n; exfalso; apply I; left; reflexivity|]. f_equal. apply IH. intros X. apply I. right. exact X.
Qed.
Lemma labels_nodup h : NoDup (labels h).
Proof. induction h as [|[x|n x y] h IH]; cbn [labels]; [constructor|exact IH|]. destruct (in_dec _ n (labels h)); [exact IH|]. apply NoDup_snoc; assumption. Qed.
Lemma intervals_nil x0 h s : In s (labels h) <-> intervals x0 h s <> [].
Proof.
  induction h as [|[x|n x y] h IH]; cbn [labels intervals]; [split; [intros []|congruence]|exact IH|]. destruct (dec n s) as [->|N].
  - split; [discriminate|]. intros _. destruct (in_dec dec s (labels h)); [assumption|apply in_or_app; right; left; reflexivity].
  - rewrite <- IH. destruct (in_dec dec n (labels h)); [tauto|]. split; [intros I; apply in_app_or in I as [I|[I|[]]]; [exact I|congruence]|intros I; apply in_or_app; left; exact I].
Qed.
Definition summed0 (f : fmt) (l : list (fnum * fnum)) : fnum := fold_right (fun p a => f_add f a (f_sub f (snd p) (fst p))) f_zero l.
Lemma zero_int f : IEEE f -> f_of_int f 0 = f_zero.
Proof. intros [->| ->]; reflexivity. Qed.
Lemma after_spec f x0 h : IEEE f -> fs_epoch (after f x0 h) = began x0 h /\ fs_measures (after f x0 h) = map (fun n => (n, summed f (intervals x0 h n))) (labels h) /\ fs_internal (after f x0 h) = summed0 f (own_intervals h).
Proof.
  intros IE. induction h as [|o h (A & B & C)]; [split; [reflexivity|split; [reflexivity|exact (zero_int f IE)]]|]. rewrite after_cons. destruct o as [x|n x y]; cbn [fs_step fs_first fs_measure fs_epoch fs_measures fs_internal began intervals labels own_intervals]; [auto|].
  split; [reflexivity|]. split; [|rewrite C; reflexivity]. rewrite A, B. destruct (in_dec dec n (labels h)) as [I|I].
  - rewrite (add_to_in f (fun n => summed f (intervals x0 h n))) by (apply labels_nodup || exact I). apply map_ext_in. intros s S. destruct (dec n s) as [->|_]; [|reflexivity].
    pose proof (proj1 (intervals_nil x0 h s) I) as NE. destruct (intervals x0 h s) as [|p l] eqn:EI; [contradiction|]. reflexivity.
  - rewrite (add_to_out f (fun n => summed f (intervals x0 h n))) by exact I. rewrite map_app. cbn [map]. f_equal.
    + apply map_ext_in. intros s S. destruct (dec n s) as [->|_]; [contradiction|reflexivity].
    + destruct (dec n n); [|congruence]. assert (EI : intervals x0 h n = []) by (destruct (intervals x0 h n) eqn:EI; [reflexivity|exfalso; apply I, (intervals_nil x0); rewrite EI; discriminate]). rewrite EI. reflexivity.
Qed.

(* ---------- positive numbers ---------- *)
Definition Plus (f : fmt) (x : fnum) : Prop := exists n, x = FFin false n /\ Finite f n.
Lemma plus_fin f x : Plus f x -> Fin f x.
Proof. intros (n & -> & F). exists false, n. auto. Qed.
Lemma plus_nonneg f x : IEEE f -> Plus f x -> 0 <= number f x.
Proof. intros I (n & -> & F). cbn. pose proof (unit_pos f (ieee_sane f I)). pose proof (rep_nonneg f n (proj1 F)) as N. apply IZR_le in N. unfold val. nra. Qed.
Lemma add_plus_sign f a n b m : IEEE f -> Finite f n -> Finite f m -> 0 <= val f a n + val f b m -> Fin f (f_add f (FFin a n) (FFin b m)) -> (a && b = false)%bool -> Plus f (f_add f (FFin a n) (FFin b m)).
Proof.
  intros I FN FM P (s & k & E & F) AB. cbn [f_add] in *. pose proof (unit_pos f (ieee_sane f I)) as U. set (z := (Ieee.signed a n + Ieee.signed b m)%Z) in *.
  assert (Z0 : (0 <= z)%Z). { apply le_IZR. unfold z. rewrite plus_IZR. rewrite !val_signed in P. nra. }
  destruct (Z.eqb_spec z 0) as [EZ|NZ].
  - rewrite AB. exists 0%Z. split; [reflexivity|]. apply zero_finite, ieee_sane, I.
  - exists k. split; [|exact F]. rewrite E. f_equal. replace (z <? 0)%Z with false in E by (symmetry; apply Z.ltb_ge; exact Z0). revert E. unfold to_fnum. destruct (_ <=? _)%Z; congruence.
Qed.
Lemma sub_plus f x y : IEEE f -> Reading f x -> Reading f y -> number f y <= number f x -> Fin f (f_sub f x y) -> Plus f (f_sub f x y).
Proof.
  intros I [(a & n & -> & FN) NX] [(b & m & -> & FM) NY] L F. cbn [number] in L. unfold f_sub in *. cbn [f_neg] in *.
  assert (OP : val f (negb b) m = - val f b m) by (unfold val; destruct b; cbn; lra).
  destruct (a && negb b)%bool eqn:AB; [|apply add_plus_sign; try assumption; rewrite OP; lra].
  destruct a, b; try discriminate. exfalso. pose proof (rep_nonneg f n (proj1 FN)) as N0. pose proof (rep_nonneg f m (proj1 FM)) as M0. pose proof (unit_pos f (ieee_sane f I)) as U. apply IZR_le in M0. unfold val in L.
  assert (n <> 0%Z) by congruence. assert (0 < IZR n) by (apply IZR_lt; lia). assert (0 < IZR n * unit_of f) by (apply Rmult_lt_0_compat; lra). assert (0 <= IZR m * unit_of f) by (apply Rmult_le_pos; lra). lra.
Qed.
Lemma add_plus f x y : IEEE f -> Plus f x -> Plus f y -> Fin f (f_add f x y) -> Plus f (f_add f x y).
Proof.
  intros I PX PY F. pose proof (plus_nonneg f x I PX). pose proof (plus_nonneg f y I PY). destruct PX as (n & -> & FN), PY as (m & -> & FM). apply add_plus_sign; try assumption; [cbn [number] in *; lra|reflexivity].
Qed.

(* ---------- errors ---------- *)
Definition Run (f : fmt) (l : list (fnum * fnum)) : Prop := Forall (fun p => Reading f (fst p) /\ Reading f (snd p) /\ number f (fst p) <= number f (snd p)) l.
Lemma span_nonneg f l : Run f l -> 0 <= span f l.
Proof. unfold span. induction 1 as [|p l (_ & _ & H) R IH]; cbn; lra. Qed.
Lemma pow_linear u k : 0 <= u -> INR k * u <= 1 / 2 -> (1 + u) ^ k <= 1 + 2 * INR k * u.
Proof.
  intros U. induction k as [|k IH]; intros B; [cbn; lra|]. rewrite S_INR in *. cbn [pow]. assert (INR k * u <= 1 / 2) by lra. specialize (IH ltac:(lra)). pose proof (pos_INR k). assert (0 <= INR k * u) by (apply Rmult_le_pos; lra).
  apply Rle_trans with ((1 + u) * (1 + 2 * INR k * u)); [apply Rmult_le_compat_l; lra|]. assert (INR k * u * u <= 1 / 2 * u) by (apply Rmult_le_compat_r; lra). lra.
Qed.
Lemma pow_ge1 u k : 0 <= u -> 1 <= (1 + u) ^ k.
Proof. intros U. apply pow_R1_Rle. lra. Qed.
(* one more interval *)
Lemma step_error f v d e k V D : IEEE f -> Plus f v -> Plus f d -> Fin f e -> e = f_add f v d -> 0 <= V -> 0 <= D -> (1 <= k)%nat ->
  Rabs (number f v - V) <= ((1 + ulp f) ^ k - 1) * V -> Rabs (number f d - D) <= ulp f * D -> Rabs (number f e - (V + D)) <= ((1 + ulp f) ^ S k - 1) * (V + D).
Proof.
  intros I PV PD FE -> V0 D0 K EV ED. destruct (ulp_small f I) as [[U0 U1] _]. set (u := ulp f) in *. destruct (add_step f v d I) as (_ & _ & EA); [destruct PV as (n & -> & FN); exact FN|destruct PD as (n & -> & FN); exact FN|exact FE|]. fold u in EA.
  set (w := (1 + u) ^ k) in *. assert (W : 1 + u <= w). { unfold w. destruct k; [lia|]. cbn [pow]. pose proof (pow_ge1 u k ltac:(lra)). assert ((1 + u) * 1 <= (1 + u) * (1 + u) ^ k) by (apply Rmult_le_compat_l; lra). lra. }
  cbn [pow]. fold w. pose proof (plus_nonneg f v I PV). pose proof (plus_nonneg f d I PD). set (a := number f v) in *. set (b := number f d) in *. set (e := number f (f_add f v d)) in *. rewrite (Rabs_right (a + b)) in EA by lra.
  apply abs_inv in EV. apply abs_inv in ED. apply abs_inv in EA. assert (uD : u * D <= (w - 1) * D) by (apply Rmult_le_compat_r; lra). assert (S : a + b <= w * (V + D)) by lra. assert (S2 : u * (a + b) <= u * (w * (V + D))) by (apply Rmult_le_compat_l; lra).
  apply Rabs_le. lra.
Qed.
Lemma sub_span f p : IEEE f -> Reading f (fst p) -> Reading f (snd p) -> number f (fst p) <= number f (snd p) -> number f (snd p) - number f (fst p) <= room f / 2 ->
  let d := f_sub f (snd p) (fst p) in Plus f d /\ Rabs (number f d - (number f (snd p) - number f (fst p))) <= ulp f * (number f (snd p) - number f (fst p)).
Proof.
  intros I R1 R2 L B d. destruct (ulp_small f I) as [[U0 U1] _]. pose proof (room_large f I) as RL. assert (0 <= IZR (2 ^ 60)) by (apply IZR_le; lia).
  destruct (sub_fin f (snd p) (fst p) I (proj1 R2) (proj1 R1)) as (F & _ & E); [rewrite Rabs_right by lra; lra|]. rewrite (Rabs_right (number f (snd p) - number f (fst p))) in E by lra. split; [|exact E]. apply sub_plus; assumption.
Qed.
Lemma summed_error f l : IEEE f -> Run f l -> INR (length l) * ulp f <= 1 / 2 -> span f l <= room f / 2 -> l <> [] ->
  Plus f (summed f l) /\ Rabs (number f (summed f l) - span f l) <= ((1 + ulp f) ^ length l - 1) * span f l.
Proof.
  intros I. destruct (ulp_small f I) as [[U0 U1] _]. induction l as [|p l IH]; intros R K B NE; [congruence|]. inversion R as [|? ? (R1 & R2 & L) RL]; subst. pose proof (span_nonneg f l RL) as SN. cbn [span fold_right] in B. fold (span f l) in B.
  cbn [length] in K. rewrite S_INR in K. pose proof (pos_INR (length l)) as PI. assert (KU : 0 <= INR (length l) * ulp f) by (apply Rmult_le_pos; lra).
  destruct (sub_span f p I R1 R2 L ltac:(lra)) as [PD ED]. cbv zeta in ED. destruct l as [|q l].
  - cbn [summed span fold_right length pow]. split; [exact PD|]. rewrite Rplus_0_l. eapply Rle_trans; [exact ED|]. right. ring.
  - destruct (IH RL ltac:(lra) ltac:(lra) ltac:(discriminate)) as [PS ES]. change (summed f (p :: q :: l)) with (f_add f (summed f (q :: l)) (f_sub f (snd p) (fst p))). change (span f (p :: q :: l)) with (span f (q :: l) + (number f (snd p) - number f (fst p))). set (m := q :: l) in *. set (D := number f (snd p) - number f (fst p)) in *.
    assert (PW : (1 + ulp f) ^ length m <= 2) by (eapply Rle_trans; [apply pow_linear; lra|lra]).
    assert (F : Fin f (f_add f (summed f m) (f_sub f (snd p) (fst p)))).
    { apply add_fin; [exact I|apply plus_fin, PS|apply plus_fin, PD|]. pose proof (plus_nonneg f _ I PS). pose proof (plus_nonneg f _ I PD). rewrite Rabs_right by lra. apply abs_inv in ES. apply abs_inv in ED.
      assert (((1 + ulp f) ^ length m - 1) * span f m <= 1 * span f m) by (apply Rmult_le_compat_r; lra). assert (ulp f * D <= 1 * D) by (apply Rmult_le_compat_r; unfold D; lra). lra. }
    split; [apply add_plus; assumption|]. cbn [length]. apply (step_error f _ _ _ (length m) (span f m) D I PS PD F eq_refl SN); [unfold D; lra|unfold m; cbn; lia|exact ES|exact ED].
Qed.
Lemma zero_plus f : IEEE f -> Plus f f_zero /\ number f f_zero = 0.
Proof. intros I. split; [exists 0%Z; split; [reflexivity|apply zero_finite, ieee_sane, I]|apply val_zero]. Qed.
Lemma add_zero_exact f d : IEEE f -> Plus f d -> number f d <= room f -> Plus f (f_add f f_zero d) /\ number f (f_add f f_zero d) = number f d.
Proof.
  intros I PD B. destruct (zero_plus f I) as [PZ Z0]. pose proof (plus_nonneg f d I PD) as N. destruct (add_fin f f_zero d I (plus_fin f _ PZ) (plus_fin f _ PD)) as (F & NR & _); [rewrite Z0, Rabs_right by lra; lra|].
  split; [apply add_plus; assumption|]. apply (near_exact f (number f d)); [rewrite Z0, Rplus_0_l in NR; exact NR|]. destruct PD as (n & -> & FN). exists false, n. split; [apply FN|reflexivity].
Qed.
Lemma summed0_summed f l : IEEE f -> Run f l -> INR (length l) * ulp f <= 1 / 2 -> span f l <= room f / 2 -> Plus f (summed0 f l) /\ Rabs (number f (summed0 f l) - span f l) <= ((1 + ulp f) ^ length l - 1) * span f l.
Proof.
  intros I. destruct (ulp_small f I) as [[U0 U1] _]. destruct (zero_plus f I) as [PZ Z0]. induction l as [|p l IH]; intros R K B.
  - split; [exact PZ|]. change (summed0 f []) with f_zero. rewrite Z0. cbn [span fold_right length pow]. rewrite Rminus_0_r, Rabs_R0. lra.
  - inversion R as [|? ? (R1 & R2 & L) RL]; subst. pose proof (span_nonneg f l RL) as SN. cbn [span fold_right] in B. fold (span f l) in B. cbn [length] in K. rewrite S_INR in K. pose proof (pos_INR (length l)) as PI. assert (KU : 0 <= INR (length l) * ulp f) by (apply Rmult_le_pos; lra).
    destruct (sub_span f p I R1 R2 L ltac:(lra)) as [PD ED]. cbv zeta in ED. change (summed0 f (p :: l)) with (f_add f (summed0 f l) (f_sub f (snd p) (fst p))). change (span f (p :: l)) with (span f l + (number f (snd p) - number f (fst p))). set (D := number f (snd p) - number f (fst p)) in *.
    assert (DB : number f (f_sub f (snd p) (fst p)) <= 2 * D). { apply abs_inv in ED. assert (ulp f * D <= 1 * D) by (apply Rmult_le_compat_r; unfold D; lra). lra. }
    destruct l as [|q l].
    + destruct (add_zero_exact f _ I PD ltac:(cbn in B; unfold D in *; lra)) as [P E]. change (summed0 f []) with f_zero. split; [exact P|]. rewrite E. cbn [span fold_right length pow]. rewrite Rplus_0_l. eapply Rle_trans; [exact ED|]. right. ring.
    + destruct (IH RL ltac:(lra) ltac:(unfold D in *; lra)) as [PS ES]. set (m := q :: l) in *. assert (PW : (1 + ulp f) ^ length m <= 2) by (eapply Rle_trans; [apply pow_linear; lra|lra]).
      assert (F : Fin f (f_add f (summed0 f m) (f_sub f (snd p) (fst p)))).
      { apply add_fin; [exact I|apply plus_fin, PS|apply plus_fin, PD|]. pose proof (plus_nonneg f _ I PS). pose proof (plus_nonneg f _ I PD). rewrite Rabs_right by lra. apply abs_inv in ES. 
        assert (((1 + ulp f) ^ length m - 1) * span f m <= 1 * span f m) by (apply Rmult_le_compat_r; lra). lra. }
      split; [apply add_plus; assumption|]. cbn [length]. apply (step_error f _ _ _ (length m) (span f m) D I PS PD F eq_refl SN); [unfold D; lra|unfold m; cbn; lia|exact ES|exact ED].
Qed.

(* ---------- histories ---------- *)
Lemma ordered_began f x0 h : Ordered f x0 h -> Reading f (began x0 h) /\ Reading f x0 /\ number f x0 <= number f (began x0 h).
Proof.
  induction h as [|[x|n x y] h IH]; cbn [Ordered began]; [intros R; split; [exact R|split; [exact R|lra]]| |].
  - intros (O & R & L). destruct (IH O) as (_ & A & B). split; [exact R|]. split; [exact A|lra].
  - intros (O & R & R' & L). destruct (IH O) as (_ & A & B). split; [exact R'|]. split; [exact A|lra].
Qed.
Lemma ordered_runs f x0 h : Ordered f x0 h -> (forall s, Run f (intervals x0 h s)) /\ Run f (own_intervals h) /\ Run f (skipped_intervals x0 h).
Proof.
  induction h as [|[x|n x y] h IH]; cbn [Ordered intervals own_intervals skipped_intervals]; [intros _; repeat split; constructor| |].
  - intros (O & R & L). destruct (IH O) as (A & B & C). destruct (ordered_began f x0 h O) as (RB & _). repeat split; [exact A|exact B|]. constructor; [cbn; auto|exact C].
  - intros (O & R & R' & L). destruct (IH O) as (A & B & C). destruct (ordered_began f x0 h O) as (RB & _). split; [|split; [|exact C]].
    + intros s. destruct (dec n s); [|apply A]. constructor; [cbn; split; [exact RB|split; [exact R|lra]]|apply A].
    + constructor; [cbn; split; [exact R|split; [exact R'|lra]]|exact B].
Qed.
Definition sumR {A} (g : A -> R) (l : list A) : R := fold_right (fun x a => g x + a) 0 l.
Lemma sumR_ext {A} (g g' : A -> R) l : (forall x, In x l -> g x = g' x) -> sumR g l = sumR g' l.
Proof. induction l as [|x l IH]; intros H; [reflexivity|]. cbn. rewrite (H x (or_introl eq_refl)). f_equal. apply IH. intros; apply H; right; assumption. Qed.
Lemma sumR_app {A} (g : A -> R) a b : sumR g (a ++ b) = sumR g a + sumR g b.
Proof. unfold sumR. induction a as [|x a IH]; cbn; lra. Qed.
Lemma sumR_bump {A} (eqd : forall a b : A, {a = b} + {a <> b}) (g : A -> R) l s d : NoDup l -> In s l -> sumR (fun x => if eqd s x then g x + d else g x) l = sumR g l + d.
Proof.
  induction 1 as [|x l N D IH]; intros I; [destruct I|]. cbn. fold (sumR (fun x => if eqd s x then g x + d else g x) l) (sumR g l). destruct I as [-> |I].
  - destruct (eqd s s) as [_|C]; [|congruence]. rewrite (sumR_ext _ g); [lra|]. intros y Y. destruct (eqd s y) as [->|_]; [contradiction|reflexivity].
  - destruct (eqd s x) as [->|_]; [contradiction|]. rewrite (IH I). lra.
Qed.
Lemma spans_total f x0 h : sumR (fun s => span f (intervals x0 h s)) (labels h) + span f (own_intervals h) + span f (skipped_intervals x0 h) = number f (began x0 h) - number f x0.
Proof.
  induction h as [|[x|n x y] h IH]; cbn [intervals own_intervals skipped_intervals labels began].
  - cbn. lra.
  - change (span f ((began x0 h, x) :: skipped_intervals x0 h)) with (span f (skipped_intervals x0 h) + (number f x - number f (began x0 h))). lra.
  - change (span f ((x, y) :: own_intervals h)) with (span f (own_intervals h) + (number f y - number f x)).
    assert (E : sumR (fun s => span f (if dec n s then (began x0 h, x) :: intervals x0 h s else intervals x0 h s)) (if in_dec dec n (labels h) then labels h else labels h ++ [n]) = sumR (fun s => span f (intervals x0 h s)) (labels h) + (number f x - number f (began x0 h))); [|lra].
    set (d := number f x - number f (began x0 h)). rewrite (sumR_ext _ (fun s => if dec n s then span f (intervals x0 h s) + d else span f (intervals x0 h s))) by (intros s _; destruct (dec n s); reflexivity). destruct (in_dec dec n (labels h)) as [I|I].
    + apply (sumR_bump dec); [apply labels_nodup|exact I].
    + rewrite sumR_app. cbn. destruct (dec n n); [|congruence]. rewrite (sumR_ext _ (fun s => span f (intervals x0 h s))) by (intros s S; destruct (dec n s) as [->|]; [contradiction|reflexivity]).
      assert (EI : intervals x0 h n = []) by (destruct (intervals x0 h n) eqn:EI; [reflexivity|exfalso; apply I, (intervals_nil x0); rewrite EI; discriminate]). rewrite EI. cbn. lra.
Qed.
Lemma span_parts f x0 h : Ordered f x0 h -> let T := number f (began x0 h) - number f x0 in (forall s, 0 <= span f (intervals x0 h s) <= T) /\ 0 <= span f (own_intervals h) <= T.
Proof.
  intros O T. destruct (ordered_runs f x0 h O) as (A & B & C). pose proof (spans_total f x0 h) as ST. fold T in ST. pose proof (span_nonneg _ _ B) as B0. pose proof (span_nonneg _ _ C) as C0.
  assert (P : forall ls, 0 <= sumR (fun s => span f (intervals x0 h s)) ls /\ forall s, In s ls -> span f (intervals x0 h s) <= sumR (fun s => span f (intervals x0 h s)) ls).
  { induction ls as [|x ls [I1 I2]]; cbn; [split; [lra|intros s []]|]. fold (sumR (fun s => span f (intervals x0 h s)) ls). pose proof (span_nonneg f _ (A x)). split; [lra|]. intros s [->|I]; [lra|]. specialize (I2 s I). lra. }
  destruct (P (labels h)) as [P1 P2]. split; [|lra]. intros s. split; [apply span_nonneg, A|]. destruct (in_dec dec s (labels h)) as [I|I]; [specialize (P2 s I); lra|].
  assert (EI : intervals x0 h s = []) by (destruct (intervals x0 h s) eqn:EI; [reflexivity|exfalso; apply I, (intervals_nil x0); rewrite EI; discriminate]). rewrite EI. cbn. lra.
Qed.
Lemma count_intervals x0 h s : (length (intervals x0 h s) <= length h)%nat.
Proof. induction h as [|[x|n x y] h IH]; cbn; [lia|lia|]. destruct (dec n s); cbn; lia. Qed.
Lemma count_own h : (length (own_intervals h) <= length h)%nat.
Proof. induction h as [|[x|n x y] h IH]; cbn; lia. Qed.

(* ---------- timers ---------- *)
From Verif Require Import Proofs.TimerProofs Proofs.ReportProofs.
Definition quotient (f : fmt) (per d : Z) : fnum := f_div f (f_of_int f d) (f_of_int f per).
Lemma elapsed_ok f per c t : (- 2 ^ 63 <= t - c < 2 ^ 63)%Z -> f_elapsed f per c t = Ok (quotient f per (t - c)).
Proof. intros H. unfold f_elapsed, elapsed. rewrite i64_ok by exact H. reflexivity. Qed.
Lemma int_near f d : IEEE f -> (Z.abs d <= 2 ^ 63)%Z -> Fin f (f_of_int f d) /\ Near f (IZR d) (number f (f_of_int f d)) /\ Rabs (number f (f_of_int f d) - IZR d) <= ulp f * Rabs (IZR d).
Proof.
  intros I B. pose proof (ieee_sane f I) as W. pose proof (room_huge f I) as R. assert (L : Rabs (IZR d) <= IZR (2 ^ 63)) by (rewrite <- abs_IZR; apply IZR_le, B). replace (IZR (2 ^ 63)) with 9223372036854775808 in L by reflexivity.
  destruct (correct_room f _ _ I (int_correct f d W) ltac:(lra)) as [F N]. split; [exact F|]. split; [exact N|]. apply near_rel; [exact I|exact N|]. destruct (abs_int d) as [->|G]; [left; reflexivity|right; lra].
Qed.
Lemma quotient_near f per d : IEEE f -> (0 < per <= 2 ^ 43)%Z -> (Z.abs d <= 2 ^ 63)%Z ->
  Fin f (quotient f per d) /\ Rabs (number f (quotient f per d) - IZR d / IZR per) <= 4 * ulp f * Rabs (IZR d / IZR per) /\ 0 < number f (f_of_int f per) /\ Near f (number f (f_of_int f d) / number f (f_of_int f per)) (number f (quotient f per d)).
Proof.
  intros I P B. destruct (ulp_small f I) as [[U0 U1] _]. destruct (int_near f d I B) as (FD & _ & ED). destruct (int_near f per I ltac:(lia)) as (FP & _ & EP). pose proof (room_huge f I) as R.
  assert (L : Rabs (IZR d) <= IZR (2 ^ 63)) by (rewrite <- abs_IZR; apply IZR_le, B). replace (IZR (2 ^ 63)) with 9223372036854775808 in L by reflexivity. destruct P as [P1 P2]. assert (P3 : 1 <= IZR per) by (apply IZR_le; lia). apply IZR_le in P2. replace (IZR (2 ^ 43)) with 8796093022208 in P2 by reflexivity.
  destruct (rel_factor _ _ _ (Rlt_le _ _ U0) ED) as (e1 & E1 & HD). destruct (rel_factor _ _ _ (Rlt_le _ _ U0) EP) as (e2 & E2 & HP). pose proof (abs_le _ _ E1) as A1. pose proof (abs_le _ _ E2) as A2.
  set (D := number f (f_of_int f d)) in *. set (Q := number f (f_of_int f per)) in *. pose proof (scale_bound (IZR per) e2 ltac:(lra) ltac:(lra)) as SQ. assert (QP : 1 / 2 <= Q) by lra. assert (QU : Q <= 20000000000000) by lra.
  assert (DB : Rabs D <= Rabs (IZR d) * 2 /\ Rabs (IZR d) / 2 <= Rabs D). { rewrite HD, Rabs_mult, (Rabs_right (1 + e1)) by lra. pose proof (scale_bound (Rabs (IZR d)) e1 (Rabs_pos _) ltac:(lra)). lra. }
  assert (IQ : / 20000000000000 <= / Q <= 2) by (split; [apply Rinv_le_contravar; lra|replace 2 with (/ (1 / 2)) by field; apply Rinv_le_contravar; lra]).
  assert (QA : Rabs (D / Q) = Rabs D * / Q) by (unfold Rdiv; rewrite Rabs_mult, (Rabs_right (/ Q)) by lra; reflexivity).
  destruct (div_fin f _ _ I FD FP) as (F & N & _); fold D Q; [lra|rewrite QA; apply Rle_trans with (Rabs (IZR d) * 2 * 2); [apply Rmult_le_compat; try lra; apply Rabs_pos|lra]|]. fold D Q in N. split; [exact F|]. split; [|split; [lra|exact N]].
  assert (E : Rabs (number f (quotient f per d) - D / Q) <= ulp f * Rabs (D / Q)).
  { apply near_rel; [exact I|exact N|]. destruct (abs_int d) as [->|G]; [left; rewrite HD; unfold Rdiv; ring|right]. rewrite QA. apply Rle_trans with (1 / 2 * / 20000000000000); [lra|]. apply Rmult_le_compat; lra. }
  destruct (rel_factor _ _ _ (Rlt_le _ _ U0) E) as (e3 & E3 & HQ). rewrite HQ, HD, HP. set (y := IZR d / IZR per). replace (IZR d * (1 + e1) / (IZR per * (1 + e2)) * (1 + e3)) with (y * ((1 + e1) * (1 + e3) / (1 + e2))) by (unfold y; field; lra).
  set (X := (1 + e1) * (1 + e3) / (1 + e2)). replace (y * X - y) with (y * (X - 1)) by ring. rewrite Rabs_mult, Rmult_comm. apply Rmult_le_compat_r; [apply Rabs_pos|].
  assert (X1 : X - 1 = (e1 + e3 - e2 + e1 * e3) / (1 + e2)) by (unfold X; field; lra). rewrite X1. unfold Rdiv. rewrite Rabs_mult, (Rabs_right (/ (1 + e2))) by (left; apply Rinv_0_lt_compat; lra).
  assert (N1 : Rabs (e1 + e3 - e2 + e1 * e3) <= 3 * ulp f + ulp f * ulp f). { pose proof (abs_le _ _ E3) as A3. replace (e1 + e3 - e2 + e1 * e3) with ((e1 + e3 - e2) + e1 * e3) by ring. eapply Rle_trans; [apply Rabs_triang|]. apply Rplus_le_compat; [apply Rabs_le; lra|]. rewrite Rabs_mult. apply Rmult_le_compat; try apply Rabs_pos; assumption. }
  assert (I1 : / (1 + e2) <= 1000 / 999) by (replace (1000 / 999) with (/ (999 / 1000)) by field; apply Rinv_le_contravar; lra). assert (UU : ulp f * ulp f <= / 1000 * ulp f) by (apply Rmult_le_compat_r; lra).
  apply Rle_trans with ((3 * ulp f + ulp f * ulp f) * (1000 / 999)); [|lra]. apply Rmult_le_compat; try lra; [apply Rabs_pos|left; apply Rinv_0_lt_compat; lra].
Qed.
Lemma quotient_mono f per a b : IEEE f -> (0 < per <= 2 ^ 43)%Z -> (Z.abs a <= 2 ^ 63)%Z -> (Z.abs b <= 2 ^ 63)%Z -> (a <= b)%Z -> number f (quotient f per a) <= number f (quotient f per b).
Proof.
  intros I P A B L. destruct (quotient_near f per a I P A) as (_ & _ & Q & NA). destruct (quotient_near f per b I P B) as (_ & _ & _ & NB). apply (near_mono f _ _ _ _ NA NB).
  destruct (int_near f a I A) as (_ & IA & _). destruct (int_near f b I B) as (_ & IB & _). unfold Rdiv. apply Rmult_le_compat_r; [left; apply Rinv_0_lt_compat, Q|]. apply (near_mono f _ _ _ _ IA IB). apply IZR_le, L.
Qed.
Lemma quotient_sign f per : IEEE f -> (0 < per <= 2 ^ 43)%Z -> quotient f per 0 <> FFin true 0%Z.
Proof.
  intros I P E. unfold quotient in E. rewrite (zero_int f I) in E. destruct (int_near f per I ltac:(lia)) as ((s & n & EP & F) & _ & _). destruct (quotient_near f per 0 I P ltac:(lia)) as (_ & _ & Q & _). rewrite EP in E, Q. cbn [number] in Q. pose proof (to_fnum_sign _ _ _ _ _ EP) as S. replace (per <? 0)%Z with false in S by (symmetry; apply Z.ltb_ge; lia). subst s.
  unfold f_zero in E. cbn [f_div] in E. destruct (Z.eqb_spec n 0) as [Z|Z]; [rewrite Z, val_zero in Q; lra|]. pose proof (to_fnum_sign _ _ _ _ _ E). discriminate.
Qed.
Lemma quotient_null f per d : IEEE f -> (0 < per <= 2 ^ 43)%Z -> (Z.abs d <= 2 ^ 63)%Z -> number f (quotient f per d) = 0 <-> d = 0%Z.
Proof.
  intros I P B. destruct (ulp_small f I) as [[U0 U1] _]. destruct (quotient_near f per d I P B) as (_ & E & _). assert (P3 : 1 <= IZR per) by (apply IZR_le; lia). split.
  - intros Z. rewrite Z, Rminus_0_l, Rabs_Ropp in E. destruct (Z.eq_dec d 0) as [|N]; [assumption|exfalso]. assert (D : IZR d / IZR per <> 0). { unfold Rdiv. apply Rmult_integral_contrapositive_currified; [apply not_0_IZR, N|apply Rinv_neq_0_compat; lra]. }
    pose proof (Rabs_pos_lt _ D) as A. assert (4 * ulp f * Rabs (IZR d / IZR per) <= / 2 * Rabs (IZR d / IZR per)) by (apply Rmult_le_compat_r; lra). lra.
  - intros ->. unfold Rdiv in E. rewrite Rmult_0_l, Rminus_0_r, Rabs_R0, Rmult_0_r in E. pose proof (Rabs_pos (number f (quotient f per 0))). destruct (Req_dec (number f (quotient f per 0)) 0) as [|N]; [assumption|]. apply Rabs_pos_lt in N. lra.
Qed.
Lemma quotient_reading f per d : IEEE f -> (0 < per <= 2 ^ 43)%Z -> (Z.abs d <= 2 ^ 63)%Z -> Reading f (quotient f per d).
Proof.
  intros I P B. split; [apply (quotient_near f per d I P B)|]. intros E. pose proof (proj1 (quotient_null f per d I P B)) as N. rewrite E in N. cbn [number] in N. specialize (N (val_zero f true)). subst d. exact (quotient_sign f per I P E).
Qed.

(* ---------- sums ---------- *)
Lemma plus_same f x y : IEEE f -> Plus f x -> Plus f y -> number f x = number f y -> x = y.
Proof.
  intros I (n & -> & _) (m & -> & _) E. cbn [number] in E. unfold val in E. pose proof (unit_pos f (ieee_sane f I)) as U. do 2 f_equal. apply eq_IZR. apply Rmult_eq_reg_r with (unit_of f); [exact E|lra].
Qed.
Lemma summed0_same f l : IEEE f -> Run f l -> span f l <= room f / 2 -> summed0 f l = summed f l.
Proof.
  intros I. destruct (ulp_small f I) as [[U0 U1] _]. induction l as [|p l IH]; intros R B; [reflexivity|]. inversion R as [|? ? (R1 & R2 & L) RL]; subst. pose proof (span_nonneg f l RL) as SN. change (span f (p :: l)) with (span f l + (number f (snd p) - number f (fst p))) in B.
  change (summed0 f (p :: l)) with (f_add f (summed0 f l) (f_sub f (snd p) (fst p))). destruct l as [|q l].
  - change (summed0 f []) with f_zero. change (summed f [p]) with (f_sub f (snd p) (fst p)). change (span f []) with 0 in B. destruct (sub_span f p I R1 R2 L ltac:(lra)) as [PD ED]. cbv zeta in ED.
    assert (DB : number f (f_sub f (snd p) (fst p)) <= room f). { apply abs_inv in ED. assert (ulp f * (number f (snd p) - number f (fst p)) <= 1 * (number f (snd p) - number f (fst p))) by (apply Rmult_le_compat_r; lra). lra. }
    destruct (add_zero_exact f _ I PD DB) as [P E]. apply (plus_same f); assumption.
  - change (summed f (p :: q :: l)) with (f_add f (summed f (q :: l)) (f_sub f (snd p) (fst p))). rewrite IH; [reflexivity|exact RL|lra].
Qed.
(* readings that are multiples of a tick *)
Definition Ticks (f : fmt) (e : Z) (x : fnum) : Prop := exists k, number f x = IZR (k * 2 ^ e) * unit_of f.
Lemma tick_exact f e r g : IEEE f -> (0 <= e)%Z -> (exists k, r = IZR (k * 2 ^ e) * unit_of f) -> 0 <= r <= IZR (2 ^ fm_prec f * 2 ^ e) * unit_of f -> Near f r g -> g = r.
Proof.
  intros I E (k & ->) [B0 B] N. apply (near_exact f); [exact N|]. pose proof (unit_pos f (ieee_sane f I)) as U. apply Rmult_le_reg_r in B; [|exact U]. assert (K0 : 0 <= IZR (k * 2 ^ e)). { apply Rmult_le_reg_r with (unit_of f); [exact U|]. rewrite Rmult_0_l. exact B0. }
  apply le_IZR in B. apply le_IZR in K0. assert (P : (0 < 2 ^ e)%Z) by (apply Z.pow_pos_nonneg; lia). apply grid_int; [apply ieee_sane, I|exact E|]. apply Z.mul_le_mono_pos_r in B; [|exact P]. rewrite Z.abs_eq; [exact B|]. destruct (Z.le_gt_cases 0 k) as [|K]; [assumption|]. exfalso. assert (k * 2 ^ e < 0)%Z by (apply Z.mul_neg_pos; assumption). lia.
Qed.
Lemma summed_ticks f e l : IEEE f -> (0 <= e)%Z -> Run f l -> Forall (fun p => Ticks f e (fst p) /\ Ticks f e (snd p)) l -> span f l <= IZR (2 ^ fm_prec f * 2 ^ e) * unit_of f -> span f l <= room f / 2 ->
  number f (summed f l) = span f l /\ (l <> [] -> Plus f (summed f l)) /\ exists k, span f l = IZR (k * 2 ^ e) * unit_of f.
Proof.
  intros I E. destruct (ulp_small f I) as [[U0 U1] _]. pose proof (room_huge f I) as RH. induction l as [|p l IH]; intros R T B B2.
  - split; [apply val_zero|]. split; [congruence|]. exists 0%Z. cbn [span fold_right]. rewrite Z.mul_0_l. lra.
  - inversion R as [|? ? (R1 & R2 & L) RL]; subst. inversion T as [|? ? ((a & TA) & (b & TB)) TL]; subst. pose proof (span_nonneg f l RL) as SN. change (span f (p :: l)) with (span f l + (number f (snd p) - number f (fst p))) in *. set (D := number f (snd p) - number f (fst p)) in *.
    assert (D0 : 0 <= D) by (unfold D; lra). assert (TD : exists k, D = IZR (k * 2 ^ e) * unit_of f) by (exists (b - a)%Z; unfold D; rewrite TA, TB, Z.mul_sub_distr_r, minus_IZR; ring).
    destruct (IH RL TL ltac:(lra) ltac:(lra)) as (IH1 & IH2 & (k & IH3)). destruct TD as (d & TD). assert (TS : exists k, span f l + D = IZR (k * 2 ^ e) * unit_of f) by (exists (k + d)%Z; rewrite IH3, TD, Z.mul_add_distr_r, plus_IZR; ring).
    destruct (sub_span f p I R1 R2 L ltac:(unfold D in *; lra)) as [PD ED]. destruct (sub_fin f (snd p) (fst p) I (proj1 R2) (proj1 R1)) as (FD & ND & _); [fold D; rewrite Rabs_right by lra; lra|]. fold D in ND.
    pose proof (tick_exact f e D _ I E (ex_intro _ d TD) ltac:(lra) ND) as XD. destruct l as [|q l].
    + change (summed f [p]) with (f_sub f (snd p) (fst p)). change (span f []) with 0. split; [lra|]. split; [intros _; exact PD|]. exists d. lra.
    + change (summed f (p :: q :: l)) with (f_add f (summed f (q :: l)) (f_sub f (snd p) (fst p))). set (m := q :: l) in *. assert (PM : Plus f (summed f m)) by (apply IH2; discriminate).
      destruct (add_fin f _ _ I (plus_fin f _ PM) (plus_fin f _ PD)) as (F & N & _); [rewrite XD, IH1, Rabs_right by lra; lra|]. rewrite XD, IH1 in N.
      split; [exact (tick_exact f e _ _ I E TS ltac:(lra) N)|]. split; [intros _; apply add_plus; assumption|exact TS].
Qed.
