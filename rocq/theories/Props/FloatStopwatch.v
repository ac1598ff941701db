(* C107: timers and stopwatches of floating point numbers. *)
From Coq Require Import String ZArith List Reals Lra Lia.
From Verif Require Import Model.Base Model.StdString Model.Range Model.PropTree Model.FloatText Model.Ieee Model.FloatInterp Model.Timer Model.Stopwatch Model.FloatStopwatch Spec.FloatText Spec.Ieee.
From Verif Require Import Proofs.BaseFacts Proofs.FloatTextProofs Proofs.IeeeProofs Proofs.IeeeErrorProofs Proofs.FloatOpsProofs Props.FloatAverage Proofs.RoundingProofs Proofs.TimerProofs Proofs.ReportProofs Props.FloatText.
From Verif Require Import Proofs.FloatStopwatchProofs Spec.FloatStopwatch.
From Verif Require Spec.Stopwatch.
Import ListNotations.
Local Open Scope list_scope.
Local Open Scope R_scope.

Lemma summed_bound f l : IEEE f -> Run f l -> INR (List.length l) * ulp f <= 1 / 2 -> span f l <= room f / 2 ->
  Plus f (summed f l) /\ Rabs (number f (summed f l) - span f l) <= 2 * INR (List.length l) * ulp f * span f l.
Proof.
  intros I R K B. rewrite <- (summed0_same f l I R B). destruct (summed0_summed f l I R K B) as [P E]. split; [exact P|]. eapply Rle_trans; [exact E|]. apply Rmult_le_compat_r; [apply span_nonneg, R|]. destruct (ulp_small f I) as [[U0 U1] _]. pose proof (pow_linear (ulp f) (List.length l) ltac:(lra) K). lra.
Qed.
Lemma few f a b : IEEE f -> (a <= b)%nat -> INR b * ulp f <= 1 / 2 -> INR a * ulp f <= 1 / 2.
Proof. intros I L B. destruct (ulp_small f I) as [[U0 U1] _]. apply le_INR in L. eapply Rle_trans; [|exact B]. apply Rmult_le_compat_r; lra. Qed.

(* The report: a property for every label, in the order of first use, with the
   text of the sum of its intervals; then the time of the stopwatch itself. *)
Theorem C107_report : forall f x0 h, IEEE f -> Ordered f x0 h -> number f (began x0 h) - number f x0 <= room f / 2 ->
  fs_report f (fold_left (fs_step f) (rev h) (fs_new f x0)) =
    PN false [] (map (fun n => (n, PN false (to_text f (summed f (intervals x0 h n))) [])) (labels h) ++ [(lit "internal", PN false (to_text f (summed f (own_intervals h))) [])]) /\
  NoDup (labels h).
Proof.
  intros f x0 h I O B. fold (after f x0 h). destruct (after_spec f x0 h I) as (_ & M & W). split; [|apply labels_nodup]. unfold fs_report. rewrite M, W, map_app, map_map. destruct (span_parts f x0 h O) as [_ SO]. destruct (ordered_runs f x0 h O) as (_ & RO & _).
  rewrite (summed0_same f _ I RO) by lra. reflexivity.
Qed.
(* Every sum is a number and not below zero.  After k measures it is off by a
   factor of at most 1 + 2k roundings. *)
Theorem C107_error : forall f x0 h, IEEE f -> Ordered f x0 h -> INR (List.length h) * ulp f <= 1 / 2 -> number f (began x0 h) - number f x0 <= room f / 2 ->
  forall l, (exists s, l = intervals x0 h s) \/ l = own_intervals h ->
  (exists n, summed f l = FFin false n /\ Finite f n) /\ Rabs (number f (summed f l) - span f l) <= 2 * INR (List.length l) * ulp f * span f l.
Proof.
  intros f x0 h I O K B l L. destruct (span_parts f x0 h O) as [SP SO]. destruct (ordered_runs f x0 h O) as (RI & RO & _). destruct L as [(s & ->)| ->].
  - apply summed_bound; [exact I|apply RI|apply (few f _ _ I (count_intervals x0 h s) K)|specialize (SP s); lra].
  - apply summed_bound; [exact I|exact RO|apply (few f _ _ I (count_own h) K)|lra].
Qed.
(* The report adds up to the time since the stopwatch was made, but for what was
   skipped, within the same factor. *)
Theorem C107_total : forall f x0 h, IEEE f -> Ordered f x0 h -> INR (List.length h) * ulp f <= 1 / 2 -> number f (began x0 h) - number f x0 <= room f / 2 ->
  let T := number f (began x0 h) - number f x0 in
  Rabs (fold_right (fun s a => number f (summed f (intervals x0 h s)) + a) 0 (labels h) + number f (summed f (own_intervals h)) - (T - span f (skipped_intervals x0 h))) <= 2 * INR (List.length h) * ulp f * T.
Proof.
  intros f x0 h I O K B T. destruct (ulp_small f I) as [[U0 U1] _]. pose proof (spans_total f x0 h) as ST. fold T in ST. destruct (ordered_runs f x0 h O) as (RI & RO & RS). pose proof (span_nonneg f _ RS) as S0. set (c := 2 * INR (List.length h) * ulp f).
  assert (GE : forall l, (exists s, l = intervals x0 h s) \/ l = own_intervals h -> Run f l -> (List.length l <= List.length h)%nat -> Rabs (number f (summed f l) - span f l) <= c * span f l).
  { intros l L R N. eapply Rle_trans; [apply (C107_error f x0 h I O K B l L)|]. apply Rmult_le_compat_r; [apply span_nonneg, R|]. unfold c. apply Rmult_le_compat_r; [lra|]. apply le_INR in N. lra. }
  assert (G : forall ls, Rabs (fold_right (fun s a => number f (summed f (intervals x0 h s)) + a) 0 ls - sumR (fun s => span f (intervals x0 h s)) ls) <= c * sumR (fun s => span f (intervals x0 h s)) ls).
  { induction ls as [|s ls IH]; cbn [fold_right sumR]; [rewrite Rminus_0_r, Rabs_R0; lra|]. fold (sumR (fun s => span f (intervals x0 h s)) ls) in *. pose proof (GE _ (or_introl (ex_intro _ s eq_refl)) (RI s) (count_intervals x0 h s)) as E. apply abs_inv in IH. apply abs_inv in E. apply Rabs_le. lra. }
  specialize (G (labels h)). pose proof (GE _ (or_intror eq_refl) RO (count_own h)) as E. apply abs_inv in G. apply abs_inv in E. assert (C0 : 0 <= c) by (unfold c; pose proof (pos_INR (List.length h)); apply Rmult_le_pos; lra).
  assert (0 <= c * span f (skipped_intervals x0 h)) by (apply Rmult_le_pos; assumption). set (X := sumR (fun s => span f (intervals x0 h s)) (labels h)) in *. assert (ET : T = X + span f (own_intervals h) + span f (skipped_intervals x0 h)) by lra. rewrite ET. apply Rabs_le. lra.
Qed.
(* Nothing is rounded when the readings are multiples of a tick and span no more
   ticks than the format has whole numbers. *)
Definition all_readings (x0 : fnum) (h : list fs_op) : list fnum := x0 :: flat_map (fun o => match o with FFirst x => [x] | FMeasure _ x y => [x; y] end) h.
Lemma ticks_intervals f e x0 h : Forall (Ticks f e) (all_readings x0 h) -> Ticks f e (began x0 h) /\ (forall s, Forall (fun p => Ticks f e (fst p) /\ Ticks f e (snd p)) (intervals x0 h s)) /\ Forall (fun p => Ticks f e (fst p) /\ Ticks f e (snd p)) (own_intervals h).
Proof.
  unfold all_readings. intros A. inversion A as [|? ? A0 AH]; subst. clear A. induction h as [|o h IH]; [cbn; repeat split; [exact A0|constructor|constructor]|]. cbn [flat_map] in AH. apply Forall_app in AH. destruct AH as [AO AH]. destruct (IH AH) as (P & Q & R). destruct o as [x|n x y].
  - inversion AO; subst. cbn [began intervals own_intervals]. auto.
  - inversion AO as [|? ? TX AO']; subst. inversion AO' as [|? ? TY _]; subst. cbn [began intervals own_intervals]. split; [exact TY|]. split; [|constructor; [cbn; auto|exact R]]. intros s. destruct (list_eq_dec Ascii.ascii_dec n s); [constructor; [cbn; auto|apply Q]|apply Q].
Qed.
Theorem C107_exact : forall f e x0 h, IEEE f -> (0 <= e)%Z -> Ordered f x0 h -> (forall x, In x (all_readings x0 h) -> exists k, number f x = IZR (k * 2 ^ e) * unit_of f) ->
  number f (began x0 h) - number f x0 <= room f / 2 -> number f (began x0 h) - number f x0 <= IZR (2 ^ fm_prec f * 2 ^ e) * unit_of f ->
  forall l, (exists s, l = intervals x0 h s) \/ l = own_intervals h -> number f (summed f l) = span f l.
Proof.
  intros f e x0 h I E O T B B2 l L. assert (TA : Forall (Ticks f e) (all_readings x0 h)) by (apply Forall_forall; exact T). destruct (ticks_intervals f e x0 h TA) as (_ & TI & TO). destruct (span_parts f x0 h O) as [SP SO]. destruct (ordered_runs f x0 h O) as (RI & RO & _). destruct L as [(s & ->)| ->].
  - specialize (SP s). apply (summed_ticks f e); [exact I|exact E|apply RI|apply TI|lra|lra].
  - apply (summed_ticks f e); [exact I|exact E|exact RO|exact TO|lra|lra].
Qed.
(* The text of a measure: six decimals, within half of the last one of the sum. *)
Theorem C107_text : forall f x0 h s, IEEE f -> Ordered f x0 h -> INR (List.length h) * ulp f <= 1 / 2 -> number f (began x0 h) - number f x0 <= room f / 2 -> In s (labels h) ->
  exists t k, In (s, PN false t []) (pn_children (fs_report f (fold_left (fs_step f) (rev h) (fs_new f x0)))) /\ Fixed6 false k t /\
    Rabs (IZR k - 1000000 * span f (intervals x0 h s)) <= 1 / 2 + 1000000 * (2 * INR (List.length (intervals x0 h s)) * ulp f * span f (intervals x0 h s)).
Proof.
  intros f x0 h s I O K B S. pose proof (ieee_sane f I) as W. destruct (C107_error f x0 h I O K B _ (or_introl (ex_intro _ s eq_refl))) as [(n & EN & FN) E]. destruct (C90_text f false n I FN) as (k & T & RK). exists (to_text f (FFin false n)), k. split; [|split; [exact T|]].
  - destruct (C107_report f x0 h I O B) as [-> _]. cbn [pn_children]. apply in_or_app. left. apply in_map_iff. exists s. rewrite EN. auto.
  - destruct (rounds_real _ _ _ (pow_pos_ (fm_low f) ltac:(destruct W; lia)) RK) as [H _]. rewrite EN in E. cbn [number] in E. assert (V : IZR (n * 10 ^ 6) / IZR (2 ^ fm_low f) = 1000000 * val f false n) by (rewrite mult_IZR; unfold val, unit_of, Rdiv; change (IZR (10 ^ 6)) with 1000000; ring).
    rewrite V in H. apply abs_inv in H. apply abs_inv in E. apply Rabs_le. lra.
Qed.

(* A timer gives the time since its epoch within four roundings, never going
   back, zero only for no time at all, and undefined only when the difference of
   the counts is. *)
Theorem C107_seconds : forall f per c t, IEEE f -> In per [1000000000; 60000000000; 3600000000000]%Z ->
  ((exists x, f_elapsed f per c t = Ok x) <-> (- 2 ^ 63 <= t - c < 2 ^ 63)%Z) /\
  forall x, f_elapsed f per c t = Ok x ->
    Reading f x /\ Rabs (number f x - IZR (t - c) / IZR per) <= 4 * ulp f * Rabs (IZR (t - c) / IZR per) /\ (number f x = 0 <-> t = c) /\
    forall t' x', (t <= t')%Z -> f_elapsed f per c t' = Ok x' -> number f x <= number f x'.
Proof.
  intros f per c t I P. assert (PP : (0 < per <= 2 ^ 43)%Z) by (destruct P as [<-|[<-|[<-|[]]]]; lia). assert (X : forall u x, f_elapsed f per c u = Ok x -> (- 2 ^ 63 <= u - c < 2 ^ 63)%Z /\ x = quotient f per (u - c)).
  { intros u x E. assert (R : (- 2 ^ 63 <= u - c < 2 ^ 63)%Z). { unfold f_elapsed, elapsed in E. destruct (arith i64 (u - c)) as [d| | |] eqn:D; try discriminate. apply i64_inv in D. apply D. } split; [exact R|]. rewrite (elapsed_ok f per c u R) in E. congruence. }
  split; [split; [intros (x & E); apply (X t x E)|intros R; eexists; apply elapsed_ok, R]|]. intros x E. destruct (X t x E) as [R ->]. split; [apply quotient_reading; [exact I|exact PP|lia]|]. split; [apply (quotient_near f per (t - c) I PP); lia|]. split; [rewrite quotient_null by (try assumption; lia); lia|].
  intros t' x' L E'. destruct (X t' x' E') as [R' ->]. apply quotient_mono; try assumption; lia.
Qed.
(* Counts of less than half the whole numbers of the format are told apart. *)
Theorem C107_resolution : forall f c t t' x x', IEEE f -> f_seconds f c t = Ok x -> f_seconds f c t' = Ok x' ->
  (Z.abs (t - c) < 2 ^ (fm_prec f - 1))%Z -> (Z.abs (t' - c) < 2 ^ (fm_prec f - 1))%Z -> (number f x < number f x' <-> (t < t')%Z).
Proof.
  intros f c t t' x x' I E E' B B'. pose proof (ieee_sane f I) as W. destruct (ulp_small f I) as [[U0 U1] _]. assert (PP : In 1000000000%Z [1000000000; 60000000000; 3600000000000]%Z) by (left; reflexivity).
  assert (PR : (24 <= fm_prec f <= 53)%Z) by (destruct I as [-> | ->]; cbn; lia). assert (UP : ulp f * IZR (2 ^ fm_prec f) = 1) by (unfold ulp; apply Rinv_l; apply not_0_IZR; pose proof (Z.pow_pos_nonneg 2 (fm_prec f)); lia). assert (H2 : (2 ^ fm_prec f = 2 * 2 ^ (fm_prec f - 1))%Z) by (rewrite <- Z.pow_succ_r by lia; f_equal; lia).
  assert (PW : (2 ^ fm_prec f <= 2 ^ 53)%Z) by (apply Z.pow_le_mono_r; lia).
  assert (NP : number f (f_of_int f 1000000000) = 1000000000).
  { destruct (int_near f 1000000000 I ltac:(lia)) as (_ & N & _). apply (near_exact f _ _ N). replace 1000000000 with (IZR (1953125 * 2 ^ (fm_low f + 9)) * unit_of f); [apply grid_int; [exact W|destruct W; lia|]|].
    - assert ((2 ^ 24 <= 2 ^ fm_prec f)%Z) by (apply Z.pow_le_mono_r; lia). lia.
    - destruct W as [W1 W2]. rewrite Z.pow_add_r, Z.mul_assoc, (Z.mul_comm _ (2 ^ 9)), Z.mul_assoc, mult_IZR by lia. unfold unit_of. change (IZR (2 ^ 9 * 1953125)) with 1000000000 || idtac. assert (IZR (2 ^ fm_low f) <> 0) by (apply not_0_IZR; pose proof (Z.pow_pos_nonneg 2 (fm_low f)); lia). replace (IZR (2 ^ 9 * 1953125)) with 1000000000 by reflexivity || idtac. field. assumption. }
  assert (G : forall u y, f_seconds f c u = Ok y -> (Z.abs (u - c) < 2 ^ (fm_prec f - 1))%Z -> Rabs (number f y - IZR (u - c) / 1000000000) <= ulp f * Rabs (IZR (u - c) / 1000000000)).
  { intros u y Y S. unfold f_seconds in Y. rewrite elapsed_ok in Y by lia. injection Y as <-. destruct (quotient_near f 1000000000 (u - c) I ltac:(lia) ltac:(lia)) as (_ & _ & _ & N). destruct (int_near f (u - c) I ltac:(lia)) as (_ & ND & _).
    rewrite NP, (near_exact f _ _ ND) in N by (apply grid_whole; [exact W|lia]).
    apply near_rel; [exact I|exact N|]. destruct (abs_int (u - c)) as [->|A]; [left; unfold Rdiv; ring|right]. unfold Rdiv. rewrite Rabs_mult, (Rabs_right (/ 1000000000)) by lra. lra. }
  assert (H : forall u y, f_seconds f c u = Ok y -> (Z.abs (u - c) < 2 ^ (fm_prec f - 1))%Z -> IZR (u - c) - 1 / 2 < 1000000000 * number f y < IZR (u - c) + 1 / 2).
  { intros u y Y S. specialize (G u y Y S). unfold Rdiv at 2 in G. rewrite Rabs_mult, (Rabs_right (/ 1000000000)) in G by lra. assert (UB : ulp f * Rabs (IZR (u - c)) < 1 / 2). { rewrite <- abs_IZR. apply IZR_lt in S. rewrite H2, mult_IZR in UP. assert (ulp f * IZR (Z.abs (u - c)) < ulp f * IZR (2 ^ (fm_prec f - 1))) by (apply Rmult_lt_compat_l; lra). lra. }
    apply abs_inv in G. lra. }
  pose proof (H t x E B) as HX. pose proof (H t' x' E' B') as HX'. split.
  - intros L. destruct (Z.lt_ge_cases t t') as [|GE]; [assumption|exfalso]. destruct (Z.eq_dec t t') as [EQ|NE]; [subst t'; rewrite E in E'; injection E' as <-; lra|]. assert (S : IZR (t' - c) + 1 <= IZR (t - c)) by (rewrite <- plus_IZR; apply IZR_le; lia). lra.
  - intros L. assert (S : IZR (t - c) + 1 <= IZR (t' - c)) by (rewrite <- plus_IZR; apply IZR_le; lia). lra.
Qed.

(* A stopwatch whose clock has ticks of a nanosecond: what the code stores is
   near what Model/Stopwatch.v stores, and the names are the same. *)
Definition reading (f : fmt) (c t : Z) : fnum := match f_seconds f c t with Ok x => x | _ => FNan end.
Definition seen (f : fmt) (c : Z) (o : sw_op) : fs_op :=
  match o with First t => FFirst (reading f c t) | Measure s t t' => FMeasure s (reading f c t) (reading f c t') end.
Fixpoint Forward (c t0 : Z) (h : list sw_op) : Prop :=
  match h with
  | [] => (c <= t0 < c + 2 ^ 63)%Z
  | First t :: h' => Forward c t0 h' /\ (Spec.Stopwatch.began t0 h' <= t < c + 2 ^ 63)%Z
  | Measure _ t t' :: h' => Forward c t0 h' /\ (Spec.Stopwatch.began t0 h' <= t <= t')%Z /\ (t' < c + 2 ^ 63)%Z
  end.
Lemma forward_began c t0 h : Forward c t0 h -> (c <= Spec.Stopwatch.began t0 h < c + 2 ^ 63)%Z.
Proof. induction h as [|[t|s t t'] h IH]; cbn [Forward Spec.Stopwatch.began]; [auto|intros [F H]; specialize (IH F); lia|intros (F & H & H'); specialize (IH F); lia]. Qed.
Section SeenSec.
Variables (f : fmt) (c t0 : Z).
Hypothesis I : IEEE f.
Let q (t : Z) : R := IZR (t - c) / 1000000000.
Lemma reading_near t : (c <= t < c + 2 ^ 63)%Z -> Reading f (reading f c t) /\ 0 <= number f (reading f c t) /\ 0 <= q t /\ Rabs (number f (reading f c t) - q t) <= 4 * ulp f * q t.
Proof.
  intros B. assert (E : f_seconds f c t = Ok (reading f c t)) by (unfold reading, f_seconds; rewrite elapsed_ok by lia; reflexivity). unfold f_seconds in E. destruct (C107_seconds f 1000000000 c t I (or_introl eq_refl)) as [_ S]. destruct (S _ E) as (R & N & _).
  destruct (ulp_small f I) as [[U0 U1] _]. assert (Q0 : 0 <= q t). { unfold q, Rdiv. apply Rmult_le_pos; [apply IZR_le; lia|lra]. } fold (q t) in N. rewrite (Rabs_right (q t)) in N by lra. split; [exact R|]. split; [|split; [exact Q0|exact N]].
  apply abs_inv in N. assert (4 * ulp f * q t <= 1 * q t) by (apply Rmult_le_compat_r; lra). lra.
Qed.
Lemma reading_mono t t' : (c <= t <= t')%Z -> (t' < c + 2 ^ 63)%Z -> number f (reading f c t) <= number f (reading f c t').
Proof.
  intros B B'. assert (E : forall u, (c <= u < c + 2 ^ 63)%Z -> f_elapsed f 1000000000 c u = Ok (reading f c u)) by (intros u U; unfold reading, f_seconds; rewrite elapsed_ok by lia; reflexivity).
  destruct (C107_seconds f 1000000000 c t I (or_introl eq_refl)) as [_ S]. destruct (S _ (E t ltac:(lia))) as (_ & _ & _ & M). apply (M t'); [lia|apply E; lia].
Qed.
Lemma seen_began h : began (reading f c t0) (map (seen f c) h) = reading f c (Spec.Stopwatch.began t0 h).
Proof. destruct h as [|[t|s t t'] h]; reflexivity. Qed.
Lemma seen_labels h : labels (map (seen f c) h) = Spec.Stopwatch.labels h.
Proof. induction h as [|[t|s t t'] h IH]; cbn [map seen labels Spec.Stopwatch.labels]; [reflexivity|exact IH|]. rewrite IH. reflexivity. Qed.
Lemma seen_ordered h : Forward c t0 h -> Ordered f (reading f c t0) (map (seen f c) h).
Proof.
  induction h as [|[t|s t t'] h IH]; cbn [Forward map seen Ordered]; [intros F; apply reading_near, F|intros [F H]|intros (F & H & H')]; pose proof (forward_began _ _ _ F) as FB; rewrite seen_began.
  - split; [apply IH, F|]. split; [apply reading_near; lia|]. apply reading_mono; lia.
  - split; [apply IH, F|]. split; [apply reading_near; lia|]. split; [apply reading_near; lia|]. split; apply reading_mono; lia.
Qed.
Lemma q_mono a b : (a <= b)%Z -> q a <= q b.
Proof. intros L. unfold q, Rdiv. apply Rmult_le_compat_r; [lra|]. apply IZR_le. lia. Qed.
Lemma piece_error a b E : (c <= a <= b)%Z -> (b < c + 2 ^ 63)%Z -> q b <= E -> Rabs (number f (reading f c b) - number f (reading f c a) - IZR (b - a) / 1000000000) <= 8 * ulp f * E.
Proof.
  intros A B H. destruct (ulp_small f I) as [[U0 U1] _]. destruct (reading_near a ltac:(lia)) as (_ & _ & QA & EA). destruct (reading_near b ltac:(lia)) as (_ & _ & QB & EB). pose proof (q_mono a b ltac:(lia)) as M. assert (D : IZR (b - a) / 1000000000 = q b - q a) by (unfold q; rewrite !minus_IZR; field). rewrite D.
  assert (4 * ulp f * q a <= 4 * ulp f * E) by (apply Rmult_le_compat_l; lra). assert (4 * ulp f * q b <= 4 * ulp f * E) by (apply Rmult_le_compat_l; lra). apply abs_inv in EA. apply abs_inv in EB. apply Rabs_le. lra.
Qed.
Lemma seen_spans h E : Forward c t0 h -> q (Spec.Stopwatch.began t0 h) <= E ->
  (forall s, Rabs (span f (intervals (reading f c t0) (map (seen f c) h) s) - IZR (Spec.Stopwatch.measured t0 h s) / 1000000000) <= INR (List.length h) * (8 * ulp f * E)) /\
  Rabs (span f (own_intervals (map (seen f c) h)) - IZR (Spec.Stopwatch.own h) / 1000000000) <= INR (List.length h) * (8 * ulp f * E).
Proof.
  destruct (ulp_small f I) as [[U0 U1] _]. induction h as [|o h IH]; intros F B.
  - cbn. assert (Z : 0 - 0 / 1000000000 = 0) by (unfold Rdiv; ring). rewrite Z, Rabs_R0. split; [intros _|]; lra.
  - assert (P : Forward c t0 h /\ (Spec.Stopwatch.began t0 h <= Spec.Stopwatch.began t0 (o :: h))%Z) by (destruct o; cbn in *; split; [apply F|lia|apply F|lia]). destruct P as [FH M]. destruct (IH FH ltac:(eapply Rle_trans; [apply q_mono, M|exact B])) as [IH1 IH2]. pose proof (forward_began _ _ _ FH) as FB. pose proof (forward_began _ _ _ F) as FB'.
    assert (E0 : 0 <= 8 * ulp f * E). { destruct (reading_near _ FB') as (_ & _ & Q0 & _). apply Rmult_le_pos; lra. } cbn [List.length]. rewrite S_INR. destruct o as [t|n t t']; cbn [map seen intervals own_intervals Spec.Stopwatch.measured Spec.Stopwatch.own Spec.Stopwatch.began Forward] in *.
    + split; [intros s; specialize (IH1 s); lra|lra].
    + rewrite seen_began. destruct F as (_ & F1 & F2). split.
      * intros s. specialize (IH1 s). destruct (list_eq_dec Ascii.ascii_dec n s) as [_|_]; [|rewrite Z.add_0_r; lra]. change (span f ((reading f c (Spec.Stopwatch.began t0 h), reading f c t) :: intervals (reading f c t0) (map (seen f c) h) s)) with (span f (intervals (reading f c t0) (map (seen f c) h) s) + (number f (reading f c t) - number f (reading f c (Spec.Stopwatch.began t0 h)))).
        pose proof (piece_error (Spec.Stopwatch.began t0 h) t E ltac:(lia) ltac:(lia) ltac:(eapply Rle_trans; [apply (q_mono t t'); lia|exact B])) as PE. rewrite plus_IZR. apply abs_inv in PE. apply abs_inv in IH1. apply Rabs_le. lra.
      * change (span f ((reading f c t, reading f c t') :: own_intervals (map (seen f c) h))) with (span f (own_intervals (map (seen f c) h)) + (number f (reading f c t') - number f (reading f c t))).
        pose proof (piece_error t t' E ltac:(lia) ltac:(lia) B) as PE. rewrite plus_IZR. apply abs_inv in PE. apply abs_inv in IH2. apply Rabs_le. lra.
Qed.
Lemma seen_error h : Forward c t0 h -> INR (List.length h) * ulp f <= 1 / 2 ->
  let E := IZR (Spec.Stopwatch.began t0 h - c) / 1000000000 in
  (forall s, Rabs (number f (summed f (intervals (reading f c t0) (map (seen f c) h) s)) - IZR (Spec.Stopwatch.measured t0 h s) / 1000000000) <= 11 * INR (List.length h) * ulp f * E) /\
  Rabs (number f (summed f (own_intervals (map (seen f c) h))) - IZR (Spec.Stopwatch.own h) / 1000000000) <= 11 * INR (List.length h) * ulp f * E.
Proof.
  intros F K E. destruct (ulp_small f I) as [[U0 U1] _]. pose proof (room_huge f I) as RH. pose proof (seen_ordered h F) as O. pose proof (forward_began _ _ _ F) as FB. destruct (reading_near _ FB) as (_ & _ & Q0 & NB). assert (F0 : (c <= t0 < c + 2 ^ 63)%Z) by (clear -F; induction h as [|[t|s t t'] h IH]; cbn in F; [exact F|apply IH, F|apply IH, F]). destruct (reading_near t0 F0) as (_ & N0 & _).
  change (q (Spec.Stopwatch.began t0 h)) with E in *. destruct (seen_spans h E F (Rle_refl _)) as [S1 S2]. set (h' := map (seen f c) h) in *. set (x0 := reading f c t0) in *. assert (HL : List.length h' = List.length h) by apply map_length.
  assert (EB : E <= 9223372037). { unfold E, Rdiv. assert (L : IZR (Spec.Stopwatch.began t0 h - c) <= IZR (2 ^ 63)) by (apply IZR_le; lia). replace (IZR (2 ^ 63)) with 9223372036854775808 in L by reflexivity. lra. }
  assert (TB : number f (began x0 h') - number f x0 <= 2 * E /\ number f (began x0 h') - number f x0 <= (1 + / 200) * E). { unfold h', x0. rewrite seen_began. apply abs_inv in NB. assert (4 * ulp f * E <= / 250 * E) by (apply Rmult_le_compat_r; lra). unfold x0 in N0. lra. }
  assert (KP : 0 <= INR (List.length h) * ulp f) by (apply Rmult_le_pos; [apply pos_INR|lra]).
  assert (G : forall l m, (exists s, l = intervals x0 h' s) \/ l = own_intervals h' -> (List.length l <= List.length h)%nat -> span f l <= (1 + / 200) * E -> 0 <= span f l -> Rabs (span f l - m) <= INR (List.length h) * (8 * ulp f * E) -> Rabs (number f (summed f l) - m) <= 11 * INR (List.length h) * ulp f * E).
  { intros l m L N SB SN SM. destruct (C107_error f x0 h' I O ltac:(rewrite HL; exact K) ltac:(lra) l L) as [_ X]. assert (X2 : 2 * INR (List.length l) * ulp f * span f l <= 2 * (INR (List.length h) * ulp f) * ((1 + / 200) * E)). { apply le_INR in N. apply Rmult_le_compat; [apply Rmult_le_pos; [|lra]; pose proof (pos_INR (List.length l)); lra|lra| |exact SB]. assert (INR (List.length l) * ulp f <= INR (List.length h) * ulp f) by (apply Rmult_le_compat_r; lra). lra. }
    assert (KE : 0 <= INR (List.length h) * ulp f * E) by (apply Rmult_le_pos; lra). apply abs_inv in X. apply abs_inv in SM. apply Rabs_le. lra. }
  destruct (span_parts f x0 h' O) as [P1 P2]. split.
  - intros s. specialize (P1 s). apply G; [left; exists s; reflexivity|rewrite <- HL; apply count_intervals|lra|lra|apply S1].
  - apply G; [right; reflexivity|rewrite <- HL; apply count_own|lra|lra|exact S2].
Qed.
End SeenSec.
Theorem C107_true : forall f c t0 h, IEEE f -> Forward c t0 h -> INR (List.length h) * ulp f <= 1 / 2 ->
  let h' := map (seen f c) h in let x0 := reading f c t0 in let bound := 11 * INR (List.length h) * ulp f * (IZR (Spec.Stopwatch.began t0 h - c) / 1000000000) in
  labels h' = Spec.Stopwatch.labels h /\
  (forall s, Rabs (number f (summed f (intervals x0 h' s)) - IZR (Spec.Stopwatch.measured t0 h s) / 1000000000) <= bound) /\
  Rabs (number f (summed f (own_intervals h')) - IZR (Spec.Stopwatch.own h) / 1000000000) <= bound /\
  fs_report f (fold_left (fs_step f) (rev h') (fs_new f x0)) =
    PN false [] (map (fun n => (n, PN false (to_text f (summed f (intervals x0 h' n))) [])) (labels h') ++ [(lit "internal", PN false (to_text f (summed f (own_intervals h'))) [])]).
Proof.
  intros f c t0 h I F K h' x0 bound. split; [apply seen_labels|]. destruct (seen_error f c t0 I h F K) as [A B]. split; [exact A|]. split; [exact B|]. pose proof (seen_ordered f c t0 I h F) as O.
  apply C107_report; [exact I|exact O|]. pose proof (forward_began _ _ _ F) as FB. destruct (reading_near f c I _ FB) as (_ & _ & Q0 & NB). destruct (ordered_began _ _ _ O) as (_ & _ & LE). assert (F0 : (c <= t0 < c + 2 ^ 63)%Z) by (clear -F; induction h as [|[t|s t t'] h IH]; cbn in F; [exact F|apply IH, F|apply IH, F]). destruct (reading_near f c I t0 F0) as (_ & N0 & _).
  unfold h', x0. rewrite seen_began. pose proof (room_huge f I) as RH. destruct (ulp_small f I) as [[U0 U1] _]. apply abs_inv in NB. set (E := IZR (Spec.Stopwatch.began t0 h - c) / 1000000000) in *. assert (4 * ulp f * E <= 1 * E) by (apply Rmult_le_compat_r; lra).
  assert (EB : E <= 9223372037). { unfold E, Rdiv. assert (L : IZR (Spec.Stopwatch.began t0 h - c) <= IZR (2 ^ 63)) by (apply IZR_le; lia). replace (IZR (2 ^ 63)) with 9223372036854775808 in L by reflexivity. lra. } lra.
Qed.

(* Beyond those bounds: sums are rounded, short times are shown as none, and long
   times cannot be told apart. *)
Local Notation x n := (FFin false n).
Lemma float_finite m e : (0 <= e)%Z -> (0 <= m < 2 ^ 24)%Z -> (m * 2 ^ e < 2 ^ 277)%Z -> Reading float_fmt (x (m * 2 ^ e)).
Proof. intros E M B. split; [|discriminate]. exists false, (m * 2 ^ e)%Z. split; [reflexivity|]. split; [exists m, e; auto|exact B]. Qed.
Lemma float_le a b : (a <= b)%Z -> number float_fmt (x a) <= number float_fmt (x b).
Proof. intros L. cbn [number]. unfold val. pose proof (unit_pos float_fmt (ieee_sane _ (or_intror eq_refl))). apply Rmult_le_compat_r; [lra|]. apply IZR_le, L. Qed.
Theorem C107_exact_refuted : exists x0 h s, Ordered float_fmt x0 h /\ number float_fmt (summed float_fmt (intervals x0 h s)) < span float_fmt (intervals x0 h s).
Proof.
  exists (x (0 * 2 ^ 0)), [FMeasure (lit "a") (x (1 * 2 ^ 26)) (x (1 * 2 ^ 26)); FFirst (x (1 * 2 ^ 25)); FMeasure (lit "a") (x (1 * 2 ^ 0)) (x (1 * 2 ^ 0))]%Z, (lit "a"). split.
  - cbn [Ordered began]. repeat split; try (apply float_finite; lia); try discriminate; apply float_le; lia.
  - set (l := intervals _ _ _). assert (E : summed float_fmt l = x 33554432) by (vm_compute; reflexivity). rewrite E. subst l. cbn [intervals began]. destruct (list_eq_dec Ascii.ascii_dec (lit "a") (lit "a")) as [_|N]; [|congruence]. cbn [span fold_right fst snd number]. unfold val. pose proof (unit_pos float_fmt (ieee_sane _ (or_intror eq_refl))) as U.
    assert (0 < 1 * unit_of float_fmt) by lra. change (1 * 2 ^ 26)%Z with 67108864%Z. change (1 * 2 ^ 25)%Z with 33554432%Z. change (1 * 2 ^ 0)%Z with 1%Z. change (0 * 2 ^ 0)%Z with 0%Z. lra.
Qed.
Theorem C107_shown_refuted : exists x0 h s, Ordered float_fmt x0 h /\ 0 < span float_fmt (intervals x0 h s) /\ exists k, In (s, PN k (lit "0.000000") []) (pn_children (fs_report float_fmt (fold_left (fs_step float_fmt) (rev h) (fs_new float_fmt x0)))).
Proof.
  exists (x (0 * 2 ^ 0)), [FMeasure (lit "a") (x (1 * 2 ^ 127)) (x (1 * 2 ^ 127))]%Z, (lit "a"). split; [|split].
  - cbn [Ordered began]. repeat split; try (apply float_finite; lia); try discriminate; apply float_le; lia.
  - cbn [intervals began]. destruct (list_eq_dec Ascii.ascii_dec (lit "a") (lit "a")) as [_|N]; [|congruence]. cbn [span fold_right fst snd number]. unfold val. pose proof (unit_pos float_fmt (ieee_sane _ (or_intror eq_refl))) as U. assert (0 < IZR (1 * 2 ^ 127) * unit_of float_fmt) by (apply Rmult_lt_0_compat; [apply IZR_lt; lia|exact U]). change (0 * 2 ^ 0)%Z with 0%Z. lra.
  - exists false. vm_compute. left. reflexivity.
Qed.
Theorem C107_resolution_refuted : exists c t t', (t < t')%Z /\ f_seconds float_fmt c t = f_seconds float_fmt c t' /\ exists y, f_seconds float_fmt c t = Ok y.
Proof. exists 0%Z, 33554432%Z, 33554433%Z. split; [lia|]. split; [vm_compute; reflexivity|]. apply (C107_seconds float_fmt 1000000000 0 33554432 (or_intror eq_refl) (or_introl eq_refl)). lia. Qed.

Example C107_example :
  let h := [Measure (lit "a") 2000000000 2500000000; First 1750000000; Measure (lit "b") 1250000000 1375000000; Measure (lit "a") 500000000 750000000]%Z in
  Forward 0 0 h /\
  fs_report float_fmt (fold_left (fs_step float_fmt) (rev (map (seen float_fmt 0) h)) (fs_new float_fmt (reading float_fmt 0 0))) =
    PN false [] [(lit "a", PN false (lit "0.750000") []); (lit "b", PN false (lit "0.500000") []); (lit "internal", PN false (lit "0.875000") [])] /\
  f_minutes float_fmt 0 120000000000 = Ok (x (2 ^ 150)) /\ f_hours float_fmt 0 (-1800000000000) = Ok (FFin true (2 ^ 148)) /\ f_seconds float_fmt (-1) (2 ^ 63 - 1) = UB.
Proof. cbv zeta. split; [cbn [Forward Spec.Stopwatch.began]; lia|]. split; [vm_compute; reflexivity|]. split; [vm_compute; reflexivity|]. split; vm_compute; reflexivity. Qed.
