(* Proofs about filters of floating point numbers. *)
From Coq Require Import Reals ZArith List Lra Lia.
From Verif Require Import Model.Base Model.FloatText Model.Math Model.Ieee Model.FloatMath Model.FloatInterp Model.FloatFilter Spec.FloatText Spec.Ieee Spec.Stats Spec.Filter Spec.Rounding Spec.FloatFilter.
From Verif Require Import Proofs.BaseFacts Proofs.IeeeProofs Proofs.IeeeErrorProofs Proofs.FloatOpsProofs Proofs.StorageRealProofs Proofs.RoundingProofs.
Local Open Scope list_scope.

Local Notation z := f_zero (only parsing).
Lemma vget_nth_ (l : list fnum) i : (i < List.length l)%nat -> vget l i = Ok (nth i l f_zero).
Proof. intros H. unfold vget. rewrite (nth_error_nth' l f_zero H). reflexivity. Qed.
Lemma nth_upd_ (l : list fnum) i j x : (i < List.length l)%nat -> nth j (firstn i l ++ x :: skipn (S i) l) f_zero = if (j =? i)%nat then x else nth j l f_zero.
Proof.
  intros H. destruct (Nat.eqb_spec j i) as [->|N].
  - rewrite app_nth2; rewrite firstn_length; [|lia]. replace (i - Nat.min i (List.length l))%nat with 0%nat by lia. reflexivity.
  - destruct (Nat.lt_ge_cases j (List.length l)) as [L|L].
    + pose proof (nth_error_upd l i j x H) as E. destruct (Nat.eqb_spec j i) as [|_]; [contradiction|].
      rewrite (nth_error_nth' l f_zero L) in E. rewrite (nth_error_nth _ _ f_zero E). reflexivity.
    + rewrite !nth_overflow; [reflexivity|exact L|]. rewrite upd_length; assumption.
Qed.
Definition ff_wf (N : nat) (s : f_filter) : Prop := List.length (ff_x s) = N /\ List.length (ff_b s) = N /\ List.length (ff_y s) = N /\ List.length (ff_a s) = N.
Definition at_ (l : list fnum) (i : nat) : fnum := nth i l f_zero.
Lemma ff_accumulate_ok f N s x : ff_wf N s -> ff_accumulate f N s (f_mul f (ff_b0 s) x) = Ok (computed f (equation N (ff_b0 s) x (at_ (ff_b s)) (at_ (ff_x s)) (at_ (ff_a s)) (at_ (ff_y s)))).
Proof.
  intros (Lx & Lb & Ly & La). unfold ff_accumulate.
  destruct (for_up_inv (fun i y => let* b := vget (ff_b s) i in let* x := vget (ff_x s) i in let* a := vget (ff_a s) i in let* v := vget (ff_y s) i in Ok (f_add f y (f_add f (f_mul f b x) (f_mul f a v))))
    (fun i v => v = computed f (equation i (ff_b0 s) x (at_ (ff_b s)) (at_ (ff_x s)) (at_ (ff_a s)) (at_ (ff_y s)))) N (f_mul f (ff_b0 s) x)) as (v & E & I).
  - reflexivity.
  - intros i v L I. rewrite !vget_nth_ by lia. cbn [bind]. eexists. split; [reflexivity|]. cbn [equation computed]. rewrite I. reflexivity.
  - rewrite E, I. reflexivity.
Qed.
Lemma ff_shift_ok N xs ys : List.length xs = N -> List.length ys = N -> exists xs' ys', ff_shift N xs ys = Ok (xs', ys') /\ List.length xs' = N /\ List.length ys' = N /\
  forall i, (i < N)%nat -> nth i xs' z = nth (i - 1) xs z /\ nth i ys' z = nth (i - 1) ys z.
Proof.
  intros Lx Ly. unfold ff_shift.
  match goal with |- exists _ _, for_down _ ?b _ = _ /\ _ =>
    destruct (for_down_inv b (fun j s => List.length (fst s) = N /\ List.length (snd s) = N /\ forall i, (i < N)%nat ->
      nth i (fst s) z = nth (if (j <? i)%nat then i - 1 else i) xs z /\ nth i (snd s) z = nth (if (j <? i)%nat then i - 1 else i) ys z) (N - 1)%nat (xs, ys)) as ([xs' ys'] & E & A & B & C) end.
  - cbn [fst snd]. split; [exact Lx|]. split; [exact Ly|]. intros i L. destruct (Nat.ltb_spec (N - 1) i); [lia|]. split; reflexivity.
  - intros j [u v] L (A & B & C). cbn [fst snd] in *. rewrite vget_nth_ by lia. cbn [bind]. rewrite vset_ok by lia. cbn [bind].
    rewrite vget_nth_ by lia. cbn [bind]. rewrite vset_ok by lia. cbn [bind]. eexists. split; [reflexivity|]. cbn [fst snd].
    rewrite !upd_length by lia. split; [exact A|]. split; [exact B|]. intros i I. rewrite !nth_upd_ by lia.
    destruct (C j ltac:(lia)) as [C1 C2]. destruct (C i I) as [C3 C4]. destruct (Nat.ltb_spec (S j) j); [lia|].
    destruct (Nat.eqb_spec i (S j)) as [->|D].
    + destruct (Nat.ltb_spec j (S j)); [|lia]. replace (S j - 1)%nat with j by lia. split; assumption.
    + replace (j <? i)%nat with (S j <? i)%nat; [split; assumption|]. destruct (Nat.ltb_spec (S j) i), (Nat.ltb_spec j i); try reflexivity; lia.
  - exists xs', ys'. split; [exact E|]. split; [exact A|]. split; [exact B|]. intros i I. destruct (C i I) as [C1 C2].
    replace (if (0 <? i)%nat then (i - 1)%nat else i) with (i - 1)%nat in *; [split; assumption|]. destruct (Nat.ltb_spec 0 i); lia.
Qed.
Definition ff_outcome (f : fmt) (N : nat) (s : f_filter) (x : fnum) : fnum := computed f (equation N (ff_b0 s) x (at_ (ff_b s)) (at_ (ff_x s)) (at_ (ff_a s)) (at_ (ff_y s))).
Definition ff_coefs (s t : f_filter) : Prop := ff_b0 t = ff_b0 s /\ ff_b t = ff_b s /\ ff_a t = ff_a s.
Definition ff_recorded (f : fmt) (N : nat) (s : f_filter) (x : fnum) (t : f_filter) : Prop :=
  forall i, (i < N)%nat -> nth i (ff_x t) z = (match i with 0%nat => x | S j => nth j (ff_x s) z end) /\
                           nth i (ff_y t) z = (match i with 0%nat => ff_outcome f N s x | S j => nth j (ff_y s) z end).
Lemma ff_feed_ok f N s x : (0 < N)%nat -> ff_wf N s -> exists t, ff_feed f N s x = Ok (t, ff_outcome f N s x) /\ ff_wf N t /\ ff_coefs s t /\ ff_recorded f N s x t.
Proof.
  intros P W. pose proof W as (Lx & Lb & Ly & La). unfold ff_feed. rewrite (ff_accumulate_ok f N s x W). cbn [bind].
  fold (ff_outcome f N s x). destruct (ff_shift_ok N (ff_x s) (ff_y s) Lx Ly) as (xs' & ys' & E & A & B & C). rewrite E. cbn [bind fst snd].
  rewrite !vset_ok by lia. cbn [bind].
  eexists. split; [reflexivity|]. split; [|split].
  - unfold ff_wf. cbn [ff_x ff_b ff_y ff_a]. rewrite !upd_length by lia. auto.
  - unfold ff_coefs. cbn [ff_b0 ff_b ff_a]. auto.
  - intros i L. cbn [ff_x ff_y]. rewrite !nth_upd_ by lia. destruct i as [|j]; [split; reflexivity|]. cbn [Nat.eqb].
    destruct (C (S j) L) as [D1 D2]. replace (S j - 1)%nat with j in * by lia. split; assumption.
Qed.
Lemma earlier_S x k i : earlier x (S k) i = match i with 0%nat => x k | S j => earlier x k j end.
Proof.
  unfold earlier. destruct i as [|j].
  - cbn. f_equal. lia.
  - destruct (Nat.ltb_spec (S j) (S k)), (Nat.ltb_spec j k); try lia; [f_equal; lia|reflexivity].
Qed.
Lemma equation_ext n b0 x b p a q b' p' a' q' : (forall i, (i < n)%nat -> b i = b' i /\ p i = p' i /\ a i = a' i /\ q i = q' i) -> equation n b0 x b p a q = equation n b0 x b' p' a' q'.
Proof.
  induction n as [|n IH]; intros H; [reflexivity|]. cbn [equation]. rewrite IH by (intros i L; apply H; lia). destruct (H n ltac:(lia)) as (-> & -> & -> & ->). reflexivity.
Qed.
Fixpoint ff_states (f : fmt) (N : nat) (s : f_filter) (x : nat -> fnum) (k : nat) : f_filter :=
  match k with
  | 0%nat => s
  | S j => let g := ff_states f N s x j in
    match ff_feed f N g (x j) with Ok (h, _) => h | _ => g end
  end.
Definition ff_outputs (f : fmt) (N : nat) (s : f_filter) (x : nat -> fnum) (k : nat) : fnum := ff_outcome f N (ff_states f N s x k) (x k).
Lemma ff_states_ok f N s x : (0 < N)%nat -> ff_wf N s -> forall k, ff_wf N (ff_states f N s x k) /\ ff_coefs s (ff_states f N s x k) /\
  ff_feed f N (ff_states f N s x k) (x k) = Ok (ff_states f N s x (S k), ff_outputs f N s x k) /\ ff_recorded f N (ff_states f N s x k) (x k) (ff_states f N s x (S k)).
Proof.
  intros P W. assert (G : forall k, ff_wf N (ff_states f N s x k) /\ ff_coefs s (ff_states f N s x k)).
  { induction k as [|k [IW IS]]; cbn [ff_states]; [split; [exact W|repeat split]|].
    destruct (ff_feed_ok f N (ff_states f N s x k) (x k) P IW) as (g & E & WG & SG & _). rewrite E. split; [exact WG|].
    destruct IS as (A & B & C), SG as (A' & B' & C'). repeat split; congruence. }
  intros k. destruct (G k) as [WG SG]. split; [exact WG|]. split; [exact SG|].
  destruct (ff_feed_ok f N (ff_states f N s x k) (x k) P WG) as (g & E & _ & _ & RG).
  assert (H : ff_states f N s x (S k) = g) by (cbn [ff_states]; rewrite E; reflexivity). rewrite H. split; [exact E|exact RG].
Qed.
Lemma ff_states_hold f N s x : (0 < N)%nat -> ff_wf N s -> (forall i, (i < N)%nat -> nth i (ff_x s) z = z /\ nth i (ff_y s) z = z) ->
  forall k i, (i < N)%nat -> nth i (ff_x (ff_states f N s x k)) z = earlier x k i /\ nth i (ff_y (ff_states f N s x k)) z = earlier (ff_outputs f N s x) k i.
Proof.
  intros P W Z. induction k as [|k IH]; intros i L.
  - cbn [ff_states]. unfold earlier. cbn. apply Z, L.
  - destruct (ff_states_ok f N s x P W k) as (_ & _ & _ & RC). destruct (RC i L) as [E1 E2]. rewrite E1, E2, !earlier_S.
    destruct i as [|j]; [split; reflexivity|]. apply IH. lia.
Qed.
Lemma ff_outputs_equation f N s x : (0 < N)%nat -> ff_wf N s -> (forall i, (i < N)%nat -> nth i (ff_x s) z = z /\ nth i (ff_y s) z = z) ->
  forall k, ff_outputs f N s x k = computed f (equation N (ff_b0 s) (x k) (at_ (ff_b s)) (earlier x k) (at_ (ff_a s)) (earlier (ff_outputs f N s x) k)).
Proof.
  intros P W Z k. pose proof (ff_states_hold f N s x P W Z k) as H. destruct (ff_states_ok f N s x P W k) as (_ & (A & B & C) & _).
  unfold ff_outputs at 1, ff_outcome. rewrite A, B, C. f_equal. apply equation_ext. intros i L. destruct (H i L) as [E1 E2]. auto.
Qed.
Lemma ff_feed_all_states f N s x : (0 < N)%nat -> ff_wf N s -> forall n k, ff_feed_all f N (ff_states f N s x k) (map x (seq k n)) = Ok (ff_states f N s x (k + n), map (ff_outputs f N s x) (seq k n)).
Proof.
  intros P W. induction n as [|n IH]; intros k; cbn [seq map ff_feed_all].
  - rewrite Nat.add_0_r. reflexivity.
  - destruct (ff_states_ok f N s x P W k) as (_ & _ & E & _). rewrite E. cbn [bind]. rewrite IH. cbn [bind]. replace (S k + n)%nat with (k + S n)%nat by lia. reflexivity.
Qed.

Local Open Scope R_scope.
(* the size, the roundings and the losses of an equation *)
Definition real_at (f : fmt) (p : nat -> fnum) (i : nat) : R := fin_val f (p i).
Lemma equation_exact f n b0 x b p a q : exact f (equation n b0 x b p a q) = fin_val f b0 * fin_val f x + sumR n (fun i => real_at f b i * real_at f p i) + sumR n (fun i => real_at f a i * real_at f q i).
Proof. induction n as [|n IH]; cbn [equation exact sumR]; [ring|]. rewrite IH. unfold real_at. ring. Qed.
Lemma equation_extent f n b0 x b p a q : extent f (equation n b0 x b p a q) = Rabs (fin_val f b0) * Rabs (fin_val f x) + sumR n (fun i => Rabs (real_at f b i) * Rabs (real_at f p i)) + sumR n (fun i => Rabs (real_at f a i) * Rabs (real_at f q i)).
Proof. induction n as [|n IH]; cbn [equation extent sumR]; [ring|]. rewrite IH. unfold real_at. ring. Qed.
Lemma equation_roundings n b0 x b p a q : (0 < n)%nat -> roundings (equation n b0 x b p a q) = (n + 2)%nat.
Proof.
  induction n as [|n IH]; intros P; [lia|]. cbn [equation roundings Nat.add Nat.max]. destruct n as [|n]; [reflexivity|]. rewrite IH by lia. cbn [Nat.max Nat.add]. lia.
Qed.
Lemma equation_lost f n b0 x b p a q : IEEE f -> 0 <= lost f (equation n b0 x b p a q) <= (1 + / IZR (2 ^ fm_prec f)) ^ (n + 1) * (2 * INR n + 1) * (unit_of f / 2).
Proof.
  intros I. split; [apply lost_nonneg, I|]. pose proof (unit_pos f (ieee_sane f I)) as UP. destruct (ulp_small f I) as [U _]. unfold ulp in U. set (u := / IZR (2 ^ fm_prec f)) in *. set (h := unit_of f / 2). assert (H0 : 0 < h) by (unfold h; lra).
  assert (M : forall y w, lost f (Mul (Lit y) (Lit w)) = h) by (intros; cbn [lost roundings extent]; unfold h; fold u; ring). induction n as [|n IH].
  - cbn [equation]. rewrite M. cbn [Nat.add INR pow]. nra.
  - cbn [equation]. cbn [lost] in *. fold u in IH |- *. assert (M' : forall y w, (1 + u) * ((1 + u) ^ roundings (Lit y) * extent f (Lit y) * 0 + (1 + u) ^ roundings (Lit w) * extent f (Lit w) * 0 + 0 * 0) + unit_of f / 2 = h) by (intros; unfold h; ring). rewrite !M'. rewrite S_INR. replace (S n + 1)%nat with (S (n + 1)) by lia. cbn [pow]. set (P := (1 + u) ^ (n + 1)) in *. assert (P1 : 1 + u <= P). { unfold P. rewrite Nat.add_1_r. cbn [pow]. assert (1 <= (1 + u) ^ n) by (apply pow_R1_Rle; lra). nra. }
    rewrite Rmult_assoc, (Rmult_assoc (1 + u)). apply Rmult_le_compat_l; [lra|]. assert ((1 + u) * (h + h) <= P * (h + h)) by (apply Rmult_le_compat_r; lra). replace (P * ((2 * (INR n + 1) + 1) * h)) with (P * (2 * INR n + 1) * h + P * (h + h)) by ring. lra.
Qed.
Lemma equation_over (Q : fnum -> Prop) n b0 x b p a q : Q b0 -> Q x -> (forall i, (i < n)%nat -> Q (b i) /\ Q (p i) /\ Q (a i) /\ Q (q i)) -> Over Q (equation n b0 x b p a q).
Proof.
  intros H0 HX. induction n as [|n IH]; intros H; cbn [equation Over]; [auto|]. destruct (H n ltac:(lia)) as (? & ? & ? & ?). split; [apply IH; intros i L; apply H; lia|auto].
Qed.
Lemma equation_inside v n b0 x b p a q : v = b0 \/ v = x \/ (exists i, (i < n)%nat /\ (v = b i \/ v = p i \/ v = a i \/ v = q i)) -> Inside v (equation n b0 x b p a q).
Proof.
  induction n as [|n IH]; cbn [equation Inside]; intros H.
  - destruct H as [H|[H|(i & L & _)]]; [left; exact H|right; exact H|lia].
  - destruct H as [H|[H|(i & L & H)]]; [left; apply IH; left; exact H|left; apply IH; right; left; exact H|].
    destruct (Nat.eq_dec i n) as [->|D]; [right; destruct H as [H|[H|[H|H]]]; auto|]. left. apply IH. right. right. exists i. split; [lia|exact H].
Qed.
Lemma equation_roomy f n b0 x b p a q : IEEE f -> reach f (equation n b0 x b p a q) <= IZR (2 ^ fm_top f) / 2 -> Roomy f (equation n b0 x b p a q).
Proof.
  intros I B. apply (roomy_terms f _ I B). clear B. induction n as [|n IH]; cbn [equation Terms Roomy]; tauto.
Qed.

(* sums *)
Lemma sumR_abs n f : Rabs (sumR n f) <= sumR n (fun i => Rabs (f i)).
Proof. induction n as [|n IH]; cbn [sumR]; [rewrite Rabs_R0; lra|]. eapply Rle_trans; [apply Rabs_triang|]. lra. Qed.
Lemma sumR_le n f g : (forall i, (i < n)%nat -> f i <= g i) -> sumR n f <= sumR n g.
Proof. induction n as [|n IH]; intros H; cbn [sumR]; [lra|]. pose proof (H n ltac:(lia)). specialize (IH ltac:(intros; apply H; lia)). lra. Qed.
Lemma sumR_first n f : sumR (S n) f = f 0%nat + sumR n (fun i => f (S i)).
Proof. induction n as [|n IH]; cbn [sumR] in *; [ring|]. rewrite IH. ring. Qed.
Lemma sumR_rev n f : sumR n (fun j => f (n - 1 - j)%nat) = sumR n f.
Proof.
  induction n as [|n IH]; [reflexivity|]. rewrite sumR_first. cbn [sumR]. rewrite <- IH. replace (S n - 1 - 0)%nat with n by lia. rewrite Rplus_comm. f_equal. apply sumR_ext. intros i L. f_equal. lia.
Qed.
