(* Proofs about delayers. *)
From Coq Require Import Reals ZArith List Lra Lia.
From Verif Require Import Model.Base Model.Math Model.Regression Model.Delayer Spec.Delayer Proofs.BaseFacts Proofs.InterpProofs Proofs.FilterProofs.
Local Open Scope R_scope.

(* the ring of slots after K writes *)
Definition Ring (N : nat) (init : R) (e : nat -> R) (K : nat) (i : nat) (l : list R) : Prop :=
  length l = N /\ i = (K mod N)%nat /\
  forall k : Z, (Z.of_nat K - Z.of_nat N < k <= Z.of_nat K)%Z -> nth (Z.to_nat (k mod Z.of_nat N)) l 0 = entry init e k.
Lemma ring_new N init e : (2 <= N)%nat -> Ring N init e 0 0 (init_data N init).
Proof.
  intros P. unfold Ring, init_data. cbn [length]. rewrite repeat_length. split; [lia|]. split; [rewrite Nat.mod_0_l by lia; reflexivity|].
  intros k H. unfold entry. destruct (Z.ltb_spec k 0) as [L|L].
  - replace (k mod Z.of_nat N)%Z with (k + Z.of_nat N)%Z.
    + destruct (Z.to_nat (k + Z.of_nat N)) as [|j] eqn:E; [lia|]. cbn [nth]. apply nth_repeat.
    + symmetry. replace k with ((k + Z.of_nat N) + (-1) * Z.of_nat N)%Z at 1 by ring. rewrite Z.mod_add by lia. apply Z.mod_small. lia.
  - replace k with 0%Z by lia. rewrite Z.mod_0_l by lia. reflexivity.
Qed.
Lemma ring_write N init e K i l : (2 <= N)%nat -> Ring N init e K i l ->
  exists l', vset l ((i + 1) mod N) (e (S K)) = Ok l' /\ Ring N init e (S K) ((i + 1) mod N) l'.
Proof.
  intros P (L & I & H). assert (M : ((i + 1) mod N = S K mod N)%nat) by (rewrite I, Nat.add_mod_idemp_l by lia; f_equal; lia).
  assert (B : (S K mod N < N)%nat) by (apply Nat.mod_upper_bound; lia).
  rewrite M, vset_ok by lia. eexists. split; [reflexivity|]. split; [rewrite upd_length by lia; exact L|]. split; [reflexivity|].
  intros k R. rewrite nth_upd by lia. destruct (Z.eq_dec k (Z.of_nat (S K))) as [->|D].
  - replace (Z.to_nat (Z.of_nat (S K) mod Z.of_nat N)) with (S K mod N)%nat by (rewrite <- Nat2Z.inj_mod, Nat2Z.id; reflexivity).
    rewrite Nat.eqb_refl. unfold entry. destruct (Z.ltb_spec (Z.of_nat (S K)) 0); [lia|]. destruct (Z.eqb_spec (Z.of_nat (S K)) 0); [lia|]. rewrite Nat2Z.id. reflexivity.
  - destruct (Nat.eqb_spec (Z.to_nat (k mod Z.of_nat N)) (S K mod N)) as [E|_].
    + exfalso. apply (f_equal Z.of_nat) in E. rewrite Z2Nat.id in E by (apply Z.mod_pos_bound; lia). rewrite Nat2Z.inj_mod in E.
      pose proof (Z.div_mod k (Z.of_nat N) ltac:(lia)) as D1. pose proof (Z.div_mod (Z.of_nat (S K)) (Z.of_nat N) ltac:(lia)) as D2. rewrite E in D1.
      assert (G : (Z.of_nat (S K) - k = Z.of_nat N * (Z.of_nat (S K) / Z.of_nat N - k / Z.of_nat N))%Z) by (rewrite Z.mul_sub_distr_l; lia).
      assert (RG : (0 < Z.of_nat (S K) - k < Z.of_nat N)%Z) by lia. set (q := (Z.of_nat (S K) / Z.of_nat N - k / Z.of_nat N)%Z) in *. rewrite G in RG. clearbody q. clear - RG.
      assert (q <= 0 \/ 1 <= q)%Z by lia. nia.
    + apply H. lia.
Qed.
Lemma ring_read N init e K i l c : (2 <= N)%nat -> (1 <= c <= 2)%nat -> Ring N init e K i l ->
  vget l ((i + N + c) mod N) = Ok (entry init e (Z.of_nat K + Z.of_nat c - Z.of_nat N)).
Proof.
  intros P C (L & I & H). assert (B : ((i + N + c) mod N < N)%nat) by (apply Nat.mod_upper_bound; lia). rewrite vget_nth by lia. f_equal.
  rewrite <- H by lia. f_equal. apply Nat2Z.inj. rewrite Z2Nat.id by (apply Z.mod_pos_bound; lia). rewrite Nat2Z.inj_mod. rewrite I.
  rewrite !Nat2Z.inj_add, Nat2Z.inj_mod. replace (Z.of_nat K mod Z.of_nat N + Z.of_nat N + Z.of_nat c)%Z with (Z.of_nat K mod Z.of_nat N + (Z.of_nat N + Z.of_nat c))%Z by ring.
  rewrite Z.add_mod_idemp_l by lia. replace (Z.of_nat K + (Z.of_nat N + Z.of_nat c))%Z with (Z.of_nat K + Z.of_nat c - Z.of_nat N + 2 * Z.of_nat N)%Z by ring. apply Z.mod_add. lia.
Qed.
Lemma entry_ext init e e' k : (forall j, (1 <= j)%nat -> (Z.of_nat j <= k)%Z -> e j = e' j) -> entry init e k = entry init e' k.
Proof.
  intros H. unfold entry. destruct (Z.ltb_spec k 0); [reflexivity|]. destruct (Z.eqb_spec k 0); [reflexivity|]. apply H; lia.
Qed.
Lemma ring_ext N init e e' K i l : (forall k, (1 <= k <= K)%nat -> e k = e' k) -> Ring N init e K i l -> Ring N init e' K i l.
Proof.
  intros X (L & I & H). split; [exact L|]. split; [exact I|]. intros k R. rewrite H by exact R. apply entry_ext. intros j J1 J2. apply X. lia.
Qed.

(* delayer *)
Lemma add_samples_app N a : forall d b, add_samples N d (a ++ b) = let* d' := add_samples N d a in add_samples N d' b.
Proof.
  induction a as [|[v dt] a IH]; intros d b; cbn [add_samples app]; [reflexivity|]. destruct (add_sample N d v dt); cbn [bind]; auto.
Qed.
(* a record of every m-th sample *)
Lemma delayer_uniform N delay init m v : (2 <= N)%nat -> 0 < delay -> (1 <= m)%nat -> forall n,
  let w := delay / (INR N - 1) in
  exists d, add_samples N (delayer_new N delay init) (map (fun i => (v i, w / INR m)) (seq 1 n)) = Ok d /\ window d = w /\
    time d = INR (n mod m) * (w / INR m) /\ Ring N init (fun k => v (k * m)%nat) (n / m) (idx d) (data d).
Proof.
  intros P D M. assert (PN : 0 < INR N - 1) by (pose proof (le_INR 2 N P) as Q; cbn in Q; lra).
  assert (PM : 0 < INR m) by (apply lt_0_INR; lia). intros n w. assert (W : 0 < w) by (apply Rmult_lt_0_compat; [exact D|apply Rinv_0_lt_compat; exact PN]).
  induction n as [|n (d & E & A & B & C)].
  - exists (delayer_new N delay init). split; [reflexivity|]. split; [reflexivity|]. rewrite Nat.mod_0_l, Nat.div_0_l by lia. split; [cbn; ring|]. apply ring_new, P.
  - rewrite seq_S, map_app, add_samples_app, E. cbn [bind map add_samples Nat.add]. unfold add_sample. rewrite A, B.
    pose proof (Nat.mod_upper_bound n m ltac:(lia)) as MB. pose proof (Nat.div_mod n m ltac:(lia)) as DM. set (j := (n mod m)%nat) in *. set (K := (n / m)%nat) in *.
    assert (PD : 0 < w / INR m) by (apply Rmult_lt_0_compat; [exact W|apply Rinv_0_lt_compat; exact PM]). set (dt := w / INR m) in *.
    assert (WD : w = INR m * dt) by (unfold dt; field; lra).
    destruct (Nat.eq_dec (S j) m) as [F|F].
    + assert (Q : INR m = INR j + 1) by (rewrite <- F; apply S_INR).
      rewrite (proj2 (Rltb_true _ _)) by (rewrite WD, Q; lra). assert (NM : ((S n) = (S K) * m)%nat) by nia.
      destruct (ring_write N init (fun k => v (k * m)%nat) K (idx d) (data d) P C) as (l' & E' & C'). cbn beta in E'. rewrite <- NM in E'. rewrite E'. cbn [bind].
      eexists. split; [reflexivity|]. cbn [window time idx data]. split; [reflexivity|]. rewrite NM, Nat.mod_mul, Nat.div_mul by lia. split; [cbn [INR]; rewrite WD, Q; ring|exact C'].
    + assert (LT : (S j < m)%nat) by lia. assert (Q : INR (S (S j)) <= INR m) by (apply le_INR; lia). rewrite !S_INR in Q.
      rewrite (proj2 (Rltb_false _ _)) by (rewrite WD; nra). cbn [bind]. eexists. split; [reflexivity|]. cbn [window time idx data]. split; [reflexivity|].
      assert (Dv : (S n / m = K)%nat) by (symmetry; apply (Nat.div_unique _ _ _ (S j)); lia).
      assert (Md : (S n mod m = S j)%nat) by (symmetry; apply (Nat.mod_unique _ _ K (S j)); lia).
      rewrite Dv, Md. split; [rewrite S_INR; ring|exact C].
Qed.
(* the clock, for any time steps *)
Lemma delayer_clock N l : forall d d', (0 < N)%nat -> length (data d) = N -> (idx d < N)%nat -> add_samples N d l = Ok d' ->
  exists K, idx d' = ((idx d + K) mod N)%nat /\ window d' = window d /\ time d + duration l = INR K * window d + time d'.
Proof.
  induction l as [|[v dt] l IH]; intros d d' P L I E; cbn [add_samples duration fold_right snd] in *.
  - inversion E; subst d'. exists 0%nat. rewrite Nat.add_0_r, Nat.mod_small by exact I. repeat split. cbn. ring.
  - unfold add_sample in E. destruct (Rltb (window d) (time d + dt + 1 / 2 * dt)).
    + assert (B : ((idx d + 1) mod N < N)%nat) by (apply Nat.mod_upper_bound; lia). rewrite vset_ok in E by lia. cbn [bind] in E.
      apply IH in E; cbn [window time idx data] in *; [|exact P|rewrite upd_length by lia; exact L|exact B].
      destruct E as (K & A & W & T). exists (S K). rewrite A, Nat.add_mod_idemp_l by lia. split; [f_equal; lia|]. split; [exact W|]. rewrite S_INR. fold (duration l). lra.
    + cbn [bind] in E. apply IH in E; cbn [window time idx data] in *; try assumption. destruct E as (K & A & W & T). exists K. split; [exact A|]. split; [exact W|]. fold (duration l). lra.
Qed.
Lemma add_samples_total N l : forall d, (0 < N)%nat -> length (data d) = N -> exists d', add_samples N d l = Ok d' /\ length (data d') = N.
Proof.
  induction l as [|[v dt] l IH]; intros d P L; cbn [add_samples]; [eauto|]. unfold add_sample. destruct (Rltb _ _).
  - assert (B : ((idx d + 1) mod N < N)%nat) by (apply Nat.mod_upper_bound; lia). rewrite vset_ok by lia. cbn [bind]. apply IH; [exact P|]. cbn [data]. rewrite upd_length; lia.
  - cbn [bind]. apply IH; assumption.
Qed.
(* constant steps, not longer than a window: the clock stays within a window *)
Lemma delayer_steady N dt l : forall d d', 0 < dt <= window d -> (forall p, In p l -> snd p = dt) -> - dt / 2 < time d <= window d - dt / 2 ->
  add_samples N d l = Ok d' -> - dt / 2 < time d' <= window d - dt / 2.
Proof.
  induction l as [|[v t] l IH]; intros d d' D S T E; cbn [add_samples] in E.
  - inversion E; subst. exact T.
  - assert (t = dt) by (apply (S (v, t)); left; reflexivity). subst t. unfold add_sample in E. destruct (Rltb (window d) (time d + dt + 1 / 2 * dt)) eqn:C.
    + destruct (vset (data d) ((idx d + 1) mod N) v); cbn [bind] in E; try discriminate. unfold Rltb in C. destruct (Rlt_dec _ _) as [C'|] in C; [|discriminate].
      apply IH in E; cbn [window time idx data] in *; [exact E|exact D|intros p H; apply S; right; exact H|lra].
    + cbn [bind] in E. unfold Rltb in C. destruct (Rlt_dec _ _) as [|C'] in C; [discriminate|].
      apply IH in E; cbn [window time idx data] in *; [exact E|exact D|intros p H; apply S; right; exact H|lra].
Qed.

(* smooth_delayer *)
Lemma smooth_samples_app N a : forall d b, smooth_samples N d (a ++ b) = let* d' := smooth_samples N d a in smooth_samples N d' b.
Proof.
  induction a as [|[v dt] a IH]; intros d b; cbn [smooth_samples app]; [reflexivity|]. destruct (smooth_sample N d v dt); cbn [bind]; auto.
Qed.
Lemma duration_app a b : duration (a ++ b) = duration a + duration b.
Proof. unfold duration. induction a as [|p a IH]; cbn [app fold_right]; [ring|]. rewrite IH. ring. Qed.
Lemma duration_nonneg l : (forall p, In p l -> 0 <= snd p) -> 0 <= duration l.
Proof. unfold duration. induction l as [|p l IH]; intros H; cbn [fold_right]; [lra|]. pose proof (H p (or_introl eq_refl)). specialize (IH (fun q Q => H q (or_intror Q))). lra. Qed.
Lemma area_app l k a b : forall t, area t (l ++ k) a b = area t l a b + area (t + duration l) k a b.
Proof.
  induction l as [|[v dt] l IH]; intros t; cbn [app area].
  - unfold duration. cbn [fold_right]. rewrite Rplus_0_r. ring.
  - rewrite IH. change (duration ((v, dt) :: l)) with (dt + duration l). replace (t + (dt + duration l)) with (t + dt + duration l) by ring. ring.
Qed.
Lemma area_later l a b : forall t, (forall p, In p l -> 0 <= snd p) -> t + duration l <= a -> area t l a b = 0.
Proof.
  induction l as [|[v dt] l IH]; intros t H L; cbn [area]; [reflexivity|]. unfold duration in L. cbn [fold_right snd] in L. fold (duration l) in L.
  assert (H' : forall p, In p l -> 0 <= snd p) by (intros p Q; apply H; right; exact Q). pose proof (duration_nonneg l H'). pose proof (H (v, dt) (or_introl eq_refl)) as D. cbn [snd] in D.
  rewrite IH by (try assumption; lra). rewrite Rmax_left; [ring|]. pose proof (Rmin_r b (t + dt)). pose proof (Rmax_l a t). lra.
Qed.
Lemma area_before l a b : forall t, (forall p, In p l -> 0 <= snd p) -> b <= t -> area t l a b = 0.
Proof.
  induction l as [|[v dt] l IH]; intros t H L; cbn [area]; [reflexivity|].
  assert (H' : forall p, In p l -> 0 <= snd p) by (intros p Q; apply H; right; exact Q). pose proof (H (v, dt) (or_introl eq_refl)) as D. cbn [snd] in D.
  rewrite IH by (try assumption; lra). rewrite Rmax_left; [ring|]. pose proof (Rmin_l b (t + dt)). pose proof (Rmax_r a t). lra.
Qed.

Lemma smooth_invariant N delay init l : (2 <= N)%nat -> 0 < delay -> 
  let w := delay / (INR N - 1 / 2) in (forall p, In p l -> 0 <= snd p <= w) ->
  exists d K, smooth_samples N (smooth_new N delay init) l = Ok d /\ swindow d = w /\ 0 <= stime d < w /\ duration l = INR K * w + stime d /\
    inter d = area 0 l (INR K * w) (INR (S K) * w) /\ Ring N init (stretch_mean w l) K (sidx d) (sdata d).
Proof.
  intros P D w. assert (PN : 0 < INR N - 1 / 2) by (pose proof (le_INR 2 N P) as Q; cbn in Q; lra).
  assert (W : 0 < w) by (apply Rmult_lt_0_compat; [exact D|apply Rinv_0_lt_compat; exact PN]).
  induction l as [|[v dt] l IH] using rev_ind; intros H.
  - exists (smooth_new N delay init), 0%nat. cbn. split; [reflexivity|]. split; [reflexivity|]. split; [lra|]. split; [ring|]. split; [reflexivity|]. apply ring_new, P.
  - destruct IH as (d & K & E & A & T & DU & IN & RG). { intros p Q. apply H, in_or_app. left. exact Q. }
    assert (Hl : forall p, In p l -> 0 <= snd p) by (intros p Q; apply H, in_or_app; left; exact Q).
    destruct (H (v, dt)) as [D0 D1]; [apply in_or_app; right; left; reflexivity|]. cbn [snd] in D0, D1.
    rewrite smooth_samples_app, E. cbn [bind smooth_samples]. unfold smooth_sample. rewrite A.
    assert (AR : forall a b, area 0 (l ++ [(v, dt)]) a b = area 0 l a b + v * Rmax 0 (Rmin b (duration l + dt) - Rmax a (duration l))).
    { intros a b. rewrite area_app. cbn [area]. rewrite Rplus_0_l. ring. }
    assert (OLD : forall k, (1 <= k <= K)%nat -> stretch_mean w l k = stretch_mean w (l ++ [(v, dt)]) k).
    { intros k R. unfold stretch_mean. rewrite AR. f_equal. rewrite Rmax_left; [ring|].
      assert (KK : INR k <= INR K) by (apply le_INR; lia). pose proof (Rmin_l (INR k * w) (duration l + dt)). pose proof (Rmax_r (INR (k - 1) * w) (duration l)).
      assert (INR k * w <= INR K * w) by (apply Rmult_le_compat_r; lra). lra. }
    pose proof (S_INR K) as SK. unfold Rleb. destruct (Rle_dec w (stime d + dt)) as [C|C].
    + assert (MEAN : inter d + (w - (stime d + dt) + dt) * v = area 0 (l ++ [(v, dt)]) (INR K * w) (INR (S K) * w)).
      { rewrite AR, IN. f_equal. rewrite Rmin_left by (rewrite DU, SK; lra). rewrite (Rmax_right (INR K * w)) by (rewrite DU; lra). rewrite DU, SK. rewrite Rmax_right by lra. ring. }
      rewrite MEAN. unfold rdiv. destruct (Req_EM_T w 0) as [Z|_]; [lra|]. cbn [bind].
      apply (ring_ext N init _ (stretch_mean w (l ++ [(v, dt)])) K) in RG; [|exact OLD].
      destruct (ring_write N init _ K (sidx d) (sdata d) P RG) as (l' & E' & RG'). unfold stretch_mean at 1 in E'. replace (S K - 1)%nat with K in E' by lia.
      rewrite E'. cbn [bind]. eexists. exists (S K). split; [reflexivity|]. cbn [swindow stime inter sidx sdata]. split; [reflexivity|]. split; [lra|].
      split; [rewrite duration_app; unfold duration at 2; cbn [fold_right snd]; rewrite DU, SK; ring|]. split; [|exact RG'].
      rewrite AR. rewrite area_later by (try assumption; rewrite DU, SK; lra). rewrite (S_INR (S K)), SK.
      rewrite Rmin_right by (rewrite DU; lra). rewrite (Rmax_left ((INR K + 1) * w)) by (rewrite DU; lra). rewrite DU. rewrite Rmax_right by lra. ring.
    + cbn [bind]. eexists. exists K. split; [reflexivity|]. cbn [swindow stime inter sidx sdata]. split; [reflexivity|]. split; [lra|].
      split; [rewrite duration_app; unfold duration at 2; cbn [fold_right snd]; rewrite DU; ring|].
      split; [|apply (ring_ext N init (stretch_mean w l)); assumption].
      rewrite AR, IN. f_equal. rewrite Rmin_right by (rewrite DU, SK; lra). rewrite (Rmax_right (INR K * w)) by (rewrite DU; lra). rewrite DU. rewrite Rmax_right by lra. ring.
Qed.

(* averages stay within the range of the values *)
Lemma area_bounds l lo hi b : forall t a, (forall p, In p l -> 0 <= snd p /\ lo <= fst p <= hi) -> t <= a -> a <= b -> b <= t + duration l ->
  lo * (b - a) <= area t l a b <= hi * (b - a).
Proof.
  induction l as [|[v dt] l IH]; intros t a H A AB B.
  - unfold duration in B. cbn in B. assert (a = b) by lra. subst. cbn [area]. lra.
  - cbn [area]. unfold duration in B. cbn [fold_right snd] in B. fold (duration l) in B. destruct (H (v, dt) (or_introl eq_refl)) as [D V]. cbn [fst snd] in D, V.
    assert (H' : forall p, In p l -> 0 <= snd p /\ lo <= fst p <= hi) by (intros p Q; apply H; right; exact Q).
    rewrite (Rmax_left a t) by lra. destruct (Rle_dec b (t + dt)) as [L|L].
    + rewrite Rmin_left by exact L. rewrite area_before by (try (intros p Q; apply H'; exact Q); lra). rewrite Rmax_right by lra. nra.
    + rewrite Rmin_right by lra. destruct (Rle_dec a (t + dt)) as [M|M].
      * rewrite Rmax_right by lra.
        assert (SP : area (t + dt) l a b = area (t + dt) l (t + dt) b).
        { clear IH. assert (G : forall l s c, (forall p, In p l -> 0 <= snd p) -> c <= s -> area s l c b = area s l s b).
          { clear. induction l as [|[v dt] l IH]; intros s c H C; cbn [area]; [reflexivity|]. rewrite (Rmax_right c s), (Rmax_left s s) by lra.
            f_equal. assert (0 <= dt) by apply (H (v, dt) (or_introl eq_refl)). rewrite (IH (s + dt) c), (IH (s + dt) s); try lra; try (intros p Q; apply H; right; exact Q). }
          apply G; [intros p Q; apply H'; exact Q|lra]. }
        rewrite SP. specialize (IH (t + dt) (t + dt) H' ltac:(lra) ltac:(lra) ltac:(lra)). nra.
      * rewrite Rmax_left by lra. specialize (IH (t + dt) a H' ltac:(lra) ltac:(lra) ltac:(lra)). lra.
Qed.
