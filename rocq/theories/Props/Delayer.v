(* C67: delayers (exact reals) *)
From Coq Require Import Reals ZArith List Lra Lia.
From Verif Require Import Model.Base Model.Math Model.Regression Model.Delayer Spec.Delayer Proofs.BaseFacts Proofs.InterpProofs Proofs.FilterProofs Proofs.DelayerProofs.
Local Open Scope R_scope.

Lemma window_pos N delay x : (2 <= N)%nat -> 0 < delay -> x < 2 -> 0 < delay / (INR N - x).
Proof. intros P D X. pose proof (le_INR 2 N P) as Q. cbn in Q. apply Rmult_lt_0_compat; [exact D|apply Rinv_0_lt_compat; lra]. Qed.

(* sampled m times per window, the delayer returns the linear interpolation,
   delay seconds ago, of the samples taken at whole windows: n samples are k
   windows and j m-ths *)
Theorem C67_delay : forall N delay init m v n, (2 <= N)%nat -> 0 < delay -> (1 <= m)%nat ->
  let dt := delay / (INR N - 1) / INR m in
  let k := Z.of_nat (n / m) in let j := (n mod m)%nat in
  exists d, add_samples N (delayer_new N delay init) (map (fun i => (v i, dt)) (seq 1 n)) = Ok d /\
    delayed_value N d = Ok (INR j / INR m * entry init (fun i => v (i * m)%nat) (k + 2 - Z.of_nat N) +
                            (1 - INR j / INR m) * entry init (fun i => v (i * m)%nat) (k + 1 - Z.of_nat N)).
Proof.
  intros N delay init m v n P D M dt k j. destruct (delayer_uniform N delay init m v P D M n) as (d & E & W & T & RG). exists d. split; [exact E|].
  pose proof (window_pos N delay 1 P D ltac:(lra)) as WP. assert (PM : 0 < INR m) by (apply lt_0_INR; lia).
  unfold delayed_value. rewrite W, T. unfold rdiv. destruct (Req_EM_T _ _) as [Z|_]; [lra|]. cbn [bind].
  rewrite (ring_read N init _ _ _ _ 2 P ltac:(lia) RG), (ring_read N init _ _ _ _ 1 P ltac:(lia) RG). cbn [bind]. fold k j.
  pose proof (le_INR 2 N P) as Q. cbn in Q. replace (INR j * (delay / (INR N - 1) / INR m) / (delay / (INR N - 1))) with (INR j / INR m) by (field; lra). reflexivity.
Qed.
Print Assumptions C67_delay.

(* at whole windows: the sample of N - 1 windows ago *)
Theorem C67_whole_windows : forall N delay init v n, (2 <= N)%nat -> 0 < delay -> (N <= n)%nat ->
  exists d, add_samples N (delayer_new N delay init) (map (fun i => (v i, delay / (INR N - 1))) (seq 1 n)) = Ok d /\
    delayed_value N d = Ok (v (n - (N - 1))%nat).
Proof.
  intros N delay init v n P D L. destruct (C67_delay N delay init 1 v n P D (le_n 1)) as (d & E & V). exists d.
  replace (delay / (INR N - 1) / INR 1) with (delay / (INR N - 1)) in E by (cbn [INR]; field; pose proof (le_INR 2 N P) as Q; cbn in Q; lra).
  split; [exact E|]. rewrite V. f_equal. rewrite Nat.mod_1_r, Nat.div_1_r. cbn [INR]. unfold entry at 2.
  destruct (Z.ltb_spec (Z.of_nat n + 1 - Z.of_nat N) 0); [lia|]. destruct (Z.eqb_spec (Z.of_nat n + 1 - Z.of_nat N) 0); [lia|].
  replace (Z.to_nat (Z.of_nat n + 1 - Z.of_nat N) * 1)%nat with (n - (N - 1))%nat by lia. unfold Rdiv. ring.
Qed.
Print Assumptions C67_whole_windows.

(* a signal a + b t comes out as a + b ( t - delay ) *)
Theorem C67_ramp : forall N delay init m a b n, (2 <= N)%nat -> 0 < delay -> (1 <= m)%nat -> (N * m <= n)%nat ->
  let dt := delay / (INR N - 1) / INR m in
  exists d, add_samples N (delayer_new N delay init) (map (fun i => (a + b * (INR i * dt), dt)) (seq 1 n)) = Ok d /\
    delayed_value N d = Ok (a + b * (INR n * dt - delay)).
Proof.
  intros N delay init m a b n P D M L dt. destruct (C67_delay N delay init m (fun i => a + b * (INR i * dt)) n P D M) as (d & E & V). fold dt in E. exists d.
  split; [exact E|]. rewrite V. f_equal. pose proof (Nat.div_mod n m ltac:(lia)) as DM. assert (K : (N <= n / m)%nat) by (apply Nat.div_le_lower_bound; lia).
  assert (PM : 0 < INR m) by (apply lt_0_INR; lia). pose proof (le_INR 2 N P) as Q. cbn in Q.
  assert (EN : forall c : nat, (1 <= c)%nat -> entry init (fun i => a + b * (INR (i * m) * dt)) (Z.of_nat (n / m) + Z.of_nat c - Z.of_nat N) = a + b * ((INR (n / m) + INR c - INR N) * INR m * dt)).
  { intros c C. unfold entry. destruct (Z.ltb_spec (Z.of_nat (n / m) + Z.of_nat c - Z.of_nat N) 0); [lia|]. destruct (Z.eqb_spec (Z.of_nat (n / m) + Z.of_nat c - Z.of_nat N) 0); [lia|].
    rewrite mult_INR, INR_IZR_INZ, Z2Nat.id by lia. rewrite minus_IZR, plus_IZR, <- !INR_IZR_INZ. ring. }
  pose proof (EN 1%nat ltac:(lia)) as E1. pose proof (EN 2%nat ltac:(lia)) as E2. change (Z.of_nat 1) with 1%Z in E1. change (Z.of_nat 2) with 2%Z in E2. rewrite E1, E2. replace (INR 2) with 2 by (cbn; ring). change (INR 1) with 1.
  assert (NE : INR n = INR m * INR (n / m) + INR (n mod m)) by (rewrite <- mult_INR, <- plus_INR; f_equal; exact DM).
  replace delay with ((INR N - 1) * INR m * dt) by (unfold dt; field; lra). rewrite NE. clearbody dt. field. lra.
Qed.
Print Assumptions C67_ramp.

(* the initial value is stored in one slot only, and not the one read first *)
Theorem C67_initial_value_refuted : forall N delay init, (2 <= N)%nat -> 0 < delay -> delayed_value N (delayer_new N delay init) = Ok 0.
Proof.
  intros N delay init P D. destruct (C67_delay N delay init 1 (fun _ => 0) 0 P D (le_n 1)) as (d & E & V). cbn [seq map add_samples] in E. inversion E; subst d. rewrite V. f_equal.
  rewrite Nat.mod_1_r, Nat.div_1_r. cbn [INR]. change (Z.of_nat 0) with 0%Z. unfold entry at 2. destruct (Z.ltb_spec (0 + 1 - Z.of_nat N) 0); [|lia]. unfold Rdiv. ring.
Qed.
Print Assumptions C67_initial_value_refuted.

(* no time is lost, whatever the steps *)
Theorem C67_clock : forall N delay init l, (2 <= N)%nat -> 0 < delay ->
  exists d K, add_samples N (delayer_new N delay init) l = Ok d /\ idx d = (K mod N)%nat /\ duration l = INR K * (delay / (INR N - 1)) + time d.
Proof.
  intros N delay init l P D. assert (L : length (data (delayer_new N delay init)) = N) by (cbn [data delayer_new init_data length]; rewrite repeat_length; lia).
  destruct (add_samples_total N l (delayer_new N delay init) ltac:(lia) L) as (d & E & _). exists d.
  destruct (delayer_clock N l _ d ltac:(lia) L ltac:(cbn; lia) E) as (K & A & W & T). exists K. split; [exact E|]. cbn [idx window time delayer_new Nat.add] in *. split; [exact A|]. lra.
Qed.
Print Assumptions C67_clock.

(* with equal steps of at most a window the clock runs from half a step before
   to half a step before the end of the window *)
Theorem C67_steady : forall N delay init dt l d, (2 <= N)%nat -> 0 < dt <= delay / (INR N - 1) -> (forall p, In p l -> snd p = dt) ->
  add_samples N (delayer_new N delay init) l = Ok d -> - dt / 2 < time d <= delay / (INR N - 1) - dt / 2.
Proof.
  intros N delay init dt l d P D H E. apply (delayer_steady N dt l (delayer_new N delay init) d); [exact D|exact H| |exact E]. cbn [time window delayer_new]. lra.
Qed.
Print Assumptions C67_steady.

(* so that it extrapolates: the result can be outside the range of all samples *)
Theorem C67_range_refuted : exists N delay init l d v, (2 <= N)%nat /\ 0 < delay /\ 0 <= init <= 10 /\ (forall p, In p l -> 0 < snd p <= delay / (INR N - 1) /\ 0 <= fst p <= 10) /\
  add_samples N (delayer_new N delay init) l = Ok d /\ delayed_value N d = Ok v /\ v < 0.
Proof.
  exists 2%nat, 1, 0, [(10, 4 / 5)]. do 2 eexists. split; [lia|]. split; [lra|]. split; [lra|]. split.
  - intros p [<-|[]]. cbn. lra.
  - split; [|split].
    + cbn [add_samples]. unfold add_sample, delayer_new. cbn [window time idx data]. rewrite (proj2 (Rltb_true _ _)) by (cbn; lra). cbn. reflexivity.
    + unfold delayed_value, rdiv. cbn [window time idx data]. destruct (Req_EM_T _ _) as [Z|_]; [cbn in Z; lra|]. cbn. reflexivity.
    + cbn. lra.
Qed.
Print Assumptions C67_range_refuted.

(* the smooth variant, for any steps of at most a window: it interpolates
   between means of the signal over whole windows *)
Theorem C67_smooth : forall N delay init l, (2 <= N)%nat -> 0 < delay ->
  let w := delay / (INR N - 1 / 2) in (forall p, In p l -> 0 <= snd p <= w) ->
  exists d K t, smooth_samples N (smooth_new N delay init) l = Ok d /\ duration l = INR K * w + t /\ 0 <= t < w /\
    smooth_value N d = Ok (t / w * entry init (stretch_mean w l) (Z.of_nat K + 2 - Z.of_nat N) +
                           (1 - t / w) * entry init (stretch_mean w l) (Z.of_nat K + 1 - Z.of_nat N)).
Proof.
  intros N delay init l P D w H. pose proof (window_pos N delay (1 / 2) P D ltac:(lra)) as WP. fold w in WP.
  destruct (smooth_invariant N delay init l P D H) as (d & K & E & W & T & DU & _ & RG). fold w in E, W, T, DU, RG. exists d, K, (stime d).
  split; [exact E|]. split; [exact DU|]. split; [exact T|]. unfold smooth_value, rdiv. rewrite W. destruct (Req_EM_T _ _) as [Z|_]; [lra|]. cbn [bind].
  rewrite (ring_read N init _ _ _ _ 2 P ltac:(lia) RG), (ring_read N init _ _ _ _ 1 P ltac:(lia) RG). reflexivity.
Qed.
Print Assumptions C67_smooth.

Lemma entry_bounds w l init lo hi k K : 0 < w -> (forall p, In p l -> 0 <= snd p <= w /\ lo <= fst p <= hi) -> lo <= 0 <= hi -> lo <= init <= hi ->
  INR K * w <= duration l -> (k <= Z.of_nat K)%Z -> lo <= entry init (stretch_mean w l) k <= hi.
Proof.
  intros W H Z I D L. unfold entry. destruct (Z.ltb_spec k 0); [exact Z|]. destruct (Z.eqb_spec k 0); [exact I|].
  set (i := Z.to_nat k). assert (IB : (1 <= i <= K)%nat) by lia. assert (IK : INR i <= INR K) by (apply le_INR; lia).
  assert (II : INR (i - 1) = INR i - 1) by (rewrite minus_INR by lia; cbn; ring).
  assert (I0 : 0 <= INR (i - 1)) by apply pos_INR.
  destruct (area_bounds l lo hi (INR i * w) 0 (INR (i - 1) * w)) as [A B].
  - intros p Q. destruct (H p Q) as [[X _] Y]. split; assumption.
  - nra.
  - nra.
  - nra.
  - unfold stretch_mean. replace (INR i * w - INR (i - 1) * w) with w in A, B by (rewrite II; ring).
    split; [apply Rmult_le_reg_r with w; [exact W|]|apply Rmult_le_reg_r with w; [exact W|]];
    replace (area 0 l (INR (i - 1) * w) (INR i * w) / w * w) with (area 0 l (INR (i - 1) * w) (INR i * w)) by (field; lra); assumption.
Qed.
(* its result stays within the range of the samples, the initial value and zero *)
Theorem C67_smooth_bounded : forall N delay init l lo hi, (2 <= N)%nat -> 0 < delay -> lo <= 0 <= hi -> lo <= init <= hi ->
  (forall p, In p l -> 0 <= snd p <= delay / (INR N - 1 / 2) /\ lo <= fst p <= hi) ->
  exists d v, smooth_samples N (smooth_new N delay init) l = Ok d /\ smooth_value N d = Ok v /\ lo <= v <= hi.
Proof.
  intros N delay init l lo hi P D Z I H. pose proof (window_pos N delay (1 / 2) P D ltac:(lra)) as WP.
  destruct (C67_smooth N delay init l P D) as (d & K & t & E & DU & T & V). { intros p Q. apply (H p Q). }
  set (w := delay / (INR N - 1 / 2)) in *. exists d. eexists. split; [exact E|]. split; [exact V|].
  pose proof (entry_bounds w l init lo hi (Z.of_nat K + 2 - Z.of_nat N) K WP H Z I ltac:(lra) ltac:(lia)) as A.
  pose proof (entry_bounds w l init lo hi (Z.of_nat K + 1 - Z.of_nat N) K WP H Z I ltac:(lra) ltac:(lia)) as B.
  assert (U : 0 <= t / w <= 1).
  { split; [apply Rmult_le_pos; [lra|left; apply Rinv_0_lt_compat; exact WP]|]. apply Rmult_le_reg_r with w; [exact WP|]. replace (t / w * w) with t by (field; lra). lra. }
  set (u := t / w) in *. nra.
Qed.
Print Assumptions C67_smooth_bounded.

(* a signal that has been constant is returned as it is *)
Theorem C67_smooth_constant : forall N delay init l c, (2 <= N)%nat -> 0 < delay ->
  (forall p, In p l -> 0 <= snd p <= delay / (INR N - 1 / 2) /\ fst p = c) -> INR N * (delay / (INR N - 1 / 2)) <= duration l ->
  exists d, smooth_samples N (smooth_new N delay init) l = Ok d /\ smooth_value N d = Ok c.
Proof.
  intros N delay init l c P D H L. pose proof (window_pos N delay (1 / 2) P D ltac:(lra)) as WP.
  destruct (C67_smooth N delay init l P D) as (d & K & t & E & DU & T & V). { intros p Q. apply (H p Q). }
  set (w := delay / (INR N - 1 / 2)) in *. exists d. split; [exact E|]. rewrite V. f_equal.
  assert (NK : (N <= K)%nat). { destruct (Nat.le_gt_cases N K) as [G|G]; [exact G|]. exfalso. apply Nat.le_succ_l, le_INR in G. rewrite S_INR in G. nra. }
  assert (EN : forall c', (1 <= c' <= 2)%nat -> entry init (stretch_mean w l) (Z.of_nat K + Z.of_nat c' - Z.of_nat N) = c).
  { intros c' C. unfold entry. destruct (Z.ltb_spec (Z.of_nat K + Z.of_nat c' - Z.of_nat N) 0); [lia|]. destruct (Z.eqb_spec (Z.of_nat K + Z.of_nat c' - Z.of_nat N) 0); [lia|].
    set (i := Z.to_nat _). assert (IB : (1 <= i <= K)%nat) by lia. assert (IK : INR i <= INR K) by (apply le_INR; lia).
    assert (II : INR (i - 1) = INR i - 1) by (rewrite minus_INR by lia; cbn; ring). assert (I0 : 0 <= INR (i - 1)) by apply pos_INR.
    destruct (area_bounds l c c (INR i * w) 0 (INR (i - 1) * w)) as [A B].
    - intros p Q. destruct (H p Q) as [[X _] Y]. split; [exact X|]. rewrite Y. lra.
    - nra.
    - nra.
    - nra.
    - unfold stretch_mean. replace (INR i * w - INR (i - 1) * w) with w in A, B by (rewrite II; ring).
      replace (area 0 l (INR (i - 1) * w) (INR i * w)) with (c * w) by lra. field. lra. }
  pose proof (EN 1%nat ltac:(lia)) as E1. pose proof (EN 2%nat ltac:(lia)) as E2. change (Z.of_nat 1) with 1%Z in E1. change (Z.of_nat 2) with 2%Z in E2. rewrite E1, E2. ring.
Qed.
Print Assumptions C67_smooth_constant.

(* steps longer than a window spoil the means *)
Theorem C67_smooth_long_step_refuted : exists N delay init l d v, (2 <= N)%nat /\ 0 < delay /\ 0 <= init <= 6 /\ (forall p, In p l -> 0 < snd p /\ 0 <= fst p <= 6) /\
  smooth_samples N (smooth_new N delay init) l = Ok d /\ smooth_value N d = Ok v /\ 6 < v.
Proof.
  exists 2%nat, (3 / 2), 0, [(6, 3); (0, 3)]. assert (W : 3 / 2 / (INR 2 - 1 / 2) = 1) by (cbn; field).
  assert (L : forall x y, x <= y -> Rleb x y = true) by (intros x y H; unfold Rleb; destruct (Rle_dec x y); [reflexivity|contradiction]).
  exists (mkSmooth 1 4 0 0 [12; 6]), 30. split; [lia|]. split; [lra|]. split; [lra|]. split.
  - intros p [<-|[<-|[]]]; cbn; lra.
  - split; [|split; [|lra]].
    + cbn [smooth_samples]. change (smooth_new 2 (3 / 2) 0) with (mkSmooth (3 / 2 / (INR 2 - 1 / 2)) 0 0 0 [0; 0]). unfold smooth_sample at 1. cbn [swindow stime inter sidx sdata]. rewrite W, L by lra.
      replace (0 + (1 - (0 + 3) + 3) * 6) with 6 by ring. unfold rdiv. destruct (Req_EM_T 1 0) as [Z|_]; [lra|].
      cbn [bind init_data repeat Nat.sub Nat.add]. unfold vset. cbn [Nat.modulo Nat.divmod Nat.ltb Nat.leb length firstn skipn app bind fst snd Nat.sub].
      replace (0 + 3 - 1) with 2 by ring. replace (6 / 1) with 6 by field.
      unfold smooth_sample. cbn [swindow stime inter sidx sdata]. rewrite L by lra. unfold rdiv. destruct (Req_EM_T 1 0) as [Z|_]; [lra|].
      replace (2 * 6 + (1 - (2 + 3) + 3) * 0) with 12 by ring. cbn [bind Nat.add]. unfold vset. cbn [Nat.modulo Nat.divmod Nat.ltb Nat.leb length firstn skipn app bind fst snd Nat.sub].
      replace (2 + 3 - 1) with 4 by ring. replace (4 * 0) with 0 by ring. replace (12 / 1) with 12 by field. reflexivity.
    + unfold smooth_value, rdiv. cbn [swindow stime inter sidx sdata]. destruct (Req_EM_T 1 0) as [Z|_]; [lra|]. cbn. f_equal. field.
Qed.
Print Assumptions C67_smooth_long_step_refuted.

(* three slots, two samples per window of one second *)
Example C67_nonvacuous : forall v, exists d, add_samples 3 (delayer_new 3 2 7) (map (fun i => (v i, 1 / 2)) (seq 1 9)) = Ok d /\
  delayed_value 3 d = Ok (1 / 2 * v 6%nat + 1 / 2 * v 4%nat).
Proof.
  intros v. destruct (C67_delay 3 2 7 2 v 9 ltac:(lia) ltac:(lra) ltac:(lia)) as (d & E & V). exists d. 
  replace (2 / (INR 3 - 1) / INR 2) with (1 / 2) in E by (cbn; field). split; [exact E|]. rewrite V. f_equal.
  change (9 mod 2)%nat with 1%nat. change (9 / 2)%nat with 4%nat.
  change (entry 7 (fun i => v (i * 2)%nat) (Z.of_nat 4 + 2 - Z.of_nat 3)) with (v 6%nat). change (entry 7 (fun i => v (i * 2)%nat) (Z.of_nat 4 + 1 - Z.of_nat 3)) with (v 4%nat).
  replace (INR 1 / INR 2) with (1 / 2) by (cbn; field). lra.
Qed.
