(* C79: timer *)
From Coq Require Import ZArith Reals List Lia Lra.
From Verif Require Import Model.Base Model.Range Model.Timer Spec.Timer Proofs.TimerProofs.
Import ListNotations.
Local Open Scope Z_scope.

(* one reading in every unit *)
Theorem C79_units : forall epoch now, let d := now - epoch in
  (- 2 ^ 63 <= d < 2 ^ 63 ->
     nanoseconds epoch now = Ok d /\ ticks epoch now = Ok d /\
     (exists us, microseconds epoch now = Ok us /\ Whole 1000 d us) /\
     (exists ms, milliseconds epoch now = Ok ms /\ Whole (1000 * 1000) d ms) /\
     (exists s m h, seconds epoch now = Ok s /\ minutes epoch now = Ok m /\ hours epoch now = Ok h /\
        (s * 1000 * 1000 * 1000 = IZR d /\ s = 60 * m /\ m = 60 * h)%R)) /\
  (~ - 2 ^ 63 <= d < 2 ^ 63 ->
     nanoseconds epoch now = UB /\ ticks epoch now = UB /\ microseconds epoch now = UB /\ milliseconds epoch now = UB /\
     seconds epoch now = UB /\ minutes epoch now = UB /\ hours epoch now = UB).
Proof.
  intros epoch now d. unfold nanoseconds, ticks, microseconds, milliseconds, seconds, minutes, hours, elapsed. fold d. split; intros H.
  - rewrite i64_ok by exact H. cbn [bind]. do 2 (split; [reflexivity|]).
    split; [eexists; split; [reflexivity|apply quot_Whole; lia]|]. split; [eexists; split; [reflexivity|apply (quot_Whole 1000000); lia]|].
    do 3 eexists. do 3 (split; [reflexivity|]). split; [field|]. split; field.
  - rewrite i64_ub by exact H. repeat split.
Qed.
Print Assumptions C79_units.
(* a finer unit refines a coarser one *)
Theorem C79_refine : forall epoch now us ms, microseconds epoch now = Ok us -> milliseconds epoch now = Ok ms ->
  Whole 1000 us ms /\ (ms = 0 <-> Z.abs (now - epoch) < 1000000).
Proof.
  intros epoch now us ms U M. unfold microseconds, milliseconds, elapsed in *.
  destruct (arith i64 (now - epoch)) as [d| | |] eqn:E; cbn [bind] in *; try discriminate. apply i64_inv in E. destruct E as [-> R].
  inversion U; inversion M; subst. split.
  - replace (Z.quot (now - epoch) 1000000) with (Z.quot (Z.quot (now - epoch) 1000) 1000) by (rewrite Z.quot_quot by lia; reflexivity).
    apply quot_Whole. lia.
  - destruct (quot_Whole 1000000 (now - epoch)) as [[A B]|[A B]]; lia.
Qed.
Print Assumptions C79_refine.
(* the time is measured from the last reset, whatever happened before *)
Theorem C79_since_reset : forall created ops now l, timer_run created (ops ++ [(OpMillis, now)]) = Ok l ->
  exists l' m, l = l' ++ [m] /\
    Whole 1000000 (now - last_reset created (rev (map snd (filter (fun o => match fst o with OpReset => true | OpMillis => false end) ops)))) m.
Proof.
  intros created ops now l H. rewrite run_app in H. destruct (timer_run created ops) as [l'| | |]; cbn [bind] in H; try discriminate.
  set (e := fold_left _ ops created) in H. assert (E : e = last_reset created (rev (map snd (filter (fun o => match fst o with OpReset => true | OpMillis => false end) ops)))).
  { unfold e. clear. induction ops as [|[[|] t] ops IH] using rev_ind; [reflexivity| |].
    - rewrite fold_left_app, filter_app, map_app, rev_app_distr. reflexivity.
    - rewrite fold_left_app, filter_app. cbn [filter fst fold_left snd]. rewrite app_nil_r. exact IH. }
  rewrite <- E. clearbody e. cbn [timer_run] in H. unfold milliseconds, elapsed in H.
  destruct (arith i64 (now - e)) as [d| | |] eqn:A; cbn [bind] in H; try discriminate. apply i64_inv in A. destruct A as [-> _].
  inversion H; subst. exists l'. eexists. split; [reflexivity|]. apply quot_Whole. lia.
Qed.
Print Assumptions C79_since_reset.
(* with a clock that does not go back no unit goes back *)
Theorem C79_monotone : forall epoch t1 t2, t1 <= t2 ->
  (forall a b, milliseconds epoch t1 = Ok a -> milliseconds epoch t2 = Ok b -> a <= b) /\
  (forall a b, microseconds epoch t1 = Ok a -> microseconds epoch t2 = Ok b -> a <= b) /\
  (forall a b, seconds epoch t1 = Ok a -> seconds epoch t2 = Ok b -> (a <= b)%R).
Proof.
  intros epoch t1 t2 L. unfold milliseconds, microseconds, seconds, elapsed.
  destruct (arith i64 (t1 - epoch)) as [d1| | |] eqn:E1; cbn [bind]; try (split; [|split]; intros; discriminate).
  destruct (arith i64 (t2 - epoch)) as [d2| | |] eqn:E2; cbn [bind]; try (split; [|split]; intros; discriminate).
  apply i64_inv in E1. apply i64_inv in E2. destruct E1 as [-> _], E2 as [-> _].
  split; [|split]; intros a b A B; inversion A; inversion B; subst.
  - apply (Whole_mono 1000000 (t1 - epoch) (t2 - epoch)); [lia|apply quot_Whole; lia|apply quot_Whole; lia|lia].
  - apply (Whole_mono 1000 (t1 - epoch) (t2 - epoch)); [lia|apply quot_Whole; lia|apply quot_Whole; lia|lia].
  - assert (IZR (t1 - epoch) <= IZR (t2 - epoch))%R by (apply IZR_le; lia). lra.
Qed.
Print Assumptions C79_monotone.
(* lap times read and reset at the same instants: the sum of n laps falls short
   of the whole time by less than n units *)
Theorem C79_laps : forall ts t0 tn qs q, timer_run t0 (flat_map (fun t => [(OpMillis, t); (OpReset, t)]) (ts ++ [tn])) = Ok qs ->
  (forall l a b r, t0 :: ts ++ [tn] = l ++ a :: b :: r -> a <= b) ->
  milliseconds t0 tn = Ok q -> sum qs <= q < sum qs + Z.of_nat (length (ts ++ [tn])).
Proof.
  intros ts t0 tn qs q H M Q.
  assert (K : forall us t0 qs, timer_run t0 (flat_map (fun t => [(OpMillis, t); (OpReset, t)]) us) = Ok qs ->
     (forall l a b r, t0 :: us = l ++ a :: b :: r -> a <= b) ->
     exists ds, Forall2 (Whole 1000000) ds qs /\ Forall (fun d => 0 <= d) ds /\ sum ds = last us t0 - t0 /\ length ds = length us).
  { clear. induction us as [|t us IH]; intros t0 qs H M.
    - inversion H; subst. exists []. cbn. split; [constructor|]. split; [constructor|]. split; [lia|reflexivity].
    - cbn [flat_map app timer_run] in H. unfold milliseconds, elapsed in H.
      destruct (arith i64 (t - t0)) as [d| | |] eqn:A; cbn [bind] in H; try discriminate. apply i64_inv in A. destruct A as [-> _].
      unfold timer_reset in H. destruct (timer_run t _) as [l| | |] eqn:R in H; cbn [bind] in H; try discriminate. inversion H; subst.
      destruct (IH t l R) as (ds & F & P & S & L).
      { intros l0 a b r E. apply (M (t0 :: l0) a b r). cbn. rewrite <- E. reflexivity. }
      exists ((t - t0) :: ds). pose proof (M [] t0 t us eq_refl). split; [constructor; [apply quot_Whole; lia|exact F]|].
      split; [constructor; [lia|exact P]|]. split; [|cbn; congruence].
      unfold sum in *. cbn [fold_right]. rewrite S. destruct us as [|u us]; [cbn; lia|].
      replace (last (t :: u :: us) t0) with (last (u :: us) t0) by reflexivity.
      assert (X : forall x y (l : list Z), l <> [] -> last l x = last l y).
      { clear. intros x y l. induction l as [|a [|b l] IH]; [congruence|reflexivity|]. intros _. cbn [last] in *. apply IH. discriminate. }
      rewrite (X t t0) by discriminate. lia. }
  destruct (K _ _ _ H M) as (ds & F & P & S & L). rewrite last_last in S.
  destruct (Whole_sum 1000000 eq_refl ds qs F P) as [B1 B2]. assert (N : ds <> []).
  { intros ->. rewrite app_length in L. cbn in L. lia. }
  specialize (B2 N). unfold milliseconds, elapsed in Q. destruct (arith i64 (tn - t0)) as [d| | |] eqn:A; cbn [bind] in Q; try discriminate.
  apply i64_inv in A. destruct A as [-> _]. inversion Q; subst. rewrite <- L. rewrite <- S.
  assert (0 <= sum ds). { clear -P. induction P; cbn; [lia|]. unfold sum in *. lia. }
  assert (0 < Z.of_nat (length ds)) by (destruct ds; [congruence|cbn [length]; lia]).
  destruct (quot_Whole 1000000 (sum ds)) as [[? W]|[? W]]; [lia| |lia]. nia.
Qed.
Print Assumptions C79_laps.
(* so adding up laps of less than a millisecond gives nothing at all *)
Theorem C79_lap_sum_refuted : forall n : nat, Z.of_nat n < 1000000 ->
  timer_run 0 (flat_map (fun t => [(OpMillis, t); (OpReset, t)]) (map (fun i => Z.of_nat i * 999999) (seq 1 n))) = Ok (repeat 0 n) /\
  milliseconds 0 (Z.of_nat n * 999999) = Ok (Z.of_nat n * 999999 / 1000000).
Proof.
  intros n B. split.
  - assert (K : forall m k, timer_run (Z.of_nat k * 999999) (flat_map (fun t => [(OpMillis, t); (OpReset, t)]) (map (fun i => Z.of_nat i * 999999) (seq (S k) m))) = Ok (repeat 0 m)).
    { induction m as [|m IH]; intros k; [reflexivity|]. cbn [seq map flat_map app timer_run repeat]. unfold milliseconds, elapsed, timer_reset.
      replace (Z.of_nat (S k) * 999999 - Z.of_nat k * 999999) with 999999 by lia. rewrite i64_ok by lia. cbn [bind]. rewrite IH. reflexivity. }
    apply (K n O).
  - unfold milliseconds, elapsed. rewrite Z.sub_0_r, i64_ok by lia. cbn [bind]. f_equal. apply Z.quot_div_nonneg; lia.
Qed.
Print Assumptions C79_lap_sum_refuted.
(* the clock built on the performance counter *)
Theorem C79_windows : forall f g raw, 0 < f -> let count := raw - g in - 2 ^ 63 <= count < 2 ^ 63 ->
  (- 2 ^ 63 <= count * 10 ^ 9 < 2 ^ 63 <-> - 9223372036 <= count <= 9223372036) /\
  (- 9223372036 <= count <= 9223372036 -> exists ns, windows_now f g raw = Ok ns /\ Whole f (count * 10 ^ 9) ns) /\
  (~ - 9223372036 <= count <= 9223372036 -> windows_now f g raw = UB).
Proof.
  intros f g raw F count C. change (10 ^ 9) with 1000000000. split; [lia|]. unfold windows_now. fold count. rewrite i64_ok by exact C. cbn [bind]. split; intros H.
  - rewrite i64_ok by lia. cbn [bind]. destruct (f =? 0) eqn:E; [apply Z.eqb_eq in E; lia|].
    pose proof (quot_Whole f (count * 1000000000) F) as W. set (q := Z.quot _ f) in *. exists q. split; [|exact W].
    apply i64_ok. destruct W as [[A B]|[A B]]; nia.
  - rewrite i64_ub by lia. reflexivity.
Qed.
Print Assumptions C79_windows.
(* it cannot be used before its globals are initialised, nor, with the usual
   frequency of 10 MHz, after a quarter of an hour *)
Theorem C79_windows_total_refuted :
  (forall g raw, - 9223372036 <= raw - g <= 9223372036 -> windows_now 0 g raw = UB) /\
  (forall s g, 923 <= s -> s * 10 ^ 7 < 2 ^ 63 -> windows_now (10 ^ 7) g (g + s * 10 ^ 7) = UB).
Proof.
  split.
  - intros g raw H. unfold windows_now. rewrite i64_ok by lia. cbn [bind]. rewrite i64_ok by lia. reflexivity.
  - intros s g S B. change (10 ^ 7) with 10000000 in *. destruct (C79_windows 10000000 g (g + s * 10000000)) as (_ & _ & K); [lia|lia|]. apply K. lia.
Qed.
Print Assumptions C79_windows_total_refuted.
Example C79_nonvacuous :
  milliseconds 1000 1999999 = Ok 1 /\ milliseconds 1999999 1000 = Ok (-1) /\ microseconds 0 1999999 = Ok 1999 /\
  timer_run 5 [(OpMillis, 3000005); (OpReset, 4000000); (OpMillis, 4999999); (OpMillis, 5000000)] = Ok [3; 0; 1] /\
  windows_now 10000000 7 12345678 = Ok 1234567100.
Proof. repeat split. Qed.
