(* C109: the lines of the test framework in the log *)
From Coq Require Import String.
From Verif Require Import Model.Base Proofs.BaseFacts Model.StdString Model.Strings Model.Number Model.Log Model.TestFramework Model.TestLog Spec.Log Spec.TestFramework Spec.Decimal Spec.TestLog Proofs.TestFrameworkProofs Proofs.NumberProofs Proofs.LogProofs Props.Log Props.TestFramework Proofs.TestLogProofs.
Local Open Scope list_scope.
Local Open Scope Z_scope.

(* Every history prints the lines that it should, to the sinks that it should. *)
Theorem C109_printed : forall h su out, su_run su_init (rev h) = Ok (su, out) -> Printed h out.
Proof. intros h su out E. apply (sim_run _ _ _ E). Qed.
(* The history decides the lines. *)
Lemma hear_unique h l ss ss' : Fair (logs_of h) -> Hear h l ss -> Hear h l ss' -> ss = ss'.
Proof.
  intros F (a & lv & R & L & ->) (a' & lv' & R' & L' & ->). destruct (C44_history_decides _ F) as [U V]. rewrite <- (U _ _ R R') in *. apply filter_ext_in. intros s I. rewrite (V _ _ _ (L s I) (L' s I)). reflexivity.
Qed.
Lemma line_unique n name r text a b : TestLine n name r text a -> TestLine n name r text b -> a = b.
Proof.
  intros A B. inversion A as [n1 d1 m1 t1 C1|n1 d1 m1 t1 C1]; subst; inversion B as [n2 d2 m2 t2 C2|n2 d2 m2 t2 C2]; subst; rewrite (Canonical_unique _ _ _ C1 C2); reflexivity.
Qed.
Lemma report_unique n f p a b : ReportLine n f p a -> ReportLine n f p b -> a = b.
Proof.
  intros A B. inversion A as [? ? ? dn df dp A1 A2 A3]; subst; inversion B as [? ? ? en ef ep B1 B2 B3]; subst. rewrite (Canonical_unique _ _ _ A1 B1), (Canonical_unique _ _ _ A2 B2), (Canonical_unique _ _ _ A3 B3). reflexivity.
Qed.
Lemma fair_logs o h : Fair (logs_of (o :: h)) -> Fair (logs_of h).
Proof. destruct o; cbn [logs_of]; try (intros F; exact F). intros F. inversion F; assumption. Qed.
Theorem C109_decided : forall h out out', Fair (logs_of h) -> Printed h out -> Printed h out' -> out = out'.
Proof.
  induction h as [|o h IH]; intros out out' F A B; [inversion A; inversion B; reflexivity|]. pose proof (fair_logs _ _ F) as F'.
  inversion A; subst; inversion B; subst; try congruence;
    try (match goal with H : _ = Renew \/ _ |- _ => exfalso; destruct H as [H|[[? H]|[? H]]]; discriminate end);
    try (apply IH; assumption);
    (match goal with H : Hear h _ ?s, H' : Hear h _ ?s' |- _ => rewrite (hear_unique _ _ _ _ F' H H') end);
    (match goal with H : TestLine _ _ _ _ ?s, H' : TestLine _ _ _ _ ?s' |- _ => rewrite (line_unique _ _ _ _ _ _ H H') | H : ReportLine _ _ _ ?s, H' : ReportLine _ _ _ ?s' |- _ => rewrite (report_unique _ _ _ _ _ H H') end);
    f_equal; apply IH; assumption.
Qed.
(* Logging changes neither the sinks nor the counters: they are what the calls
   that concern them made them. *)
Theorem C109_state : forall h su out, su_run su_init (rev h) = Ok (su, out) ->
  test_run no_tests (rev (tests_of h)) = Ok (su_tests su) /\ log_run log_init (rev (logs_of h)) = Ok (su_log su) /\ su_show su = shown h.
Proof. intros h su out E. destruct (sim_run _ _ _ E) as (A & B & C & _). auto. Qed.
(* A test returns its result. *)
Theorem C109_result : forall su name r text su' b new, su_test su name r text = Ok (su', b, new) -> b = r.
Proof.
  intros su name r text su' b new E. unfold su_test in E. destruct (incr (num_tests (su_tests su))); try discriminate. cbn [bind] in E. unfold test in E. destruct (incr (num_tests (su_tests su))); try discriminate. cbn [bind] in E.
  destruct r; [destruct (incr (num_passed (su_tests su)))|destruct (incr (num_failed (su_tests su)))]; try discriminate; cbn [bind] in E; injection E as _ <- _; reflexivity.
Qed.
(* A history is defined iff its calls to the log and its tests are, in particular
   if sinks are used while they exist and there are at most 2^31 - 1 tests. *)
Theorem C109_defined : forall h, ((exists r, su_run su_init (rev h) = Ok r) <-> Fair (logs_of h) /\ exists c, test_run no_tests (rev (tests_of h)) = Ok c) /\
  (Fair (logs_of h) -> Z.of_nat (List.length (tests_of h)) <= 2 ^ 31 - 1 -> exists r, su_run su_init (rev h) = Ok r).
Proof.
  intros h. split; [split|].
  - intros [[su out] E]. destruct (sim_run _ _ _ E) as (A & B & _). split; [apply C44_defined; eauto|eauto].
  - intros [F T]. apply su_defined; assumption.
  - intros F L. apply su_defined; [exact F|]. apply C48_defined. exact L.
Qed.

(* While passed tests are not shown and the sinks stay as they are, a sink that
   takes errors gets one line for each failed test, in order, with its number,
   name and message, and nothing else. *)
Lemma lines_app s a b : lines_to s (a ++ b) = lines_to s a ++ lines_to s b.
Proof. unfold lines_to. rewrite filter_app, map_app. reflexivity. Qed.
Lemma lines_one s l : forall ss, NoDup ss -> In s ss -> lines_to s (map (fun x => (x, l)) ss) = [l].
Proof.
  unfold lines_to. induction ss as [|x ss IH]; intros N I; [destruct I|]. inversion N as [|? ? NI N']; subst. cbn [map filter fst]. destruct (Nat.eqb_spec x s) as [->|NE].
  - cbn [map snd]. f_equal. clear - NI. induction ss as [|y ss IH]; [reflexivity|]. cbn [map filter fst]. destruct (Nat.eqb_spec y s) as [->|]; [exfalso; apply NI; left; reflexivity|]. apply IH. intros I. apply NI. right. exact I.
  - destruct I as [->|I]; [contradiction|]. apply IH; assumption.
Qed.
Theorem C109_failures : forall h1 h2 su out ss s lv, su_run su_init (rev (h2 ++ h1)) = Ok (su, out) ->
  Registered (logs_of h1) ss -> In s ss -> Level (logs_of h1) s lv -> lv <= 5 -> shown h1 = false ->
  (forall o, In o h2 -> exists name r text, o = Run name r text) ->
  exists su1 out1 out2, su_run su_init (rev h1) = Ok (su1, out1) /\ out = out1 ++ out2 /\
  Forall2 (fun f line => TestLine (fst (fst f)) (snd (fst f)) false (snd f) line) (failures (Performed h1) (rev h2)) (lines_to s out2).
Proof.
  intros h1 h2 su out ss s lv E RG IN LV LE SH H. rewrite rev_app_distr, su_run_app in E. destruct (su_run su_init (rev h1)) as [[su1 out1]| | |] eqn:E1; try discriminate. cbn [bind fst snd] in E.
  destruct (su_run su1 (rev h2)) as [[su2 out2]| | |] eqn:E2; try discriminate. cbn [bind fst snd] in E. injection E as <- <-. exists su1, out1, out2. split; [reflexivity|]. split; [reflexivity|].
  destruct (sim_run _ _ _ E1) as (T & L & S & G & _). destruct (tests_eq _ _ T) as (N & _). destruct (counts_nonneg h1) as (_ & _ & NN).
  assert (M : NoDup (message (su_log su1) 5) /\ In s (message (su_log su1) 5)). { destruct (C44_receivers _ _ L) as [_ R]. destruct (R 5) as [D X]. split; [exact D|]. apply X. exists ss, lv. auto. }
  rewrite <- N in *. rewrite SH in S. assert (H' : forall o, In o (rev h2) -> exists name r text, o = Run name r text) by (intros o I; apply H, in_rev; exact I).
  clear - E2 S G NN M H'. revert su1 out2 E2 S G NN M. induction (rev h2) as [|o ops IH]; intros su1 out2 E2 S G NN M; [injection E2 as <- <-; constructor|].
  cbn [su_run] in E2. destruct (su_step su1 o) as [[s1 l1]| | |] eqn:ST; try discriminate. cbn [bind fst snd] in E2. destruct (su_run s1 ops) as [[s2 l2]| | |] eqn:SR; try discriminate. cbn [bind fst snd] in E2. injection E2 as <- <-.
  destruct (H' o) as (name & r & text & ->); [left; reflexivity|]. cbn [su_step] in ST. unfold su_test in ST. destruct (incr (num_tests (su_tests su1))) as [n| | |] eqn:EN; try discriminate. cbn [bind] in ST. destruct (test (su_tests su1) r) as [q| | |] eqn:ET; try discriminate. cbn [bind fst snd] in ST. injection ST as <- <-.
  assert (Q : num_tests (fst q) = num_tests (su_tests su1) + 1). { unfold test in ET. rewrite EN in ET. cbn [bind] in ET. assert (n = num_tests (su_tests su1) + 1) by (unfold incr in EN; destruct (_ <? _) in EN; [injection EN as <-; reflexivity|discriminate]). destruct r; [destruct (incr (num_passed (su_tests su1)))|destruct (incr (num_failed (su_tests su1)))]; try discriminate; injection ET as <-; exact H. }
  assert (Bn : n = num_tests (su_tests su1) + 1 /\ 0 <= n <= int_max). { unfold incr in EN. destruct (Z.ltb_spec (num_tests (su_tests su1)) int_max); [|discriminate]. injection EN as <-. lia. }
  specialize (IH (fun o I => H' o (or_intror I)) _ _ SR S (test_good _ _ _ G ET)). cbn [su_tests su_log] in IH. rewrite Q in IH. specialize (IH ltac:(lia) M). rewrite lines_app. rewrite S. destruct r; cbn [failures].
  - exact IH.
  - unfold say. rewrite lines_one by apply M. cbn [app]. constructor; [|exact IH]. cbn [fst snd List.concat]. rewrite app_nil_r. destruct Bn as [-> Bn]. apply Line_failed. apply small_print. exact Bn.
Qed.
(* As long as nothing was reset, tests are numbered 1, 2, 3, ..., and the counts
   of the report add up. *)
Theorem C109_numbers : forall h, ~ In Renew h ->
  Performed h = Z.of_nat (List.length (tests_of h)) /\ Performed h = Failed h + Passed h /\ Failed h = count false (tests_of h) /\ Passed h = count true (tests_of h).
Proof.
  intros h N. unfold Performed, Failed, Passed, carried. assert (X : ever false (tests_of h) = count false (tests_of h) /\ count true (tests_of h) + count false (tests_of h) = Z.of_nat (List.length (tests_of h))).
  { induction h as [|o h IH]; [auto|]. destruct IH as [I1 I2]; [intros I; apply N; right; exact I|]. destruct o as [name r text| | |b|o]; cbn [tests_of ever count List.length]; try (split; assumption).
    - destruct r; cbn [Bool.bool_dec bool_rec bool_rect]; lia.
    - exfalso. apply N. left. reflexivity. }
  lia.
Qed.
(* The report says -1 iff some test ever failed; its line tells the counts, and
   is an error then. *)
Theorem C109_report : forall h su out, su_run su_init (rev h) = Ok (su, out) ->
  (fst (su_report su) = -1 <-> 0 < Failed h) /\ (fst (su_report su) = 0 <-> Failed h = 0) /\
  exists line ss, ReportLine (Performed h) (Failed h) (Passed h) line /\ Hear h (if 0 <? Failed h then 5 else 3) ss /\ snd (su_report su) = map (fun s => (s, line)) ss.
Proof.
  intros h su out E. destruct (sim_run _ _ _ E) as (T & L & _ & (G1 & G2 & G3) & _). destruct (C48_counts _ _ T) as (_ & _ & _ & A & B). split; [exact A|]. split; [exact B|].
  destruct (tests_eq _ _ T) as (N1 & N2 & N3). destruct (counts_nonneg h) as (P1 & P2 & P3). unfold su_report. cbn [snd]. rewrite N1, N2, N3. do 2 eexists. split; [|split; [|unfold say; cbn [List.concat]; rewrite app_nil_r; reflexivity]].
  - apply Line_report; apply small_print; lia.
  - destruct (0 <? Failed h); apply (hear_of _ _ _ L).
Qed.
Lemma line_parts n name r text line : TestLine n name r text line -> exists d, Canonical d n /\ line = lit "TEST " ++ d ++ " "%char :: name ++ ":"%char :: (lit (if r then " passed. " else " FAILED! ") ++ text).
Proof. intros [? d ? ? C|? d ? ? C]; exists d; (split; [exact C|reflexivity]). Qed.
(* A line tells its number; for a name without a colon, and for a known name, it
   tells everything. *)
Theorem C109_read : forall n name r text n' name' r' text' line, 0 <= n -> 0 <= n' ->
  TestLine n name r text line -> TestLine n' name' r' text' line ->
  n = n' /\ (name = name' \/ ~ In ":"%char name /\ ~ In ":"%char name' -> name = name' /\ r = r' /\ text = text').
Proof.
  intros n name r text n' name' r' text' line P P' A B.
  destruct (line_parts _ _ _ _ _ A) as (d & C & E). destruct (line_parts _ _ _ _ _ B) as (d' & C' & E').
  rewrite E in E'. apply app_inv_head in E'. destruct (digits_front _ _ _ _ (canonical_digits _ _ C P) (canonical_digits _ _ C' P') E') as [<- E2].
  split; [exact (canonical_value _ _ _ C C' P P')|]. intros K. assert (Y : name = name' /\ lit (if r then " passed. " else " FAILED! ") ++ text = lit (if r' then " passed. " else " FAILED! ") ++ text').
  { destruct K as [<-|[K1 K2]]; [apply app_inv_head in E2; apply (f_equal (@tl ascii)) in E2; auto|apply colon_front; assumption]. }
  destruct Y as [Y1 Y2]. split; [exact Y1|]. destruct r, r'; cbn in Y2; try discriminate; injection Y2 as Y2; auto.
Qed.
(* A name with a colon can make a passed test look like a failed one. *)
Theorem C109_read_refuted : exists n name r text name' r' text' line, 0 <= n /\ TestLine n name r text line /\ TestLine n name' r' text' line /\ r <> r'.
Proof.
  exists 1, (lit "a"), true, (lit "b: FAILED! "), (lit "a: passed. b"), false, [], (lit "TEST 1 a: passed. b: FAILED! "). split; [lia|]. assert (C : Canonical (dec 1) 1) by (apply small_print; unfold int_max; lia).
  split; [exact (Line_passed 1 _ _ _ C)|]. split; [exact (Line_failed 1 _ _ [] C)|discriminate].
Qed.
Ltac outcome h := exists h; let t := eval vm_compute in (su_run su_init (rev h)) in match t with Ok (?su, ?out) => exists su, out end; split; [vm_compute; reflexivity|].
(* After a reset tests are not numbered from 1 if a test failed before, and the
   report counts failures and passes that are not there. *)
Theorem C109_reset_refuted : exists h su out, su_run su_init (rev h) = Ok (su, out) /\ count true (tests_of h) = 1 /\ count false (tests_of h) = 0 /\
  lines_to 0 out = [lit "TEST 1 a: FAILED! "; lit "TEST 2 b: passed. "; lit "Test results: 2 performed, 1 failed, 2 passed"].
Proof.
  outcome [Report; Run (lit "b") true []; Renew; Run (lit "a") false []; Show true; LogCall (New 0%nat 0)]. split; [reflexivity|]. split; vm_compute; reflexivity.
Qed.
(* A failure is not seen at all if no sink takes errors. *)
Theorem C109_unseen_refuted : exists h su out, su_run su_init (rev h) = Ok (su, out) /\ Failed h = 1 /\ sinks (su_log su) <> [] /\ out = [] /\ fst (su_report su) = -1.
Proof. outcome [Report; Run (lit "a") false []; LogCall (New 0%nat 6)]. split; [reflexivity|]. split; [discriminate|]. split; reflexivity. Qed.

Example C109_example :
  let h := [Report; Run (lit "c()") true (lit "z"); Show true; LogCall (New 1%nat 3); Run (lit "b > 2") false (lit "y"); Run (lit "a == 1") true (lit "x"); LogCall (New 0%nat 5)] in
  exists su out, su_run su_init (rev h) = Ok (su, out) /\ Performed h = 3 /\ Failed h = 1 /\ Passed h = 2 /\
  lines_to 0 out = [lit "TEST 2 b > 2: FAILED! y"; lit "Test results: 3 performed, 1 failed, 2 passed"] /\
  lines_to 1 out = [lit "TEST 3 c(): passed. z"; lit "Test results: 3 performed, 1 failed, 2 passed"].
Proof.
  cbv zeta. match goal with |- exists su out, ?r = _ /\ _ => let t := eval vm_compute in r in match t with Ok (?su, ?out) => exists su, out end end.
  split; [vm_compute; reflexivity|]. split; [reflexivity|]. split; [reflexivity|]. split; [reflexivity|]. split; vm_compute; reflexivity.
Qed.
