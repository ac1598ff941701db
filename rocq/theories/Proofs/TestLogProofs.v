From Coq Require Import String.
From Verif Require Import Model.Base Proofs.BaseFacts Model.StdString Model.Strings Model.Number Model.Log Model.TestFramework Model.TestLog Spec.Log Spec.TestFramework Spec.Decimal Spec.TestLog Proofs.TestFrameworkProofs Proofs.NumberProofs Proofs.LogProofs Props.Log.
Local Open Scope list_scope.
Local Open Scope Z_scope.

Lemma log_run_app a : forall c b, log_run c (a ++ b) = bind (log_run c a) (fun c' => log_run c' b).
Proof. induction a as [|o a IH]; intros c b; [reflexivity|]. cbn [app log_run]. destruct (log_step c o); cbn [bind]; auto. Qed.
Lemma su_run_app a : forall su b, su_run su (a ++ b) = bind (su_run su a) (fun r => bind (su_run (fst r) b) (fun q => Ok (fst q, snd r ++ snd q))).
Proof.
  induction a as [|o a IH]; intros su b.
  - cbn [app su_run bind fst snd]. destruct (su_run su b) as [[q l]| | |]; reflexivity.
  - cbn [app su_run]. destruct (su_step su o) as [[s1 l1]| | |]; try reflexivity. cbn [bind fst snd]. rewrite IH. destruct (su_run s1 a) as [[s2 l2]| | |]; try reflexivity. cbn [bind fst snd].
    destruct (su_run s2 b) as [[s3 l3]| | |]; try reflexivity. cbn [bind fst snd]. rewrite app_assoc. reflexivity.
Qed.
Lemma su_run_snoc su h o : su_run su (rev (o :: h)) = bind (su_run su (rev h)) (fun r => bind (su_step (fst r) o) (fun q => Ok (fst q, snd r ++ snd q))).
Proof.
  cbn [rev]. rewrite su_run_app. destruct (su_run su (rev h)) as [[s1 l1]| | |]; try reflexivity. cbn [bind fst snd su_run]. destruct (su_step s1 o) as [[s2 l2]| | |]; try reflexivity. cbn [bind fst snd]. rewrite app_nil_r. reflexivity.
Qed.

Lemma counts_nonneg h : 0 <= Failed h /\ 0 <= Passed h /\ 0 <= Performed h.
Proof.
  unfold Failed, Passed, Performed, carried. pose proof (ever_count false (tests_of h)). pose proof (count_nonneg false (tests_of h)). pose proof (count_nonneg true (tests_of h)). lia.
Qed.
Lemma hear_of h st l : log_run log_init (rev (logs_of h)) = Ok st -> Hear h l (message st l).
Proof.
  intros E. destruct (C44_receivers _ _ E) as [F _]. destruct (C44_delivery _ F) as (st' & all & lv & E' & R & _ & L & M). rewrite E in E'. injection E' as <-.
  exists all, lv. split; [exact R|]. split; [intros s I; apply (L s I)|apply M].
Qed.
Lemma tests_eq h c : test_run no_tests (rev (tests_of h)) = Ok c -> num_tests c = Performed h /\ num_failed c = Failed h /\ num_passed c = Passed h.
Proof. intros E. rewrite (run_expected _ _ E). unfold expected, before, Performed, Failed, Passed, carried. cbn [num_tests num_failed num_passed]. lia. Qed.
Lemma small_print z : 0 <= z <= int_max -> Canonical (dec z) z.
Proof. intros B. apply dec_canonical. unfold printable, int_max in *. lia. Qed.
Definition Good (c : counters) : Prop := num_tests c <= int_max /\ num_failed c <= int_max /\ num_passed c <= int_max.
Lemma test_good c b r : Good c -> test c b = Ok r -> Good (fst r).
Proof.
  unfold Good, test, incr. intros (A & B & C) E. destruct (Z.ltb_spec (num_tests c) int_max); [|discriminate]. cbn [bind] in E. destruct b.
  - destruct (Z.ltb_spec (num_passed c) int_max); [|discriminate]. injection E as <-. cbn. lia.
  - destruct (Z.ltb_spec (num_failed c) int_max); [|discriminate]. injection E as <-. cbn. lia.
Qed.

Definition Sim (h : list suite_op) (su : suite) (out : list (nat * str)) : Prop :=
  test_run no_tests (rev (tests_of h)) = Ok (su_tests su) /\ log_run log_init (rev (logs_of h)) = Ok (su_log su) /\ su_show su = shown h /\ Good (su_tests su) /\ Printed h out.
Lemma sim_step h su out o su' new : Sim h su out -> su_step su o = Ok (su', new) -> Sim (o :: h) su' (out ++ new).
Proof.
  intros (T & L & S & G & P) E. pose proof (tests_eq _ _ T) as (N1 & N2 & N3). destruct (counts_nonneg h) as (P1 & P2 & P3). unfold Sim. destruct o as [name r text| | |b|o]; cbn [su_step tests_of logs_of shown rev] in *.
  - unfold su_test in E. destruct (incr (num_tests (su_tests su))) as [n| | |] eqn:EN; try discriminate. cbn [bind] in E. destruct (test (su_tests su) r) as [q| | |] eqn:ET; try discriminate. cbn [bind fst snd] in E. injection E as <- <-.
    cbn [su_tests su_log su_show]. rewrite run_app, T. cbn [bind test_run test_step]. rewrite ET. cbn [bind]. split; [reflexivity|]. split; [exact L|]. split; [exact S|]. split; [exact (test_good _ _ _ G ET)|].
    assert (En : n = Performed h + 1 /\ 0 <= n <= int_max). { unfold incr in EN. destruct (Z.ltb_spec (num_tests (su_tests su)) int_max); [|discriminate]. injection EN as <-. lia. }
    destruct En as [-> Bn]. destruct r.
    + rewrite S. destruct (shown h) eqn:SH.
      * apply Pr_passed; [exact P|exact SH| |exact (hear_of _ _ 3 L)]. cbn [List.concat]. rewrite app_nil_r. apply Line_passed. apply small_print. exact Bn.
      * rewrite app_nil_r. apply Pr_quiet; assumption.
    + apply Pr_failed; [exact P| |exact (hear_of _ _ 5 L)]. cbn [List.concat]. rewrite app_nil_r. apply Line_failed. apply small_print. exact Bn.
  - injection E as <- <-. cbn [su_tests su_log su_show]. rewrite run_app, T, app_nil_r. cbn [bind test_run test_step]. split; [reflexivity|]. split; [exact L|]. split; [exact S|]. split; [unfold Good, reset_counters in *; cbn; lia|]. apply Pr_other; auto.
  - injection E as <- <-. split; [exact T|]. split; [exact L|]. split; [exact S|]. split; [exact G|]. unfold su_report. cbn [snd]. rewrite N1, N2, N3. destruct G as (G1 & G2 & G3).
    unfold say. cbn [List.concat]. rewrite app_nil_r. apply Pr_report; [exact P| |].
    + apply Line_report; apply small_print; lia.
    + destruct (0 <? Failed h); apply (hear_of _ _ _ L).
  - injection E as <- <-. cbn [su_tests su_log su_show]. rewrite app_nil_r. split; [exact T|]. split; [exact L|]. split; [reflexivity|]. split; [exact G|]. apply Pr_other; eauto.
  - rewrite log_run_app, L. cbn [bind log_run]. destruct (log_step (su_log su) o) as [l| | |]; try discriminate; injection E as <- <-; cbn [su_tests su_log su_show]; rewrite app_nil_r;
      (split; [exact T|]); (split; [reflexivity|]); (split; [exact S|]); (split; [exact G|]); apply Pr_other; eauto.
Qed.
Lemma sim_run h : forall su out, su_run su_init (rev h) = Ok (su, out) -> Sim h su out.
Proof.
  induction h as [|o h IH]; intros su out E.
  - injection E as <- <-. unfold Sim, Good. cbn. repeat split; try discriminate. constructor.
  - rewrite su_run_snoc in E. destruct (su_run su_init (rev h)) as [[s1 l1]| | |]; try discriminate. specialize (IH _ _ eq_refl). cbn [bind fst snd] in E. destruct (su_step s1 o) as [[s2 l2]| | |] eqn:S; try discriminate. cbn [bind fst snd] in E. injection E as <- <-.
    exact (sim_step _ _ _ _ _ _ IH S).
Qed.
Lemma su_defined h : Fair (logs_of h) -> (exists c, test_run no_tests (rev (tests_of h)) = Ok c) -> exists r, su_run su_init (rev h) = Ok r.
Proof.
  intros F [c T]. apply C44_defined in F as [l L]. revert c l T L. induction h as [|o h IH]; intros c l T L; [eexists; reflexivity|].
  rewrite su_run_snoc.
  assert (X : exists c' l', test_run no_tests (rev (tests_of h)) = Ok c' /\ log_run log_init (rev (logs_of h)) = Ok l').
  { destruct o; cbn [tests_of logs_of rev] in T, L; try rewrite run_app in T; try rewrite log_run_app in L; destruct (test_run no_tests (rev (tests_of h))); try discriminate; destruct (log_run log_init (rev (logs_of h))); try discriminate; eauto. }
  destruct X as (c' & l' & T' & L'). destruct (IH _ _ T' L') as [[su out] E]. rewrite E. cbn [bind fst snd]. destruct (sim_run _ _ _ E) as (T2 & L2 & _).
  assert (Y : exists q, su_step su o = Ok q).
  { destruct o as [name r text| | |b|o]; cbn [su_step tests_of logs_of rev] in *; try (eexists; reflexivity).
    - rewrite run_app, T2 in T. cbn [bind test_run test_step] in T. unfold su_test. destruct (test (su_tests su) r) as [q| | |] eqn:ET; try discriminate.
      assert (Z : exists n, incr (num_tests (su_tests su)) = Ok n) by (unfold test in ET; destruct (incr (num_tests (su_tests su))); try discriminate; eauto). destruct Z as [n ->]. cbn [bind]. eexists. reflexivity.
    - rewrite log_run_app, L2 in L. cbn [bind log_run] in L. destruct (log_step (su_log su) o); try discriminate; eauto. }
  destruct Y as [q ->]. eexists. reflexivity.
Qed.

(* reading lines *)
Lemma digits_front a : forall b s t, Forall IsDigit a -> Forall IsDigit b -> a ++ " "%char :: s = b ++ " "%char :: t -> a = b /\ s = t.
Proof.
  assert (D : ~ IsDigit " "%char) by (unfold IsDigit; vm_compute; intros [H _]; apply H; reflexivity).
  induction a as [|x a IH]; intros [|y b] s t A B E; cbn [app] in E.
  - injection E as <-. auto.
  - exfalso. injection E as <- _. inversion B; contradiction.
  - exfalso. injection E as -> _. inversion A; contradiction.
  - injection E as <- E. inversion A; inversion B; subst. destruct (IH b s t) as [<- <-]; auto.
Qed.
Lemma canonical_digits d n : Canonical d n -> 0 <= n -> Forall IsDigit d.
Proof.
  intros [|e ds A B C|e ds A B C] H.
  - constructor; [unfold IsDigit; vm_compute; split; discriminate|constructor].
  - constructor; assumption.
  - pose proof (digits_value_lower _ _ A B C). assert (0 < 10 ^ Z.of_nat (List.length ds)) by (apply Z.pow_pos_nonneg; lia). lia.
Qed.
Lemma canonical_value d n m : Canonical d n -> Canonical d m -> 0 <= n -> 0 <= m -> n = m.
Proof.
  intros A B HA HB. assert (X : forall d n, Canonical d n -> 0 <= n -> n = digits_value d).
  { clear. intros d n [|e ds A B C|e ds A B C] H; [reflexivity|reflexivity|]. pose proof (digits_value_lower _ _ A B C). assert (0 < 10 ^ Z.of_nat (List.length ds)) by (apply Z.pow_pos_nonneg; lia). lia. }
  rewrite (X _ _ A HA), (X _ _ B HB). reflexivity.
Qed.
Lemma colon_front a : forall b s t, ~ In ":"%char a -> ~ In ":"%char b -> a ++ ":"%char :: s = b ++ ":"%char :: t -> a = b /\ s = t.
Proof.
  induction a as [|x a IH]; intros [|y b] s t A B E; cbn [app] in E.
  - injection E as <-. auto.
  - exfalso. injection E as <- _. apply B. left. reflexivity.
  - exfalso. injection E as -> _. apply A. left. reflexivity.
  - injection E as <- E. destruct (IH b s t) as [<- <-]; auto; intros I; [apply A|apply B]; right; exact I.
Qed.
