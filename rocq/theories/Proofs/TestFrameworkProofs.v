From Verif Require Import Model.Base Proofs.BaseFacts Model.TestFramework Spec.TestFramework.
Local Open Scope Z_scope.

(* failures before the last reset *)
Definition before (h : list test_op) : Z := ever false h - count false h.
Lemma count_nonneg b h : 0 <= count b h.
Proof. induction h as [|[r|] h IH]; cbn [count]; try lia. destruct (Bool.bool_dec r b); lia. Qed.
Lemma ever_count b h : count b h <= ever b h.
Proof.
  induction h as [|[r|] h IH]; cbn [count ever]; [lia|destruct (Bool.bool_dec r b); lia|]. pose proof (count_nonneg b h). lia.
Qed.
Lemma before_check r h : before (Check r :: h) = before h.
Proof. unfold before. cbn [ever count]. lia. Qed.
Lemma before_again h : before (Again :: h) = ever false h.
Proof. unfold before. cbn [ever count]. lia. Qed.
Definition expected (h : list test_op) : counters :=
  mkCounters (before h + count true h + count false h) (ever false h) (before h + count true h).
Lemma run_app a : forall c b, test_run c (a ++ b) = bind (test_run c a) (fun c' => test_run c' b).
Proof. induction a as [|o a IH]; intros c b; [reflexivity|]. cbn [app test_run]. destruct (test_step c o); cbn [bind]; auto. Qed.
Lemma step_expected o h c : test_step (expected h) o = Ok c -> c = expected (o :: h).
Proof.
  destruct o as [b|]; cbn [test_step].
  - unfold test, incr, expected. cbn [num_tests num_failed num_passed]. destruct (_ <? int_max); [|discriminate]. cbn [bind]. rewrite before_check. destruct b; destruct (_ <? int_max); try discriminate; cbn [bind fst]; intros E; injection E as <-; cbn [count ever]; cbn [Bool.bool_dec bool_rec bool_rect sumbool_rec sumbool_rect]; f_equal; lia.
  - intros E. injection E as <-. unfold reset_counters, expected. rewrite before_again. cbn [num_failed count ever]. f_equal; lia.
Qed.
Lemma run_expected h c : test_run no_tests (rev h) = Ok c -> c = expected h.
Proof.
  revert c. induction h as [|o h IH]; intros c E; [injection E as <-; reflexivity|]. cbn [rev] in E. rewrite run_app in E. destruct (test_run no_tests (rev h)) as [c0| | |]; try discriminate. specialize (IH c0 eq_refl). subst c0. cbn [bind test_run] in E.
  destruct (test_step (expected h) o) as [c1| | |] eqn:S; try discriminate. cbn [bind] in E. injection E as <-. apply step_expected. exact S.
Qed.
Lemma expected_small h : num_tests (expected h) <= Z.of_nat (length h) /\ num_passed (expected h) <= num_tests (expected h) /\ num_failed (expected h) <= num_tests (expected h).
Proof.
  unfold expected. cbn [num_tests num_passed num_failed]. split; [|pose proof (count_nonneg true h); pose proof (count_nonneg false h); unfold before; lia].
  assert (X : forall h, ever false h <= Z.of_nat (length h)) by (clear; induction h as [|[r|] h IH]; cbn [ever length]; [lia|destruct (Bool.bool_dec r false); lia|lia]).
  induction h as [|[r|] h IH]; [cbn; lia| |].
  - rewrite before_check. cbn [count length]. destruct r; cbn [Bool.bool_dec bool_rec bool_rect]; lia.
  - rewrite before_again. cbn [count length]. specialize (X h). lia.
Qed.
Lemma run_short h : (Z.of_nat (length h) <= int_max) -> exists c, test_run no_tests (rev h) = Ok c.
Proof.
  induction h as [|o h IH]; intros L; [eexists; reflexivity|]. destruct IH as [c E]; [cbn [length] in L; lia|]. pose proof (run_expected h c E) as ->. cbn [rev]. rewrite run_app, E. cbn [bind test_run].
  destruct (expected_small h) as (A & B & C). cbn [length] in L. destruct o as [b|]; [|eexists; reflexivity]. cbn [test_step]. unfold test, incr.
  destruct (Z.ltb_spec (num_tests (expected h)) int_max); [|lia]. cbn [bind]. destruct b; [destruct (Z.ltb_spec (num_passed (expected h)) int_max)|destruct (Z.ltb_spec (num_failed (expected h)) int_max)]; try lia; cbn [bind]; eexists; reflexivity.
Qed.
