(* C80: matching names against patterns *)
From Coq Require Import String.
From Verif Require Import Model.Base Model.StdString Model.Strings Model.PropTree Model.PropNode Model.PatternMatcher
  Spec.Strings Proofs.StringFacts Proofs.StringsProofs.
Local Open Scope Z_scope.
Local Open Scope list_scope.

Lemma pm_free spec s p : free [";"%char] s -> pattern_match spec s p = Ok (spec (cstr s) (cstr p)).
Proof.
  intros F. unfold pattern_match. replace (find_first_of s [";"%char] 0) with npos; [reflexivity|].
  symmetry. change s with ([] ++ s). change 0 with (size_ []). apply find_first_miss. apply Forall_mem_free. exact F.
Qed.
Lemma pm_semicolon spec s p : fits s -> In ";"%char s -> pattern_match spec s p = Throw.
Proof.
  intros Hf I. unfold pattern_match. assert (X : find_first_of s [";"%char] 0 =? npos = false).
  { destruct (split_first (mem [";"%char]) s) as [H|(a & c & b & -> & Hc & Ha)].
    - exfalso. rewrite Forall_forall in H. specialize (H _ I). apply mem_false in H. apply H. left. reflexivity.
    - apply Z.eqb_neq. unfold find_first_of. pose proof (find_first_hit (mem [";"%char]) [] a c b Hf Ha Hc) as X. cbn [app] in X. change (size_ []) with 0 in X. rewrite X.
      apply fits_lt in Hf. rewrite size_app, size_cons in Hf. pose proof (size_nonneg b). rewrite npos_val, ?size_app. cbn [size_ length Z.of_nat]. change (size_ []) with 0. lia. }
  rewrite X. reflexivity.
Qed.

(* a name without ';' matches iff it matches one of the patterns between the
   delimiters; a name with ';' throws, unless there is no pattern *)
Theorem C80_match : forall spec pattern delims s, fits pattern -> fits s ->
  exists ps, matcher pattern delims = Ok ps /\ Split (cstr delims) pattern ps /\
    (free [";"%char] s -> exists b, matches spec ps s = Ok b /\ (b = true <-> exists p, In p ps /\ spec (cstr s) (cstr p) = true)) /\
    (In ";"%char s -> matches spec ps s = match ps with [] => Ok false | _ => Throw end).
Proof.
  intros spec pattern delims s Hp Hs. destruct (split_main pattern delims Hp) as (ps & E & S). exists ps. split; [exact E|]. split; [exact S|]. clear E S. split.
  - intros F. induction ps as [|p ps (b & E & H)].
    + exists false. split; [reflexivity|]. split; [discriminate|intros (p & [] & _)].
    + cbn [matches]. rewrite pm_free by exact F. cbn [bind]. destruct (spec (cstr s) (cstr p)) eqn:M.
      * exists true. split; [reflexivity|]. split; [|reflexivity]. intros _. exists p. split; [left; reflexivity|exact M].
      * exists b. split; [exact E|]. rewrite H. split.
        -- intros (q & I & Q). exists q. split; [right; exact I|exact Q].
        -- intros (q & [<-|I] & Q); [congruence|exists q; auto].
  - intros I. destruct ps as [|p ps]; [reflexivity|]. cbn [matches]. rewrite pm_semicolon by assumption. reflexivity.
Qed.
Print Assumptions C80_match.

(* lists of patterns add up *)
Lemma matches_app spec ps qs s : matches spec (ps ++ qs) s = let* b := matches spec ps s in if b then Ok true else matches spec qs s.
Proof.
  induction ps as [|p ps IH]; cbn [app matches bind]; [reflexivity|]. destruct (pattern_match spec s p) as [[|]| | |]; cbn [bind]; auto.
Qed.
Lemma Split_app seps a ps c b : Split seps a ps -> In c seps -> forall qs, Split seps b qs -> Split seps (a ++ c :: b) (ps ++ qs).
Proof.
  intros H I qs Hb. assert (E : Split seps (c :: b) qs).
  { destruct Hb as [b O|l w r ws O N F R Hb]; [apply Split_end; constructor; assumption|].
    change (c :: l ++ w ++ r) with ((c :: l) ++ w ++ r). apply Split_word; auto. constructor; assumption. }
  induction H as [a O|l w r ws O N F R H IH].
  - cbn [app]. destruct E as [d O2|l w r ws O2 N F R E].
    + apply Split_end. apply Forall_app. auto.
    + rewrite app_assoc. apply Split_word; auto. apply Forall_app. auto.
  - rewrite <- !app_assoc. cbn [app]. apply Split_word; auto. right. destruct R as [->|(x & r' & -> & X)].
    + exists c, b. auto.
    + exists x, (r' ++ c :: b). auto.
Qed.
Theorem C80_union : forall spec a b c delims s, fits (a ++ c :: b) -> In c (cstr delims) ->
  exists ps qs, matcher a delims = Ok ps /\ matcher b delims = Ok qs /\ matcher (a ++ c :: b) delims = Ok (ps ++ qs) /\
    matches spec (ps ++ qs) s = let* x := matches spec ps s in if x then Ok true else matches spec qs s.
Proof.
  intros spec a b c delims s Hf I. assert (Ha : fits a) by (eapply fits_app_l; exact Hf).
  assert (Hb : fits b) by (apply fits_app_r in Hf; apply (fits_app_r [c]); exact Hf).
  destruct (split_main a delims Ha) as (ps & Ea & Sa). destruct (split_main b delims Hb) as (qs & Eb & Sb).
  exists ps, qs. split; [exact Ea|]. split; [exact Eb|]. split; [|apply matches_app].
  apply split_iff; [exact Hf|]. apply Split_app; assumption.
Qed.
Print Assumptions C80_union.
(* without a pattern nothing matches and nothing throws *)
Theorem C80_none : forall spec pattern delims s, fits pattern -> only (cstr delims) pattern ->
  matcher pattern delims = Ok [] /\ matches spec [] s = Ok false /\ matches spec matcher_default s = Ok false.
Proof. intros spec pattern delims s Hf O. split; [|split; reflexivity]. apply split_iff; [exact Hf|]. apply Split_end. exact O. Qed.
Print Assumptions C80_none.
(* a matcher read from a node: the node counts as read *)
Theorem C80_of_node : forall pn, matcher_of_node pn = (PN true (pn_value pn) (pn_children pn), matcher (pn_value pn) (lit ";")).
Proof. reflexivity. Qed.
Print Assumptions C80_of_node.
(* the children of a node whose keys match *)
Theorem C80_select : forall spec cs pattern, Forall (fun kc => fits (fst kc)) cs ->
  (Forall (fun kc => free [";"%char] (fst kc)) cs ->
     select_pattern spec cs pattern = Ok (filter (fun kc => spec (cstr (fst kc)) (cstr pattern)) cs)) /\
  (Exists (fun kc => In ";"%char (fst kc)) cs -> select_pattern spec cs pattern = Throw).
Proof.
  intros spec cs pattern Hf. induction Hf as [|[k c] cs Hk Hf [IH1 IH2]]; [split; [reflexivity|intros H; inversion H]|]. cbn [select_pattern fst filter] in *. split.
  - intros H. inversion H as [|? ? F1 F2]; subst. rewrite pm_free by exact F1. cbn [bind]. rewrite IH1 by exact F2. reflexivity.
  - intros H. destruct (in_dec ascii_dec ";"%char k) as [I|N].
    + rewrite pm_semicolon by assumption. reflexivity.
    + inversion H as [? ? I|? ? E]; subst; [contradiction|]. rewrite pm_free; [|apply Forall_forall; intros x X [<-|[]]; contradiction].
      cbn [bind]. rewrite IH2 by exact E. reflexivity.
Qed.
Print Assumptions C80_select.
(* the check is on the name: a pattern with ';' is not rejected, and a name with
   ';' is never tested, not even against itself or "*" *)
Theorem C80_pattern_checked_refuted : forall spec s pattern,
  (free [";"%char] s -> pattern_match spec s (pattern ++ lit ";") = Ok (spec (cstr s) (cstr (pattern ++ lit ";")))) /\
  (fits s -> In ";"%char s -> pattern_match spec s s = Throw /\ pattern_match spec s (lit "*") = Throw).
Proof. intros spec s pattern. split; [apply pm_free|]. intros Hf I. split; apply pm_semicolon; assumption. Qed.
Print Assumptions C80_pattern_checked_refuted.
(* text after a null character does not count, in the name or in the pattern *)
Theorem C80_null_refuted : forall spec s t p q, ~ In NUL s -> ~ In NUL p -> free [";"%char] (s ++ NUL :: t) ->
  pattern_match spec (s ++ NUL :: t) (p ++ NUL :: q) = pattern_match spec s p.
Proof.
  assert (C : forall s t, ~ In NUL s -> cstr (s ++ NUL :: t) = cstr s).
  { intros s t N. induction s as [|c s IH]; [reflexivity|]. cbn [app cstr]. destruct (Ascii.eqb c NUL) eqn:E; [reflexivity|]. f_equal. apply IH. intros X. apply N. right. exact X. }
  intros spec s t p q Ns Np F. rewrite pm_free by exact F. rewrite pm_free by (apply Forall_app in F; apply F). rewrite !C by assumption. reflexivity.
Qed.
Print Assumptions C80_null_refuted.

Definition same_start (s p : str) : bool := match s, p with c :: _, d :: _ => Ascii.eqb c d | _, _ => false end.
Example C80_nonvacuous :
  matcher (lit ";leg*;;arm*;") (lit ";") = Ok [lit "leg*"; lit "arm*"] /\
  matches same_start [lit "leg*"; lit "arm*"] (lit "arm_left") = Ok true /\
  matches same_start [lit "leg*"; lit "arm*"] (lit "foot") = Ok false /\
  matches same_start [lit "leg*"; lit "arm*"] (lit "arm;leg") = Throw /\
  select_pattern same_start [(lit "a1", pn_empty); (lit "b", pn_empty); (lit "a2", pn_of (lit "x"))] (lit "a*") = Ok [(lit "a1", pn_empty); (lit "a2", pn_of (lit "x"))].
Proof. repeat split. Qed.
