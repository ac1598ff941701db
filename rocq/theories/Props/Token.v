(* C31: tokens *)
From Coq Require Import String.
From Verif Require Import Model.Base Model.StdString Model.Strings Model.Number Model.CharStream Spec.Strings Spec.Quote Spec.Token Proofs.TokenProofs.
Local Open Scope list_scope.

(* the end-of-text flag is set exactly at the end, for every stream a client can have *)
Theorem C31_eof_flag :
  (forall s d, AtEnd (cs_of_cstr s d) /\ AtEnd (cs_of_string s d)) /\
  (forall st c st', AtEnd st -> getc st = Ok (c, st') -> AtEnd st') /\
  (forall st, AtEnd st -> AtEnd (snd (get_line st)) /\ forall t, AtEnd (snd (read_target t st))).
Proof.
  split; [|split].
  - intros s d. split; apply AtEnd_skip; discriminate.
  - exact AtEnd_getc.
  - intros st H. split; [apply AtEnd_process; exact H|intros t; apply AtEnd_target; exact H].
Qed.
Print Assumptions C31_eof_flag.

(* get_token on a good stream reads a token of the grammar, skips the
   delimiters after it, and consumes at least one character; or it does not
   return at all, exactly when a quotation is open and ends in a lone backslash *)
Theorem C31_get_token : forall ops quots st, AtEnd st -> good st = true ->
  let D := cs_delim st in
  (exists tok r r', Token D ops quots [] (cs_rest st) tok r /\ Skipped D r r' /\ (length r' < length (cs_rest st))%nat /\
     ~ Hang D ops quots (cs_rest st) /\
     exists st', (forall fuel, (length (cs_rest st) < fuel)%nat -> get_token fuel ops quots st = Ok (tok, st')) /\
       cs_rest st' = r' /\ cs_fail st' = false /\ AtEnd st' /\ cs_delim st' = D) \/
  (Hang D ops quots (cs_rest st) /\ forall fuel, get_token fuel ops quots st = OutOfFuel).
Proof.
  intros ops quots st A G D. assert (F : cs_fail st = false) by (unfold good in G; destruct (cs_fail st); [discriminate|reflexivity]).
  pose proof (AtEnd_strm st A F) as E. assert (NE : cs_rest st <> []).
  { intros X. apply A in X. unfold good in G. rewrite X, andb_false_r in G. discriminate. }
  destruct (token_total D ops quots (cs_rest st) []) as [H|(tok & r & H)].
  - right. split; [exact H|]. intros fuel. rewrite E. apply get_token_hang. exact H.
  - left. exists tok, r, (drop_delims D r). split; [exact H|]. split; [apply drop_skipped|]. split; [eapply token_progress; eauto|].
    split; [eapply token_not_hang; eauto|]. exists (strm D (drop_delims D r)). split; [intros fuel L; rewrite E; apply get_token_spec; assumption|].
    split; [reflexivity|]. split; [reflexivity|]. split; [|reflexivity]. unfold AtEnd, strm. cbn. destruct (drop_delims D r); cbn; split; congruence.
Qed.
Print Assumptions C31_get_token.

(* the grammar is unambiguous *)
Theorem C31_token_unique : forall D O Q s tok r tok' r', Token D O Q [] s tok r -> Token D O Q [] s tok' r' ->
  tok = tok' /\ forall x x', Skipped D r x -> Skipped D r' x' -> x = x'.
Proof.
  intros D O Q s tok r tok' r' A B. destruct (token_det D O Q s tok r tok' r' A B) as [E1 E2]. split; [exact E1|].
  assert (U : forall y x, Skipped D y x -> x = drop_delims D y).
  { intros y x (l & -> & F & N). induction F as [|c l Hc F IH]; cbn [app drop_delims].
    - destruct x as [|c x]; [reflexivity|]. cbn [drop_delims]. pose proof (N c x eq_refl) as X. apply strchr_not_Delim in X. rewrite X. reflexivity.
    - apply strchr_Delim in Hc. rewrite Hc. exact IH. }
  intros x x' X X'. rewrite (U _ _ X), (U _ _ X'). exact E2.
Qed.
Print Assumptions C31_token_unique.

(* without a final backslash every call returns *)
Theorem C31_terminates : forall D O Q s, (forall t, s <> t ++ ["\"%char]) -> ~ Hang D O Q s.
Proof. intros D O Q s H X. apply hang_bslash in X as [t E]. exact (H t E). Qed.
Print Assumptions C31_terminates.

(* on a stream that is at its end or has failed, the token is empty *)
Theorem C31_not_good : forall ops quots st fuel, good st = false ->
  exists st', get_token fuel ops quots st = Ok ([], st').
Proof. intros. eexists. apply get_token_bad. assumption. Qed.
Print Assumptions C31_not_good.

(* "get_token returns on every text" is false *)
Theorem C31_always_returns_refuted : exists s, forall fuel, get_token fuel [] [""""%char] (cs_of_cstr s default_delimiters) = OutOfFuel.
Proof.
  exists [""""%char; "\"%char]. intros fuel. change (cs_of_cstr [""""%char; "\"%char] default_delimiters) with (strm default_delimiters [""""%char; "\"%char]).
  apply get_token_hang. change [""""%char; "\"%char] with ([] ++ """"%char :: ["\"%char]). apply Hang_here; [constructor| |constructor; discriminate].
  split; [left; reflexivity|]. intros [X|X]; [|discriminate]. cbn in X. intuition discriminate.
Qed.
Print Assumptions C31_always_returns_refuted.

(* "a token is the text up to the delimiter" is false: what precedes a
   quotation is lost *)
Theorem C31_prefix_lost_refuted :
  match get_token 20 [] [""""%char] (cs_of_cstr (lit "ab""cd"" e") default_delimiters) with
  | Ok (tok, st) => tok = lit "cd" /\ cs_rest st = lit "e"
  | _ => False
  end.
Proof. vm_compute. auto. Qed.
Print Assumptions C31_prefix_lost_refuted.

Example C31_nonvacuous :
  let st := cs_of_cstr (lit "  name={ 'a b' }") default_delimiters in
  AtEnd st /\ good st = true /\
  match get_token 20 (lit "={}") (lit "'") st with
  | Ok (tok, st1) => tok = lit "name" /\
    match get_token 20 (lit "={}") (lit "'") st1 with
    | Ok (tok2, st2) => tok2 = lit "=" /\ cs_rest st2 = lit "{ 'a b' }"
    | _ => False end
  | _ => False end.
Proof. cbn zeta. split; [apply AtEnd_skip; discriminate|]. vm_compute. repeat split. Qed.
