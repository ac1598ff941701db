From Verif Require Import Model.Base Proofs.BaseFacts Model.StdString Model.Strings Model.Number Model.CharStream Model.PropTree Model.PropFile
  Spec.Strings Spec.Quote Spec.Token Spec.PropText Proofs.StringFacts Proofs.StringsProofs Proofs.QuoteProofs Proofs.TokenProofs Proofs.DictionaryProofs Proofs.PropParse Proofs.PropFileProofs.
Local Open Scope nat_scope.

(* runs with any result *)
Definition runs (st : char_stream) (p : pnode) (x : res pnode) : Prop := exists f, parse_loop f st p = x /\ x <> OutOfFuel.
Definition cruns (st : char_stream) (t : str) (p : pnode) (x : res (pnode * char_stream)) : Prop := exists f, read_children f st t p = x /\ x <> OutOfFuel.

Lemma children_more f1 f2 st t p : f1 <= f2 -> read_children f1 st t p <> OutOfFuel -> read_children f2 st t p = read_children f1 st t p.
Proof. intros L H. induction L as [|f2 L IH]; [reflexivity|]. rewrite (proj2 (read_mono f2)); [exact IH|]. rewrite IH. exact H. Qed.

Lemma runs_label st p k st1 c st2 x : tokens st k st1 -> is_valid_prop_label k = true -> reads st1 pn_empty c st2 -> runs st2 (pn_push p k c) x -> runs st p x.
Proof.
  intros [f1 E1] V [f2 E2] (f3 & E3 & N). exists (S (f1 + f2 + f3)). split; [|exact N]. cbn [parse_loop]. rewrite (token_up f1 (f1+f2+f3) st _ ltac:(lia) E1). cbn [bind].
  rewrite V. rewrite (node_up f2 (f1+f2+f3) st1 _ _ ltac:(lia) E2). cbn [bind]. rewrite (parse_more f3); [exact E3|lia|congruence].
Qed.
Lemma runs_stop st p k st1 : tokens st k st1 -> is_valid_prop_label k = false -> runs st p (Ok p).
Proof. intros [f E] V. exists (S f). split; [|discriminate]. cbn [parse_loop]. rewrite E. cbn [bind]. rewrite V. reflexivity. Qed.
Lemma runs_throw st p k st1 : tokens st k st1 -> is_valid_prop_label k = true -> (exists f, read_prop_node f st1 pn_empty = Throw) -> runs st p Throw.
Proof.
  intros [f1 E1] V [f2 E2]. exists (S (f1 + f2)). split; [|discriminate]. cbn [parse_loop]. rewrite (token_up f1 (f1+f2) st _ ltac:(lia) E1). cbn [bind].
  rewrite V. rewrite (read_more f2 (f1+f2)) by (lia || congruence). rewrite E2. reflexivity.
Qed.
Lemma cruns_label st t p k st1 c st2 x : good st = true -> t <> ["}"%char] -> tokens st k st1 -> is_valid_prop_label k = true ->
  reads st1 pn_empty c st2 -> cruns st2 k (pn_push p k c) x -> cruns st t p x.
Proof.
  intros G N [f1 E1] V [f2 E2] (f3 & E3 & X). exists (S (f1 + f2 + f3)). split; [|exact X]. rewrite read_children_S. rewrite G, (str_eqb_neq _ _ N). cbn [negb andb].
  rewrite (token_up f1 (f1+f2+f3) st _ ltac:(lia) E1). cbn [bind]. rewrite V. rewrite (node_up f2 (f1+f2+f3) st1 _ _ ltac:(lia) E2). cbn [bind].
  rewrite (children_more f3); [exact E3|lia|congruence].
Qed.
Lemma cruns_bad st t p k st1 : good st = true -> t <> ["}"%char] -> tokens st k st1 -> is_valid_prop_label k = false -> k <> ["}"%char] -> cruns st t p Throw.
Proof.
  intros G N [f1 E1] V K. exists (S f1). split; [|discriminate]. rewrite read_children_S. rewrite G, (str_eqb_neq _ _ N). cbn [negb andb].
  rewrite E1. cbn [bind]. rewrite V, (str_eqb_neq _ _ K). reflexivity.
Qed.

Lemma wrs_prefix cs : SafeChildren cs -> exists cs', Forall2 same_kc cs cs' /\ forall r, fits (wrs cs 0 ++ r) -> forall p x,
  runs (ps r) (PN (pn_accessed p) (pn_value p) (pn_children p ++ cs')) x -> runs (ps (wrs cs 0 ++ r)) p x.
Proof.
  induction 1 as [|[k c] cs [K C] _ (cs' & F2 & IH)]; cbn [fst snd] in *.
  - exists []. split; [constructor|]. intros r _ [a v c] x H. cbn in *. rewrite app_nil_r in H. exact H.
  - destruct (node_reads c k 0 K C) as ([k' c'] & E & V & _ & R). cbn [fst snd] in *. exists ((k', c') :: cs'). split; [constructor; assumption|].
    intros r F p x H. cbn [wrs flat_map] in F |- *. fold (wrs cs 0) in F |- *. rewrite <- app_assoc in F |- *. destruct (R _ F) as (st1 & H1 & H2).
    eapply runs_label; [exact H1|exact V|exact H2|]. apply (IH r (fits_tail _ _ F) (pn_push p k' c')). destruct p. cbn in *. rewrite <- app_assoc. exact H.
Qed.
Lemma children_prefix cs level : SafeChildren cs -> exists cs', Forall2 same_kc cs cs' /\ forall r, fits (wrs cs level ++ r) -> pdrop r <> [] -> forall t p x, t <> ["}"%char] ->
  (forall t', t' <> ["}"%char] -> cruns (ps r) t' (PN (pn_accessed p) (pn_value p) (pn_children p ++ cs')) x) -> cruns (ps (wrs cs level ++ r)) t p x.
Proof.
  induction 1 as [|[k c] cs [K C] _ (cs' & F2 & IH)]; cbn [fst snd] in *.
  - exists []. split; [constructor|]. intros r _ _ t [a v c] x Ht H. cbn in *. specialize (H t Ht). rewrite app_nil_r in H. exact H.
  - destruct (node_reads c k level K C) as ([k' c'] & E & V & B & R). cbn [fst snd] in *. exists ((k', c') :: cs'). split; [constructor; assumption|].
    intros r F NE t p x Ht H. cbn [wrs flat_map] in F |- *. fold (wrs cs level) in F |- *. rewrite <- app_assoc in F |- *. destruct (R _ F) as (st1 & H1 & H2).
    eapply cruns_label; [apply good_ps|exact Ht|exact H1|exact V|exact H2|].
    + destruct (wr_head (k, c) level (wrs cs level ++ r) K) as (y & r1 & ->). discriminate.
    + apply (IH r (fits_tail _ _ F) NE); [exact B|]. intros t' Ht'. specialize (H t' Ht'). destruct p. cbn in *. rewrite <- app_assoc. exact H.
Qed.

Lemma wrs_app a b level : wrs (a ++ b) level = wrs a level ++ wrs b level.
Proof. unfold wrs. apply flat_map_app. Qed.
Lemma save_result t x : fits (save_prop t true) -> runs (ps (save_prop t true)) pn_empty x -> load_prop (save_prop t true) = x.
Proof.
  intros F (f & E & N). pose proof (clean_nonul _ (save_clean t true)) as C. pose proof (save_calm t true) as CA. rewrite <- (cstr_id _ C) in CA.
  destruct (parse_prop_total _ F CA) as [_ M]. unfold load_prop. rewrite <- (M (f + 2 * length (save_prop t true) + 3)) by lia.
  unfold parse_prop_fuel. rewrite cs_of_cstr_ps by exact C. rewrite (parse_more f); [exact E|lia|congruence].
Qed.

(* value and children *)
Definition both_text k v (cs : list (str * pnode)) level : str :=
  repeat TAB level ++ try_quoted k ++ [" "; "="; " "]%char ++ leaf_value v ++ LF :: repeat TAB level ++ "{"%char :: LF :: wrs cs (S level) ++ repeat TAB level ++ "}"%char :: [LF].
Lemma wr_both k a v cs level : v <> [] -> cs <> [] -> wr (k, PN a v cs) level = both_text k v cs level.
Proof. intros V N. unfold wr, both_text. destruct v as [|c v]; [contradiction|]. destruct cs as [|x cs]; [contradiction|]. cbn [fst snd write_prop_none has_value is_empty pn_value pn_children orb leaf_value]. rewrite <- !app_assoc. reflexivity. Qed.
Lemma both_reads k m v v' cs level rest : SafeLabel k -> Trim k m -> Safe v -> Trim v v' -> fits (both_text k v cs level ++ rest) ->
  exists st1 r, tokens (ps (both_text k v cs level ++ rest)) m st1 /\ reads st1 pn_empty (PN false v' []) (strm PD ("{"%char :: r)) /\ fits ("{"%char :: r).
Proof.
  intros K T V T' F. unfold both_text in *. repeat (rewrite <- app_assoc in * || rewrite <- app_comm_cons in * ). rewrite pdrop_tabs. apply fits_tail in F.
  rewrite safe_head by (apply K || apply (label_cases k m K T)).
  destruct (leaf_reads k m v v' _ K T V T' F) as (st1 & H1 & H2). exists st1. eexists. split; [exact H1|]. rewrite pdrop_tabs, op_head in H2 by (cbn; tauto). split; [exact H2|].
  apply fits_tail in F. apply (fits_tail [" "; "="; " "]%char) in F. apply fits_tail in F. apply (fits_tail (LF :: repeat TAB level)). exact F.
Qed.
Lemma value_and_children a w cs1 k b v cs cs2 : SafeChildren cs1 -> SafeLabel k -> Safe v -> v <> [] -> cs <> [] ->
  fits (save_prop (PN a w (cs1 ++ (k, PN b v cs) :: cs2)) true) ->
  exists cs1' k' v', Forall2 same_kc cs1 cs1' /\ Trim k k' /\ Trim v v' /\
    load_prop (save_prop (PN a w (cs1 ++ (k, PN b v cs) :: cs2)) true) = Ok (PN false [] (cs1' ++ [(k', PN false v' [])])).
Proof.
  intros S1 K V NV NC F. destruct (wrs_prefix cs1 S1) as (cs1' & F2 & R). pose proof K as [_ (x & m & T & L)]. destruct (IsTrim_exists white v) as [v' V'].
  exists cs1', (x :: m), v'. split; [exact F2|]. split; [exact T|]. split; [exact V'|]. apply save_result; [exact F|].
  rewrite save_wrs in *. cbn [pn_children] in *. rewrite wrs_app in *. apply R; [exact F|]. apply fits_tail in F.
  cbn [wrs flat_map] in F |- *. rewrite wr_both in * by assumption. destruct (both_reads k _ v v' cs 0 _ K T V V' F) as (st1 & r & H1 & H2 & F3).
  eapply runs_label; [exact H1|apply (label_cases k _ K T)|exact H2|]. eapply runs_stop; [apply tok_op; [cbn; tauto|discriminate|exact F3]|reflexivity].
Qed.
Lemma wrs_cons kc cs level : wrs (kc :: cs) level = wr kc level ++ wrs cs level.
Proof. reflexivity. Qed.
Lemma both_head k v cs level rest : SafeLabel k -> v <> [] -> cs <> [] -> pdrop (both_text k v cs level ++ rest) <> [].
Proof.
  intros K V C. pose proof (wr_head (k, PN false v cs) level rest K) as (y & r & E). rewrite wr_both in E by assumption. rewrite E. discriminate.
Qed.
Lemma throws_group st p st1 : tokens st ["{"%char] st1 -> cruns st1 ["{"%char] p Throw -> exists f, read_prop_node f st p = Throw.
Proof.
  intros [f1 E1] (f2 & E2 & _). exists (S (f1 + f2)). rewrite read_prop_node_S. rewrite (token_up f1 (f1+f2) st _ ltac:(lia) E1). cbn [bind].
  change (str_eqb ["{"%char] ["="%char]) with false. change (str_eqb ["{"%char] ["{"%char]) with true. cbv iota. rewrite (children_more f2); [exact E2|lia|congruence].
Qed.
Lemma value_and_children_nested a w cs0 k0 a0 cs1 k b v cs cs2 cs3 : SafeChildren cs0 -> SafeLabel k0 -> SafeChildren cs1 -> SafeLabel k -> Safe v -> v <> [] -> cs <> [] ->
  let t := PN a w (cs0 ++ (k0, PN a0 [] (cs1 ++ (k, PN b v cs) :: cs2)) :: cs3) in
  fits (save_prop t true) -> load_prop (save_prop t true) = Throw.
Proof.
  intros S0 K0 S1 K V NV NC t F. unfold t in *. clear t. destruct (wrs_prefix cs0 S0) as (cs0' & _ & R0). destruct (children_prefix cs1 1 S1) as (cs1' & _ & R1).
  pose proof K as [_ (x & m & T & L)]. pose proof K0 as [_ (x0 & m0 & T0 & L0)]. destruct (IsTrim_exists white v) as [v' V']. apply save_result; [exact F|].
  rewrite save_wrs in *. cbn [pn_children] in *. rewrite wrs_app in *. apply R0; [exact F|]. apply fits_tail in F.
  rewrite wrs_cons in F |- *. rewrite wr_group in * by (intros E; apply app_eq_nil in E as [_ E]; discriminate). cbn [repeat app] in F |- *.
  rewrite wrs_app, wrs_cons in F |- *. rewrite wr_both in * by assumption.
  assert (E : (try_quoted k0 ++ LF :: "{"%char :: LF :: (wrs cs1 1 ++ both_text k v cs 1 ++ wrs cs2 1) ++ "}"%char :: [LF]) ++ wrs cs3 0 =
    try_quoted k0 ++ LF :: repeat TAB 0 ++ "{"%char :: LF :: wrs cs1 1 ++ both_text k v cs 1 ++ wrs cs2 1 ++ "}"%char :: LF :: wrs cs3 0).
  { cbn [repeat app]. rewrite <- app_assoc. cbn [app]. rewrite <- !app_assoc. reflexivity. }
  rewrite E in F |- *. clear E.
  rewrite safe_head by (apply K0 || apply (label_cases k0 _ K0 T0)).
  destruct (group_label k0 _ 0 _ K0 T0 F) as [H1 H2].
  eapply runs_throw; [exact H1|apply (label_cases k0 _ K0 T0)|]. eapply throws_group; [exact H2|].
  assert (F3 : fits (wrs cs1 1 ++ both_text k v cs 1 ++ wrs cs2 1 ++ "}"%char :: LF :: wrs cs3 0)).
  { apply fits_tail in F. apply (fits_tail [LF; "{"%char; LF]) in F. exact F. }
  apply R1; [exact F3|apply both_head; assumption|discriminate|].
  intros t' Ht'. apply fits_tail in F3. destruct (both_reads k _ v v' cs 1 _ K T V V' F3) as (st2 & r & G1 & G2 & F4).
  eapply cruns_label; [apply good_ps, both_head; assumption|exact Ht'|exact G1|apply (label_cases k _ K T)|exact G2|].
  eapply cruns_bad; [reflexivity|apply (label_cases k _ K T)|apply tok_op; [cbn; tauto|discriminate|exact F4]|reflexivity|discriminate].
Qed.

(* a value cut at a mark *)
Lemma parse_appends : forall f st p q, parse_loop f st p = Ok q -> exists l, q = PN (pn_accessed p) (pn_value p) (pn_children p ++ l).
Proof.
  induction f as [|f IH]; intros st p q E; [discriminate|]. cbn [parse_loop] in E. destruct (get_prop_token f st) as [[t st1]| | |]; try discriminate. cbn [bind] in E.
  destruct (is_valid_prop_label t).
  - destruct (read_prop_node f st1 pn_empty) as [[c st2]| | |]; try discriminate. cbn [bind] in E. apply IH in E as [l ->]. exists ((t, c) :: l). cbn. rewrite <- app_assoc. reflexivity.
  - inversion E; subst. exists []. rewrite app_nil_r. destruct q; reflexivity.
Qed.
Definition bare (c : ascii) : Prop := 33 <= nat_of_ascii c <= 127 /\ c <> QUOTE /\ c <> BSLASH.
Lemma bare_written s : Forall bare s -> try_quoted s = s.
Proof.
  intros H. unfold try_quoted. destruct (needs_quotes s) eqn:E; [|reflexivity]. apply needs_quotes_iff in E.
  - apply Exists_exists in E as (c & I & E). rewrite Forall_forall in H. specialize (H c I) as (A & B & C). unfold forces_quotes in E. unfold QUOTE, BSLASH in *. destruct E as [E|[E|E]]; [lia|contradiction|contradiction].
  - eapply Forall_impl; [|exact H]. intros c (A & _). unfold plain. lia.
Qed.
Lemma bare_raw s : Forall bare s -> free marks s -> Forall PRaw s.
Proof.
  intros H M. unfold free in M. rewrite Forall_forall in *. intros c I. destruct (H c I) as (A & B & C). apply raw_char; [lia|exact B|apply M, I].
Qed.
Lemma bare_neat s : Forall bare s -> Trim s s.
Proof.
  intros H. exists [], []. split; [rewrite app_nil_r; reflexivity|]. split; [constructor|]. split; [constructor|].
  assert (X : forall c, bare c -> ~ In c white). { intros c (A & _) I. cbn in I. destruct I as [<-|[<-|[<-|[<-|[<-|[<-|[]]]]]]]; vm_compute in A; lia. }
  split; intros c m' E; subst s; apply X; [inversion H; assumption|]. apply Forall_app in H as [_ H]. inversion H; assumption.
Qed.
Lemma wr_leaf_bare k b v level : Forall bare v -> v <> [] -> wr (k, PN b v []) level = repeat TAB level ++ try_quoted k ++ [" "; "="; " "]%char ++ v ++ [LF].
Proof. intros B N. rewrite wr_leaf. destruct v as [|c v]; [contradiction|]. cbn [leaf_value]. rewrite (bare_written (c :: v) B). reflexivity. Qed.
Lemma spaced_label k m t : SafeLabel k -> Trim k m -> fits (try_quoted k ++ " "%char :: "="%char :: t) ->
  tokens (strm PD (try_quoted k ++ " "%char :: "="%char :: t)) m (strm PD ("="%char :: t)) /\ tokens (strm PD ("="%char :: t)) ["="%char] (ps t).
Proof.
  intros K T F. destruct (label_cases k m K T) as (N & A & _).
  assert (SP : Forall PRaw [" "%char]) by (constructor; [apply raw_space|constructor]).
  assert (WH : only white [" "%char]) by (constructor; [cbn; tauto|constructor]).
  destruct (safe_token [] k [" "%char] t (Forall_nil _) SP (proj1 K) "="%char) as (l & H & L).
  { right. split; [apply oper_in; cbn; tauto|exact N]. }
  assert (l = []) by (destruct L; assumption). subst l. cbn [app] in H. split.
  - replace (strm PD ("="%char :: t)) with (ps ("="%char :: t)) by (rewrite (op_head "="%char) by (cbn; tauto); reflexivity). eapply tok_run; [exact H| |exact F|].
    + destruct k as [|c [|? ?]]; [contradiction|discriminate|discriminate].
    + apply (trim_around [] k [" "%char]); [constructor|exact WH|exact T].
  - apply tok_op; [cbn; tauto|discriminate|]. apply fits_tail in F. apply (fits_tail [" "]%char). exact F.
Qed.
Definition cutting : str := [";"; "="; "{"; "}"; "%"]%char.
Lemma cut_value a w cs1 k b u c v cs2 : SafeChildren cs1 -> SafeLabel k -> Forall bare (u ++ c :: v) -> free marks u -> In c cutting ->
  let t := PN a w (cs1 ++ (k, PN b (u ++ c :: v) []) :: cs2) in fits (save_prop t true) ->
  exists cs1' k', Forall2 same_kc cs1 cs1' /\ Trim k k' /\
    (load_prop (save_prop t true) = Throw \/ exists l, load_prop (save_prop t true) = Ok (PN false [] (cs1' ++ (k', PN false u []) :: l))).
Proof.
  intros S1 K B M C t F. unfold t in *. destruct (wrs_prefix cs1 S1) as (cs1' & F2 & R). pose proof K as [_ (x & m & T & L)].
  exists cs1', (x :: m). split; [exact F2|]. split; [exact T|].
  pose proof F as F0. rewrite save_wrs in F0. cbn [pn_children] in F0. rewrite wrs_app in F0.
  assert (F1 := fits_tail _ _ F0). rewrite wrs_cons, wr_leaf_bare in F1 by (exact B || (destruct u; discriminate)).
  set (rest := v ++ LF :: wrs cs2 0).
  assert (E : (repeat TAB 0 ++ try_quoted k ++ [" "; "="; " "]%char ++ (u ++ c :: v) ++ [LF]) ++ wrs cs2 0 = try_quoted k ++ " "%char :: "="%char :: " "%char :: u ++ c :: rest).
  { cbn [repeat app]. rewrite <- !app_assoc. cbn [app]. rewrite <- !app_assoc. cbn [app]. unfold rest. rewrite <- app_assoc. reflexivity. }
  rewrite E in F1. destruct (spaced_label k _ _ K T F1) as [H1 H2].
  assert (SP : Forall PRaw (" "%char :: u)) by (constructor; [apply raw_space|apply bare_raw; [apply Forall_app in B; apply B|exact M]]).
  assert (PTv : PT [] (" "%char :: u ++ c :: rest) (" "%char :: u) (c :: rest)).
  { cbn in C. destruct C as [<-|C].
    - apply (Tok_delim PD PROP_OPS PROP_QUOTS [] (" "%char :: u)); [exact SP|left; cbn; tauto].
    - apply (Tok_before_op PD PROP_OPS PROP_QUOTS [] (" "%char :: u)); [exact SP| |discriminate]. apply oper_in. cbn. tauto. }
  assert (F3 : fits (" "%char :: u ++ c :: rest)). { apply fits_tail in F1. apply (fits_tail [" "; "="]%char) in F1. exact F1. }
  assert (TV : tokens (strm PD (" "%char :: u ++ c :: rest)) u (ps (c :: rest))).
  { eapply tok_run; [exact PTv|destruct u; discriminate|exact F3|]. pose proof (trim_around [" "%char] u [] u) as X. rewrite app_nil_r in X. apply X; [constructor; [cbn; tauto|constructor]|constructor|].
    apply bare_neat. apply Forall_app in B. apply B. }
  rewrite <- (pdrop_cons " "%char (u ++ c :: rest)) in TV by reflexivity.
  pose proof (reads_value _ pn_empty _ _ _ H2 TV) as RV.
  (* the rest of the text *)
  set (p1 := pn_push (PN false [] cs1') (x :: m) (set_value pn_empty u)).
  pose proof (save_calm (PN a w (cs1 ++ (k, PN b (u ++ c :: v) []) :: cs2)) true) as CA. rewrite save_wrs in CA. cbn [pn_children] in CA. rewrite wrs_app, wrs_cons, wr_leaf_bare, E in CA by (exact B || (destruct u; discriminate)).
  assert (SU : suffix_of (c :: rest) (wrs cs1 0 ++ try_quoted k ++ " "%char :: "="%char :: " "%char :: u ++ c :: rest)).
  { exists (wrs cs1 0 ++ try_quoted k ++ " "%char :: "="%char :: " "%char :: u). rewrite <- !app_assoc. cbn [app]. reflexivity. }
  destruct (parse_total (c :: rest) (calm_suffix _ _ SU CA) (fits_suffix (c :: rest) (" "%char :: u ++ c :: rest) (ex_intro _ (" "%char :: u) eq_refl) F3) (2 * length (c :: rest) + 2) (ps (c :: rest)) p1) as [ER|[q ER]].
  { split; [split; [unfold AtEnd, strm; cbn [cs_eof cs_rest]; destruct (pdrop (c :: rest)); cbn; split; congruence|reflexivity]|apply drop_suffix]. }
  { pose proof (suffix_len _ _ (drop_suffix PD (c :: rest))) as LL. cbn [strm cs_rest]. lia. }
  - left. apply save_result; [exact F|]. rewrite save_wrs. cbn [pn_children]. rewrite wrs_app. apply R; [exact F0|].
    rewrite wrs_cons, wr_leaf_bare, E by (exact B || (destruct u; discriminate)). rewrite safe_head by (apply K || apply (label_cases k _ K T)).
    eapply runs_label; [exact H1|apply (label_cases k _ K T)|exact RV|]. eexists. split; [exact ER|discriminate].
  - right. destruct (parse_appends _ _ _ _ ER) as [l ->]. exists l. apply save_result; [exact F|]. rewrite save_wrs. cbn [pn_children]. rewrite wrs_app. apply R; [exact F0|].
    rewrite wrs_cons, wr_leaf_bare, E by (exact B || (destruct u; discriminate)). rewrite safe_head by (apply K || apply (label_cases k _ K T)).
    eapply runs_label; [exact H1|apply (label_cases k _ K T)|exact RV|]. eexists. split; [|discriminate]. etransitivity; [exact ER|].
    unfold p1. cbn [pn_push pn_accessed pn_value pn_children set_value pn_empty]. rewrite <- app_assoc. reflexivity.
Qed.

(* labels that do not start with a letter *)
Lemma bad_label a w cs1 k m c cs2 : SafeChildren cs1 -> Safe k -> k <> [] -> Trim k m -> (forall x m', m = x :: m' -> ~ letter x) ->
  let t := PN a w (cs1 ++ (k, c) :: cs2) in fits (save_prop t true) ->
  exists cs1', Forall2 same_kc cs1 cs1' /\ load_prop (save_prop t true) = Ok (PN false [] cs1').
Proof.
  intros S1 K N T NL t F. unfold t in *. destruct (wrs_prefix cs1 S1) as (cs1' & F2 & R). exists cs1'. split; [exact F2|]. apply save_result; [exact F|].
  rewrite save_wrs in *. cbn [pn_children] in *. rewrite wrs_app in *. apply R; [exact F|]. apply fits_tail in F. rewrite wrs_cons in *.
  assert (V : is_valid_prop_label m = false). { destruct m as [|x m]; [reflexivity|]. destruct (is_valid_prop_label (x :: m)) eqn:E; [|reflexivity]. apply alpha_letter in E. exfalso. eapply NL; eauto. }
  assert (E : (exists r, wr (k, c) 0 = try_quoted k ++ " "%char :: "="%char :: r) \/ exists r, wr (k, c) 0 = try_quoted k ++ LF :: r).
  { unfold wr. destruct c as [ca cv cc]. cbn [fst snd write_prop_none repeat app]. destruct (_ || _); [left|right]; eexists; cbn [app]; reflexivity. }
  destruct E as [[r E]|[r E]]; rewrite E in *; rewrite <- app_assoc in *; cbn [app] in *; rewrite safe_head by assumption.
  - assert (SP : Forall PRaw [" "%char]) by (constructor; [apply raw_space|constructor]).
    destruct (safe_token [] k [" "%char] (r ++ wrs cs2 0) (Forall_nil _) SP K "="%char) as (l & H & L).
    { right. split; [apply oper_in; cbn; tauto|exact N]. }
    assert (l = []) by (destruct L; assumption). subst l. cbn [app] in H.
    eapply runs_stop; [eapply tok_run; [exact H| |exact F|]|exact V].
    + destruct k as [|x [|? ?]]; [contradiction|discriminate|discriminate].
    + apply (trim_around [] k [" "%char]); [constructor|constructor; [cbn; tauto|constructor]|exact T].
  - destruct (safe_token [] k [] (r ++ wrs cs2 0) (Forall_nil _) (Forall_nil _) K LF (or_introl delim_lf)) as (l & H & L).
    assert (l = []) by (destruct L; assumption). subst l. cbn [app] in H. rewrite app_nil_r in H.
    eapply runs_stop; [eapply tok_run; [exact H|apply safe_percent, K|exact F|exact T]|exact V].
Qed.

(* the compact format *)
Lemma compact_result t x : fits (save_prop t false) -> runs (ps (save_prop t false)) pn_empty x -> load_prop (save_prop t false) = x.
Proof.
  intros F (f & E & N). pose proof (clean_nonul _ (save_clean t false)) as C. pose proof (save_calm t false) as CA. rewrite <- (cstr_id _ C) in CA.
  destruct (parse_prop_total _ F CA) as [_ M]. unfold load_prop. rewrite <- (M (f + 2 * length (save_prop t false) + 3)) by lia.
  unfold parse_prop_fuel. rewrite cs_of_cstr_ps by exact C. rewrite (parse_more f); [exact E|lia|congruence].
Qed.
Definition word (s : str) : Prop := s <> [] /\ Forall bare s /\ free marks s.
Lemma word_raw s : word s -> Forall PRaw s. Proof. intros (_ & B & M). apply bare_raw; assumption. Qed.
Lemma compact_loss a w x k1 v1 k2 v2 b1 b2 cs : word (x :: k1) -> letter x -> word v1 -> word k2 -> word v2 ->
  let t := PN a w ((x :: k1, PN b1 v1 []) :: (k2, PN b2 v2 []) :: cs) in fits (save_prop t false) ->
  load_prop (save_prop t false) = Ok (PN false [] [(x :: k1, PN false (v1 ++ " "%char :: k2) [])]).
Proof.
  intros W1 L V1 W2 V2 t F. unfold t in *. clear t. apply compact_result; [exact F|]. unfold save_prop in *. cbn [pn_children flat_map fst snd] in *.
  set (tail := flat_map _ cs) in *.
  assert (WL : forall k b v, word k -> word v -> write_prop_none k (PN b v []) 0 false = k ++ "="%char :: v ++ [" "%char]).
  { intros k b v (_ & K & _) (N & V & _). destruct v as [|y v]; [contradiction|]. cbn [write_prop_none has_value is_empty pn_value pn_children orb app]. rewrite !bare_written by assumption. reflexivity. }
  rewrite !WL in * by assumption.
  assert (E : ((x :: k1) ++ "="%char :: v1 ++ [" "%char]) ++ (k2 ++ "="%char :: v2 ++ [" "%char]) ++ tail =
     (x :: k1) ++ "="%char :: (v1 ++ " "%char :: k2) ++ "="%char :: v2 ++ " "%char :: tail).
  { rewrite <- !app_assoc. cbn [app]. rewrite <- !app_assoc. cbn [app]. rewrite <- ?app_assoc. reflexivity. }
  rewrite E in *. clear E. set (r2 := v2 ++ " "%char :: tail) in *. set (v := v1 ++ " "%char :: k2) in *.
  assert (RV : Forall PRaw v). { unfold v. apply Forall_app. split; [apply word_raw, V1|]. constructor; [apply raw_space|apply word_raw, W2]. }
  assert (NV : v <> []) by (unfold v; destruct v1; discriminate).
  assert (O : Oper PD PROP_OPS PROP_QUOTS "="%char) by (apply oper_in; cbn; tauto).
  assert (TW : forall s, word s -> Trim s s) by (intros s (_ & B & _); apply bare_neat, B).
  assert (TV : Trim v v).
  { unfold v. exists [], []. split; [rewrite app_nil_r; reflexivity|]. split; [constructor|]. split; [constructor|]. split; intros c m' E.
    - destruct (TW v1 V1) as (l & r & _ & _ & _ & H & _). destruct V1 as (N1 & _). destruct v1 as [|y v1]; [contradiction|]. cbn [app] in E. injection E as <- _. eapply H. reflexivity.
    - destruct (TW k2 W2) as (l & r & _ & _ & _ & _ & H). destruct W2 as (N2 & _). destruct (exists_last N2) as (k' & y & EK).
      assert (c = y). { rewrite EK in E. rewrite app_comm_cons, app_assoc in E. apply app_inj_tail in E as [_ ->]. reflexivity. } subst c. eapply H. exact EK. }
  assert (ND : strchr PD x = false). { pose proof (word_raw _ W1) as R. inversion R; subst. apply raw_nodelim. assumption. }
  assert (NP : forall s, word s -> s <> ["%"%char]). { intros s (_ & _ & M) ->. inversion M as [|? ? X]; subst. apply X. cbn. tauto. }
  rewrite <- app_comm_cons. rewrite pdrop_cons by exact ND.
  eapply runs_label.
  - eapply tok_run; [apply (Tok_before_op PD PROP_OPS PROP_QUOTS [] (x :: k1)); [apply word_raw, W1|exact O|discriminate]|apply NP, W1|exact F|apply TW, W1].
  - apply letter_alpha, L.
  - rewrite op_head by (cbn; tauto). eapply reads_value.
    + apply tok_op; [cbn; tauto|discriminate|]. apply (fits_tail (x :: k1)). exact F.
    + assert (DV : pdrop (v ++ "="%char :: r2) = v ++ "="%char :: r2). { destruct v as [|y v']; [contradiction|]. cbn [app]. apply pdrop_cons. inversion RV; subst. apply raw_nodelim. assumption. }
      rewrite DV. eapply tok_run; [apply (Tok_before_op PD PROP_OPS PROP_QUOTS [] v); [exact RV|exact O|exact NV]| | |exact TV].
      * cbn [app]. intros X. rewrite X in RV. inversion RV as [|? ? Y]; subst. apply Y. cbn. tauto.
      * apply (fits_tail ((x :: k1) ++ ["="%char])). rewrite <- app_assoc. exact F.
  - cbn [pn_push pn_empty pn_accessed pn_value pn_children app set_value]. rewrite op_head by (cbn; tauto). eapply (runs_stop _ _ ["="%char]); [|reflexivity].
    apply tok_op; [cbn; tauto|discriminate|]. apply (fits_tail ((x :: k1) ++ "="%char :: v)). rewrite <- app_assoc. cbn [app]. exact F.
Qed.

(* an apostrophe in a value *)
Lemma apostrophe_value a w k b u v : SafeLabel k -> Forall bare u -> free marks u -> Forall bare v -> ~ In "'"%char v ->
  let t := PN a w [(k, PN b (u ++ "'"%char :: v) [])] in fits (save_prop t true) ->
  exists k', Trim k k' /\ load_prop (save_prop t true) = Ok (PN false [] [(k', PN false v [])]).
Proof.
  intros K U M V NV t F. unfold t in *. pose proof K as [_ (x & m & T & L)]. exists (x :: m). split; [exact T|]. apply save_result; [exact F|].
  rewrite save_wrs in *. cbn [pn_children] in *. rewrite wrs_cons in *. cbn [wrs flat_map] in *. rewrite app_nil_r in *.
  assert (B : Forall bare (u ++ "'"%char :: v)). { apply Forall_app. split; [exact U|]. constructor; [|exact V]. split; [vm_compute; lia|split; discriminate]. }
  rewrite wr_leaf_bare in * by (exact B || (destruct u; discriminate)). cbn [repeat app] in *. rewrite <- app_assoc in *. cbn [app] in *.
  rewrite safe_head by (apply K || apply (label_cases k _ K T)). destruct (spaced_label k _ _ K T F) as [H1 H2].
  assert (Q : Quoted "'"%char (v ++ [LF]) (v ++ [LF]) []).
  { clear - V NV. induction V as [|c v (A & B & C) V IH]; cbn [app].
    - apply Qd_char; [discriminate|discriminate|constructor].
    - apply Qd_char; [intros ->; apply NV; left; reflexivity|exact C|]. apply IH. intros I. apply NV. right. exact I. }
  assert (F3 : fits (" "%char :: u ++ "'"%char :: v ++ [LF])). { apply fits_tail in F. apply (fits_tail [" "; "="]%char) in F. exact F. }
  assert (TV : tokens (strm PD (" "%char :: u ++ "'"%char :: v ++ [LF])) v (ps [])).
  { apply (tok_run _ (v ++ [LF]) []).
    - apply (Tok_quote PD PROP_OPS PROP_QUOTS [] (" "%char :: u) "'"%char (v ++ [LF]) (v ++ [LF]) []); [constructor; [apply raw_space|apply bare_raw; assumption]|exact quot_apos|exact Q|].
      pose proof (Tok_end PD PROP_OPS PROP_QUOTS (v ++ [LF]) [] (Forall_nil _)) as X. rewrite app_nil_r in X. exact X.
    - intros X. destruct v as [|c [|? ?]]; inversion X.
    - exact F3.
    - apply (trim_around [] v [LF]); [constructor|constructor; [cbn; tauto|constructor]|apply bare_neat, V]. }
  rewrite <- (pdrop_cons " "%char) in TV by reflexivity. eapply runs_label; [exact H1|apply (label_cases k _ K T)|exact (reads_value _ pn_empty _ _ _ H2 TV)|].
  destruct (tokens_end (ps []) eq_refl) as [st' E]. eapply runs_stop; [exact E|reflexivity].
Qed.

(* ---------- comments ---------- *)
Definition comment (l : str) (c : ascii) (m : str) : str := "%"%char :: l ++ c :: m ++ [LF].
Definition Comment (l : str) (c : ascii) (m : str) : Prop :=
  Forall (fun x => In x [TAB; VT; ";"%char]) l /\ ~ In c (NUL :: PD) /\ Forall (fun x => x <> NUL /\ x <> LF /\ x <> CR) m.
Lemma line_length_app m k : Forall (fun x => x <> NUL /\ x <> LF /\ x <> CR) m -> line_length (m ++ LF :: k) = length m.
Proof.
  induction 1 as [|c m (A & B & C) _ IH]; [reflexivity|]. cbn [line_length app length]. rewrite IH.
  destruct (Ascii.eqb_spec c NUL); [contradiction|]. destruct (Ascii.eqb_spec c CR); [contradiction|]. destruct (Ascii.eqb_spec c LF); [contradiction|]. reflexivity.
Qed.
Lemma comment_token l c m k fuel : Comment l c m -> get_prop_token (S fuel) (ps (comment l c m ++ k)) = get_prop_token fuel (ps k).
Proof.
  intros (L & C & M). unfold comment. cbn [app]. rewrite <- app_assoc. cbn [app]. rewrite <- app_assoc. cbn [app]. rewrite op_head by (cbn; tauto).
  cbn [get_prop_token]. rewrite (get_token_spec PD PROP_OPS PROP_QUOTS _ ["%"%char] (l ++ c :: m ++ LF :: k)); [|apply Tok_op, oper_in; cbn; tauto|cbn [strm cs_rest]; lia].
  cbn [bind]. change (str_eqb ["%"%char] ["%"%char]) with true. cbv iota. f_equal.
  assert (D : pdrop (l ++ c :: m ++ LF :: k) = c :: m ++ LF :: k).
  { clear M. induction L as [|x l X L IH]; cbn [app].
    - apply pdrop_cons. apply strchr_not_Delim. intros [H|H]; apply C; [right; exact H|left; symmetry; exact H].
    - rewrite pdrop_delim; [exact IH|]. apply strchr_Delim. left. cbn in X |- *. tauto. }
  rewrite D. unfold get_line. cbn [snd]. cbn [strm cs_rest].
  assert (N : line_length (c :: m ++ LF :: k) = S (length m)).
  { apply (line_length_app (c :: m)). constructor; [|exact M]. split; [|split]; intros ->; apply C; cbn; tauto. }
  rewrite N. unfold process_end_pos. cbn [Nat.eqb]. unfold skip_delimiters, with_rest, test_eof, strm. cbn [skipn cs_rest cs_fail cs_eof cs_delim endb].
  rewrite skipn_app, skipn_all, Nat.sub_diag. cbn [app skipn]. rewrite pdrop_delim by reflexivity. unfold strm. destruct (pdrop k); reflexivity.
Qed.
(* the line after an empty comment *)
Lemma empty_comment_token l c m k fuel : Forall (fun x => In x PD) l -> ~ In c (NUL :: PD) -> Forall (fun x => x <> NUL /\ x <> LF /\ x <> CR) m ->
  get_prop_token (S fuel) (ps ("%"%char :: LF :: l ++ c :: m ++ LF :: k)) = get_prop_token fuel (ps k).
Proof.
  intros L C M. rewrite op_head by (cbn; tauto).
  cbn [get_prop_token]. rewrite (get_token_spec PD PROP_OPS PROP_QUOTS _ ["%"%char] (LF :: l ++ c :: m ++ LF :: k)); [|apply Tok_op, oper_in; cbn; tauto|cbn [strm cs_rest]; lia].
  cbn [bind]. change (str_eqb ["%"%char] ["%"%char]) with true. cbv iota. f_equal. rewrite pdrop_delim by reflexivity.
  assert (D : pdrop (l ++ c :: m ++ LF :: k) = c :: m ++ LF :: k).
  { clear M. induction L as [|x l X L IH]; cbn [app].
    - apply pdrop_cons. apply strchr_not_Delim. intros [H|H]; apply C; [right; exact H|left; symmetry; exact H].
    - rewrite pdrop_delim; [exact IH|]. apply strchr_Delim. left. exact X. }
  rewrite D. unfold get_line. cbn [snd]. cbn [strm cs_rest].
  assert (N : line_length (c :: m ++ LF :: k) = S (length m)).
  { apply (line_length_app (c :: m)). constructor; [|exact M]. split; [|split]; intros ->; apply C; cbn; tauto. }
  rewrite N. unfold process_end_pos. cbn [Nat.eqb]. unfold skip_delimiters, with_rest, test_eof, strm. cbn [skipn cs_rest cs_fail cs_eof cs_delim endb].
  rewrite skipn_app, skipn_all, Nat.sub_diag. cbn [app skipn]. rewrite pdrop_delim by reflexivity. unfold strm. destruct (pdrop k); reflexivity.
Qed.
