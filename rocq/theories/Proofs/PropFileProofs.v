From Verif Require Import Model.Base Proofs.BaseFacts Model.StdString Model.Strings Model.Number Model.CharStream Model.PropTree Model.PropFile
  Spec.Strings Spec.Quote Spec.Token Spec.PropText Proofs.StringFacts Proofs.StringsProofs Proofs.QuoteProofs Proofs.TokenProofs Proofs.DictionaryProofs Proofs.PropParse.
Local Open Scope nat_scope.

Notation PD := PROP_DELIMS.
Notation pdrop := (drop_delims PROP_DELIMS).
Notation ps s := (strm PROP_DELIMS (pdrop s)).
Notation PRaw := (Raw PROP_DELIMS PROP_OPS PROP_QUOTS).
Notation Trim := (IsTrim white).

Lemma white_delims : white = default_delimiters. Proof. reflexivity. Qed.

(* ---------- single tokens ---------- *)
Definition tokens (st : char_stream) (t : str) (st' : char_stream) : Prop := exists f, get_prop_token f st = Ok (t, st').
Lemma tok_run s t r m : PT [] s t r -> t <> ["%"%char] -> fits s -> Trim t m -> tokens (strm PD s) m (ps r).
Proof.
  intros H N F T. exists 1. cbn [get_prop_token]. change (cs_rest (strm PD s)) with s. rewrite (get_token_spec PD PROP_OPS PROP_QUOTS s t r) by (auto || lia). cbn [bind].
  destruct (str_eqb t ["%"%char]) eqn:E; [apply str_eqb_eq in E; contradiction|].
  assert (Ft : fits t). { apply token_len in H. cbn [length] in H. unfold fits in *. lia. }
  rewrite <- white_delims. rewrite (proj2 (trim_iff t white m Ft) T). reflexivity.
Qed.

Ltac char_goal := first [lia | discriminate | congruence].
Lemma raw_char c : 33 <= nat_of_ascii c -> c <> QUOTE -> ~ In c marks -> PRaw c.
Proof.
  intros L Q M. split; [|split].
  - intros [H|H]; [|subst; vm_compute in L; lia]. cbn in H. unfold marks in M. cbn in M.
    destruct H as [<-|[<-|[<-|[<-|[<-|[]]]]]]; try (vm_compute in L; lia). tauto.
  - intros [<-|[<-|[]]]; [congruence|apply M; cbn; tauto].
  - intros H. apply M. cbn in H |- *. tauto.
Qed.
Lemma raw_space : PRaw " "%char.
Proof.
  split; [|split].
  - intros [H|H]; [cbn in H; destruct H as [H|[H|[H|[H|[H|[]]]]]]; discriminate|discriminate].
  - intros [H|[H|[]]]; discriminate.
  - cbn. intros [H|[H|[H|[H|[]]]]]; discriminate.
Qed.
Lemma oper_in c : In c PROP_OPS -> Oper PD PROP_OPS PROP_QUOTS c.
Proof.
  intros H. split; [exact H|]. cbn in H. destruct H as [<-|[<-|[<-|[<-|[]]]]]; (split; [intros [X|X]; [cbn in X; destruct X as [X|[X|[X|[X|[X|[]]]]]]; discriminate|discriminate]|intros [X|[X|[]]]; discriminate]).
Qed.
Lemma quot_quote : Quot PD PROP_QUOTS QUOTE.
Proof. split; [left; reflexivity|]. intros [X|X]; [cbn in X; destruct X as [X|[X|[X|[X|[X|[]]]]]]; discriminate|discriminate]. Qed.
Lemma quot_apos : Quot PD PROP_QUOTS "'"%char.
Proof. split; [right; left; reflexivity|]. intros [X|X]; [cbn in X; destruct X as [X|[X|[X|[X|[X|[]]]]]]; discriminate|discriminate]. Qed.
Lemma delim_lf : Delim PD LF. Proof. left. left. reflexivity. Qed.
Lemma raw_nodelim c : PRaw c -> strchr PD c = false.
Proof. intros (H & _). apply strchr_not_Delim. exact H. Qed.
Lemma pdrop_cons c s : strchr PD c = false -> pdrop (c :: s) = c :: s.
Proof. intros E. cbn [drop_delims]. rewrite E. reflexivity. Qed.
Lemma pdrop_delim c s : strchr PD c = true -> pdrop (c :: s) = pdrop s.
Proof. intros E. cbn [drop_delims]. rewrite E. reflexivity. Qed.
Lemma pdrop_tabs n s : pdrop (repeat TAB n ++ s) = pdrop s.
Proof. induction n as [|n IH]; [reflexivity|]. cbn [repeat app]. rewrite pdrop_delim by reflexivity. exact IH. Qed.
Lemma pdrop_suffix_fits s : fits s -> fits (pdrop s).
Proof. apply fits_suffix, drop_suffix. Qed.

(* ---------- quoting ---------- *)
Lemma quoted_decodes s : Forall plain s -> forall r, Quoted QUOTE (flat_map encq s ++ QUOTE :: r) s r.
Proof.
  induction 1 as [|c s Hc Hs IH]; intros r; cbn [flat_map app]; [constructor|].
  rewrite <- app_assoc. destruct (encq_plain c Hc) as [(-> & H1 & H2)|(e & -> & He)].
  - apply Qd_char; auto.
  - cbn [app]. eapply Qd_escape; [discriminate|apply He|apply IH].
Qed.
Lemma scode_code c : plain c -> scode c = Z.of_nat (code c).
Proof. unfold plain, scode, code. intros H. destruct (nat_of_ascii c <? 128) eqn:E; [reflexivity|]. apply Nat.ltb_ge in E. lia. Qed.
Lemma needs_quotes_iff s : Forall plain s -> (needs_quotes s = true <-> Exists forces_quotes s).
Proof.
  intros P. unfold needs_quotes. rewrite existsb_exists, Exists_exists. split; intros (c & I & H); exists c; (split; [exact I|]);
    pose proof (proj1 (Forall_forall _ _) P c I) as Pc; unfold forces_quotes in *; rewrite ?(scode_code c Pc) in *.
  - apply orb_true_iff in H as [H|H]; [apply orb_true_iff in H as [H|H]|].
    + left. apply Z.ltb_lt in H. unfold code in H. lia.
    + right. left. apply Ascii.eqb_eq in H. exact H.
    + right. right. apply Ascii.eqb_eq in H. exact H.
  - destruct H as [H|[H|H]]; [|subst; reflexivity|subst; reflexivity].
    assert (E : (Z.of_nat (code c) <? 33)%Z = true) by (apply Z.ltb_lt; unfold code; lia). rewrite E. reflexivity.
Qed.
Lemma safe_cases s : Safe s -> (needs_quotes s = true /\ try_quoted s = QUOTE :: flat_map encq s ++ [QUOTE]) \/ (Forall PRaw s /\ try_quoted s = s).
Proof.
  intros [P H]. destruct (needs_quotes s) eqn:E; [left; split; [reflexivity|]; unfold try_quoted; rewrite E; apply quoted_encq|right].
  split; [|unfold try_quoted; rewrite E; reflexivity].
  assert (N : ~ Exists forces_quotes s) by (rewrite <- needs_quotes_iff, E by exact P; discriminate).
  destruct H as [H|H]; [contradiction|]. unfold free in H. rewrite Forall_forall in *. intros c I. specialize (H c I).
  assert (Q : ~ forces_quotes c) by (intros Q; apply N; apply Exists_exists; eauto). unfold forces_quotes in Q.
  apply raw_char; [lia|tauto|exact H].
Qed.
Lemma safe_percent s : Safe s -> s <> ["%"%char].
Proof.
  intros [_ [H|H]] ->.
  - inversion H as [c l [X|[X|X]]|c l X]; subst; [vm_compute in X; lia|discriminate|discriminate|inversion X].
  - inversion H as [|c l X]; subst. apply X. cbn. tauto.
Qed.
Lemma safe_head s r : Safe s -> s <> [] -> pdrop (try_quoted s ++ r) = try_quoted s ++ r.
Proof.
  intros S N. destruct (safe_cases s S) as [[_ ->]|[R ->]]; [apply pdrop_cons; reflexivity|].
  destruct s as [|c s]; [contradiction|]. cbn [app]. apply pdrop_cons. inversion R; subst. apply raw_nodelim. assumption.
Qed.

(* a safe string up to a delimiter or operator, after raw blanks *)
Lemma safe_token w s x r : Forall PRaw w -> Forall PRaw x -> Safe s -> forall c, Delim PD c \/ (Oper PD PROP_OPS PROP_QUOTS c /\ s <> []) ->
  exists l, PT [] (w ++ try_quoted s ++ x ++ c :: r) (l ++ s ++ x) (c :: r) /\ (l = [] \/ l = w).
Proof.
  intros W X S c C. destruct (safe_cases s S) as [[_ ->]|[R ->]].
  - exists []. split; [|left; reflexivity]. cbn [app]. rewrite <- app_assoc. cbn [app]. eapply Tok_quote; [exact W|exact quot_quote|apply quoted_decodes; apply S|].
    cbn [app]. destruct C as [C|[C N]]; [apply Tok_delim|apply Tok_before_op]; auto. destruct s; [contradiction|discriminate].
  - exists w. split; [|right; reflexivity]. assert (A : Forall PRaw (w ++ s ++ x)) by (rewrite !Forall_app; auto).
    replace (w ++ s ++ x ++ c :: r) with ((w ++ s ++ x) ++ c :: r) by (rewrite <- !app_assoc; reflexivity).
    destruct C as [C|[C N]]; [apply (Tok_delim PD PROP_OPS PROP_QUOTS []); auto|apply (Tok_before_op PD PROP_OPS PROP_QUOTS []); auto].
    destruct w; [|discriminate]. destruct s; [contradiction|discriminate].
Qed.
Lemma trim_around l s x m : only white l -> only white x -> Trim s m -> Trim (l ++ s ++ x) m.
Proof.
  intros L X (a & b & -> & A & B & H). exists (l ++ a), (b ++ x). split; [rewrite <- !app_assoc; reflexivity|].
  split; [apply Forall_app; auto|]. split; [apply Forall_app; auto|exact H].
Qed.
Lemma ltrim_exists set (s : str) : exists l m, s = l ++ m /\ only set l /\ (forall c m', m = c :: m' -> ~ In c set).
Proof.
  induction s as [|c s (l & m & -> & L & M)]; [exists [], []; repeat split; [constructor|discriminate]|].
  destruct (in_dec ascii_dec c set) as [I|I].
  - exists (c :: l), m. split; [reflexivity|]. split; [constructor; assumption|exact M].
  - exists [], (c :: l ++ m). split; [reflexivity|]. split; [constructor|]. intros c' m' E. injection E as <- _. exact I.
Qed.
Lemma IsTrim_exists set s : exists m, IsTrim set s m.
Proof.
  destruct (ltrim_exists set s) as (l & m & -> & L & M). destruct (ltrim_exists set (rev m)) as (r & n & E & R & N).
  assert (E' : m = rev n ++ rev r) by (rewrite <- rev_app_distr, <- E, rev_involutive; reflexivity). subst m.
  exists (rev n), l, (rev r). split; [reflexivity|]. split; [exact L|]. split; [apply Forall_rev; exact R|]. split.
  - intros c m' X. apply (M c (m' ++ rev r)). rewrite X. reflexivity.
  - intros c m' X. apply (N c (rev m')). rewrite <- (rev_involutive n), X, rev_app_distr. reflexivity.
Qed.

(* ---------- nodes ---------- *)
Definition reads (st : char_stream) (p q : pnode) (st' : char_stream) : Prop := exists f, read_prop_node f st p = Ok (q, st').
Definition reads_c (st : char_stream) (t : str) (p q : pnode) (st' : char_stream) : Prop := exists f, read_children f st t p = Ok (q, st').

Lemma token_up f1 f2 st x : f1 <= f2 -> get_prop_token f1 st = Ok x -> get_prop_token f2 st = Ok x.
Proof. intros L E. rewrite (token_more f1 f2 st L); congruence. Qed.
Lemma node_up f1 f2 st p x : f1 <= f2 -> read_prop_node f1 st p = Ok x -> read_prop_node f2 st p = Ok x.
Proof. intros L E. rewrite (read_more f1 f2 st p L); congruence. Qed.
Lemma children_up f1 f2 st t p x : f1 <= f2 -> read_children f1 st t p = Ok x -> read_children f2 st t p = Ok x.
Proof. intros L. induction L as [|f2 L IH]; [auto|]. intros E. specialize (IH E). rewrite (proj2 (read_mono f2)); congruence. Qed.
Lemma parse_up f1 f2 st p x : f1 <= f2 -> parse_loop f1 st p = Ok x -> parse_loop f2 st p = Ok x.
Proof. intros L E. rewrite (parse_more f1 f2 st p L); congruence. Qed.

Lemma tokens_any st t st' : tokens st t st' -> forall f, get_prop_token f st = OutOfFuel \/ get_prop_token f st = Ok (t, st').
Proof.
  intros [f0 E] f. destruct (Nat.le_gt_cases f0 f) as [L|L]; [right; apply (token_up f0); assumption|].
  destruct (get_prop_token f st) as [[t1 st1]| | |] eqn:X; [right|exfalso|exfalso|left; reflexivity].
  - rewrite <- E, <- X. symmetry. apply token_more; [lia|congruence].
  - rewrite (token_more f f0 st) in E by (lia || congruence). congruence.
  - rewrite (token_more f f0 st) in E by (lia || congruence). congruence.
Qed.
Lemma reads_value st p st1 v st2 : tokens st ["="%char] st1 -> tokens st1 v st2 -> reads st p (set_value p v) st2.
Proof.
  intros [f1 E1] [f2 E2]. exists (S (f1 + f2)). rewrite read_prop_node_S. rewrite (token_up f1 (f1+f2) st _ ltac:(lia) E1). cbn [bind].
  change (str_eqb ["="%char] ["="%char]) with true. cbv iota. rewrite (token_up f2 (f1+f2) st1 _ ltac:(lia) E2). reflexivity.
Qed.
Lemma reads_group st p st1 q st2 : tokens st ["{"%char] st1 -> reads_c st1 ["{"%char] p q st2 -> reads st p q st2.
Proof.
  intros [f1 E1] [f2 E2]. exists (S (f1 + f2)). rewrite read_prop_node_S. rewrite (token_up f1 (f1+f2) st _ ltac:(lia) E1). cbn [bind].
  change (str_eqb ["{"%char] ["="%char]) with false. change (str_eqb ["{"%char] ["{"%char]) with true. cbv iota. apply (children_up f2); [lia|exact E2].
Qed.
Lemma reads_c_stop st t p : good st = false \/ t = ["}"%char] -> reads_c st t p p st.
Proof.
  intros H. exists 1. rewrite read_children_S. destruct H as [->| ->]; [reflexivity|]. change (str_eqb ["}"%char] ["}"%char]) with true. rewrite andb_false_r. reflexivity.
Qed.
Lemma str_eqb_neq (a b : str) : a <> b -> str_eqb a b = false.
Proof. intros N. destruct (str_eqb a b) eqn:E; [apply str_eqb_eq in E; contradiction|reflexivity]. Qed.
Lemma reads_c_close st t p st1 : good st = true -> t <> ["}"%char] -> tokens st ["}"%char] st1 -> reads_c st t p p st1.
Proof.
  intros G N [f1 E1]. exists (S (S f1)). rewrite read_children_S. rewrite G, (str_eqb_neq _ _ N). cbn [negb andb].
  rewrite (token_up f1 (S f1) st _ ltac:(lia) E1). cbn [bind]. change (is_valid_prop_label ["}"%char]) with false. change (str_eqb ["}"%char] ["}"%char]) with true. cbv iota.
  rewrite read_children_S. change (str_eqb ["}"%char] ["}"%char]) with true. rewrite andb_false_r. reflexivity.
Qed.
Lemma reads_c_label st t p k st1 c st2 q st3 : good st = true -> t <> ["}"%char] -> tokens st k st1 -> is_valid_prop_label k = true ->
  reads st1 pn_empty c st2 -> reads_c st2 k (pn_push p k c) q st3 -> reads_c st t p q st3.
Proof.
  intros G N [f1 E1] V [f2 E2] [f3 E3]. exists (S (f1 + f2 + f3)). rewrite read_children_S. rewrite G, (str_eqb_neq _ _ N). cbn [negb andb].
  rewrite (token_up f1 (f1+f2+f3) st _ ltac:(lia) E1). cbn [bind]. rewrite V. rewrite (node_up f2 (f1+f2+f3) st1 _ _ ltac:(lia) E2). cbn [bind].
  apply (children_up f3); [lia|exact E3].
Qed.
Definition parses (st : char_stream) (p q : pnode) : Prop := exists f, parse_loop f st p = Ok q.
Lemma parses_stop st p k st1 : tokens st k st1 -> is_valid_prop_label k = false -> parses st p p.
Proof. intros [f E] V. exists (S f). cbn [parse_loop]. rewrite E. cbn [bind]. rewrite V. reflexivity. Qed.
Lemma parses_label st p k st1 c st2 q : tokens st k st1 -> is_valid_prop_label k = true -> reads st1 pn_empty c st2 -> parses st2 (pn_push p k c) q -> parses st p q.
Proof.
  intros [f1 E1] V [f2 E2] [f3 E3]. exists (S (f1 + f2 + f3)). cbn [parse_loop]. rewrite (token_up f1 (f1+f2+f3) st _ ltac:(lia) E1). cbn [bind].
  rewrite V. rewrite (node_up f2 (f1+f2+f3) st1 _ _ ltac:(lia) E2). cbn [bind]. apply (parse_up f3); [lia|exact E3].
Qed.
Lemma tokens_end st : good st = false -> exists st', tokens st [] st'.
Proof. intros G. eexists. exists 1. cbn [get_prop_token]. rewrite get_token_bad by exact G. cbn [bind]. reflexivity. Qed.

Lemma letter_alpha c m : letter c -> is_valid_prop_label (c :: m) = true.
Proof.
  intros H. cbn. unfold isalpha, code. destruct H as [[A B]|[A B]]; apply Nat.leb_le in A, B; rewrite A, B; [reflexivity|apply orb_true_r].
Qed.
Lemma alpha_letter c m : is_valid_prop_label (c :: m) = true -> letter c.
Proof.
  cbn. unfold isalpha, code, letter. rewrite orb_true_iff, !andb_true_iff, !Nat.leb_le. tauto.
Qed.
Lemma label_cases k m : SafeLabel k -> Trim k m -> k <> [] /\ is_valid_prop_label m = true /\ m <> ["}"%char].
Proof.
  intros [_ (c & m' & T & L)] T'. pose proof (IsTrim_unique _ _ _ _ T T') as <-. split; [|split].
  - intros ->. destruct T as (l & r & E & _). destruct l; discriminate.
  - apply letter_alpha, L.
  - intros E. injection E as -> _. destruct L as [[A B]|[A B]]; vm_compute in A, B; lia.
Qed.
Lemma good_ps s : pdrop s <> [] -> good (ps s) = true.
Proof. intros H. rewrite good_strm. destruct (pdrop s); [contradiction|reflexivity]. Qed.

Lemma tok_op c r : In c PROP_OPS -> c <> "%"%char -> fits (c :: r) -> tokens (strm PD (c :: r)) [c] (ps r).
Proof.
  intros I N F. eapply tok_run; [apply Tok_op, oper_in, I|congruence|exact F|].
  exists [], []. split; [reflexivity|]. split; [constructor|]. split; [constructor|]. cbn in I.
  assert (W : ~ In c white). { destruct I as [<-|[<-|[<-|[<-|[]]]]]; cbn; intuition discriminate. }
  split; intros c' m' E; [injection E as <- _; exact W|]. destruct m' as [|? [|? ?]]; inversion E; subst; exact W.
Qed.
Lemma op_head c r : In c PROP_OPS -> pdrop (c :: r) = c :: r.
Proof. intros I. apply pdrop_cons. apply strchr_not_Delim. apply (oper_in c I). Qed.
Lemma fits_tail a b : fits (a ++ b) -> fits b.
Proof. apply fits_suffix. exists a. reflexivity. Qed.


(* a leaf *)
Definition leaf_value (v : str) : str := match v with [] => [QUOTE; QUOTE] | _ => try_quoted v end.
Lemma leaf_reads k m v v' rest : SafeLabel k -> Trim k m -> Safe v -> Trim v v' ->
  fits (try_quoted k ++ [" "; "="; " "]%char ++ leaf_value v ++ LF :: rest) ->
  exists st1, tokens (strm PD (try_quoted k ++ [" "; "="; " "]%char ++ leaf_value v ++ LF :: rest)) m st1 /\
    reads st1 pn_empty (PN false v' []) (ps rest).
Proof.
  intros K T V T' F. destruct (label_cases k m K T) as (N & A & _).
  assert (SP : Forall PRaw [" "%char]) by (constructor; [apply raw_space|constructor]).
  assert (WH : only white [" "%char]) by (constructor; [cbn; tauto|constructor]).
  set (t := " "%char :: leaf_value v ++ LF :: rest) in *.
  destruct (safe_token [] k [" "%char] t (Forall_nil _) SP (proj1 K) "="%char) as (l & H & L).
  { right. split; [apply oper_in; cbn; tauto|exact N]. }
  assert (l = []) by (destruct L; assumption). subst l. cbn [app] in H.
  exists (ps ("="%char :: t)). split.
  { change ([" "; "="; " "]%char ++ leaf_value v ++ LF :: rest) with (" "%char :: "="%char :: t) in *.
    eapply tok_run; [exact H| |exact F|].
    - destruct k as [|c [|? ?]]; [contradiction|discriminate|discriminate].
    - apply (trim_around [] k [" "%char]); [constructor|exact WH|exact T]. }
  assert (Ft : fits t). { apply fits_tail in F. apply (fits_tail [" "; "="]%char). exact F. }
  rewrite (op_head "="%char) by (cbn; tauto).
  change (PN false v' []) with (set_value pn_empty v'). eapply reads_value.
  { apply tok_op; [cbn; tauto|discriminate|]. apply fits_tail in F. apply (fits_tail [" "]%char). exact F. }
  unfold t. rewrite pdrop_cons by reflexivity. replace (ps rest) with (ps (LF :: rest)) by (rewrite pdrop_delim by reflexivity; reflexivity).
  destruct v as [|c v].
  - cbn [leaf_value]. apply (tok_run _ [] (LF :: rest)); [|discriminate|exact Ft|exact T'].
    apply (Tok_quote PD PROP_OPS PROP_QUOTS [] [" "%char] QUOTE (QUOTE :: LF :: rest) [] (LF :: rest)); [exact SP|exact quot_quote|constructor|].
    apply (Tok_delim PD PROP_OPS PROP_QUOTS [] []); [constructor|exact delim_lf].
  - cbn [leaf_value] in *. destruct (safe_token [" "%char] (c :: v) [] rest SP (Forall_nil _) V LF) as (l' & H' & L').
    { left. exact delim_lf. }
    eapply tok_run; [exact H'| |exact Ft|].
    + rewrite app_nil_r. destruct L' as [->| ->]; [cbn [app]; apply safe_percent; exact V|discriminate].
    + apply trim_around; [destruct L' as [->| ->]; [constructor|exact WH]|constructor|exact T'].
Qed.

(* the opening of a group *)
Lemma group_label k m level rest : SafeLabel k -> Trim k m -> fits (try_quoted k ++ LF :: repeat TAB level ++ "{"%char :: LF :: rest) ->
  tokens (strm PD (try_quoted k ++ LF :: repeat TAB level ++ "{"%char :: LF :: rest)) m (strm PD ("{"%char :: LF :: rest)) /\
  tokens (strm PD ("{"%char :: LF :: rest)) ["{"%char] (ps rest).
Proof.
  intros K T F. destruct (label_cases k m K T) as (N & A & _).
  destruct (safe_token [] k [] (repeat TAB level ++ "{"%char :: LF :: rest) (Forall_nil _) (Forall_nil _) (proj1 K) LF (or_introl delim_lf)) as (l & H & L).
  assert (l = []) by (destruct L; assumption). subst l. cbn [app] in H. rewrite app_nil_r in H. split.
  - replace (strm PD ("{"%char :: LF :: rest)) with (ps (LF :: repeat TAB level ++ "{"%char :: LF :: rest)).
    + eapply tok_run; [exact H|apply safe_percent, K|exact F|exact T].
    + rewrite pdrop_delim by reflexivity. rewrite pdrop_tabs, op_head by (cbn; tauto). reflexivity.
  - replace (ps rest) with (ps (LF :: rest)) by (rewrite pdrop_delim by reflexivity; reflexivity). apply tok_op; [cbn; tauto|discriminate|].
    apply fits_tail in F. apply (fits_tail (LF :: repeat TAB level)). exact F.
Qed.
Lemma group_reads k m level rest : SafeLabel k -> Trim k m -> fits (try_quoted k ++ LF :: repeat TAB level ++ "{"%char :: LF :: rest) ->
  exists st1, tokens (strm PD (try_quoted k ++ LF :: repeat TAB level ++ "{"%char :: LF :: rest)) m st1 /\
    forall q st2, reads_c (ps rest) ["{"%char] pn_empty q st2 -> reads st1 pn_empty q st2.
Proof.
  intros K T F. destruct (group_label k m level rest K T F) as [H1 H2]. eexists. split; [exact H1|]. intros q st2 R. eapply reads_group; eauto.
Qed.

(* the writer *)
Definition wr (kc : str * pnode) (level : nat) : str := write_prop_none (fst kc) (snd kc) level true.
Definition wrs (cs : list (str * pnode)) (level : nat) : str := flat_map (fun kc => wr kc level) cs.
Lemma wr_leaf k a v level : wr (k, PN a v []) level = repeat TAB level ++ try_quoted k ++ [" "; "="; " "]%char ++ leaf_value v ++ [LF].
Proof. unfold wr. cbn [fst snd]. destruct v; cbn; rewrite ?app_nil_r; reflexivity. Qed.
Lemma wr_group k a cs level : cs <> [] -> wr (k, PN a [] cs) level = repeat TAB level ++ try_quoted k ++ LF :: repeat TAB level ++ "{"%char :: LF :: wrs cs (S level) ++ repeat TAB level ++ "}"%char :: [LF].
Proof. intros N. unfold wr. cbn [fst snd]. destruct cs as [|x cs]; [contradiction|]. reflexivity. Qed.

Definition same_kc (kc kc' : str * pnode) : Prop := Trim (fst kc) (fst kc') /\ Trimmed (snd kc) (snd kc').

Lemma wr_head kc level rest : SafeLabel (fst kc) -> exists x r, pdrop (wr kc level ++ rest) = x :: r.
Proof.
  intros K. unfold wr. destruct kc as [k [a v cs]]. cbn [fst snd write_prop_none] in *. rewrite <- !app_assoc, pdrop_tabs, safe_head.
  - destruct (safe_cases k (proj1 K)) as [[_ ->]|[_ ->]]; [eexists; eexists; reflexivity|]. destruct K as [_ (c & m & (l & r & -> & _) & _)].
    destruct l; eexists; eexists; reflexivity.
  - apply K.
  - destruct K as [_ (c & m & (l & r & -> & _) & _)]. destruct l; discriminate.
Qed.

Lemma node_reads : forall c k level, SafeLabel k -> SafeTree c -> exists kc', same_kc (k, c) kc' /\ is_valid_prop_label (fst kc') = true /\ fst kc' <> ["}"%char] /\
  forall rest, fits (wr (k, c) level ++ rest) -> exists st1, tokens (ps (wr (k, c) level ++ rest)) (fst kc') st1 /\ reads st1 pn_empty (snd kc') (ps rest).
Proof.
  induction c as [a v cs IH] using pnode_rect'. intros k level K S. pose proof K as [_ (x & m & T & L)]. pose proof (label_cases k _ K T) as (N & A & B).
  inversion S as [a0 v0 V|a0 cs0 NC C]; subst.
  - assert (exists v', Trim v v') as [v' V'] by (pose proof (IsTrim_exists white v) as [v' V']; eauto).
    exists (x :: m, PN false v' []). split; [split; [exact T|constructor; [exact V'|constructor]]|]. split; [exact A|]. split; [exact B|].
    intros rest F. rewrite wr_leaf in *. repeat rewrite <- app_assoc in *. rewrite pdrop_tabs. apply fits_tail in F. cbn [app] in F |- *. rewrite safe_head by (auto; apply K).
    cbn [fst snd]. apply leaf_reads; assumption.
  - assert (R : exists cs', Forall2 same_kc cs cs' /\ forall rest, fits (wrs cs (Datatypes.S level) ++ rest) -> pdrop rest <> [] ->
      forall t p q st2, t <> ["}"%char] -> (forall t', t' <> ["}"%char] -> reads_c (ps rest) t' (PN (pn_accessed p) (pn_value p) (pn_children p ++ cs')) q st2) ->
      reads_c (ps (wrs cs (Datatypes.S level) ++ rest)) t p q st2).
    { clear S NC K T L N A B. induction cs as [|[k1 c1] cs IHcs].
      - exists []. split; [constructor|]. intros rest _ NE t p q st2 Ht H. cbn [wrs flat_map app]. specialize (H t Ht). rewrite app_nil_r in H. destruct p; exact H.
      - inversion IH as [|? ? I1 I2]; subst. inversion C as [|? ? [C1 C1'] C2]; subst. destruct (IHcs I2 C2) as (cs' & F2 & R). cbn [fst snd] in *.
        destruct (I1 k1 (Datatypes.S level) C1 C1') as ([k1' c1'] & E1 & V1 & B1 & R1). cbn [fst snd] in *.
        exists ((k1', c1') :: cs'). split; [constructor; assumption|]. intros rest F NE t p q st2 Ht H.
        cbn [wrs flat_map] in F |- *. fold (wrs cs (Datatypes.S level)) in F |- *. rewrite <- app_assoc in F |- *.
        destruct (R1 _ F) as (st1 & H1 & H2). eapply reads_c_label; [apply good_ps|exact Ht|exact H1|exact V1|exact H2|].
        + destruct (wr_head (k1, c1) (Datatypes.S level) (wrs cs (Datatypes.S level) ++ rest) C1) as (x1 & r1 & ->). discriminate.
        + apply R; [eapply fits_tail; exact F|exact NE|exact B1|]. intros t' Ht'. specialize (H t' Ht'). destruct p as [pa pv pc]. cbn in *. rewrite <- app_assoc. exact H. }
    destruct R as (cs' & F2 & R).
    exists (x :: m, PN false [] cs'). split; [split; [exact T|constructor; [exists [], []; repeat split; try constructor; try discriminate; intros ? [|? ?]; discriminate|exact F2]]|]. split; [exact A|]. split; [exact B|].
    intros rest F. rewrite wr_group in * by exact NC. repeat (rewrite <- app_assoc in * || rewrite <- app_comm_cons in * ). rewrite pdrop_tabs. apply fits_tail in F. cbn [app] in F |- *.
    rewrite safe_head by (auto; apply K). destruct (group_reads k _ level _ K T F) as (st1 & H1 & H2). exists st1. split; [exact H1|]. apply H2.
    assert (F3 : fits (wrs cs (Datatypes.S level) ++ repeat TAB level ++ "}"%char :: LF :: rest)).
    { apply fits_tail in F. apply (fits_tail (LF :: repeat TAB level ++ ["{"%char; LF])). cbn [app]. rewrite <- app_assoc. exact F. }
    apply R; [exact F3|rewrite pdrop_tabs, op_head by (cbn; tauto); discriminate|discriminate|].
    intros t' Ht'. rewrite pdrop_tabs, op_head by (cbn; tauto). cbn [pn_empty pn_accessed pn_value pn_children app snd].
    eapply reads_c_close; [reflexivity|exact Ht'|]. replace (ps rest) with (ps (LF :: rest)) by (rewrite pdrop_delim by reflexivity; reflexivity).
    apply tok_op; [cbn; tauto|discriminate|]. apply fits_tail in F3. apply fits_tail in F3. exact F3.
Qed.

Lemma wrs_parses cs : SafeChildren cs -> exists cs', Forall2 same_kc cs cs' /\ (fits (wrs cs 0) -> forall p, parses (ps (wrs cs 0)) p (PN (pn_accessed p) (pn_value p) (pn_children p ++ cs'))).
Proof.
  induction 1 as [|[k c] cs [K C] _ (cs' & F2 & IH)]; cbn [fst snd] in *.
  - exists []. split; [constructor|]. intros _ [a v c]. destruct (tokens_end (ps (wrs [] 0)) eq_refl) as [st' E]. cbn. rewrite app_nil_r. eapply parses_stop; [exact E|reflexivity].
  - destruct (node_reads c k 0 K C) as ([k' c'] & E & V & _ & R). cbn [fst snd] in *. exists ((k', c') :: cs'). split; [constructor; assumption|].
    intros F p. cbn [wrs flat_map] in F |- *. fold (wrs cs 0) in F |- *. destruct (R _ F) as (st1 & H1 & H2).
    eapply parses_label; [exact H1|exact V|exact H2|]. specialize (IH (fits_tail _ _ F) (pn_push p k' c')). destruct p. cbn in *. rewrite <- app_assoc in IH. exact IH.
Qed.

(* from a run with some fuel to parse_prop *)
Lemma parse_run text q : fits text -> calm (cstr text) -> parses (cs_of_cstr text PD) pn_empty q -> parse_prop text = Ok q.
Proof.
  intros F C [f E]. destruct (parse_prop_total text F C) as [_ M]. rewrite <- (M (f + 2 * length text + 3)) by lia.
  unfold parse_prop_fuel. apply (parse_up f); [lia|exact E].
Qed.
Lemma cs_of_cstr_ps text : Forall (fun c => c <> NUL) text -> cs_of_cstr text PD = ps text.
Proof.
  intros H. unfold cs_of_cstr. replace (cstr text) with text.
  - unfold skip_delimiters, test_eof, with_rest, strm. cbn. destruct (pdrop text); reflexivity.
  - induction H as [|c s Hc Hs IH]; [reflexivity|]. cbn [cstr]. destruct (Ascii.eqb c NUL) eqn:E; [apply Ascii.eqb_eq in E; contradiction|]. rewrite <- IH. reflexivity.
Qed.
Lemma cstr_id text : Forall (fun c => c <> NUL) text -> cstr text = text.
Proof.
  induction 1 as [|c s Hc Hs IH]; [reflexivity|]. cbn [cstr]. destruct (Ascii.eqb c NUL) eqn:E; [apply Ascii.eqb_eq in E; contradiction|]. rewrite IH. reflexivity.
Qed.

(* ---------- the written text ---------- *)
Definition clean (c : ascii) : Prop := 9 <= nat_of_ascii c < 128.
Lemma clean_nonul s : Forall clean s -> Forall (fun c => c <> NUL) s.
Proof. apply Forall_impl. intros c H ->. vm_compute in H. lia. Qed.
Lemma try_quoted_clean s : Forall clean (try_quoted s).
Proof.
  unfold try_quoted. destruct (needs_quotes s) eqn:E.
  - eapply Forall_impl; [|apply quoted_printable]. unfold clean, code. intros; cbn in *; lia.
  - unfold needs_quotes in E. apply Forall_forall. intros c I. assert (X : (scode c <? 33)%Z = false).
    { destruct (scode c <? 33)%Z eqn:X; [|reflexivity]. assert (existsb (fun c => (scode c <? 33)%Z || Ascii.eqb c QUOTE || Ascii.eqb c BSLASH) s = true) by (apply existsb_exists; exists c; rewrite X; auto). congruence. }
    apply Z.ltb_ge in X. unfold scode, code in X. unfold clean. pose proof (nat_ascii_bounded c). destruct (nat_of_ascii c <? 128) eqn:L; [apply Nat.ltb_lt in L|]; lia.
Qed.
Lemma tabs_clean n : Forall clean (repeat TAB n).
Proof. apply Forall_forall. intros c I. apply repeat_spec in I. subst. unfold clean. vm_compute. lia. Qed.
Ltac clean1 := first [apply try_quoted_clean | apply tabs_clean | apply Forall_app; split | constructor; [unfold clean; vm_compute; lia|] | constructor].
Lemma write_clean readable : forall c k level, Forall clean (write_prop_none k c level readable).
Proof.
  induction c as [a v cs IH] using pnode_rect'. intros k level. cbn [write_prop_none].
  assert (IND : Forall clean (if readable then repeat TAB level else [])) by (destruct readable; repeat clean1).
  assert (NL : Forall clean (if readable then [LF] else [" "%char])) by (destruct readable; repeat clean1).
  apply Forall_app. split; [exact IND|]. apply Forall_app. split; [clean1|]. apply Forall_app. split.
  - destruct (_ || _); [|constructor]. apply Forall_app. split; [destruct readable; repeat clean1|]. destruct (is_empty _); repeat clean1.
  - apply Forall_app. split; [exact NL|]. destruct cs as [|x cs]; [constructor|]. apply Forall_app. split; [exact IND|]. apply Forall_app. split; [repeat clean1|].
    apply Forall_app. split; [exact NL|]. apply Forall_app. split; [|apply Forall_app; split; [exact IND|apply Forall_app; split; [repeat clean1|exact NL]]].
    apply Forall_flat_map. eapply Forall_impl; [|exact IH]. intros kc H. apply H.
Qed.
Lemma save_clean t readable : Forall clean (save_prop t readable).
Proof. unfold save_prop. apply Forall_flat_map. apply Forall_forall. intros kc _. apply write_clean. Qed.
Lemma write_ends readable k c level : exists t, write_prop_none k c level readable = t ++ [if readable then LF else " "%char].
Proof.
  destruct c as [a v [|x cs]], readable; cbn [write_prop_none]; rewrite ?app_nil_r, !app_assoc; eexists; reflexivity.
Qed.
Lemma flat_ends (x : ascii) (f : str * pnode -> str) : (forall kc, exists t, f kc = t ++ [x]) -> forall cs, flat_map f cs = [] \/ exists t, flat_map f cs = t ++ [x].
Proof.
  intros H cs. induction cs as [|kc cs IH]; [left; reflexivity|]. right. cbn [flat_map]. destruct IH as [->|[t ->]].
  - rewrite app_nil_r. apply H.
  - exists (f kc ++ t). apply app_assoc.
Qed.
Lemma save_calm t readable : calm (save_prop t readable).
Proof.
  apply no_final_backslash_calm. intros u E. unfold save_prop in E.
  destruct (flat_ends (if readable then LF else " "%char) _ (fun kc => write_ends readable (fst kc) (snd kc) 0) (pn_children t)) as [X|[w X]]; rewrite X in E.
  - destruct u; discriminate.
  - apply app_inj_tail in E as [_ E]. destruct readable; discriminate.
Qed.
Lemma save_run t readable q : fits (save_prop t readable) -> parses (ps (save_prop t readable)) pn_empty q -> parse_prop (save_prop t readable) = Ok q.
Proof.
  intros F P. pose proof (clean_nonul _ (save_clean t readable)) as C. apply parse_run; [exact F| |].
  - rewrite cstr_id by exact C. apply save_calm.
  - rewrite cs_of_cstr_ps by exact C. exact P.
Qed.
Lemma save_wrs t : save_prop t true = wrs (pn_children t) 0. Proof. reflexivity. Qed.

Lemma roundtrip_trim t : SafeChildren (pn_children t) -> fits (save_prop t true) ->
  exists c', Forall2 same_kc (pn_children t) c' /\ load_prop (save_prop t true) = Ok (PN false [] c').
Proof.
  intros S F. destruct (wrs_parses _ S) as (c' & F2 & P). exists c'. split; [exact F2|]. unfold load_prop. apply save_run; [exact F|].
  specialize (P F pn_empty). exact P.
Qed.

Lemma neat_unmarked : forall t t', Neat t -> Trimmed t t' -> Unmarked t t'.
Proof.
  induction t as [a v c IH] using pnode_rect'. intros t' N T. inversion N as [? ? ? Nv Nc]; subst. inversion T as [? ? ? v' c' Tv Tc]; subst.
  rewrite <- (IsTrim_unique _ _ _ _ Nv Tv). constructor. clear N T Nv Tv. revert IH Nc. induction Tc as [|[k x] [k' x'] c c' [T1 T2] Tc IHc]; intros IH Nc; constructor.
  - inversion Nc as [|? ? [N1 N2] _]; subst. inversion IH; subst. cbn in *. split; [eapply IsTrim_unique; eauto|auto].
  - inversion Nc; inversion IH; subst. auto.
Qed.
Lemma trimmed_fun : forall t t1 t2, Trimmed t t1 -> Trimmed t t2 -> t1 = t2.
Proof.
  induction t as [a v c IH] using pnode_rect'. intros t1 t2 T1 T2. inversion T1 as [? ? ? v1 c1 V1 C1]; subst. inversion T2 as [? ? ? v2 c2 V2 C2]; subst.
  rewrite (IsTrim_unique _ _ _ _ V1 V2). f_equal. clear T1 T2 V1 V2. revert c2 C2 IH. induction C1 as [|[k x] [k1 x1] c c1 [A1 A2] C1 IHc]; intros c2 C2 IH; inversion C2 as [|? [k2 x2] ? ? [B1 B2] C2']; subst; [reflexivity|].
  inversion IH; subst. cbn in *. f_equal; [f_equal; [eapply IsTrim_unique; eauto|auto]|auto].
Qed.
