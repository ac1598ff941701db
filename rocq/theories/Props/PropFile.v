(* C32-C35: property files *)
From Coq Require Import String.
From Verif Require Import Model.Base Model.StdString Model.Strings Model.Number Model.CharStream Model.PropTree Model.PropFile
  Spec.Strings Spec.Quote Spec.Token Spec.PropText Proofs.StringFacts Proofs.StringsProofs Proofs.QuoteProofs Proofs.TokenProofs Proofs.PropParse Proofs.PropFileProofs Proofs.PropLoss.
Local Open Scope list_scope.

(* ---------- C32 ---------- *)
(* text up to its first NUL *)
Definition Cstr (text s : str) : Prop :=
  Forall (fun c => c <> "000"%char) s /\ (text = s \/ exists r, text = s ++ "000"%char :: r).
Lemma Cstr_cstr text s : Cstr text s -> cstr text = s.
Proof.
  intros [N H]. destruct H as [->|[r ->]]; [apply cstr_id; exact N|].
  induction N as [|c s Hc N IH]; [reflexivity|]. cbn [app cstr]. destruct (Ascii.eqb_spec c NUL); [contradiction|]. rewrite IH. reflexivity.
Qed.
Theorem C32_terminates : forall text s, fits text -> Cstr text s -> (forall t, s <> t ++ ["\"%char]) ->
  (parse_prop text = Throw \/ exists tree, parse_prop text = Ok tree) /\
  forall fuel, (2 * length text + 3 <= fuel)%nat -> parse_prop_fuel fuel text = parse_prop text.
Proof. intros text s F C H. apply parse_prop_total; [exact F|]. rewrite (Cstr_cstr _ _ C). apply no_final_backslash_calm. exact H. Qed.
Print Assumptions C32_terminates.

(* a value whose quotation runs into a final backslash: no number of steps is enough *)
Theorem C32_always_terminates_refuted : forall x k body, letter x -> Forall letter k -> Stuck """"%char body ->
  Forall (fun c => c <> "000"%char) body -> fits ((x :: k) ++ "="%char :: """"%char :: body) ->
  forall fuel, parse_prop_fuel fuel ((x :: k) ++ "="%char :: """"%char :: body) = OutOfFuel.
Proof.
  intros x k body X K B NB F fuel.
  assert (RL : forall c, letter c -> bare c /\ ~ In c marks).
  { intros c H. unfold letter in H. split; [split; [lia|split; intros ->; vm_compute in H; lia]|].
    cbn. intros [<-|[<-|[<-|[<-|[<-|[<-|[]]]]]]]; vm_compute in H; lia. }
  assert (BK : Forall bare (x :: k)) by (constructor; [apply RL, X|eapply Forall_impl; [|exact K]; intros; apply RL; assumption]).
  assert (MK : free marks (x :: k)) by (constructor; [apply RL, X|eapply Forall_impl; [|exact K]; intros; apply RL; assumption]).
  pose proof (bare_raw _ BK MK) as RK.
  assert (NN : Forall (fun c => c <> NUL) ((x :: k) ++ "="%char :: """"%char :: body)).
  { apply Forall_app. split; [|constructor; [discriminate|constructor; [discriminate|exact NB]]]. eapply Forall_impl; [|exact RK]. intros c (H & _) ->. apply H. right. reflexivity. }
  unfold parse_prop_fuel. rewrite cs_of_cstr_ps by exact NN. set (r := """"%char :: body) in *.
  rewrite <- app_comm_cons, pdrop_cons by (apply raw_nodelim; inversion RK; assumption). rewrite app_comm_cons.
  assert (T1 : tokens (strm PROP_DELIMS ((x :: k) ++ "="%char :: r)) (x :: k) (ps ("="%char :: r))).
  { eapply tok_run; [apply (Tok_before_op _ _ _ [] (x :: k)); [exact RK|apply oper_in; cbn; tauto|discriminate]| |exact F|apply bare_neat; exact BK].
    intros E. cbn [app] in E. injection E as -> _. apply (RL _ X). cbn. tauto. }
  rewrite op_head in T1 by (cbn; tauto).
  assert (T2 : tokens (strm PROP_DELIMS ("="%char :: r)) ["="%char] (strm PROP_DELIMS r)).
  { pose proof (tok_op "="%char r) as Y. unfold r in Y. rewrite pdrop_cons in Y by reflexivity. apply Y; [cbn; tauto|discriminate|]. apply fits_tail in F. exact F. }
  assert (T3 : forall f, get_prop_token f (strm PROP_DELIMS r) = OutOfFuel).
  { apply prop_token_hang; [split; [unfold AtEnd, strm, r; cbn; split; discriminate|reflexivity]|reflexivity|].
    apply (Hang_here _ _ _ [] """"%char); [constructor|apply quot_quote|exact B]. }
  destruct fuel as [|f]; [reflexivity|]. cbn [parse_loop].
  destruct (tokens_any _ _ _ T1 f) as [->| ->]; [reflexivity|]. cbn [bind]. rewrite (letter_alpha x k X).
  assert (E : read_prop_node f (strm PROP_DELIMS ("="%char :: r)) pn_empty = OutOfFuel); [|rewrite E; reflexivity].
  destruct f as [|f]; [reflexivity|]. rewrite read_prop_node_S. destruct (tokens_any _ _ _ T2 f) as [->| ->]; [reflexivity|]. cbn [bind].
  change (str_eqb ["="%char] ["="%char]) with true. cbv iota. rewrite T3. reflexivity.
Qed.
Print Assumptions C32_always_terminates_refuted.

Example C32_nonvacuous :
  Cstr (lit "a { b = 1 c = '\n' } ; d = 2") (lit "a { b = 1 c = '\n' } ; d = 2") /\
  parse_prop (lit "a = 1") = Ok (PN false [] [(lit "a", PN false (lit "1") [])]) /\
  parse_prop (lit "a { 1 }") = Throw /\
  Stuck """"%char (lit "b\").
Proof.
  split; [split; [|left; reflexivity]|]; [apply Forall_forall; intros c I ->; vm_compute in I; intuition discriminate|].
  split; [vm_compute; reflexivity|]. split; [vm_compute; reflexivity|].
  apply St_char; [discriminate|discriminate|apply St_here; discriminate].
Qed.

(* ---------- C33 ---------- *)
(* Loading what save_prop wrote gives the same tree, with every label and value
   stripped of surrounding white space *)
Theorem C33_roundtrip_trimmed : forall a v c, SafeChildren c -> fits (save_prop (PN a v c) true) ->
  exists t, Trimmed (PN a [] c) t /\ load_prop (save_prop (PN a v c) true) = Ok t.
Proof.
  intros a v c S F. destruct (roundtrip_trim (PN a v c) S F) as (c' & F2 & E). exists (PN false [] c'). split; [|exact E].
  constructor; [|exact F2]. exists [], []. repeat split; try constructor; try discriminate. intros ? [|? ?]; discriminate.
Qed.
Print Assumptions C33_roundtrip_trimmed.

(* nothing to strip: the same tree *)
Theorem C33_roundtrip : forall a v c, SafeChildren c -> Neat (PN a [] c) -> fits (save_prop (PN a v c) true) ->
  exists t, Unmarked (PN a [] c) t /\ load_prop (save_prop (PN a v c) true) = Ok t.
Proof.
  intros a v c S N F. destruct (C33_roundtrip_trimmed a v c S F) as (t & T & E). exists t. split; [|exact E]. apply neat_unmarked; assumption.
Qed.
Print Assumptions C33_roundtrip.

(* the specification determines the loaded tree *)
Theorem C33_trimmed_unique : forall t t1 t2, Trimmed t t1 -> Trimmed t t2 -> t1 = t2.
Proof. exact trimmed_fun. Qed.
Print Assumptions C33_trimmed_unique.

Definition sample : pnode :=
  PN false [] [(lit "name", PN true (lit "two words ""quoted"" \ {=%;}") []);
               (lit "my group", PN false [] [(lit "x", PN false (lit "-1.5e3") []); (lit "empty", PN false [] []);
                                             (lit "deep", PN true [] [(lit "y", PN false (lit "a,b|c") [])])])].
Definition inb (l : str) (c : ascii) : bool := existsb (Ascii.eqb c) l.
Lemma inb_spec l c : inb l c = true <-> In c l.
Proof. unfold inb. rewrite existsb_exists. split; [intros (x & I & E); apply Ascii.eqb_eq in E; subst; exact I|intros I; exists c; split; [exact I|apply Ascii.eqb_refl]]. Qed.
Definition safeb (s : str) : bool := forallb plainb s && (needs_quotes s || forallb (fun c => negb (inb marks c)) s).
Lemma safeb_safe s : safeb s = true -> Safe s.
Proof.
  unfold safeb. rewrite andb_true_iff, orb_true_iff, !forallb_forall. intros [P H]. assert (P' : Forall plain s) by (apply Forall_forall; intros c I; apply plainb_spec, P, I).
  split; [exact P'|]. destruct H as [H|H]; [left; apply needs_quotes_iff; assumption|right]. apply Forall_forall. intros c I X. apply inb_spec in X. specialize (H c I). rewrite X in H. discriminate.
Qed.
Definition neatb (s : str) : bool := match s with [] => true | c :: _ => negb (inb white c) && negb (inb white (last s c)) end.
Lemma neatb_neat s : neatb s = true -> IsTrim white s s.
Proof.
  intros H. exists [], []. split; [rewrite app_nil_r; reflexivity|]. split; [constructor|]. split; [constructor|]. destruct s as [|c s]; [split; [discriminate|intros ? [|? ?]; discriminate]|].
  unfold neatb in H. apply andb_true_iff in H as [A B]. split; intros x m E.
  - injection E as <- _. intros I. apply inb_spec in I. rewrite I in A. discriminate.
  - rewrite E, last_last in B. intros I. apply inb_spec in I. rewrite I in B. discriminate.
Qed.
Definition labelb (s : str) : bool := safeb s && neatb s && is_valid_prop_label s.
Lemma labelb_label s : labelb s = true -> SafeLabel s.
Proof.
  unfold labelb. rewrite !andb_true_iff. intros [[A B] C]. split; [apply safeb_safe, A|]. destruct s as [|c m]; [discriminate|]. exists c, m. split; [apply neatb_neat, B|]. eapply alpha_letter, C.
Qed.
Ltac safe_tree := repeat first [apply Forall_nil | apply Forall_cons; [split; [apply labelb_label; vm_compute; reflexivity|cbn [snd]]|] | apply Safe_leaf; apply safeb_safe; vm_compute; reflexivity | apply Safe_group; [discriminate|]].
Example C33_nonvacuous : SafeChildren (pn_children sample) /\ fits (save_prop sample true) /\
  load_prop (save_prop sample true) = Ok (pn_copy sample).
Proof.
  split; [|split; [vm_compute; reflexivity|vm_compute; reflexivity]].
  unfold SafeChildren, sample. cbn [pn_children]. safe_tree.
Qed.

(* ---------- C34 ---------- *)
Notation same_child := (fun kc kc' : str * pnode => IsTrim white (fst kc) (fst kc') /\ Trimmed (snd kc) (snd kc')).

(* a top-level node with value and children: its children and everything after
   it are silently dropped *)
Theorem C34_value_and_children_refuted : forall a w c1 k b v c c2, SafeChildren c1 -> SafeLabel k -> Safe v -> v <> [] -> c <> [] ->
  let t := PN a w (c1 ++ (k, PN b v c) :: c2) in fits (save_prop t true) ->
  exists c1' k' v', Forall2 same_child c1 c1' /\ IsTrim white k k' /\ IsTrim white v v' /\
    load_prop (save_prop t true) = Ok (PN false [] (c1' ++ [(k', PN false v' [])])).
Proof. intros. apply value_and_children; assumption. Qed.
Print Assumptions C34_value_and_children_refuted.

(* inside a group the same node makes the file unreadable *)
Theorem C34_value_and_children_nested_refuted : forall a w c0 k0 a0 c1 k b v c c2 c3,
  SafeChildren c0 -> SafeLabel k0 -> SafeChildren c1 -> SafeLabel k -> Safe v -> v <> [] -> c <> [] ->
  let t := PN a w (c0 ++ (k0, PN a0 [] (c1 ++ (k, PN b v c) :: c2)) :: c3) in
  fits (save_prop t true) -> load_prop (save_prop t true) = Throw.
Proof. exact value_and_children_nested. Qed.
Print Assumptions C34_value_and_children_nested_refuted.

(* a value written without quotes is cut at the first ; = { } % *)
Theorem C34_cut_value_refuted : forall a w c1 k b u x v c2, SafeChildren c1 -> SafeLabel k ->
  Forall (fun c => plain c /\ ~ forces_quotes c) (u ++ x :: v) -> free marks u -> In x [";"; "="; "{"; "}"; "%"]%char ->
  let t := PN a w (c1 ++ (k, PN b (u ++ x :: v) []) :: c2) in fits (save_prop t true) ->
  exists c1' k', Forall2 same_child c1 c1' /\ IsTrim white k k' /\
    (load_prop (save_prop t true) = Throw \/
     exists l, load_prop (save_prop t true) = Ok (PN false [] (c1' ++ (k', PN false u []) :: l))).
Proof.
  intros a w c1 k b u x v c2 S K B M X t F. apply cut_value; try assumption. eapply Forall_impl; [|exact B].
  intros c [P N]. unfold plain, forces_quotes in *. split; [lia|]. split; intros E; apply N; right; [left|right]; exact E.
Qed.
Print Assumptions C34_cut_value_refuted.

(* an apostrophe starts a quotation: only what follows it is read *)
Theorem C34_apostrophe_refuted : forall a w k b u v, SafeLabel k ->
  Forall (fun c => plain c /\ ~ forces_quotes c) u -> free marks u -> Forall (fun c => plain c /\ ~ forces_quotes c) v -> ~ In "'"%char v ->
  let t := PN a w [(k, PN b (u ++ "'"%char :: v) [])] in fits (save_prop t true) ->
  exists k', IsTrim white k k' /\ load_prop (save_prop t true) = Ok (PN false [] [(k', PN false v [])]).
Proof.
  assert (X : forall s, Forall (fun c => plain c /\ ~ forces_quotes c) s -> Forall bare s).
  { intros s. apply Forall_impl. intros c [P N]. unfold plain, forces_quotes in *. split; [lia|]. split; intros E; apply N; right; [left|right]; exact E. }
  intros. apply apostrophe_value; auto.
Qed.
Print Assumptions C34_apostrophe_refuted.

(* white space around a value is lost *)
Theorem C34_white_space_refuted : forall a w k b v v', SafeLabel k -> Safe v -> IsTrim white v v' -> v' <> v ->
  let t := PN a w [(k, PN b v [])] in fits (save_prop t true) ->
  exists k', load_prop (save_prop t true) = Ok (PN false [] [(k', PN false v' [])]) /\ v' <> v.
Proof.
  intros a w k b v v' K V T N t F. destruct (C33_roundtrip_trimmed a w [(k, PN b v [])]) as (r & R & E); [constructor; [split; [exact K|apply Safe_leaf; exact V]|constructor]|exact F|].
  inversion R as [? ? ? v0 c0 T0 C0]; subst. inversion C0 as [|? [k1 n1] ? ? [T1 R1] C1]; subst. inversion C1; subst. cbn in *.
  inversion R1 as [? ? ? v2 c2 T2 C2]; subst. inversion C2; subst. pose proof (IsTrim_unique _ _ _ _ T T2) as <-.
  assert (v0 = []). { destruct T0 as (l & r & X & _). destruct l, v0; try discriminate. reflexivity. } subst v0. exists k1. split; [exact E|exact N].
Qed.
Print Assumptions C34_white_space_refuted.

(* a top-level label that does not start with a letter: that node and
   everything after it are silently dropped *)
Theorem C34_bad_label_refuted : forall a w c1 k m c c2, SafeChildren c1 -> Safe k -> k <> [] -> IsTrim white k m ->
  (forall x m', m = x :: m' -> ~ letter x) ->
  let t := PN a w (c1 ++ (k, c) :: c2) in fits (save_prop t true) ->
  exists c1', Forall2 same_child c1 c1' /\ load_prop (save_prop t true) = Ok (PN false [] c1').
Proof. intros. eapply bad_label; eassumption. Qed.
Print Assumptions C34_bad_label_refuted.

(* the compact format: two leaves k1=v1, k2=v2 are read as one leaf k1 with the
   value "v1 k2" *)
Definition Word (s : str) : Prop := s <> [] /\ Forall (fun c => plain c /\ ~ forces_quotes c) s /\ free marks s.
Theorem C34_compact_refuted : forall a w x k1 v1 k2 v2 b1 b2 c, Word (x :: k1) -> letter x -> Word v1 -> Word k2 -> Word v2 ->
  let t := PN a w ((x :: k1, PN b1 v1 []) :: (k2, PN b2 v2 []) :: c) in fits (save_prop t false) ->
  load_prop (save_prop t false) = Ok (PN false [] [(x :: k1, PN false (v1 ++ " "%char :: k2) [])]).
Proof.
  assert (X : forall s, Word s -> word s).
  { intros s (N & B & M). split; [exact N|]. split; [|exact M]. eapply Forall_impl; [|exact B]. intros c [P Q]. unfold plain, forces_quotes in *. split; [lia|]. split; intros E; apply Q; right; [left|right]; exact E. }
  intros. apply compact_loss; auto.
Qed.
Print Assumptions C34_compact_refuted.

Example C34_nonvacuous :
  load_prop (save_prop (PN false [] [(lit "a", PN false (lit "1") [(lit "b", PN false (lit "2") [])]); (lit "c", PN false (lit "3") [])]) true)
    = Ok (PN false [] [(lit "a", PN false (lit "1") [])]) /\
  load_prop (save_prop (PN false [] [(lit "url", PN false (lit "x?y=z") [])]) true) = Ok (PN false [] [(lit "url", PN false (lit "x?y") [])]) /\
  load_prop (save_prop (PN false [] [(lit "s", PN false (lit "it's") [])]) true) = Ok (PN false [] [(lit "s", PN false (lit "s") [])]) /\
  load_prop (save_prop (PN false [] [(lit "a", PN false (lit "1") []); (lit "2b", PN false (lit "2") []); (lit "c", PN false (lit "3") [])]) true)
    = Ok (PN false [] [(lit "a", PN false (lit "1") [])]) /\
  load_prop (save_prop (PN false [] [(lit "a", PN false (lit "1") []); (lit "b", PN false (lit "2") [])]) false)
    = Ok (PN false [] [(lit "a", PN false (lit "1 b") [])]).
Proof. vm_compute. repeat split. Qed.

(* ---------- C35 ---------- *)
(* A comment: % and then a line with at least one character that is not a
   delimiter *)
Definition CommentLine (text : str) : Prop := exists l c m, text = "%"%char :: l ++ c :: m ++ ["010"%char] /\
  Forall (fun x => In x ["009"; "011"; ";"]%char) l /\ ~ In c ["000"; "009"; "010"; "011"; "013"; ";"]%char /\
  Forall (fun x => x <> "000"%char /\ x <> "010"%char /\ x <> "013"%char) m.
Lemma CommentLine_inv text : CommentLine text -> exists l c m, text = comment l c m /\ Comment l c m.
Proof.
  intros (l & c & m & -> & L & C & M). exists l, c, m. split; [reflexivity|]. split; [exact L|]. split; [|exact M].
  intros I. apply C. cbn in I |- *. tauto.
Qed.

(* a comment before any token is not seen by the parser *)
Theorem C35_comment_skipped : forall text k, CommentLine text ->
  forall t st, tokens (ps (text ++ k)) t st <-> tokens (ps k) t st.
Proof.
  intros text k H t st. apply CommentLine_inv in H as (l & c & m & -> & C). split; intros [f E].
  - destruct f as [|f]; [discriminate|]. rewrite (comment_token l c m k f C) in E. exists f. exact E.
  - exists (S f). rewrite (comment_token l c m k f C). exact E.
Qed.
Print Assumptions C35_comment_skipped.

(* at the start of a file *)
Theorem C35_comment_first : forall text k, CommentLine text -> fits (text ++ k) -> Forall (fun c => c <> "000"%char) k ->
  (forall t, k <> t ++ ["\"%char]) -> parse_prop (text ++ k) = parse_prop k.
Proof.
  intros text k H F NK NB. apply CommentLine_inv in H as (l & c & m & -> & C).
  assert (NT : Forall (fun c => c <> NUL) (comment l c m ++ k)).
  { apply Forall_app. split; [|exact NK]. unfold comment. constructor; [discriminate|]. destruct C as (L & C & M). apply Forall_app. split; [eapply Forall_impl; [|exact L]; intros x I ->; cbn in I; intuition discriminate|].
    constructor; [intros ->; apply C; left; reflexivity|]. apply Forall_app. split; [eapply Forall_impl; [|exact M]; intros x I; apply I|constructor; [discriminate|constructor]]. }
  assert (NT' : forall t, comment l c m ++ k <> t ++ ["\"%char]).
  { intros t E. destruct k as [|x k] using rev_ind.
    - rewrite app_nil_r in E. unfold comment in E. rewrite app_comm_cons, app_comm_cons, app_assoc in E. apply app_inj_tail in E as [_ E]. discriminate.
    - rewrite app_assoc in E. apply app_inj_tail in E as [_ ->]. eapply NB. reflexivity. }
  assert (Fk : fits k) by (eapply fits_tail; exact F).
  assert (CK : calm (cstr k)) by (rewrite cstr_id by exact NK; apply no_final_backslash_calm; exact NB).
  assert (CT : calm (cstr (comment l c m ++ k))) by (rewrite cstr_id by exact NT; apply no_final_backslash_calm; exact NT').
  destruct (parse_prop_total _ F CT) as [_ MT]. destruct (parse_prop_total _ Fk CK) as [TK MK].
  assert (NF : parse_prop k <> OutOfFuel) by (destruct TK as [->|[r ->]]; discriminate).
  set (n := 2 * length (comment l c m ++ k) + 2 * length k + 6). rewrite <- (MT (S n)) by (unfold n; lia). rewrite <- (MK (S n)) by (unfold n; lia).
  unfold parse_prop_fuel. rewrite !cs_of_cstr_ps by assumption. destruct n as [|n'] eqn:EN; [unfold n in EN; lia|].
  remember (S n') as N. cbn [parse_loop]. rewrite HeqN. rewrite (comment_token l c m k n' C).
  replace (get_prop_token n' (ps k)) with (get_prop_token (S n') (ps k)); [reflexivity|]. apply prop_token_mono.
  intros X. assert (Y : parse_prop_fuel (S n') k = OutOfFuel).
  { unfold parse_prop_fuel. rewrite cs_of_cstr_ps by assumption. cbn [parse_loop]. rewrite X. reflexivity. }
  rewrite MK in Y by lia. contradiction.
Qed.
Print Assumptions C35_comment_first.

(* between any two top-level nodes of a written file *)
Theorem C35_comment_between : forall c1 text c2, SafeChildren c1 -> SafeChildren c2 -> CommentLine text ->
  let a := save_prop (PN false [] c1) true in let b := save_prop (PN false [] c2) true in
  fits (a ++ text ++ b) -> parse_prop (a ++ text ++ b) = parse_prop (a ++ b).
Proof.
  intros c1 text c2 S1 S2 H a b F.
  assert (E2 : a ++ b = save_prop (PN false [] (c1 ++ c2)) true) by (unfold a, b; rewrite !save_wrs; cbn [pn_children]; rewrite wrs_app; reflexivity).
  assert (Fab : fits (a ++ b)) by (unfold fits in *; rewrite !app_length in *; lia).
  destruct (wrs_prefix c1 S1) as (c1' & F1 & R1). destruct (wrs_prefix c2 S2) as (c2' & F2 & R2).
  assert (END : forall p, runs (ps []) p (Ok p)) by (intros p; destruct (tokens_end (ps []) eq_refl) as [st' E]; eapply runs_stop; [exact E|reflexivity]).
  assert (RB : forall p, runs (ps b) p (Ok (PN (pn_accessed p) (pn_value p) (pn_children p ++ c2')))).
  { intros p. specialize (R2 []). rewrite app_nil_r in R2. apply R2; [|apply END]. unfold fits in *. rewrite !app_length in F. unfold b, save_prop, wrs, wr in *. cbn [pn_children] in *. lia. }
  assert (RTB : forall p, runs (ps (text ++ b)) p (Ok (PN (pn_accessed p) (pn_value p) (pn_children p ++ c2')))).
  { intros p. apply CommentLine_inv in H as (l & c & m & -> & C). destruct (RB p) as (f & E & N). destruct f as [|f]; [discriminate|]. exists (S (S f)). split; [|exact N].
    pose proof (parse_mono (S f) (ps b) p) as M. rewrite E in M. specialize (M N). cbn [parse_loop]. rewrite (comment_token l c m b f C). remember (S f) as g. cbn [parse_loop] in M. rewrite Heqg in *.
    destruct (get_prop_token f (ps b)) as [[t st1]| | |] eqn:G.
    - rewrite (prop_token_mono f) in M by congruence. rewrite G in M. exact M.
    - rewrite (prop_token_mono f) in M by congruence. rewrite G in M. exact M.
    - rewrite (prop_token_mono f) in M by congruence. rewrite G in M. exact M.
    - cbn [parse_loop] in E. rewrite G in E. discriminate. }
  set (q := PN false [] (c1' ++ c2')).
  assert (X1 : parse_prop (a ++ b) = Ok q).
  { rewrite E2. rewrite E2 in Fab. apply save_result; [exact Fab|]. rewrite <- E2. apply R1; [rewrite <- E2 in Fab; exact Fab|]. apply (RB (PN false [] c1')). }
  rewrite X1. pose proof H as H'. apply CommentLine_inv in H' as (l & c & m & EQ & C).
  assert (NT : Forall (fun c => c <> NUL) (a ++ text ++ b)).
  { apply Forall_app. split; [apply clean_nonul, save_clean|]. apply Forall_app. split; [|apply clean_nonul, save_clean]. subst text.
    unfold comment. constructor; [discriminate|]. destruct C as (L & C & M). apply Forall_app. split; [eapply Forall_impl; [|exact L]; intros x I ->; cbn in I; intuition discriminate|].
    constructor; [intros ->; apply C; left; reflexivity|]. apply Forall_app. split; [eapply Forall_impl; [|exact M]; intros x I; apply I|constructor; [discriminate|constructor]]. }
  assert (RT : runs (ps (a ++ text ++ b)) pn_empty (Ok q)) by (apply R1; [exact F|]; apply (RTB (PN false [] c1'))).
  destruct RT as (f & E & _). apply parse_run; [exact F| |rewrite cs_of_cstr_ps by exact NT; exists f; exact E].
  rewrite cstr_id by exact NT. apply no_final_backslash_calm. intros t X.
  assert (BE : b = [] \/ exists u, b = u ++ ["010"%char]).
  { unfold b. rewrite save_wrs. cbn [pn_children]. apply (flat_ends LF). intros kc. apply (write_ends true (fst kc) (snd kc) 0). }
  destruct BE as [BE|[u BE]]; rewrite BE in X.
  - rewrite app_nil_r, EQ in X. unfold comment in X. rewrite app_comm_cons, app_comm_cons, !app_assoc in X. apply app_inj_tail in X as [_ X]. discriminate.
  - rewrite !app_assoc in X. apply app_inj_tail in X as [_ X]. discriminate.
Qed.
Print Assumptions C35_comment_between.

(* "a comment ends with its line" is false: an empty comment also removes the
   next line that is not blank *)
Theorem C35_empty_comment_refuted : forall l c m k, Forall (fun x => In x ["010"; "013"; "009"; "011"; ";"]%char) l ->
  ~ In c ["000"; "010"; "013"; "009"; "011"; ";"]%char -> Forall (fun x => x <> "000"%char /\ x <> "010"%char /\ x <> "013"%char) m ->
  forall t st, tokens (ps ("%"%char :: "010"%char :: l ++ c :: m ++ "010"%char :: k)) t st <-> tokens (ps k) t st.
Proof.
  intros l c m k L C M t st. split; intros [f E].
  - destruct f as [|f]; [discriminate|]. pose proof (empty_comment_token l c m k f L C M) as X. unfold LF in X. rewrite X in E. exists f. exact E.
  - exists (S f). pose proof (empty_comment_token l c m k f L C M) as X. unfold LF in X. rewrite X. exact E.
Qed.
Print Assumptions C35_empty_comment_refuted.

(* "a quoted % is not a comment" is false *)
Theorem C35_quoted_percent_refuted :
  parse_prop (lit "a = ""%""" ++ ["010"%char] ++ lit "b = 1" ++ ["010"%char] ++ lit "c = 2")
  = Ok (PN false [] [(lit "a", PN false (lit "c") [])]).
Proof. vm_compute. reflexivity. Qed.
Print Assumptions C35_quoted_percent_refuted.

(* "a comment may follow the last item of a block that is closed by the end of
   the file" is false *)
Theorem C35_trailing_comment_refuted :
  parse_prop (lit "a { b = 1") = Ok (PN false [] [(lit "a", PN false [] [(lit "b", PN false (lit "1") [])])]) /\
  parse_prop (lit "a { b = 1" ++ ["010"%char] ++ lit "% note") = Throw.
Proof. split; vm_compute; reflexivity. Qed.
Print Assumptions C35_trailing_comment_refuted.

Example C35_nonvacuous : CommentLine (lit "% a = 2" ++ ["010"%char]) /\
  parse_prop (lit "% a = 2" ++ ["010"%char] ++ lit "b = 3") = Ok (PN false [] [(lit "b", PN false (lit "3") [])]) /\
  parse_prop (lit "%" ++ ["010"%char] ++ lit "a = 2" ++ ["010"%char] ++ lit "b = 3") = Ok (PN false [] [(lit "b", PN false (lit "3") [])]).
Proof.
  split; [|split; vm_compute; reflexivity]. exists [], " "%char, (lit "a = 2"). split; [reflexivity|]. split; [constructor|]. split; [cbn; intuition discriminate|].
  repeat (constructor; [split; [discriminate|split; discriminate]|]). constructor.
Qed.
