(* C81: prop and ini files on a file system, error codes *)
From Coq Require Import String.
From Verif Require Import Model.Base Model.StdString Model.Strings Model.Number Model.CharStream Model.Path Model.PropTree Model.PropNode
  Model.PropFile Model.Ini Model.FileSystem Model.Persist Spec.Strings Spec.PropNode Spec.PropText Spec.Ini Spec.FileSystem
  Proofs.FileSystemProofs Props.FileSystem Props.PropFile Props.Ini.
Local Open Scope Z_scope.
Local Open Scope list_scope.

(* C81: what load_string returns, throws and reports *)
Theorem C81_load_string : forall cwd s p k, Tree s -> s cwd = Some Dir -> Names cwd p k ->
  (forall x ec, s k = Some (File x) -> load_string_ec cwd s p ec = (Ok x, ec)) /\
  (s k = None -> load_string_ec cwd s p None = (Throw, None) /\
     forall e, exists e', load_string_ec cwd s p (Some e) = (Ok [], Some e') /\ ec_error e' = true /\ ec_ok e' = false /\ ec_message e' = lit "Could not open " ++ p).
Proof.
  intros cwd s p k T W N. unfold load_string_ec, open_read, read_all. rewrite (names_stat cwd s p k T W N). split.
  - intros x ec ->. reflexivity.
  - intros ->. split; [reflexivity|]. intros e. eexists. split; [reflexivity|]. repeat split.
Qed.
Print Assumptions C81_load_string.
Theorem C81_load_string_plain : forall cwd s p, load_string cwd s p = fst (load_string_ec cwd s p None).
Proof. intros cwd s p. unfold load_string, load_string_ec. destruct (open_read cwd s p); reflexivity. Qed.
Print Assumptions C81_load_string_plain.
(* any code but zero is an error *)
Theorem C81_error_code : forall e, (ec_error e = true <-> ec_code e <> 0) /\ (ec_ok e = true <-> ec_code e = 0) /\
  (forall c m, ec_code (ec_set e c m) = c /\ ec_message (ec_set e c m) = m) /\ ec_ok no_error = true /\ forall m, ec_error (error m) = true /\ ec_message (error m) = m.
Proof.
  intros e. unfold ec_error, ec_ok. split; [rewrite Bool.negb_true_iff, Z.eqb_neq; tauto|]. split; [apply Z.eqb_eq|]. repeat split.
Qed.
Print Assumptions C81_error_code.
(* C81: with a clear error code a missing file is reported and nothing thrown;
   without one it throws; otherwise the code is left alone *)
Theorem C81_load_prop : forall cwd s p k, Tree s -> s cwd = Some Dir -> Names cwd p k ->
  (forall x, s k = Some (File x) ->
     load_prop_ec cwd s p None = (load_prop x, None) /\
     forall e, ec_error e = false -> load_prop_ec cwd s p (Some e) = (load_prop x, Some e)) /\
  (s k = None ->
     load_prop_ec cwd s p None = (Throw, None) /\
     forall e, exists e', load_prop_ec cwd s p (Some e) = (Ok pn_empty, Some e') /\ ec_error e' = true).
Proof.
  intros cwd s p k T W N. destruct (C81_load_string cwd s p k T W N) as [H1 H2]. unfold load_prop_ec. split.
  - intros x K. split; [rewrite (H1 x None K); reflexivity|]. intros e E. rewrite (H1 x (Some e) K), E. reflexivity.
  - intros K. destruct (H2 K) as [H3 H4]. rewrite H3. split; [reflexivity|]. intros e. destruct (H4 e) as (e' & -> & E & _). exists e'. rewrite E. auto.
Qed.
Print Assumptions C81_load_prop.
(* C81: a text that cannot be parsed throws in spite of the error code, which
   stays clear *)
Theorem C81_error_code_catches_refuted : forall cwd s p k x e, Tree s -> s cwd = Some Dir -> Names cwd p k ->
  s k = Some (File x) -> load_prop x = Throw -> ec_error e = false ->
  load_prop_ec cwd s p (Some e) = (Throw, Some e).
Proof.
  intros cwd s p k x e T W N K P E. destruct (C81_load_prop cwd s p k T W N) as [H _]. destruct (H x K) as [_ H2]. rewrite (H2 e E), P. reflexivity.
Qed.
Print Assumptions C81_error_code_catches_refuted.
(* C81: an error code left from an earlier call makes every file load as empty *)
Theorem C81_stale_error_refuted : forall cwd s p e, ec_error e = true ->
  exists e', load_prop_ec cwd s p (Some e) = (Ok pn_empty, Some e') /\ ec_error e' = true.
Proof.
  intros cwd s p e E. unfold load_prop_ec, load_string_ec, open_read. destruct (stat cwd s p).
  - rewrite E. exists e. auto.
  - cbn [try_set_error]. eexists. split; reflexivity.
Qed.
Print Assumptions C81_stale_error_refuted.
(* C81: a folder opens as an empty file *)
Theorem C81_folder_refuted : forall cwd s p k e, Tree s -> s cwd = Some Dir -> Names cwd p k -> s k = Some Dir -> ec_error e = false ->
  load_prop_ec cwd s p (Some e) = (Ok pn_empty, Some e).
Proof.
  intros cwd s p k e T W N K E. unfold load_prop_ec, load_string_ec, open_read, read_all. rewrite (names_stat cwd s p k T W N), K, E.
  vm_compute parse_prop. reflexivity.
Qed.
Print Assumptions C81_folder_refuted.
(* C81: saving *)
Lemma write_ok cwd s p k text : Tree s -> s cwd = Some Dir -> Names cwd p k -> Writable s k ->
  exists t, write_file cwd s p text = (true, t) /\ Only_at k (Some (File text)) s t /\ Tree t /\ t cwd = Some Dir.
Proof.
  intros T W N (D & a & c & -> & A). exists (Model.FileSystem.put (Model.FileSystem.put s (a ++ [c]) (File [])) (a ++ [c]) (File text)). split; [|split; [apply only_put|split]].
  - unfold write_file. rewrite (names_write cwd s p a c T W N), A. destruct (s (a ++ [c])) as [[|f]|]; [congruence|reflexivity|reflexivity].
  - apply tree_put; [apply tree_put; assumption| |].
    + rewrite put_other by apply snoc_neq. exact A.
    + rewrite put_same. discriminate.
  - assert (E : cwd <> a ++ [c]) by (intros ->; congruence). rewrite !put_other by exact E. exact W.
Qed.
Lemma write_fail cwd s p k text : Tree s -> s cwd = Some Dir -> Names cwd p k -> ~ Writable s k -> write_file cwd s p text = (false, s).
Proof.
  intros T W N K. destruct (names_key _ _ _ N) as (a & c & ->). unfold write_file. rewrite (names_write cwd s p a c T W N).
  destruct (s (a ++ [c])) as [[|f]|] eqn:E; [reflexivity| |].
  - exfalso. apply K. split; [congruence|]. exists a, c. split; [reflexivity|]. destruct T as [_ T]. exact (T _ _ _ E).
  - destruct (s a) as [[|f]|] eqn:A; [|reflexivity|reflexivity]. exfalso. apply K. split; [congruence|]. exists a, c. auto.
Qed.
Theorem C81_save_prop : forall cwd s p k pn readable, Tree s -> s cwd = Some Dir -> Names cwd p k ->
  (Writable s k -> exists t, save_prop_file cwd s pn p readable = (true, t) /\ Only_at k (Some (File (save_prop pn readable))) s t /\
     load_prop_ec cwd t p None = (load_prop (save_prop pn readable), None)) /\
  (~ Writable s k -> save_prop_file cwd s pn p readable = (false, s)).
Proof.
  intros cwd s p k pn readable T W N. split; [|apply write_fail; assumption]. intros K.
  destruct (write_ok cwd s p k (save_prop pn readable) T W N K) as (t & E & O & T' & W'). exists t. split; [exact E|]. split; [exact O|].
  destruct (C81_load_prop cwd t p k T' W' N) as [H _]. destruct O as [O _]. apply (H _ O).
Qed.
Print Assumptions C81_save_prop.
(* C81: saving and loading a file, with other files saved in between *)
Theorem C81_persist : forall cwd s p k a v c, Tree s -> s cwd = Some Dir -> Names cwd p k -> Writable s k ->
  SafeChildren c -> Neat (PN a [] c) -> Spec.Strings.fits (save_prop (PN a v c) true) ->
  exists s1 t, save_prop_file cwd s (PN a v c) p true = (true, s1) /\ Unmarked (PN a [] c) t /\
    load_prop_ec cwd s1 p None = (Ok t, None) /\
    forall q kq other readable b s2, Names cwd q kq -> kq <> k -> save_prop_file cwd s1 other q readable = (b, s2) -> load_prop_ec cwd s2 p None = (Ok t, None).
Proof.
  intros cwd s p k a v c T W N K SC NE F. destruct (C33_roundtrip a v c SC NE F) as (t & U & E).
  destruct (write_ok cwd s p k (save_prop (PN a v c) true) T W N K) as (s1 & E1 & O & T1 & W1). exists s1, t. split; [exact E1|]. split; [exact U|].
  destruct (C81_load_prop cwd s1 p k T1 W1 N) as [H _]. destruct O as [O O']. split; [rewrite (proj1 (H _ O)), E; reflexivity|].
  intros q kq other readable b s2 Nq D S2. assert (X : exists x, (x = kq \/ s2 = s1) /\ Tree s2 /\ s2 cwd = Some Dir /\ s2 k = s1 k).
  { exists kq. unfold save_prop_file in S2. destruct (names_key _ _ _ Nq) as (aq & cq & ->).
    assert (DEC : Writable s1 (aq ++ [cq]) \/ ~ Writable s1 (aq ++ [cq])).
    { destruct (s1 (aq ++ [cq])) as [[|f]|] eqn:X; [right; intros [Y _]; congruence| |];
      (destruct (s1 aq) as [[|g]|] eqn:Y; [left; split; [congruence|exists aq, cq; auto]|right; intros (_ & a' & c' & X' & Y'); apply app_inj_tail in X' as [-> _]; congruence..]). }
    destruct DEC as [WR|NW].
    - destruct (write_ok cwd s1 q _ (save_prop other readable) T1 W1 Nq WR) as (s2' & E2 & O2 & T2 & W2).
      rewrite E2 in S2. inversion S2; subst. split; [auto|]. split; [exact T2|]. split; [exact W2|]. apply O2. congruence.
    - rewrite (write_fail cwd s1 q _ _ T1 W1 Nq NW) in S2. inversion S2; subst. auto. }
  destruct X as (_ & _ & T2 & W2 & X). destruct (C81_load_prop cwd s2 p k T2 W2 N) as [H2 _]. rewrite (proj1 (H2 _ (eq_trans X O))), E. reflexivity.
Qed.
Print Assumptions C81_persist.
(* C81: the same for ini files; a failure to save is not reported *)
Theorem C81_ini : forall grow cwd s p k c, Tree s -> s cwd = Some Dir -> Names cwd p k ->
  (s k = None -> load_ini_file grow cwd s p = Throw) /\
  (Writable s k -> IniContents c -> Spec.Strings.fits (save_ini (ini_tree c)) ->
     exists t, load_ini_file grow cwd (save_ini_file cwd s (ini_tree c) p) p = Ok t /\ Spec.PropNode.Same t (ini_tree c)).
Proof.
  intros grow cwd s p k c T W N. split.
  - intros K. destruct (C81_load_string cwd s p k T W N) as [_ H]. unfold load_ini_file. rewrite (proj1 (H K)). reflexivity.
  - intros K I F. destruct (C36_roundtrip grow c I F) as (t & E & S). exists t. split; [|exact S].
    destruct (write_ok cwd s p k (save_ini (ini_tree c)) T W N K) as (s1 & E1 & O & T1 & W1). unfold save_ini_file. rewrite E1. cbn [snd].
    destruct (C81_load_string cwd s1 p k T1 W1 N) as [H _]. destruct O as [O _]. unfold load_ini_file. rewrite (H _ None O). exact E.
Qed.
Print Assumptions C81_ini.
Theorem C81_ini_saved_refuted : forall cwd s p k pn, Tree s -> s cwd = Some Dir -> Names cwd p k -> ~ Writable s k -> save_ini_file cwd s pn p = s.
Proof. intros cwd s p k pn T W N K. unfold save_ini_file. rewrite (write_fail cwd s p k _ T W N K). reflexivity. Qed.
Print Assumptions C81_ini_saved_refuted.
(* C81: load_file goes by the exact extension *)
Theorem C81_load_file : forall xml cwd s p e, extension p = Ok e ->
  (e = lit "xml" -> load_file xml cwd s p = xml p) /\ (e <> lit "xml" -> load_file xml cwd s p = fst (load_prop_ec cwd s p None)).
Proof.
  intros xml cwd s p e E. unfold load_file. rewrite E. cbn [bind]. unfold str_eqb. destruct (list_eq_dec ascii_dec e (lit "xml")); split; congruence.
Qed.
Print Assumptions C81_load_file.

Example C81_nonvacuous : exists t1 t2,
  save_prop_file home disk (PN false [] [(lit "x", pn_of (lit "1 2"))]) (lit "p.prop") true = (true, t1) /\
  load_prop_ec home t1 (lit "p.prop") None = (Ok (PN false [] [(lit "x", pn_of (lit "1 2"))]), None) /\
  load_prop_ec home t1 (lit "none.prop") (Some no_error) = (Ok pn_empty, Some (error (lit "Could not open none.prop"))) /\
  load_prop_ec home t1 (lit "p.prop") (Some (error (lit "Could not open none.prop"))) = (Ok pn_empty, Some (error (lit "Could not open none.prop"))) /\
  write_file home disk (lit "bad.prop") (lit "a { = }") = (true, t2) /\
  load_prop_ec home t2 (lit "bad.prop") (Some no_error) = (Throw, Some no_error).
Proof. do 2 eexists. do 5 (split; [vm_compute; reflexivity|]). vm_compute. reflexivity. Qed.
