(* C86-C88: XML files *)
From Coq Require Import String.
From Verif Require Import Model.Base Model.StdString Model.Strings Model.Path Model.PropTree Model.RapidXml Model.Xml Model.FileSystem Model.Persist
  Spec.Strings Spec.PropNode Spec.Xml Spec.FileSystem Proofs.RapidXmlProofs Proofs.XmlProofs Proofs.XmlSaveProofs Proofs.FileSystemProofs
  Props.FileSystem Props.Persist.
Local Open Scope Z_scope.
Local Open Scope list_scope.

(* C86: a document of the grammar is read as the tree it stands for *)
Theorem C86_parse : forall text n p, Document text n p -> load_xml_text text = Ok (PN false [] [(n, p)]).
Proof. intros text n p H. destruct (Document_roots text n p H) as (m & r & -> & M & R). apply (load_roots m r _ M R). Qed.
Print Assumptions C86_parse.
(* C86: so a text stands for one tree only *)
Theorem C86_unique : forall text n p n' p', Document text n p -> Document text n' p' -> n = n' /\ p = p'.
Proof. intros text n p n' p' H H'. apply C86_parse in H, H'. rewrite H in H'. injection H' as -> ->. auto. Qed.
Print Assumptions C86_unique.
(* C86: whatever the text, there is a tree or an exception *)
Theorem C86_total : forall text, load_xml_text text = Throw \/ exists p, load_xml_text text = Ok p.
Proof. apply load_total. Qed.
Print Assumptions C86_total.
(* C86: a document that stops inside its element is not accepted *)
Theorem C86_truncated : forall m a t1 t2 n p, m = [] \/ ByteOrderMark m -> Around a -> Element (t1 ++ t2) n p -> t1 <> [] -> t2 <> [] ->
  load_xml_text (m ++ a ++ t1) = Throw.
Proof. apply cut_element. Qed.
Print Assumptions C86_truncated.
(* C86: only the first of several elements is returned; without one the tree is
   empty *)
Theorem C86_one_root_refuted : forall m text l, m = [] \/ ByteOrderMark m -> Roots text l -> load_xml_text (m ++ text) = Ok (PN false [] (firstn 1 l)).
Proof. apply load_roots. Qed.
Print Assumptions C86_one_root_refuted.
(* C86: the name in an end tag does not matter *)
Theorem C86_end_tag_refuted : forall n t l c v cs n' w, ElementName n -> Attributes t l -> Content c v cs -> ElementName n' -> Blank w ->
  load_xml_text ("<"%char :: n ++ t ++ ">"%char :: c ++ Text "</" ++ n' ++ w ++ [">"%char]) = Ok (PN false [] [(n, PN false v (of_attributes l ++ cs))]).
Proof.
  intros n t l c v cs n' w N A C N' B. destruct (proj2 read_grammar c v cs C) as (FC & FV & xs & CX & P). destruct (Attributes_values t l A) as [FA VA].
  assert (F : free [zero] ("<"%char :: n ++ t ++ ">"%char :: c ++ Text "</" ++ n' ++ w ++ [">"%char])).
  { pose proof (name_free n N). pose proof (name_free n' N'). pose proof (Blank_free w B). constructor; [intros [X|[]]; discriminate|]. apply Forall_app. split; [assumption|]. apply Forall_app. split; [assumption|].
    constructor; [intros [X|[]]; discriminate|]. apply Forall_app. split; [assumption|]. repeat (apply Forall_app; split); try assumption; repeat constructor; intros [X|[]]; discriminate. }
  unfold load_xml_text. pose proof (parse_plain [] ("<"%char :: n ++ t ++ ">"%char :: c ++ Text "</" ++ n' ++ w ++ [">"%char]) (or_introl eq_refl) ltac:(right; eauto) F) as E. cbn [app] in E. rewrite E. clear E.
  rewrite pd_eq. assert (W : forall s, skip is_ws ("<"%char :: s) = "<"%char :: s) by reflexivity. rewrite W. cbn [Ascii.eqb Bool.eqb].
  remember (length (n ++ t ++ ">"%char :: c ++ Text "</" ++ n' ++ w ++ [">"%char])) as f eqn:EF.
  rewrite (node_head _ n t l ">" _ N A) by (right; left; reflexivity). unfold lit. cbn [RapidXml.strip list_ascii_of_string Ascii.eqb Bool.eqb]. destruct N' as (_ & FN & _).
  specialize (P n' w [] [] [] f FN B ltac:(rewrite EF; repeat (rewrite ?app_length; cbn [length Text list_ascii_of_string]); destruct N as [NN _]; destruct n; [contradiction|cbn [length]; lia])).
  cbn [app Text list_ascii_of_string] in *. rewrite P. cbn [bind app]. rewrite pd_nil. cbn [bind x_name get_rapid_xml_node]. rewrite VA, (cstr_free n (name_free n N)).
  assert (UV : updated [] v = v) by (unfold updated; cbn; destruct v; reflexivity). rewrite UV, (cstr_free v FV). rewrite <- CX. reflexivity.
Qed.
Print Assumptions C86_end_tag_refuted.
(* C86: CDATA is dropped, of several pieces of text only the first is kept, and
   an ampersand needs no escape *)
Theorem C86_text_refuted :
  load_xml_text (lit "<a><![CDATA[x]]></a>") = Ok (PN false [] [(lit "a", PN false [] [])]) /\
  load_xml_text (lit "<a>x<b/>y</a>") = Ok (PN false [] [(lit "a", PN false (lit "x") [(lit "b", PN false [] [])])]) /\
  load_xml_text (lit "<a>x & y &amp z</a>") = Ok (PN false [] [(lit "a", PN false (lit "x & y &amp z") [])]).
Proof. split; [|split]; vm_compute; reflexivity. Qed.
Print Assumptions C86_text_refuted.

(* a document with everything in it *)
Ltac ends := intros l r H; repeat (destruct l as [|? l]; [cbn in H; try discriminate; injection H; intros; subst; reflexivity|cbn in H; first [discriminate|injection H as _ H]]).
Ltac not_in := let H := fresh in intros H; cbn in H; intuition discriminate.
Ltac freely := repeat (constructor; [not_in|]); constructor.
Definition sample : str := lit "<?xml version='1.0'?> <a b='&lt;&#65;'> <!-- - --> <d>x &amp; &#x20AC;</d ></a>".
Definition sample_tree : pnode := PN false [] [(lit "b", PN false (lit "<A") []); (lit "d", PN false (lit "x & " ++ ["226"; "130"; "172"]%char) [])].
Lemma sample_name s : free (zero :: "/" :: ">" :: "?" :: blank_chars)%char s -> s <> [] -> hd_error s <> Some "!"%char -> ElementName s.
Proof. intros F N H. split; [exact N|]. split; [exact F|]. intros r ->. apply H. reflexivity. Qed.
Example C86_doctype_case : Document (lit "<!DOCTYPE a [<!E x '[y]'>]><a/>") (lit "a") (PN false [] []).
Proof.
  assert (B0 : Blank []) by constructor. apply (Document_intro [] (lit "<!DOCTYPE a [<!E x '[y]'>]>") (lit "<a/>") (lit "a") (PN false [] []) []); [left; reflexivity| | |constructor; exact B0].
  - apply (Around_misc [] (lit "<!DOCTYPE a [<!E x '[y]'>]>") []); [exact B0| |constructor; exact B0]. apply (Misc_doctype " "%char (lit "a [<!E x '[y]'>]")); [left; reflexivity|].
    do 2 (apply Doctype_char; [not_in|]). apply (Doctype_subset (lit "<!E x '[y]'>") []); [|constructor]. do 7 (apply Subset_char; [not_in|]). apply (Subset_nest (lit "y") (lit "'>")); repeat (apply Subset_char; [not_in|]); constructor.
  - apply (Element_empty (lit "a") [] []); [apply sample_name; [freely|discriminate|discriminate]|constructor; exact B0].
Qed.
Example C86_nonvacuous : Document sample (lit "a") sample_tree.
Proof.
  assert (B1 : Blank (lit " ")) by (constructor; [left; reflexivity|constructor]). assert (B0 : Blank []) by constructor.
  assert (NA : ElementName (lit "a")) by (apply sample_name; [freely|discriminate|discriminate]). assert (ND : ElementName (lit "d")) by (apply sample_name; [freely|discriminate|discriminate]).
  pose (decl := Text "<?" ++ lit "xml version='1.0'" ++ Text "?>"). assert (M1 : Misc decl) by (constructor; [freely|ends]).
  pose (comment := Text "<!--" ++ lit " - " ++ Text "-->"). assert (M2 : Misc comment) by (constructor; [freely|ends]).
  assert (EA : Encodes ["'"%char] (lit "&lt;&#65;") (lit "<A")).
  { apply (Enc_ref _ _ _ _ _ Ref_lt). apply (Enc_ref _ (lit "&#65;") (lit "A") [] []); [|constructor]. apply (Ref_dec (lit "65") 65 (lit "A")); [discriminate| |lia|constructor; [lia|reflexivity]].
    apply (Number_digit 10 (lit "6") 6 "5"%char 5); [apply (Number_digit 10 [] 0 "6"%char 6); [constructor|]|]; constructor; try lia; reflexivity. }
  assert (AT : Attributes (lit " b='&lt;&#65;'") [(lit "b", lit "<A")]).
  { apply (Attr_more (lit " ") (lit "b") [] [] "'"%char (lit "&lt;&#65;") (lit "<A") [] []); try assumption; [discriminate|split; [discriminate|freely]|left; reflexivity|constructor; exact B0]. }
  assert (ED : Encodes ["<"%char] (lit "x &amp; &#x20AC;") (lit "x & " ++ ["226"; "130"; "172"]%char)).
  { apply Enc_char; try discriminate; [not_in|]. apply Enc_char; try discriminate; [not_in|]. apply (Enc_ref _ _ _ _ _ Ref_amp). apply Enc_char; try discriminate; [not_in|].
    apply (Enc_ref _ (lit "&#x20AC;") ["226"; "130"; "172"]%char [] []); [|constructor]. apply (Ref_hex (lit "20AC") 8364); [discriminate| |lia|constructor; [lia|reflexivity|reflexivity|reflexivity]].
    apply (Number_digit 16 (lit "20A") 522 "C"%char 12); [apply (Number_digit 16 (lit "20") 32 "A"%char 10); [apply (Number_digit 16 (lit "2") 2 "0"%char 0); [apply (Number_digit 16 [] 0 "2"%char 2); [constructor|]|]|]|].
    - constructor; try lia; reflexivity.
    - constructor; try lia; reflexivity.
    - apply Digit_upper; try lia; reflexivity.
    - apply Digit_upper; try lia; reflexivity. }
  assert (D : Element (lit "<d>x &amp; &#x20AC;</d >") (lit "d") (PN false (lit "x & " ++ ["226"; "130"; "172"]%char) [])).
  { apply (Element_full (lit "d") [] [] (lit "x &amp; &#x20AC;") _ [] (lit " ") ND (Attr_none [] B0)); [|exact B1].
    apply (Content_text (lit "x &amp; &#x20AC;") _ [] [] []); [exact ED| |left; reflexivity|constructor; exact B0]. intros X. inversion X as [|? ? I]. cbn in I. intuition discriminate. }
  assert (C : Content (lit " " ++ comment ++ lit " " ++ lit "<d>x &amp; &#x20AC;</d >" ++ []) [] [(lit "d", PN false (lit "x & " ++ ["226"; "130"; "172"]%char) [])]).
  { apply Content_misc; [exact B1|exact M2|]. apply Content_element; [exact B1|exact D|constructor; exact B0]. }
  pose proof (Element_full (lit "a") _ _ _ _ _ [] NA AT C B0) as A.
  exact (Document_intro [] (lit "" ++ decl ++ lit " ") _ _ _ [] (or_introl eq_refl) (Around_misc _ _ _ B0 M1 (Around_none _ B1)) A (Around_none _ B0)).
Qed.
Example C86_nonvacuous_loaded : load_xml_text sample = Ok (PN false [] [(lit "a", sample_tree)]).
Proof. vm_compute. reflexivity. Qed.

(* C87: what is left of a tree after it was saved and loaded *)
Theorem C87_save_load : forall a v cs cs', Forall2 (fun x y => ElementName (fst x) /\ fst x = fst y /\ Saved (snd x) (snd y)) cs cs' ->
  load_xml_text (save_xml_text (PN a v cs)) = Ok (PN false [] (firstn 1 cs')).
Proof. apply save_load. Qed.
Print Assumptions C87_save_load.
(* C87: every tree with names as keys can be loaded again *)
Theorem C87_loads : forall a v cs, Named (PN a v cs) -> exists cs', length cs' = length cs /\ load_xml_text (save_xml_text (PN a v cs)) = Ok (PN false [] (firstn 1 cs')).
Proof.
  intros a v cs H. inversion H as [? ? ? F]; subst. destruct (SavedAll_total cs F) as [cs' S']. exists cs'. split; [|apply save_load; exact S']. clear -S'. induction S' as [|? ? ? ? _ _ IH]; [reflexivity|cbn [length]; rewrite IH; reflexivity].
Qed.
Print Assumptions C87_loads.
(* C87: with one root, exactly the lossless trees come back *)
Theorem C87_roundtrip : forall a n p, ElementName n -> Named p ->
  ((exists q, load_xml_text (save_xml_text (PN a [] [(n, p)])) = Ok q /\ Spec.PropNode.Same (PN a [] [(n, p)]) q) <-> Lossless p).
Proof.
  intros a n p N H. destruct (Saved_total p H) as [p' P]. pose proof (save_load a [] [(n, p)] [(n, p')] ltac:(constructor; [auto|constructor])) as E. rewrite E. cbn [firstn]. split.
  - intros (q & X & Y). injection X as <-. inversion Y as [? ? ? ? ? F]; subst. inversion F as [|? ? ? ? [_ G] _]; subst. cbn [snd] in G. apply (Saved_same p p' P). exact G.
  - intros L. eexists. split; [reflexivity|]. constructor. constructor; [|constructor]. split; [reflexivity|]. cbn [snd]. apply (Saved_same p p' P). exact L.
Qed.
Print Assumptions C87_roundtrip.
(* C87: the other roots and the value of the root are lost *)
Theorem C87_other_roots_refuted : forall a v n p x cs, Named (PN a v ((n, p) :: x :: cs)) ->
  exists q, load_xml_text (save_xml_text (PN a v ((n, p) :: x :: cs))) = Ok q /\ ~ Spec.PropNode.Same (PN a v ((n, p) :: x :: cs)) q /\ pn_value q = [] /\ length (pn_children q) = 1%nat.
Proof.
  intros a v n p x cs H. destruct (C87_loads a v _ H) as (cs' & L & E). eexists. split; [exact E|]. destruct cs' as [|y [|y' cs']]; try discriminate. cbn [firstn]. split; [|split; reflexivity].
  intros Y. inversion Y as [? ? ? ? ? F]; subst. inversion F as [|? ? ? ? _ G]; subst. inversion G.
Qed.
Print Assumptions C87_other_roots_refuted.
(* C87: the value of a node with children is lost *)
Theorem C87_inner_value_refuted : forall a n b v x cs, ElementName n -> Named (PN b v (x :: cs)) -> v <> [] ->
  exists n' q, load_xml_text (save_xml_text (PN a [] [(n, PN b v (x :: cs))])) = Ok (PN false [] [(n', q)]) /\ pn_value q = [].
Proof.
  intros a n b v x cs N H NV. destruct (Saved_total _ H) as [p' P]. pose proof (save_load a [] [(n, PN b v (x :: cs))] [(n, p')] ltac:(constructor; [auto|constructor])) as E. exists n, p'. split; [exact E|].
  inversion P; subst. reflexivity.
Qed.
Print Assumptions C87_inner_value_refuted.
(* C87: keys are written as they are: a blank makes a file that does not load, or
   one with an attribute; an empty key does not load *)
Theorem C87_keys_refuted :
  load_xml_text (save_xml_text (PN false [] [(lit "a b", pn_of (lit "1"))])) = Throw /\
  load_xml_text (save_xml_text (PN false [] [(lit "a b='2'", pn_empty)])) = Ok (PN false [] [(lit "a", PN false [] [(lit "b", pn_of (lit "2"))])]) /\
  load_xml_text (save_xml_text (PN false [] [([], pn_of (lit "1"))])) = Throw.
Proof. split; [|split]; vm_compute; reflexivity. Qed.
Print Assumptions C87_keys_refuted.
Definition to_save : pnode := PN true [] [(lit "model", PN false [] [(lit "name", pn_of (lit "a<b> & 'c'")); (lit "empty", pn_of []); (lit "part", PN true [] [(lit "x", pn_of (lit " 1 "))])])].
Example C87_nonvacuous :
  save_xml_text to_save = lit "<model>" ++ [LF] ++ [TAB] ++ lit "<name>a&lt;b&gt; &amp; &apos;c&apos;</name>" ++ [LF] ++ [TAB] ++ lit "<empty/>" ++ [LF] ++ [TAB] ++ lit "<part>" ++ [LF] ++ [TAB; TAB] ++
    lit "<x> 1 </x>" ++ [LF] ++ [TAB] ++ lit "</part>" ++ [LF] ++ lit "</model>" ++ [LF; LF] /\
  (forall p, snd (hd ([], pn_empty) (pn_children to_save)) = p -> Named p /\ Lossless p) /\
  load_xml_text (save_xml_text to_save) = Ok (PN false [] [(lit "model", PN false [] [(lit "name", pn_of (lit "a<b> & 'c'")); (lit "empty", pn_of []); (lit "part", PN false [] [(lit "x", pn_of (lit " 1 "))])])]).
Proof.
  split; [vm_compute; reflexivity|]. split; [|vm_compute; reflexivity]. intros p <-. cbn [to_save pn_children hd snd].
  split.
  - repeat (first [apply Named_intro|apply Forall_nil|apply Forall_cons; [split; [apply sample_name; [freely|discriminate|discriminate]|]|]]).
  - apply Lossless_inner. repeat (first [apply Forall_nil|apply Forall_cons; cbn [snd]]).
    + apply Lossless_leaf. right. split; [freely|]. intros X. inversion X as [|? ? I]. cbn in I. intuition discriminate.
    + apply Lossless_leaf. left. reflexivity.
    + apply Lossless_inner. constructor; [|constructor]. apply Lossless_leaf. right. split; [freely|]. intros X. inversion X as [|? ? _ Y]. inversion Y as [|? ? I]. cbn in I. intuition discriminate.
Qed.

(* C88: a file that is there *)
Theorem C88_load_xml : forall what cwd s p k x, Tree s -> s cwd = Some Dir -> Names cwd p k -> s k = Some (File x) ->
  load_xml what cwd s p None = (load_xml_text x, None) /\
  (forall e, ec_error e = false -> forall q, load_xml_text x = Ok q -> load_xml what cwd s p (Some e) = (Ok q, Some e)) /\
  (forall e, ec_error e = false -> load_xml_text x = Throw ->
     exists e', load_xml what cwd s p (Some e) = (Ok pn_empty, Some e') /\ ec_error e' = true /\ ec_message e' = what).
Proof.
  intros what cwd s p k x T W N K. destruct (C81_load_string cwd s p k T W N) as [H _]. unfold load_xml. split; [|split].
  - rewrite (H x None K). destruct (load_xml_text x); reflexivity.
  - intros e E q Q. rewrite (H x (Some e) K), E, Q. reflexivity.
  - intros e E Q. rewrite (H x (Some e) K), E, Q. cbn [try_set_error]. eexists. split; [reflexivity|]. split; reflexivity.
Qed.
Print Assumptions C88_load_xml.
(* C88: a file that is not there *)
Theorem C88_missing : forall what cwd s p k, Tree s -> s cwd = Some Dir -> Names cwd p k -> s k = None ->
  load_xml what cwd s p None = (Throw, None) /\
  forall e, exists e', load_xml what cwd s p (Some e) = (Ok pn_empty, Some e') /\ ec_error e' = true /\ ec_message e' = lit "Could not open " ++ p.
Proof.
  intros what cwd s p k T W N K. destruct (C81_load_string cwd s p k T W N) as [_ H]. destruct (H K) as [H1 H2]. unfold load_xml. split; [rewrite H1; reflexivity|].
  intros e. destruct (H2 e) as (e' & -> & E & _ & M). exists e'. rewrite E. auto.
Qed.
Print Assumptions C88_missing.
(* C88: with an error code nothing is thrown, unlike load_prop (C81) *)
Theorem C88_no_throw : forall what cwd s p e, exists q e', load_xml what cwd s p (Some e) = (Ok q, Some e').
Proof.
  intros what cwd s p e. unfold load_xml, load_string_ec. destruct (open_read cwd s p); cbn [try_set_error].
  - destruct (ec_error e); [eauto|]. destruct (C86_total (read_all cwd s p)) as [->|[q ->]]; cbn [try_set_error]; eauto.
  - cbn. eauto.
Qed.
Print Assumptions C88_no_throw.
(* C88: an error left in the code hides the file *)
Theorem C88_stale_error_refuted : forall what cwd s p e, ec_error e = true -> exists e', load_xml what cwd s p (Some e) = (Ok pn_empty, Some e') /\ ec_error e' = true.
Proof.
  intros what cwd s p e E. unfold load_xml, load_string_ec. destruct (open_read cwd s p); cbn [try_set_error]; [rewrite E; eauto|]. eexists. split; reflexivity.
Qed.
Print Assumptions C88_stale_error_refuted.
(* C88: saving changes this file only; when the file cannot be written, nothing
   happens and nothing is reported *)
Theorem C88_save_xml : forall cwd s p k pn, Tree s -> s cwd = Some Dir -> Names cwd p k ->
  (Writable s k -> Only_at k (Some (File (save_xml_text pn))) s (save_xml cwd s pn p) /\
     forall what, load_xml what cwd (save_xml cwd s pn p) p None = (load_xml_text (save_xml_text pn), None)) /\
  (~ Writable s k -> save_xml cwd s pn p = s).
Proof.
  intros cwd s p k pn T W N. unfold save_xml. split.
  - intros K. destruct (write_ok cwd s p k (save_xml_text pn) T W N K) as (t & -> & O & T' & W'). cbn [snd]. split; [exact O|]. intros what.
    apply (C88_load_xml what cwd t p k _ T' W' N). destruct O as [O _]. exact O.
  - intros K. rewrite (write_fail cwd s p k _ T W N K). reflexivity.
Qed.
Print Assumptions C88_save_xml.
Lemma Writable_dec s a c : Writable s (a ++ [c]) \/ ~ Writable s (a ++ [c]).
Proof.
  destruct (s (a ++ [c])) as [[|f]|] eqn:X; [right; intros [Y _]; congruence| |];
    (destruct (s a) as [[|g]|] eqn:Y; [left; split; [congruence|exists a, c; auto]|right; intros (_ & a' & c' & X' & Y'); apply app_inj_tail in X' as [-> _]; congruence..]).
Qed.
(* C88: save, save something else elsewhere, load *)
Theorem C88_persist : forall what cwd s p k a n t, Tree s -> s cwd = Some Dir -> Names cwd p k -> Writable s k -> ElementName n -> Named t -> Lossless t ->
  exists q, Spec.PropNode.Same (PN a [] [(n, t)]) q /\ load_xml what cwd (save_xml cwd s (PN a [] [(n, t)]) p) p None = (Ok q, None) /\
    forall p2 k2 other, Names cwd p2 k2 -> k2 <> k -> load_xml what cwd (save_xml cwd (save_xml cwd s (PN a [] [(n, t)]) p) other p2) p None = (Ok q, None).
Proof.
  intros what cwd s p k a n t T W N K EN NT L. destruct (proj2 (C87_roundtrip a n t EN NT) L) as (q & Q & Sm). exists q. split; [exact Sm|].
  unfold save_xml. destruct (write_ok cwd s p k (save_xml_text (PN a [] [(n, t)])) T W N K) as (s1 & -> & O & T1 & W1). cbn [snd].
  assert (K1 : s1 k = Some (File (save_xml_text (PN a [] [(n, t)])))) by (destruct O as [O _]; exact O).
  split; [rewrite <- Q; apply (C88_load_xml what cwd s1 p k _ T1 W1 N K1)|]. intros p2 k2 other N2 NE.
  destruct (write_file cwd s1 p2 (save_xml_text other)) as [b s2] eqn:E2. cbn [snd].
  assert (G : Tree s2 /\ s2 cwd = Some Dir /\ s2 k = s1 k).
  { destruct (names_key _ _ _ N2) as (d & c & ->).
    destruct (Writable_dec s1 d c) as [WR|NW].
    - destruct (write_ok cwd s1 p2 _ (save_xml_text other) T1 W1 N2 WR) as (t2 & E & O2 & T2 & W2). rewrite E in E2. injection E2 as <- <-. split; [exact T2|]. split; [exact W2|]. destruct O2 as [_ O2]. apply O2. congruence.
    - rewrite (write_fail cwd s1 p2 _ _ T1 W1 N2 NW) in E2. injection E2 as <- <-. auto. }
  destruct G as (T2 & W2 & K2). rewrite <- Q. apply (C88_load_xml what cwd s2 p k _ T2 W2 N). rewrite K2. exact K1.
Qed.
Print Assumptions C88_persist.
(* C88: load_file with this load_xml *)
Theorem C88_load_file : forall what cwd s p e, extension p = Ok e ->
  load_file (fun q => fst (load_xml what cwd s q None)) cwd s p = (if list_eq_dec ascii_dec e (lit "xml") then fst (load_xml what cwd s p None) else fst (load_prop_ec cwd s p None)).
Proof.
  intros what cwd s p e E. destruct (C81_load_file (fun q => fst (load_xml what cwd s q None)) cwd s p e E) as [H1 H2]. destruct (list_eq_dec ascii_dec e (lit "xml")); [apply H1|apply H2]; assumption.
Qed.
Print Assumptions C88_load_file.
Example C88_nonvacuous :
  let t1 := save_xml home disk to_save (lit "m.xml") in
  let t2 := snd (write_file home disk (lit "bad.xml") (lit "<a>")) in
  load_xml [] home t1 (lit "m.xml") None = (load_xml_text (save_xml_text to_save), None) /\
  load_xml (lit "expected <") home t2 (lit "bad.xml") None = (Throw, None) /\
  load_xml (lit "expected <") home t2 (lit "bad.xml") (Some no_error) = (Ok pn_empty, Some (error (lit "expected <"))) /\
  load_xml [] home disk (lit "m.xml") (Some no_error) = (Ok pn_empty, Some (error (lit "Could not open m.xml"))).
Proof. split; [vm_compute; reflexivity|]. split; [vm_compute; reflexivity|]. split; vm_compute; reflexivity. Qed.
