(* documents, saving, and documents that were cut off *)
From Coq Require Import String.
From Verif Require Import Model.Base Model.StdString Model.Strings Model.PropTree Model.RapidXml Model.Xml Spec.Strings Spec.PropNode Spec.Xml Proofs.RapidXmlProofs Proofs.XmlProofs.
Local Open Scope Z_scope.
Local Open Scope list_scope.

(* documents *)
Lemma pd_misc t s l : Misc t -> pd (t ++ s) l = pd s l.
Proof.
  intros H. destruct (read_misc t H) as (t' & c & -> & _ & _ & _ & P). rewrite pd_eq. cbn [app]. assert (W : forall s, skip is_ws ("<"%char :: s) = "<"%char :: s) by reflexivity. rewrite W.
  cbn [Ascii.eqb Bool.eqb]. rewrite P. cbn [bind]. rewrite app_nil_r. reflexivity.
Qed.
Lemma pd_around a s l : Around a -> pd (a ++ s) l = pd s l.
Proof.
  induction 1 as [w B|w t rest B M H IH]; [apply pd_blank; exact B|]. rewrite <- !app_assoc. rewrite pd_blank by exact B. rewrite pd_misc by exact M. exact IH.
Qed.
Lemma pd_element t n p : Element t n p -> exists x, x_name x = n /\ get_rapid_xml_node x = p /\ forall s l, pd (t ++ s) l = pd s (l ++ [x]).
Proof.
  intros H. destruct (proj1 read_grammar t n p H) as (_ & _ & t' & c & x & -> & _ & _ & XN & XP & P). exists x. split; [exact XN|]. split; [exact XP|]. intros s l.
  rewrite pd_eq. cbn [app]. assert (W : forall s, skip is_ws ("<"%char :: s) = "<"%char :: s) by reflexivity. rewrite W. cbn [Ascii.eqb Bool.eqb]. rewrite P by lia. reflexivity.
Qed.
Lemma pd_nil l : pd [] l = Ok l.
Proof. reflexivity. Qed.
Lemma pd_roots s l : Roots s l -> exists xs, map (fun x => (x_name x, get_rapid_xml_node x)) xs = l /\ forall k, pd s k = Ok (k ++ xs).
Proof.
  induction 1 as [a A|a t n p rest l A E R (xs & M & P)].
  - exists []. split; [reflexivity|]. intros k. rewrite <- (app_nil_r a), pd_around by exact A. rewrite app_nil_r. apply pd_nil.
  - destruct (pd_element t n p E) as (x & XN & XP & PE). exists (x :: xs). split; [cbn [map]; rewrite XN, XP, M; reflexivity|]. intros k.
    rewrite pd_around by exact A. rewrite PE, P, <- app_assoc. reflexivity.
Qed.
Lemma Misc_free t : Misc t -> free [zero] t.
Proof. intros H. destruct (read_misc t H) as (? & ? & _ & F & _). exact F. Qed.
Lemma Around_free a : Around a -> free [zero] a.
Proof. induction 1 as [w B|w t rest B M H IH]; [apply Blank_free; exact B|]. repeat (apply Forall_app; split); [apply Blank_free; exact B|apply Misc_free; exact M|exact IH]. Qed.
Lemma Roots_free s l : Roots s l -> free [zero] s.
Proof.
  induction 1 as [a A|a t n p rest l A E R IH]; [apply Around_free; exact A|]. repeat (apply Forall_app; split); [apply Around_free; exact A| |exact IH].
  apply (proj1 (proj2 (proj1 read_grammar t n p E))).
Qed.
(* no byte order mark *)
Definition Plain (s : str) : Prop := s = [] \/ exists c r, s = c :: r /\ (c = "<"%char \/ In c blank_chars).
Lemma Plain_blank w s : Blank w -> Plain s -> Plain (w ++ s).
Proof. intros [|c w' I B] P; [exact P|]. right. cbn [app]. eauto. Qed.
Lemma Plain_around a s : Around a -> Plain s -> Plain (a ++ s).
Proof.
  intros [w B|w t rest B M H] P; [apply Plain_blank; assumption|]. rewrite <- !app_assoc. apply Plain_blank; [exact B|].
  destruct (read_misc t M) as (t' & c & -> & _). right. cbn [app]. eauto.
Qed.
Lemma Plain_element t n p s : Element t n p -> Plain (t ++ s).
Proof. intros H. destruct (proj1 read_grammar t n p H) as (_ & _ & t' & c & x & -> & _). right. cbn [app]. eauto. Qed.
Lemma Plain_roots s l : Roots s l -> Plain s.
Proof.
  intros [a A|a t n p rest l' A E R]; [rewrite <- (app_nil_r a); apply Plain_around; [exact A|left; reflexivity]|]. apply Plain_around; [exact A|]. eapply Plain_element. exact E.
Qed.
Lemma Plain_bom s : Plain s -> parse_bom s = s.
Proof.
  intros [->|(c & r & -> & C)]; [reflexivity|]. unfold parse_bom, bom. cbn [strip]. assert (E : Ascii.eqb (byte 239) c = false) by (destruct C as [->|C]; [reflexivity|cbn in C; intuition (subst; reflexivity)]).
  rewrite E. reflexivity.
Qed.
Lemma bom_mark m s : ByteOrderMark m -> parse_bom (m ++ s) = s.
Proof.
  intros (a & b & c & -> & A & B & C). apply byte_Byte in A, B, C; try lia. subst. unfold parse_bom. change ([byte 239; byte 187; byte 191] ++ s) with (bom ++ s). rewrite strip_app. reflexivity.
Qed.
Lemma bom_free m : ByteOrderMark m -> free [zero] m.
Proof.
  intros (a & b & c & -> & A & B & C). repeat (constructor; [intros [X|[]]; symmetry in X; revert X; eapply Byte_not_zero; [eassumption|lia]|]). constructor.
Qed.
Lemma parse_plain m s : m = [] \/ ByteOrderMark m -> Plain s -> free [zero] s -> parse (m ++ s) = pd s [].
Proof.
  intros M P F. unfold parse. assert (FM : free [zero] m) by (destruct M as [->|M]; [constructor|apply bom_free; exact M]). rewrite cstr_free by (apply Forall_app; auto).
  assert (E : parse_bom (m ++ s) = s) by (destruct M as [->|M]; [apply Plain_bom; exact P|apply bom_mark; exact M]). rewrite E. reflexivity.
Qed.
Lemma load_roots m s l : m = [] \/ ByteOrderMark m -> Roots s l -> load_xml_text (m ++ s) = Ok (PN false [] (firstn 1 l)).
Proof.
  intros M R. unfold load_xml_text. rewrite (parse_plain m s M (Plain_roots s l R) (Roots_free s l R)). destruct (pd_roots s l R) as (xs & E & P). rewrite P. cbn [bind app].
  assert (N : Forall (fun x => free [zero] (fst x)) l).
  { clear -R. induction R as [a A|a t n p rest l A E R IH]; constructor; [|exact IH]. apply name_free. apply (proj1 (proj1 read_grammar t n p E)). }
  destruct xs as [|x xs]; subst l; [reflexivity|]. cbn [map firstn]. inversion N; subst. cbn [fst] in *. rewrite cstr_free by assumption. reflexivity.
Qed.
Lemma Document_roots s n p : Document s n p -> exists m r, s = m ++ r /\ (m = [] \/ ByteOrderMark m) /\ Roots r [(n, p)].
Proof. intros [m a t n' p' b M A E B]. exists m, (a ++ t ++ b). split; [reflexivity|]. split; [exact M|]. constructor; [exact A|exact E|]. constructor. exact B. Qed.
Lemma load_total text : load_xml_text text = Throw \/ exists p, load_xml_text text = Ok p.
Proof.
  unfold load_xml_text, parse. destruct (pd_total _ (parse_bom (cstr text)) [] (Nat.le_refl _)) as [E|[l E]]; unfold pd in E; rewrite E; cbn [bind]; [left; reflexivity|]. right. destruct l; eauto.
Qed.

(* saving *)
Lemma expand_encoded u : free [zero] u -> Encodes ["<"%char] (expand_chars u) u.
Proof.
  induction 1 as [|c u N F IH]; [constructor|]. unfold expand_chars. cbn [flat_map]. fold (expand_chars u). unfold expand_char.
  destruct (Ascii.eqb c "<") eqn:E1; [apply Ascii.eqb_eq in E1; subst; apply (Enc_ref _ _ _ _ _ Ref_lt IH)|].
  destruct (Ascii.eqb c ">") eqn:E2; [apply Ascii.eqb_eq in E2; subst; apply (Enc_ref _ _ _ _ _ Ref_gt IH)|].
  destruct (Ascii.eqb c "'") eqn:E3; [apply Ascii.eqb_eq in E3; subst; apply (Enc_ref _ _ _ _ _ Ref_apos IH)|].
  destruct (Ascii.eqb c QUOTE) eqn:E4; [apply Ascii.eqb_eq in E4; subst; apply (Enc_ref _ _ _ _ _ Ref_quot IH)|].
  destruct (Ascii.eqb c "&") eqn:E5; [apply Ascii.eqb_eq in E5; subst; apply (Enc_ref _ _ _ _ _ Ref_amp IH)|].
  apply Ascii.eqb_neq in E1, E5. cbn [app]. constructor; [exact E5|intros ->; apply N; left; reflexivity|intros [X|[]]; congruence|exact IH].
Qed.
Lemma expand_blank u : Blank u -> expand_chars u = u.
Proof. induction 1 as [|c u I B IH]; [reflexivity|]. unfold expand_chars. cbn [flat_map]. fold (expand_chars u). rewrite IH. cbn in I. intuition (subst; reflexivity). Qed.
Lemma expand_not_blank u : ~ Blank u -> ~ Blank (expand_chars u).
Proof.
  intros N B. apply N. clear N. induction u as [|c u IH]; [constructor|]. unfold expand_chars in B. cbn [flat_map] in B. fold (expand_chars u) in B. apply Forall_app in B. destruct B as [B1 B2].
  constructor; [|apply IH; exact B2]. unfold expand_char in B1.
  destruct (Ascii.eqb c "<"); [inversion B1 as [|? ? X]; cbn in X; intuition discriminate|]. destruct (Ascii.eqb c ">"); [inversion B1 as [|? ? X]; cbn in X; intuition discriminate|].
  destruct (Ascii.eqb c "'"); [inversion B1 as [|? ? X]; cbn in X; intuition discriminate|]. destruct (Ascii.eqb c QUOTE); [inversion B1 as [|? ? X]; cbn in X; intuition discriminate|].
  destruct (Ascii.eqb c "&"); [inversion B1 as [|? ? X]; cbn in X; intuition discriminate|]. inversion B1; subst. assumption.
Qed.
Lemma cstr_cut u w : free [zero] u -> (w = [] \/ exists r, w = zero :: r) -> cstr (u ++ w) = u.
Proof.
  intros F W. induction F as [|c u N F IH]; cbn [app].
  - destruct W as [->|[r ->]]; reflexivity.
  - cbn [cstr]. destruct (Ascii.eqb c NUL) eqn:E; [apply Ascii.eqb_eq in E; subst; exfalso; apply N; left; reflexivity|]. rewrite IH. reflexivity.
Qed.
Lemma tabs_blank i : Blank (repeat TAB i).
Proof. induction i; constructor; [right; left; reflexivity|assumption]. Qed.
Lemma Content_front w c v cs : Blank w -> Content c v cs -> v = [] -> Content (w ++ c) v cs.
Proof.
  intros B H E. destruct H as [w' B'|w' t n p rest v cs B' HE HR|w' t rest v cs B' M HR|t v rest v' cs E' N R HR].
  - constructor. apply Forall_app. auto.
  - rewrite app_assoc. constructor; try assumption. apply Forall_app. auto.
  - rewrite app_assoc. constructor; try assumption. apply Forall_app. auto.
  - exfalso. destruct (Encodes_text _ _ _ E') as (_ & NV & _). apply NV; [|exact E]. intros ->. apply N. constructor.
Qed.
Definition printed (i : nat) (n : str) (p : pnode) : str := print_node i (set_rapid_xml_node n p).
Definition Printed (n : str) (p p' : pnode) : Prop := forall i, exists t, printed i n p = repeat TAB i ++ t ++ [LF] /\ Element t n p'.
Lemma printed_children cs cs' : Forall2 (fun x y => fst x = fst y /\ Printed (fst x) (snd x) (snd y)) cs cs' -> forall i w w', Blank w -> Blank w' ->
  Content (w ++ flat_map (fun c => printed i (fst c) (snd c)) cs ++ w') [] cs'.
Proof.
  induction 1 as [|[n p] [n' p'] cs cs' [E P] F IH]; intros i w w' B B'.
  - cbn [flat_map app]. constructor. apply Forall_app. auto.
  - cbn [fst snd] in *. subst n'. destruct (P i) as (t & ET & HE). cbn [flat_map fst snd]. rewrite ET, <- !app_assoc. rewrite (app_assoc w). apply Content_element; [apply Forall_app; split; [exact B|apply tabs_blank]|exact HE|].
    apply (IH i [LF] w'); [constructor; [right; right; left; reflexivity|constructor]|exact B'].
Qed.
Lemma printed_element n p p' : ElementName n -> Saved p p' -> Printed n p p'.
Proof.
  revert n p'. induction p as [a v cs IH] using pnode_rect'. intros n p' N H i. unfold printed. cbn [set_rapid_xml_node]. rewrite (cstr_free n (name_free n N)).
  assert (A0 : Attributes [] []) by (constructor; constructor). inversion H as [? ? v' K|? ? kc c c' F]; subst.
  - cbn [map print_node].
    assert (G : exists u, cstr v = u /\ free [zero] u /\ ((Blank u /\ v' = []) \/ (~ Blank u /\ v' = u))).
    { destruct K as [u w B W|u w FU NB W]; exists u.
      - split; [apply cstr_cut; [apply Blank_free; exact B|exact W]|]. split; [apply Blank_free; exact B|]. left. auto.
      - split; [apply cstr_cut; assumption|]. auto. }
    destruct G as (u & -> & FU & G).
    assert (L : forall x w, Content x v' [] -> Element ("<"%char :: n ++ ">"%char :: x ++ Text "</" ++ n ++ w ++ [">"%char]) n (PN false v' []) \/ ~ Blank w).
    { intros x w C. destruct (Forall_dec (fun c => In c blank_chars) (fun c => in_dec ascii_dec c blank_chars) w) as [B|B]; [|right; exact B].
      left. exact (Element_full n [] [] x v' [] w N A0 C B). }
    destruct u as [|u0 u].
    + destruct G as [[_ ->]|[NB _]]; [|exfalso; apply NB; constructor]. exists ("<"%char :: n ++ Text "/>"). split; [rewrite <- ?app_assoc; cbn [app]; rewrite <- ?app_assoc; reflexivity|].
      exact (Element_empty n [] [] N A0).
    + assert (C : Content (expand_chars (u0 :: u)) v' []).
      { destruct G as [[B ->]|[NB ->]].
        - rewrite expand_blank by exact B. constructor. exact B.
        - rewrite <- (app_nil_r (expand_chars (u0 :: u))). apply (Content_text _ _ [] []); [apply expand_encoded; exact FU|apply expand_not_blank; exact NB|left; reflexivity|constructor; constructor]. }
      set (x := expand_chars (u0 :: u)) in *. clearbody x.
      exists ("<"%char :: n ++ ">"%char :: x ++ Text "</" ++ n ++ [] ++ [">"%char]). split.
      * f_equal. cbn [app]. rewrite <- ?app_assoc. cbn [app]. rewrite <- ?app_assoc. reflexivity.
      * destruct (L x [] C) as [E|E]; [exact E|]. exfalso. apply E. constructor.
  - destruct (map (fun c0 => set_rapid_xml_node (fst c0) (snd c0)) (kc :: c)) as [|m0 m] eqn:EM; [discriminate|]. cbn [print_node].
    assert (PF : Forall2 (fun x y => fst x = fst y /\ Printed (fst x) (snd x) (snd y)) (kc :: c) c').
    { clear -F IH. revert c' F. induction IH as [|x l P _ IHl]; intros c' F; inversion F as [|? y ? l' (N & E & S) F']; subst; constructor; [|apply IHl; exact F']. split; [exact E|]. apply P; assumption. }
    pose proof (printed_children _ _ PF (S i) [LF] (repeat TAB i) ltac:(constructor; [right; right; left; reflexivity|constructor]) (tabs_blank i)) as C.
    assert (EP : flat_map (print_node (S i)) (m0 :: m) = flat_map (fun c => printed (S i) (fst c) (snd c)) (kc :: c)) by (rewrite <- EM; clear; induction (kc :: c) as [|x l IH]; [reflexivity|cbn [map flat_map]; rewrite IH; reflexivity]).
    exists ("<"%char :: n ++ [] ++ ">"%char :: ([LF] ++ flat_map (fun c => printed (S i) (fst c) (snd c)) (kc :: c) ++ repeat TAB i) ++ Text "</" ++ n ++ [] ++ [">"%char]). split.
    + rewrite <- EP. set (x := flat_map (print_node (S i)) (m0 :: m)). f_equal. destruct (cstr v); cbn [app]; repeat (rewrite <- ?app_assoc; cbn [app]); reflexivity.
    + exact (Element_full n [] [] _ [] c' [] N A0 C ltac:(constructor)).
Qed.
Lemma printed_roots cs cs' : Forall2 (fun x y => fst x = fst y /\ Printed (fst x) (snd x) (snd y)) cs cs' -> forall w, Blank w ->
  Roots (w ++ flat_map (fun c => printed 0 (fst c) (snd c)) cs ++ [LF]) cs'.
Proof.
  assert (BL : Blank [LF]) by (constructor; [right; right; left; reflexivity|constructor]).
  induction 1 as [|[n p] [n' p'] cs cs' [E P] F IH]; intros w B.
  - constructor. constructor. apply Forall_app. split; [exact B|exact BL].
  - cbn [fst snd] in *. subst n'. destruct (P 0%nat) as (t & ET & HE). cbn [flat_map fst snd]. rewrite ET. cbn [repeat app]. rewrite <- !app_assoc.
    constructor; [constructor; exact B|exact HE|]. apply (IH [LF]). exact BL.
Qed.
Definition SavedAll (cs cs' : list (str * pnode)) : Prop := Forall2 (fun x y => ElementName (fst x) /\ fst x = fst y /\ Saved (snd x) (snd y)) cs cs'.
Lemma save_load a v cs cs' : SavedAll cs cs' -> load_xml_text (save_xml_text (PN a v cs)) = Ok (PN false [] (firstn 1 cs')).
Proof.
  intros F. unfold save_xml_text, print_document. cbn [pn_children].
  assert (E : flat_map (print_node 0) (map (fun c => set_rapid_xml_node (fst c) (snd c)) cs) = flat_map (fun c => printed 0 (fst c) (snd c)) cs) by (clear; induction cs as [|x l IH]; [reflexivity|cbn [map flat_map]; rewrite IH; reflexivity]).
  rewrite E. apply (load_roots []); [left; reflexivity|]. apply (printed_roots cs cs') with (w := []); [|constructor].
  clear -F. induction F as [|x y cs cs' (N & E & H) F IH]; constructor; [|exact IH]. split; [exact E|]. apply printed_element; assumption.
Qed.
Lemma cut_at_zero v : exists u w, v = u ++ w /\ free [zero] u /\ (w = [] \/ exists r, w = zero :: r).
Proof.
  induction v as [|c v (u & w & -> & F & W)]; [exists [], []; split; [reflexivity|split; [constructor|auto]]|].
  destruct (ascii_dec c zero) as [->|N]; [exists [], (zero :: u ++ w); split; [reflexivity|split; [constructor|eauto]]|].
  exists (c :: u), w. split; [reflexivity|]. split; [constructor; [intros [X|[]]; congruence|exact F]|exact W].
Qed.
Lemma Kept_total v : exists v', Kept v v'.
Proof.
  destruct (cut_at_zero v) as (u & w & -> & F & W). destruct (Forall_dec (fun c => In c blank_chars) (fun c => in_dec ascii_dec c blank_chars) u) as [B|B].
  - exists []. constructor; assumption.
  - exists u. constructor; assumption.
Qed.
Lemma Saved_total p : Named p -> exists p', Saved p p'.
Proof.
  induction p as [a v cs IH] using pnode_rect'. intros H. inversion H as [? ? ? F]; subst. destruct cs as [|kc c]; [destruct (Kept_total v) as [v' K]; eexists; constructor; exact K|].
  assert (G : exists c', SavedAll (kc :: c) c').
  { clear H. induction IH as [|x l P _ IHl]; [exists []; constructor|]. inversion F as [|? ? [N X] F']; subst. destruct (P X) as [p' S']. destruct (IHl F') as [l' L]. exists ((fst x, p') :: l'). constructor; [auto|exact L]. }
  destruct G as [c' G]. eexists. constructor. exact G.
Qed.
Lemma SavedAll_total cs : Forall (fun c => ElementName (fst c) /\ Named (snd c)) cs -> exists cs', SavedAll cs cs'.
Proof.
  induction 1 as [|x l [N X] F [l' L]]; [exists []; constructor|]. destruct (Saved_total _ X) as [p' P]. exists ((fst x, p') :: l'). constructor; [auto|exact L].
Qed.
Lemma free_zero_cut u w : free [zero] (u ++ w) -> (w = [] \/ exists r, w = zero :: r) -> w = [].
Proof. intros F [W|[r ->]]; [exact W|]. apply Forall_app in F. destruct F as [_ F]. inversion F as [|? ? N _]; subst. exfalso. apply N. left. reflexivity. Qed.
Lemma Kept_same v v' : Kept v v' -> (v = v' <-> v = [] \/ (free [zero] v /\ ~ Blank v)).
Proof.
  intros [u w B W|u w F N W]; split.
  - auto.
  - intros [E|[F N]]; [exact E|]. pose proof (free_zero_cut u w F W). subst. rewrite app_nil_r in N. contradiction.
  - intros E. right. rewrite E. auto.
  - intros [E|[F' N']]; [apply app_eq_nil in E; destruct E; subst; exfalso; apply N; constructor|]. pose proof (free_zero_cut u w F' W). subst. apply app_nil_r.
Qed.
Lemma Saved_same p : forall p', Saved p p' -> (Same p p' <-> Lossless p).
Proof.
  induction p as [a v cs IH] using pnode_rect'. intros p' H. inversion H as [? ? v' K|? ? kc c c' F]; subst.
  - split.
    + intros X. inversion X; subst. constructor. apply (Kept_same _ _ K). reflexivity.
    + intros X. inversion X as [? ? G|]; subst. apply (Kept_same _ _ K) in G. subst. constructor. constructor.
  - assert (G : Forall2 (fun x y => fst x = fst y /\ Same (snd x) (snd y)) (kc :: c) c' <-> Forall (fun c => Lossless (snd c)) (kc :: c)).
    { clear H. revert c' F. induction IH as [|x l P _ IHl]; intros c' F; inversion F as [|? y ? l' (N & E & S') F']; subst; [split; constructor|]. specialize (IHl l' F'). specialize (P _ S').
      split; intros X; inversion X; subst; constructor; try tauto; destruct IHl; auto. }
    split; intros X; inversion X; subst; constructor; apply G; assumption.
Qed.

(* a longer text *)
Lemma strip_ext t s r u : strip t s = Some r -> strip t (s ++ u) = Some (r ++ u).
Proof. intros H. apply strip_iff in H. subst. rewrite <- app_assoc. apply strip_app. Qed.
Lemma strip_new t s u r : strip t s = None -> strip t (s ++ u) = Some r -> exists k, t = s ++ k /\ k <> [].
Proof.
  revert s. induction t as [|a t IH]; intros s H1 H2; [destruct s; discriminate|]. destruct s as [|b s]; [exists (a :: t); split; [reflexivity|discriminate]|].
  cbn [app strip] in *. destruct (Ascii.eqb a b) eqn:E; [|discriminate]. apply Ascii.eqb_eq in E. subst. destruct (IH s H1 H2) as (k & -> & N). exists k. auto.
Qed.
Lemma proper_prefix (t s k : str) : t = s ++ k -> k <> [] -> In s (map (fun i => firstn i t) (seq 0 (length t))).
Proof.
  intros -> N. apply in_map_iff. exists (length s). split; [rewrite firstn_app, Nat.sub_diag, firstn_all, firstn_O, app_nil_r; reflexivity|]. apply in_seq. rewrite app_length. destruct k; [contradiction|cbn; lia].
Qed.
Lemma span_ext p s a c r u : span p s = (a, c :: r) -> span p (s ++ u) = (a, c :: r ++ u).
Proof.
  revert a. induction s as [|d s IH]; intros a; cbn [span app]; [discriminate|]. destruct (p d); [|intros X; inversion X; subst; reflexivity].
  destruct (span p s) as [a' r'] eqn:E. intros X. inversion X; subst. rewrite (IH a' eq_refl). reflexivity.
Qed.
Lemma skip_ext p s c r u : skip p s = c :: r -> skip p (s ++ u) = c :: r ++ u.
Proof. unfold skip. destruct (span p s) as [a t] eqn:E. cbn [snd]. intros ->. rewrite (span_ext _ _ _ _ _ u E). reflexivity. Qed.
Lemma read_code_ext base s : forall acc n d r u, read_code base acc s = (n, d :: r) -> read_code base acc (s ++ u) = (n, d :: r ++ u).
Proof.
  induction s as [|c s IH]; intros acc n d r u; cbn [read_code app]; [discriminate|]. destruct (digit c); [apply IH|]. intros X. inversion X; subst. reflexivity.
Qed.
Lemma find_ref_spec l s x r : find_ref l s = Some (x, r) -> exists t, In (t, x) l /\ s = t ++ r.
Proof.
  induction l as [|[t y] l IH]; cbn [find_ref]; [discriminate|]. destruct (strip t s) as [r'|] eqn:E.
  - intros X. inversion X; subst. apply strip_iff in E. exists t. split; [left; reflexivity|exact E].
  - intros X. destruct (IH X) as (t' & I & ->). exists t'. split; [right; exact I|reflexivity].
Qed.
Lemma find_ref_new l s u x : find_ref l s = None -> find_ref l (s ++ u) = Some x -> exists t y k, In (t, y) l /\ t = s ++ k /\ k <> [].
Proof.
  induction l as [|[t y] l IH]; cbn [find_ref]; [discriminate|]. destruct (strip t s) eqn:E; [discriminate|]. intros H1. destruct (strip t (s ++ u)) as [r'|] eqn:E2.
  - intros _. destruct (strip_new _ _ _ _ E E2) as (k & K & N). exists t, y, k. split; [left; reflexivity|auto].
  - intros H2. destruct (IH H1 H2) as (t' & y' & k & I & K). exists t', y', k. split; [right; exact I|exact K].
Qed.
Lemma find_ref_ext s u x r : find_ref named_refs s = Some (x, r) -> find_ref named_refs (s ++ u) = Some (x, r ++ u).
Proof.
  intros H. destruct (find_ref_spec _ _ _ _ H) as (t & I & ->). unfold named_refs in I. cbn [In] in I.
  repeat (destruct I as [I|I]; [injection I as <- <-; rewrite <- app_assoc; reflexivity|]). destruct I.
Qed.
(* the rest is a suffix that starts where the characters end *)
Lemma read_code_suffix base s : forall acc n r, read_code base acc s = (n, r) -> exists a, s = a ++ r.
Proof.
  induction s as [|c s IH]; intros acc n r; cbn [read_code]; [intros X; inversion X; exists []; reflexivity|]. destruct (digit c).
  - intros X. destruct (IH _ _ _ X) as [a ->]. exists (c :: a). reflexivity.
  - intros X. inversion X; subst. exists []. reflexivity.
Qed.
Lemma expand_suffix p : forall f s v r, expand f p s = Ok (v, r) -> exists a, s = a ++ r.
Proof.
  induction f as [|f IH]; intros s v r; [discriminate|]. destruct s as [|c s]; cbn [expand]; [intros X; inversion X; exists []; reflexivity|].
  destruct (negb (p c)); [intros X; inversion X; exists []; reflexivity|].
  assert (K : forall (g : str -> str) s' v r, (let* (v, rest) := expand f p s' in Ok (g v, rest)) = Ok (v, r) -> exists a, s' = a ++ r).
  { intros g s' v' r'. destruct (expand f p s') as [[v0 r0]| | |] eqn:E; cbn [bind]; try discriminate. intros X. inversion X; subst. apply (IH _ _ _ E). }
  assert (NUM : forall base r1 v r, (let (n, r2) := read_code base 0 r1 in let* x := coded_character n in match r2 with d :: r3 => if Ascii.eqb d ";"%char then let* (v, rest) := expand f p r3 in Ok (x ++ v, rest) else Throw | [] => Throw end) = Ok (v, r) -> exists a, r1 = a ++ r).
  { intros base r1 v' r'. destruct (read_code base 0 r1) as [n r2] eqn:ER. destruct (read_code_suffix _ _ _ _ _ ER) as [a0 ->]. destruct (coded_character n); cbn [bind]; try discriminate. destruct r2 as [|d r3]; [discriminate|].
    destruct (Ascii.eqb d ";"); [|discriminate]. intros X. destruct (K (fun z => a ++ z) r3 v' r' X) as [b ->]. exists (a0 ++ d :: b). rewrite <- app_assoc. reflexivity. }
  destruct (find_ref named_refs (c :: s)) as [[x r']|] eqn:EF.
  - intros X. destruct (K _ _ _ _ X) as [a ->]. destruct (find_ref_spec _ _ _ _ EF) as (t & _ & ->). exists (t ++ a). rewrite app_assoc. reflexivity.
  - destruct (strip (lit "&#x") (c :: s)) as [r1|] eqn:E1.
    + intros X. destruct (NUM _ _ _ _ X) as [a ->]. apply strip_iff in E1. exists (lit "&#x" ++ a). rewrite E1, app_assoc. reflexivity.
    + destruct (strip (lit "&#") (c :: s)) as [r1|] eqn:E2.
      * intros X. destruct (NUM _ _ _ _ X) as [a ->]. apply strip_iff in E2. exists (lit "&#" ++ a). rewrite E2, app_assoc. reflexivity.
      * intros X. destruct (K (fun z => c :: z) _ _ _ X) as [a ->]. exists (c :: a). reflexivity.
Qed.
Definition Accepts (p : ascii -> bool) : Prop := Forall (fun c => p c = true) (lit "&#x;ampostqulg").
Lemma Accepts_refs p t : Accepts p -> (exists y, In (t, y) named_refs) \/ t = lit "&#x" \/ t = lit "&#" -> Forall (fun c => p c = true) t.
Proof.
  intros A H. unfold Accepts, lit in A. cbn [list_ascii_of_string] in A. repeat match goal with X : Forall _ (_ :: _) |- _ => inversion X; clear X; subst end.
  destruct H as [[y I]|[->| ->]]; [unfold named_refs in I; cbn [In] in I; repeat (destruct I as [I|I]; [injection I as <- _; unfold lit; cbn [list_ascii_of_string]; repeat constructor; assumption|]); destruct I| |];
    unfold lit; cbn [list_ascii_of_string]; repeat constructor; assumption.
Qed.
Lemma expand_ext p : Accepts p -> forall f s v c r, (length s < f)%nat -> expand f p s = Ok (v, c :: r) -> forall u f', (length (s ++ u) < f')%nat -> expand f' p (s ++ u) = Ok (v, c :: r ++ u).
Proof.
  intros A. induction f as [|f IH]; intros s v c r L H u f' L'; [lia|].
  assert (PC : p c = false).
  { destruct (expand_total p (S f) s L) as [X|(v' & r' & X & _ & [->|(c' & r'' & -> & E)])]; rewrite X in H; inversion H; subst; exact E. }
  assert (NP : forall k, ((exists y, In (s ++ k, y) named_refs) \/ s ++ k = lit "&#x" \/ s ++ k = lit "&#") -> False).
  { intros k K. apply (Accepts_refs p _ A) in K. apply Forall_app in K. destruct K as [K _]. destruct (expand_suffix _ _ _ _ _ H) as [a ->]. apply Forall_app in K. destruct K as [_ K]. inversion K; subst. congruence. }
  destruct f' as [|f']; [lia|]. destruct s as [|d s]; [cbn in H; discriminate|]. cbn [app]. cbn [expand] in *.
  change (d :: s ++ u) with ((d :: s) ++ u). destruct (negb (p d)) eqn:PD; [inversion H; subst; reflexivity|].
  assert (K : forall (g : str -> str) s' v c r, (length s' < f)%nat -> (length s' + length u < f')%nat -> (let* (v, rest) := expand f p s' in Ok (g v, rest)) = Ok (v, c :: r) -> (let* (v, rest) := expand f' p (s' ++ u) in Ok (g v, rest)) = Ok (v, c :: r ++ u)).
  { intros g s' v' c' r' L1 L2. destruct (expand f p s') as [[v0 r0]| | |] eqn:E; cbn [bind]; try discriminate. intros X. inversion X; subst. rewrite (IH _ _ _ _ L1 E u f') by (rewrite app_length; lia). reflexivity. }
  cbn [length] in L. rewrite app_length in L'. cbn [length] in L'.
  assert (NUM : forall base r1 v c r, (length r1 < length (d :: s))%nat ->
    (let (n, r2) := read_code base 0 r1 in let* x := coded_character n in match r2 with d :: r3 => if Ascii.eqb d ";"%char then let* (v, rest) := expand f p r3 in Ok (x ++ v, rest) else Throw | [] => Throw end) = Ok (v, c :: r) ->
    (let (n, r2) := read_code base 0 (r1 ++ u) in let* x := coded_character n in match r2 with d :: r3 => if Ascii.eqb d ";"%char then let* (v, rest) := expand f' p r3 in Ok (x ++ v, rest) else Throw | [] => Throw end) = Ok (v, c :: r ++ u)).
  { intros base r1 v' c' r' LR. destruct (read_code base 0 r1) as [n r2] eqn:ER. pose proof (read_code_len _ _ _ _ _ ER) as LC. destruct r2 as [|e r3].
    - destruct (coded_character n); cbn [bind]; discriminate.
    - rewrite (read_code_ext _ _ _ _ _ _ u ER). destruct (coded_character n); cbn [bind]; try discriminate. destruct (Ascii.eqb e ";"); [|discriminate].
      intros X. apply (K (fun z => a ++ z)); [cbn [length] in *; lia|cbn [length] in *; lia|exact X]. }
  destruct (find_ref named_refs (d :: s)) as [[x r']|] eqn:EF.
  - rewrite (find_ref_ext _ u _ _ EF). pose proof (find_ref_len _ _ _ _ named_nonempty EF) as LF'. cbn [length] in LF'. apply (K (fun z => x :: z)); [lia|lia|exact H].
  - destruct (find_ref named_refs ((d :: s) ++ u)) as [x|] eqn:EF2.
    { exfalso. destruct (find_ref_new _ _ _ _ EF EF2) as (t & y & k & I & -> & _). apply (NP k). left. exists y. exact I. }
    destruct (strip (lit "&#x") (d :: s)) as [r1|] eqn:E1.
    + rewrite (strip_ext _ _ _ u E1). pose proof (strip_len _ _ _ E1) as LS. apply (NUM 16); [cbn [length lit list_ascii_of_string] in *; lia|exact H].
    + destruct (strip (lit "&#x") ((d :: s) ++ u)) as [x|] eqn:E1'.
      { exfalso. destruct (strip_new _ _ _ _ E1 E1') as (k & K' & _). apply (NP k). right. left. symmetry. exact K'. }
      destruct (strip (lit "&#") (d :: s)) as [r1|] eqn:E2.
      * rewrite (strip_ext _ _ _ u E2). pose proof (strip_len _ _ _ E2) as LS. apply (NUM 10); [cbn [length lit list_ascii_of_string] in *; lia|exact H].
      * destruct (strip (lit "&#") ((d :: s) ++ u)) as [x|] eqn:E2'.
        { exfalso. destruct (strip_new _ _ _ _ E2 E2') as (k & K' & _). apply (NP k). right. right. symmetry. exact K'. }
        apply (K (fun z => d :: z)); [lia|lia|exact H].
Qed.
Lemma text_accepts : Accepts is_text.
Proof. repeat constructor. Qed.
Lemma attr_accepts q : q = "'"%char \/ q = QUOTE -> Accepts (is_attr_value q).
Proof. intros [-> | ->]; repeat constructor. Qed.
Lemma sae_ext p pure s v c r u : Accepts p -> Pure p pure -> skip_and_expand p pure s = Ok (v, c :: r) -> skip_and_expand p pure (s ++ u) = Ok (v, c :: r ++ u).
Proof. intros A P. rewrite !skip_and_expand_eq by exact P. intros H. apply (expand_ext p A _ _ _ _ _ (Nat.lt_succ_diag_r _) H). lia. Qed.
Lemma parse_attributes_ext : forall f s l c r, parse_attributes f s = Ok (l, c :: r) -> forall u f', (f <= f')%nat -> parse_attributes f' (s ++ u) = Ok (l, c :: r ++ u).
Proof.
  induction f as [|f IH]; intros s l c r H u f' L; [discriminate|]. destruct f' as [|f']; [lia|]. cbn [parse_attributes] in *.
  destruct (span is_attr_name s) as [n s1] eqn:E. destruct n as [|n0 n].
  - inversion H; subst. pose proof (span_spec is_attr_name (c :: r)) as SP. rewrite E in SP. destruct SP as (SP & _). cbn [app] in SP. rewrite <- SP in E. rewrite (span_ext _ _ _ _ _ u E). reflexivity.
  - destruct (skip is_ws s1) as [|e s2] eqn:E1; [discriminate|]. destruct s1 as [|s10 s1]; [discriminate|]. rewrite (span_ext _ _ _ _ _ u E). pose proof (skip_ext _ _ _ _ u E1) as E1'. cbn [app] in E1'. rewrite E1'.
    destruct (negb (Ascii.eqb e "=")); [discriminate|]. destruct (skip is_ws s2) as [|q s3] eqn:E2; [discriminate|]. rewrite (skip_ext _ _ _ _ u E2).
    destruct (negb (Ascii.eqb q "'" || Ascii.eqb q QUOTE)) eqn:EQ; [discriminate|]. apply Bool.negb_false_iff, Bool.orb_true_iff in EQ. rewrite !Ascii.eqb_eq in EQ.
    destruct (skip_and_expand _ _ s3) as [[v s4]| | |] eqn:ES; cbn [bind] in H; try discriminate. destruct s4 as [|q' s5]; [discriminate|].
    rewrite (sae_ext _ _ _ _ _ _ u (attr_accepts q EQ) (attr_pure q) ES). cbn [bind]. destruct (negb (Ascii.eqb q' q)); [discriminate|].
    destruct (parse_attributes f (skip is_ws s5)) as [[l' r']| | |] eqn:EP; cbn [bind] in H; try discriminate. inversion H; subst.
    destruct (skip is_ws s5) as [|d s6] eqn:E5; [destruct f; cbn in EP; discriminate|]. rewrite (skip_ext _ _ _ _ u E5). change (d :: s6 ++ u) with ((d :: s6) ++ u). rewrite (IH _ _ _ _ EP u f') by lia. reflexivity.
Qed.
Lemma skip_behind_ext t s r u : skip_behind t s = Some r -> skip_behind t (s ++ u) = Some (r ++ u) /\ before t (s ++ u) = before t s.
Proof.
  intros H. pose proof (skip_behind_len _ _ _ H) as LB. revert LB H. induction s as [|c s IH]; intros LB H.
  - cbn [skip_behind] in H. destruct (strip t []) as [r'|] eqn:E; [|discriminate]. inversion H; subst. pose proof (strip_ext _ _ _ u E) as E'. cbn [app] in *.
    assert (TN : t = []) by (apply strip_iff in E; destruct t; [reflexivity|discriminate]). subst t. cbn in E. inversion E; subst. destruct u; split; reflexivity.
  - cbn [skip_behind before app] in *. destruct (strip t (c :: s)) as [r'|] eqn:E.
    + inversion H; subst. pose proof (strip_ext _ _ _ u E) as E'. cbn [app] in E'. rewrite E'. auto.
    + destruct (strip t (c :: s ++ u)) as [x|] eqn:E2.
      * exfalso. destruct (strip_new t (c :: s) u x E E2) as (k & -> & N). rewrite app_length in LB. destruct k; [contradiction|]. cbn [length] in LB. lia.
      * pose proof (skip_behind_len _ _ _ H) as LB'. destruct (IH LB' H) as [H1 H2]. rewrite H1, H2. auto.
Qed.
Lemma skip_doctype_ext s : forall d r u, skip_doctype d s = Some r -> skip_doctype d (s ++ u) = Some (r ++ u).
Proof.
  induction s as [|c s IH]; intros d r u; cbn [skip_doctype app]; [discriminate|]. destruct d; [destruct (Ascii.eqb c ">"); [intros X; inversion X; reflexivity|]|]; apply IH.
Qed.
Lemma sot_ok {A} (o : option A) x : some_or_throw o = Ok x -> o = Some x.
Proof. destruct o; cbn; [intros X; inversion X; reflexivity|discriminate]. Qed.
Lemma parse_question_ext s r u : parse_question s = Ok r -> parse_question (s ++ u) = Ok (r ++ u).
Proof.
  unfold parse_question. intros H. apply sot_ok in H.
  assert (K : forall s', skip_behind (lit "?>") s' = Some r -> some_or_throw (skip_behind (lit "?>") (s' ++ u)) = Ok (r ++ u)) by (intros s' X; rewrite (proj1 (skip_behind_ext _ _ _ u X)); reflexivity).
  assert (F : forall b : bool, b = false -> forall s : str, (if b then skipn 4 s else s) = s) by (intros ? -> ?; reflexivity).
  destruct s as [|a [|b [|c [|d s]]]].
  - cbn in H. discriminate.
  - change (skip_behind (lit "?>") [a] = Some r) in H. exfalso. apply skip_behind_len in H. cbn in H. lia.
  - change (skip_behind (lit "?>") [a; b] = Some r) in H. pose proof (K _ H) as K'. apply skip_behind_len in H as LH. rewrite F; [exact K'|].
    cbn [skip_behind] in H. destruct (strip (lit "?>") [a; b]) eqn:E; [|destruct (strip (lit "?>") [b]) eqn:E3; [apply strip_len in E3; cbn in E3; lia|destruct (strip (lit "?>") []) eqn:E4; [apply strip_len in E4; cbn in E4; lia|discriminate]]].
    apply strip_iff in E. cbn in E. injection E as -> -> _. destruct u as [|u0 [|u1 u]]; reflexivity.
  - change (skip_behind (lit "?>") [a; b; c] = Some r) in H. pose proof (K _ H) as K'. rewrite F; [exact K'|].
    assert (G : (a = "?"%char /\ b = ">"%char) \/ (b = "?"%char /\ c = ">"%char)).
    { cbn [skip_behind] in H. destruct (strip (lit "?>") [a; b; c]) eqn:E; [apply strip_iff in E; cbn in E; injection E as -> -> _; auto|].
      destruct (strip (lit "?>") [b; c]) eqn:E2; [apply strip_iff in E2; cbn in E2; injection E2 as -> -> _; auto|].
      destruct (strip (lit "?>") [c]) eqn:E3; [apply strip_len in E3; cbn in E3; lia|destruct (strip (lit "?>") []) eqn:E4; [apply strip_len in E4; cbn in E4; lia|discriminate]]. }
    destruct u as [|u0 u]; [reflexivity|]. cbn [app]. destruct G as [[-> ->]|[-> ->]]; [reflexivity|]. destruct (mem (lit "xX") a); reflexivity.
  - cbv zeta in *. cbn [app]. destruct (_ && _ && _ && _)%bool; [cbn [skipn] in *; apply K; exact H|]. apply (K (a :: b :: c :: d :: s)). exact H.
Qed.
Lemma parse_exclamation_ext s x r u : parse_exclamation s = Ok (x, r) -> parse_exclamation (s ++ u) = Ok (x, r ++ u).
Proof.
  intros H. assert (NP : forall t, t = lit "!--" \/ t = lit "![CDATA[" \/ t = lit "!DOCTYPE" -> strip t s = None -> strip t (s ++ u) = None).
  { intros t T E. destruct (strip t (s ++ u)) as [y|] eqn:E2; [|reflexivity]. exfalso. destruct (strip_new _ _ _ _ E E2) as (k & K & N). pose proof (proper_prefix t s k K N) as I. clear -I T H.
    destruct T as [->|[->| ->]]; cbn in I; repeat (destruct I as [<-|I]; [vm_compute in H; discriminate|]); destruct I. }
  unfold parse_exclamation in *.
  destruct (strip (lit "!--") s) as [r0|] eqn:E1.
  { rewrite (strip_ext _ _ _ u E1). destruct (skip_behind (lit "-->") r0) as [r'|] eqn:ES; cbn [some_or_throw bind] in H; [|discriminate]. inversion H; subst. rewrite (proj1 (skip_behind_ext _ _ _ u ES)). reflexivity. }
  rewrite (NP (lit "!--") ltac:(auto) E1). destruct (strip (lit "![CDATA[") s) as [r0|] eqn:E2.
  { rewrite (strip_ext _ _ _ u E2). destruct (skip_behind (lit "]]>") r0) as [r'|] eqn:ES; cbn [some_or_throw bind] in H; [|discriminate]. inversion H; subst. destruct (skip_behind_ext _ _ _ u ES) as [X1 X2]. rewrite X1, X2. reflexivity. }
  rewrite (NP (lit "![CDATA[") ltac:(auto) E2).
  assert (O : (let* r' := some_or_throw (skip_behind (lit ">") (skipn 1 s)) in Ok (None, r')) = Ok (x, r) -> (let* r' := some_or_throw (skip_behind (lit ">") (skipn 1 (s ++ u))) in Ok (None, r')) = Ok (x, r ++ u)).
  { destruct (skip_behind (lit ">") (skipn 1 s)) as [r'|] eqn:ES; cbn [some_or_throw bind]; [|discriminate]. intros X. inversion X; subst. destruct s as [|s0 s]; [discriminate|]. cbn [skipn app] in *. rewrite (proj1 (skip_behind_ext _ _ _ u ES)). reflexivity. }
  destruct (strip (lit "!DOCTYPE") s) as [[|w r0]|] eqn:E3.
  - exfalso. apply strip_iff in E3. subst. vm_compute in H. discriminate.
  - rewrite (strip_ext _ _ _ u E3). cbn [app]. destruct (is_ws w); [|apply O; exact H]. destruct (skip_doctype 0 r0) as [r'|] eqn:ES; cbn [some_or_throw bind] in H; [|discriminate]. inversion H; subst. rewrite (skip_doctype_ext _ _ _ u ES). reflexivity.
  - rewrite (NP (lit "!DOCTYPE") ltac:(auto) E3). apply O. exact H.
Qed.
Lemma strip1_ext t b s u : length t = 1%nat -> strip t (b :: s) = None -> strip t ((b :: s) ++ u) = None.
Proof. destruct t as [|a [|? ?]]; try discriminate. intros _. cbn [strip app]. destruct (Ascii.eqb a b); [discriminate|reflexivity]. Qed.
Lemma parse_ext : forall f,
  (forall s x r, parse_node f s = Ok (x, r) -> forall u f', (f <= f')%nat -> parse_node f' (s ++ u) = Ok (x, r ++ u)) /\
  (forall s v cs v' cs' r, parse_contents f s v cs = Ok (v', cs', r) -> forall u f', (f <= f')%nat -> parse_contents f' (s ++ u) v cs = Ok (v', cs', r ++ u)).
Proof.
  induction f as [|f [IHN IHC]]; (split; [intros s x r H u f' L|intros s v cs v' cs' r H u f' L]); try discriminate; (destruct f' as [|f']; [lia|]).
  - cbn [parse_node] in *. destruct s as [|s0 s]; [discriminate|].
    destruct (strip (lit "?") (s0 :: s)) as [r0|] eqn:E1.
    { rewrite (strip_ext _ _ _ u E1). destruct (parse_question r0) as [r1| | |] eqn:EQ; cbn [bind] in H; try discriminate. inversion H; subst. rewrite (parse_question_ext _ _ u EQ). reflexivity. }
    rewrite (strip1_ext (lit "?") _ _ u eq_refl E1). destruct (strip (lit "!") (s0 :: s)) as [r0|] eqn:E2.
    { rewrite (strip_ext _ _ _ u E2). apply parse_exclamation_ext. exact H. }
    rewrite (strip1_ext (lit "!") _ _ u eq_refl E2). destruct (span is_node_name (s0 :: s)) as [n s1] eqn:E. destruct n as [|n0 n]; [discriminate|].
    destruct (parse_attributes (S (length s1)) (skip is_ws s1)) as [[l s2]| | |] eqn:EP; cbn [bind] in H; try discriminate. destruct s2 as [|c s2]; [cbn in H; discriminate|].
    destruct (skip is_ws s1) as [|d s3] eqn:E3; [cbn in EP; discriminate|]. destruct s1 as [|s10 s1]; [discriminate|]. rewrite (span_ext _ _ _ _ _ u E). pose proof (skip_ext _ _ _ _ u E3) as E3'. cbn [app] in E3'. rewrite E3'.
    rewrite (parse_attributes_ext _ _ _ _ _ EP u) by (cbn [length]; rewrite ?app_length; lia). cbn [bind].
    change (c :: s2 ++ u) with ((c :: s2) ++ u). destruct (strip (lit ">") (c :: s2)) as [s4|] eqn:E4.
    + rewrite (strip_ext _ _ _ u E4). destruct (parse_contents f s4 [] []) as [[[v cs] rest]| | |] eqn:EC; cbn [bind] in H; try discriminate. inversion H; subst. rewrite (IHC _ _ _ _ _ _ EC u f') by lia. reflexivity.
    + rewrite (strip1_ext (lit ">") _ _ u eq_refl E4). destruct (strip (lit "/>") (c :: s2)) as [s4|] eqn:E5; [|discriminate]. rewrite (strip_ext _ _ _ u E5). inversion H; subst. reflexivity.
  - cbn [parse_contents] in *. destruct (skip is_ws s) as [|c s1] eqn:E0; [cbn in H; discriminate|]. rewrite (skip_ext _ _ _ _ u E0).
    assert (G : forall s2 v cs v' cs' r,
      match strip (lit "</") s2 with
      | Some r => match strip (lit ">") (skip is_ws (skip is_node_name r)) with Some rest => Ok (v, cs, rest) | None => Throw end
      | None => match strip (lit "<") s2 with
                | Some r => let* (n, rest) := parse_node f r in parse_contents f rest v (cs ++ match n with Some x => [x] | None => [] end)
                | None => Throw
                end
      end = Ok (v', cs', r) ->
      match strip (lit "</") (s2 ++ u) with
      | Some r => match strip (lit ">") (skip is_ws (skip is_node_name r)) with Some rest => Ok (v, cs, rest) | None => Throw end
      | None => match strip (lit "<") (s2 ++ u) with
                | Some r => let* (n, rest) := parse_node f' r in parse_contents f' rest v (cs ++ match n with Some x => [x] | None => [] end)
                | None => Throw
                end
      end = Ok (v', cs', r ++ u)).
    { clear s v cs v' cs' r H c s1 E0. intros s2 v cs v' cs' r H. destruct (strip (lit "</") s2) as [r0|] eqn:E1.
      - rewrite (strip_ext _ _ _ u E1). destruct (strip (lit ">") (skip is_ws (skip is_node_name r0))) as [r1|] eqn:E2; [|discriminate]. inversion H; subst.
        destruct (skip is_ws (skip is_node_name r0)) as [|d r2] eqn:E3; [discriminate|]. destruct (skip is_node_name r0) as [|e r3] eqn:E4; [discriminate|].
        rewrite (skip_ext _ _ _ _ u E4). pose proof (skip_ext _ _ _ _ u E3) as E3'. cbn [app] in E3'. rewrite E3'. change (d :: r2 ++ u) with ((d :: r2) ++ u). rewrite (strip_ext _ _ _ u E2). reflexivity.
      - destruct (strip (lit "<") s2) as [r0|] eqn:E2; [|discriminate]. destruct (parse_node f r0) as [[n rest]| | |] eqn:EN; cbn [bind] in H; try discriminate.
        destruct (strip (lit "</") (s2 ++ u)) as [y|] eqn:E3.
        + exfalso. destruct (strip_new _ _ _ _ E1 E3) as (k & K & N). apply strip_iff in E2. subst s2. cbn [app lit list_ascii_of_string] in K. injection K as K. destruct r0 as [|r00 r0]; [destruct f; cbn in EN; discriminate|].
          cbn [app] in K. injection K as <- K. symmetry in K. apply app_eq_nil in K. destruct K as [_ K]. contradiction.
        + rewrite (strip_ext _ _ _ u E2). rewrite (IHN _ _ _ EN u f') by lia. cbn [bind]. apply (IHC _ _ _ _ _ _ H). lia. }
    destruct (Ascii.eqb c "<"); cbn [bind] in *; [change (c :: s1 ++ u) with ((c :: s1) ++ u); apply G; exact H|].
    destruct (skip_and_expand is_text is_text_pure s) as [[v0 r0]| | |] eqn:ES; cbn [bind] in H; try discriminate. destruct r0 as [|c0 r0]; [cbn in H; discriminate|].
    rewrite (sae_ext _ _ _ _ _ _ u text_accepts text_pure ES). cbn [bind]. change (c0 :: r0 ++ u) with ((c0 :: r0) ++ u). apply G. exact H.
Qed.
(* elements that were cut off *)
Lemma cut_element m a t1 t2 n p : m = [] \/ ByteOrderMark m -> Around a -> Element (t1 ++ t2) n p -> t1 <> [] -> t2 <> [] -> load_xml_text (m ++ a ++ t1) = Throw.
Proof.
  intros M A E N1 N2. destruct (proj1 read_grammar _ n p E) as (_ & F & t' & c & x & ET & _ & _ & _ & _ & P). destruct t1 as [|d t1]; [contradiction|]. cbn [app] in ET. injection ET as -> <-.
  apply Forall_app in F. destruct F as [F _].
  assert (PL : Plain (a ++ "<"%char :: t1)) by (apply Plain_around; [exact A|right; eauto]).
  unfold load_xml_text. rewrite (parse_plain m _ M PL) by (apply Forall_app; split; [apply Around_free; exact A|exact F]). rewrite pd_around by exact A.
  rewrite pd_eq. assert (W : forall s, skip is_ws ("<"%char :: s) = "<"%char :: s) by reflexivity. rewrite W. cbn [Ascii.eqb Bool.eqb].
  destruct (proj1 (parse_total (S (length t1))) t1 ltac:(lia)) as [->|(y & r & X & _)]; [reflexivity|]. exfalso.
  pose proof (proj1 (parse_ext _) _ _ _ X t2 (S (length (t1 ++ t2))) ltac:(rewrite app_length; lia)) as X2.
  specialize (P [] (S (length (t1 ++ t2))) ltac:(rewrite app_nil_r; lia)). rewrite app_nil_r in P. rewrite P in X2. injection X2 as _ X3. symmetry in X3. apply app_eq_nil in X3. destruct X3; contradiction.
Qed.
