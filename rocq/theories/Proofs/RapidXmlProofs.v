(* facts about the model of rapidxml *)
From Coq Require Import String.
From Verif Require Import Model.Base Model.StdString Model.Strings Model.PropTree Model.RapidXml Model.Xml Spec.Strings Spec.Xml.
Local Open Scope Z_scope.
Local Open Scope list_scope.

(* membership *)
Lemma mem_In set c : mem set c = true <-> In c set.
Proof.
  unfold mem. rewrite existsb_exists. split.
  - intros (x & I & E). apply Ascii.eqb_eq in E. subst. exact I.
  - intros I. exists c. split; [exact I|apply Ascii.eqb_refl].
Qed.
Lemma mem_notIn set c : mem set c = false <-> ~ In c set.
Proof. rewrite <- mem_In. destruct (mem set c); split; congruence. Qed.

(* span *)
Lemma span_app p a b : Forall (fun c => p c = true) a -> span p (a ++ b) = let (x, y) := span p b in (a ++ x, y).
Proof.
  induction 1 as [|c a H F IH]; cbn [app span]; [destruct (span p b); reflexivity|]. rewrite H, IH. destruct (span p b). reflexivity.
Qed.
Lemma span_stop p a c b : Forall (fun c => p c = true) a -> p c = false -> span p (a ++ c :: b) = (a, c :: b).
Proof. intros H E. rewrite span_app by exact H. cbn [span]. rewrite E. rewrite app_nil_r. reflexivity. Qed.
Lemma span_spec p s : let (a, b) := span p s in s = a ++ b /\ Forall (fun c => p c = true) a /\ (b = [] \/ exists c r, b = c :: r /\ p c = false).
Proof.
  induction s as [|c s IH]; cbn [span]; [auto|]. destruct (p c) eqn:E.
  - destruct (span p s) as [a b]. destruct IH as (-> & F & H). split; [reflexivity|]. split; [constructor; assumption|exact H].
  - split; [reflexivity|]. split; [constructor|]. right. eauto.
Qed.
Lemma skip_stop p a c b : Forall (fun c => p c = true) a -> p c = false -> skip p (a ++ c :: b) = c :: b.
Proof. intros H E. unfold skip. rewrite span_stop by assumption. reflexivity. Qed.
Lemma skip_app p a b : Forall (fun c => p c = true) a -> skip p (a ++ b) = skip p b.
Proof. intros H. unfold skip. rewrite span_app by exact H. destruct (span p b). reflexivity. Qed.
Lemma skip_len p s : (length (skip p s) <= length s)%nat.
Proof. unfold skip. pose proof (span_spec p s) as H. destruct (span p s) as [a b]. destruct H as (-> & _). cbn [snd]. rewrite app_length. lia. Qed.
Lemma Blank_ws w : Blank w -> Forall (fun c => is_ws c = true) w.
Proof.
  intros H. eapply Forall_impl; [|exact H]. intros c I. apply mem_In. cbn in I |- *. unfold LF, CR, TAB. intuition.
Qed.
Lemma ws_blank c : is_ws c = true <-> In c blank_chars.
Proof. unfold is_ws. rewrite mem_In. unfold xml_ws, blank_chars, LF, CR, TAB. cbn [In]. intuition. Qed.
Lemma ws_not_blank c : is_ws c = false <-> ~ In c blank_chars.
Proof. rewrite <- ws_blank. destruct (is_ws c); split; congruence. Qed.
Lemma skip_ws w s : Blank w -> skip is_ws (w ++ s) = skip is_ws s.
Proof. intros H. apply skip_app. apply Blank_ws. exact H. Qed.
Lemma skip_ws_stop w c s : Blank w -> ~ In c blank_chars -> skip is_ws (w ++ c :: s) = c :: s.
Proof. intros H N. apply skip_stop; [apply Blank_ws; exact H|apply ws_not_blank; exact N]. Qed.

(* strip *)
Lemma strip_app t r : strip t (t ++ r) = Some r.
Proof. induction t as [|c t IH]; [reflexivity|]. cbn [app strip]. rewrite Ascii.eqb_refl. exact IH. Qed.
Lemma strip_iff t s r : strip t s = Some r <-> s = t ++ r.
Proof.
  split; [|intros ->; apply strip_app]. revert s. induction t as [|c t IH]; intros s H; [cbn in *; congruence|].
  destruct s as [|d s]; cbn [strip] in H; [discriminate|]. destruct (Ascii.eqb c d) eqn:E; [|discriminate]. apply Ascii.eqb_eq in E. subst. cbn [app]. f_equal. apply IH. exact H.
Qed.
Lemma strip_none t s : strip t s = None <-> forall r, s <> t ++ r.
Proof.
  split.
  - intros H r ->. rewrite strip_app in H. discriminate.
  - intros H. destruct (strip t s) as [r|] eqn:E; [|reflexivity]. apply strip_iff in E. destruct (H r E).
Qed.
Lemma strip_len t s r : strip t s = Some r -> length s = (length t + length r)%nat.
Proof. intros H. apply strip_iff in H. subst. apply app_length. Qed.

(* references *)
Lemma find_ref_len l s c r : Forall (fun x => fst x <> []) l -> find_ref l s = Some (c, r) -> (length r < length s)%nat.
Proof.
  induction 1 as [|[t x] l H F IH]; cbn [find_ref]; [discriminate|]. destruct (strip t s) as [r'|] eqn:E; [|exact IH].
  intros X. inversion X; subst. apply strip_len in E. cbn [fst] in H. destruct t; [contradiction|]. cbn [length] in E. lia.
Qed.
Lemma named_nonempty : Forall (fun x : str * ascii => fst x <> []) named_refs.
Proof. repeat constructor; discriminate. Qed.
Lemma read_code_len base acc s n r : read_code base acc s = (n, r) -> (length r <= length s)%nat.
Proof.
  revert acc. induction s as [|c s IH]; intros acc; cbn [read_code]; [intros X; inversion X; cbn; lia|].
  destruct (digit c); [|intros X; inversion X; lia]. intros X. apply IH in X. cbn [length]. lia.
Qed.
Lemma coded_total n : exists v, coded_character n = Ok v \/ coded_character n = Throw.
Proof. unfold coded_character. destruct (n <? 128), (n <? 2048), (n <? 65536), (n <? 1114112); try (eexists; left; reflexivity); exists []; right; reflexivity. Qed.
Lemma expand_fuel p : forall n f1 f2 s, (length s <= n)%nat -> (n < f1)%nat -> (n < f2)%nat -> expand f1 p s = expand f2 p s.
Proof.
  induction n as [|n IH]; intros f1 f2 s L L1 L2.
  - destruct s; [|cbn in L; lia]. destruct f1, f2; try lia. reflexivity.
  - destruct f1 as [|f1], f2 as [|f2]; try lia. destruct s as [|c s]; [reflexivity|]. cbn [expand]. destruct (negb (p c)); [reflexivity|].
    destruct (find_ref named_refs (c :: s)) as [[x r]|] eqn:F.
    + apply (find_ref_len _ _ _ _ named_nonempty) in F. rewrite (IH f1 f2 r); [reflexivity| |lia|lia]. cbn [length] in *. lia.
    + assert (K : forall base t r, strip t (c :: s) = Some r -> (1 < length t)%nat -> forall x d r3, read_code base 0 r = (x, d :: r3) -> expand f1 p r3 = expand f2 p r3).
      { intros base t r E T x d r3 X. apply strip_len in E. apply read_code_len in X. cbn [length] in *. apply IH; lia. }
      destruct (strip (lit "&#x") (c :: s)) as [r|] eqn:S1.
      * specialize (K 16 _ _ S1). destruct (read_code 16 0 r) as [x [|d r3]]; [reflexivity|]. destruct (coded_character x); cbn [bind]; try reflexivity.
        destruct (Ascii.eqb d ";"); [|reflexivity]. rewrite (K ltac:(cbn; lia) x d r3 eq_refl). reflexivity.
      * destruct (strip (lit "&#") (c :: s)) as [r|] eqn:S2.
        -- specialize (K 10 _ _ S2). destruct (read_code 10 0 r) as [x [|d r3]]; [reflexivity|]. destruct (coded_character x); cbn [bind]; try reflexivity.
           destruct (Ascii.eqb d ";"); [|reflexivity]. rewrite (K ltac:(cbn; lia) x d r3 eq_refl). reflexivity.
        -- rewrite (IH f1 f2 s); [reflexivity| |lia|lia]. cbn [length] in L. lia.
Qed.
(* expand never runs out of fuel, and never makes the text longer *)
Lemma expand_total p : forall f s, (length s < f)%nat ->
  expand f p s = Throw \/ exists v r, expand f p s = Ok (v, r) /\ (length r <= length s)%nat /\ (r = [] \/ exists c r', r = c :: r' /\ p c = false).
Proof.
  induction f as [|f IH]; intros s L; [lia|]. destruct s as [|c s]; [right; exists [], []; auto|]. cbn [expand].
  destruct (p c) eqn:P; cbn [negb]; [|right; exists [], (c :: s); split; [reflexivity|]; split; [lia|]; right; eauto].
  cbn [length] in L.
  assert (N : forall r x, (length r <= length s)%nat ->
    (let* (v, rest) := expand f p r in Ok (x ++ v, rest)) = Throw \/
    exists v r', (let* (v, rest) := expand f p r in Ok (x ++ v, rest)) = Ok (v, r') /\ (length r' <= length (c :: s))%nat /\ (r' = [] \/ exists c r2, r' = c :: r2 /\ p c = false)).
  { intros r x LR. destruct (IH r) as [E|(v & r' & E & Lr & E2)]; [lia| |]; rewrite E; cbn [bind]; [auto|]. right. do 2 eexists. split; [reflexivity|]. cbn [length]. split; [lia|exact E2]. }
  destruct (find_ref named_refs (c :: s)) as [[x r]|] eqn:F.
  - apply (find_ref_len _ _ _ _ named_nonempty) in F. cbn [length] in F. apply (N r [x]). lia.
  - assert (K : forall base t r, strip t (c :: s) = Some r -> (1 < length t)%nat ->
      let X := (let (n, r2) := read_code base 0 r in
        let* x := coded_character n in
        match r2 with
        | d :: r3 => if Ascii.eqb d ";"%char then let* (v, rest) := expand f p r3 in Ok (x ++ v, rest) else Throw
        | [] => Throw
        end) in X = Throw \/ exists v r', X = Ok (v, r') /\ (length r' <= length (c :: s))%nat /\ (r' = [] \/ exists c r2, r' = c :: r2 /\ p c = false)).
    { intros base t r E T X. unfold X. destruct (read_code base 0 r) as [n r2] eqn:R. apply strip_len in E. apply read_code_len in R. cbn [length] in E.
      destruct (coded_total n) as [v [-> | ->]]; cbn [bind]; [|auto]. destruct r2 as [|d r3]; [auto|]. destruct (Ascii.eqb d ";"); [|auto].
      apply N. cbn [length] in R. lia. }
    destruct (strip (lit "&#x") (c :: s)) as [r|] eqn:S1; [apply (K 16 _ _ S1); cbn; lia|].
    destruct (strip (lit "&#") (c :: s)) as [r|] eqn:S2; [apply (K 10 _ _ S2); cbn; lia|].
    apply (N s [c]). lia.
Qed.
Definition Pure (p pure : ascii -> bool) : Prop := forall c, pure c = true -> p c = true /\ c <> "&"%char.
Lemma no_ref c s : c <> "&"%char -> find_ref named_refs (c :: s) = None /\ strip (lit "&#x") (c :: s) = None /\ strip (lit "&#") (c :: s) = None.
Proof.
  intros N. assert (E : Ascii.eqb "&" c = false) by (apply Ascii.eqb_neq; congruence).
  split; [|split]; unfold named_refs, lit; cbn [find_ref strip String.list_ascii_of_string]; rewrite E; reflexivity.
Qed.
Lemma skip_and_expand_eq p pure s : Pure p pure -> skip_and_expand p pure s = expand (S (length s)) p s.
Proof.
  intros H. unfold skip_and_expand. induction s as [|c s IH]; [reflexivity|]. cbn [span]. destruct (pure c) eqn:E.
  - destruct (H c E) as [P N]. destruct (no_ref c s N) as (N1 & N2 & N3).
    destruct (span pure s) as [a s1] eqn:SP. change (length (c :: s)) with (S (length s)).
    set (X := expand (S (length s1)) p s1) in *. clearbody X. remember (S (length s)) as f. cbn [expand]. subst f. rewrite P. cbn [negb]. rewrite N1, N2, N3, <- IH.
    destruct X as [[v r]| | |]; reflexivity.
  - cbn [app]. destruct (expand (S (length (c :: s))) p (c :: s)) as [[v r]| | |]; reflexivity.
Qed.
Lemma skip_and_expand_total p pure s : Pure p pure ->
  skip_and_expand p pure s = Throw \/ exists v r, skip_and_expand p pure s = Ok (v, r) /\ (length r <= length s)%nat /\ (r = [] \/ exists c r', r = c :: r' /\ p c = false).
Proof. intros H. rewrite skip_and_expand_eq by exact H. apply expand_total. lia. Qed.
Lemma text_pure : Pure is_text is_text_pure.
Proof.
  intros c H. unfold is_text, is_text_pure in *. apply Bool.negb_true_iff, mem_notIn in H. split; [apply Bool.negb_true_iff, mem_notIn|]; cbn [In] in *; intuition.
Qed.
Lemma attr_pure q : Pure (is_attr_value q) (is_attr_pure q).
Proof.
  intros c H. unfold is_attr_value, is_attr_pure in *. apply Bool.negb_true_iff, mem_notIn in H. split; [apply Bool.negb_true_iff, mem_notIn|]; cbn [In] in *; intuition.
Qed.

(* skip_behind, before, skip_doctype, parse_question, parse_exclamation *)
Lemma skip_behind_len t s r : skip_behind t s = Some r -> (length t + length r <= length s)%nat.
Proof.
  induction s as [|c s IH]; cbn [skip_behind]; destruct (strip t _) as [r'|] eqn:E; intros X; inversion X; subst.
  - apply strip_len in E. cbn in *. lia.
  - apply strip_len in E. lia.
  - apply IH in X. cbn [length]. lia.
Qed.
Lemma skip_doctype_len s : forall d r, skip_doctype d s = Some r -> (length r < length s)%nat.
Proof.
  induction s as [|c s IH]; intros d r; cbn [skip_doctype]; [discriminate|]. destruct d.
  - destruct (Ascii.eqb c ">"); [intros X; inversion X; subst; cbn; lia|]. intros X. apply IH in X. cbn [length]. lia.
  - intros X. apply IH in X. cbn [length]. lia.
Qed.
(* an outcome that is either an exception or a shorter text *)
Definition Shorter {A} (n : nat) (r : res (A * str)) : Prop := r = Throw \/ exists x t, r = Ok (x, t) /\ (length t < n)%nat.
Lemma parse_question_total s : parse_question s = Throw \/ exists r, parse_question s = Ok r /\ (length r < length s)%nat.
Proof.
  unfold parse_question. set (b := match s with x :: m :: l :: w :: _ => _ | _ => false end). clearbody b.
  set (u := if b then skipn 4 s else s). assert (L : (length u <= length s)%nat) by (unfold u; destruct b; [rewrite skipn_length; lia|lia]).
  destruct (skip_behind (lit "?>") u) as [r|] eqn:E; [|auto]. right. exists r. split; [reflexivity|]. apply skip_behind_len in E. cbn in E. lia.
Qed.
Lemma parse_exclamation_total s : (0 < length s)%nat -> Shorter (length s) (parse_exclamation s).
Proof.
  intros P. unfold parse_exclamation.
  assert (K : forall (n : option xnode) t u, (0 < length t)%nat -> (length u <= length s)%nat -> Shorter (length s) (let* r' := some_or_throw (skip_behind t u) in Ok (n, r'))).
  { intros n t u T L. destruct (skip_behind t u) as [r|] eqn:E; cbn [some_or_throw bind]; [|left; reflexivity]. right. do 2 eexists. split; [reflexivity|]. apply skip_behind_len in E. lia. }
  destruct (strip (lit "!--") s) as [r|] eqn:E1; [apply strip_len in E1; cbn in E1; apply K; cbn; lia|].
  destruct (strip (lit "![CDATA[") s) as [r|] eqn:E2; [apply strip_len in E2; cbn in E2; apply K; cbn; lia|].
  assert (O : Shorter (length s) (let* r' := some_or_throw (skip_behind (lit ">") (skipn 1 s)) in Ok (@None xnode, r'))) by (apply K; [cbn; lia|rewrite skipn_length; lia]).
  destruct (strip (lit "!DOCTYPE") s) as [[|w r]|] eqn:E3; [exact O| |exact O]. destruct (is_ws w); [|exact O].
  apply strip_len in E3. destruct (skip_doctype 0 r) as [r'|] eqn:E; cbn [some_or_throw bind]; [|left; reflexivity].
  right. do 2 eexists. split; [reflexivity|]. apply skip_doctype_len in E. cbn [length] in E3. lia.
Qed.
Lemma parse_attributes_total : forall f s, (length s < f)%nat -> parse_attributes f s = Throw \/ exists l r, parse_attributes f s = Ok (l, r) /\ (length r <= length s)%nat.
Proof.
  induction f as [|f IH]; intros s L; [lia|]. cbn [parse_attributes].
  pose proof (span_spec is_attr_name s) as SP. destruct (span is_attr_name s) as [name s1]. destruct SP as (-> & _ & _). rewrite app_length in *.
  destruct name as [|c name]; [right; do 2 eexists; split; [reflexivity|cbn; lia]|]. cbn [length] in L.
  pose proof (skip_len is_ws s1) as L1. destruct (skip is_ws s1) as [|e s2]; [auto|]. destruct (negb (Ascii.eqb e "=")); [auto|].
  pose proof (skip_len is_ws s2) as L2. destruct (skip is_ws s2) as [|q s3]; [auto|]. destruct (negb _); [auto|].
  destruct (skip_and_expand_total _ _ s3 (attr_pure q)) as [->|(v & s4 & -> & L3 & _)]; cbn [bind]; [auto|].
  destruct s4 as [|q' s5]; [auto|]. destruct (negb _); [auto|].
  pose proof (skip_len is_ws s5) as L4. cbn [length] in *.
  destruct (IH (skip is_ws s5)) as [->|(l & r & -> & L5)]; [lia| |]; cbn [bind]; [auto|]. right. do 2 eexists. split; [reflexivity|]. lia.
Qed.
Lemma parse_total : forall f,
  (forall s, (length s < f)%nat -> parse_node f s = Throw \/ exists n r, parse_node f s = Ok (n, r) /\ (length r < length s)%nat) /\
  (forall s v cs, (length s < f)%nat -> parse_contents f s v cs = Throw \/ exists v' cs' r, parse_contents f s v cs = Ok (v', cs', r) /\ (length r < length s)%nat).
Proof.
  induction f as [|f [IHn IHc]]; [split; intros; lia|]. split.
  - intros s L. cbn [parse_node]. destruct (strip (lit "?") s) as [r|] eqn:E1.
    { apply strip_len in E1. cbn in E1. destruct (parse_question_total r) as [->|(r' & -> & LR)]; cbn [bind]; [auto|]. right. do 2 eexists. split; [reflexivity|]. lia. }
    destruct (strip (lit "!") s) as [r|] eqn:E2.
    { apply strip_len in E2. cbn in E2. destruct (parse_exclamation_total s) as [->|(x & t & -> & LR)]; [lia| |]; [auto|]. right. eauto. }
    pose proof (span_spec is_node_name s) as SP. destruct (span is_node_name s) as [name s1]. destruct SP as (-> & _ & _). rewrite app_length in *.
    destruct name as [|c name]; [auto|]. cbn [length] in *. pose proof (skip_len is_ws s1) as L1.
    destruct (parse_attributes_total (S (length s1)) (skip is_ws s1)) as [->|(l & s2 & -> & L2)]; [lia| |]; cbn [bind]; [auto|].
    destruct (strip (lit ">") s2) as [s3|] eqn:E3.
    + apply strip_len in E3. cbn in E3. destruct (IHc s3 [] []) as [->|(v' & cs' & r & -> & L3)]; [lia| |]; cbn [bind]; [auto|].
      right. do 2 eexists. split; [reflexivity|]. lia.
    + destruct (strip (lit "/>") s2) as [r|] eqn:E4; [|auto]. apply strip_len in E4. cbn in E4. right. do 2 eexists. split; [reflexivity|]. lia.
  - intros s v cs L. cbn [parse_contents]. pose proof (skip_len is_ws s) as L1.
    assert (D : exists s2 v2 cs2, (length s2 <= length s)%nat /\ (let X := match skip is_ws s with
      | [] => Ok (skip is_ws s, v, cs)
      | c :: _ => if Ascii.eqb c "<" then Ok (skip is_ws s, v, cs)
          else let* (v0, rest) := skip_and_expand is_text is_text_pure s in Ok (rest, if Ascii.eqb (hd NUL v) NUL then v0 else v, cs ++ [XData v0])
      end in X = Throw \/ X = Ok (s2, v2, cs2))).
    { destruct (skip is_ws s) as [|c s1] eqn:E; [exists [], v, cs; split; [cbn; lia|cbn; auto]|].
      destruct (Ascii.eqb c "<"); [exists (c :: s1), v, cs; split; [lia|cbn; auto]|].
      destruct (skip_and_expand_total _ _ s text_pure) as [H|(v0 & r & H & LR & _)]; rewrite H; cbn [bind].
      - exists [], v, cs. split; [cbn; lia|cbn; auto].
      - exists r. do 2 eexists. split; [lia|]. cbn. right. reflexivity. }
    destruct D as (s2 & v2 & cs2 & L2 & D). cbv zeta in D. destruct D as [D|D]; rewrite D; cbn [bind]; [auto|]. clear D.
    destruct (strip (lit "</") s2) as [r|] eqn:E1.
    + apply strip_len in E1. cbn in E1. destruct (strip (lit ">") (skip is_ws (skip is_node_name r))) as [rest|] eqn:E2; [|auto].
      apply strip_len in E2. pose proof (skip_len is_ws (skip is_node_name r)). pose proof (skip_len is_node_name r). cbn in E2.
      right. do 3 eexists. split; [reflexivity|]. lia.
    + destruct (strip (lit "<") s2) as [r|] eqn:E2; [|auto]. apply strip_len in E2. cbn in E2.
      destruct (IHn r) as [->|(n & rest & -> & LR)]; [lia| |]; cbn [bind]; [auto|].
      destruct (IHc rest v2 (cs2 ++ match n with Some x => [x] | None => [] end)) as [->|(v' & cs' & r' & -> & L3)]; [lia| |]; [auto|].
      right. do 3 eexists. split; [reflexivity|]. lia.
Qed.
Lemma parse_document_fuel : forall n f1 f2 s l, (length s <= n)%nat -> (n < f1)%nat -> (n < f2)%nat -> parse_document f1 s l = parse_document f2 s l.
Proof.
  induction n as [|n IH]; intros f1 f2 s l L L1 L2; destruct f1 as [|f1], f2 as [|f2]; try lia; cbn [parse_document]; pose proof (skip_len is_ws s) as LS;
    destruct (skip is_ws s) as [|c r]; try reflexivity; cbn [length] in LS; try lia.
  destruct (Ascii.eqb c "<"); [|reflexivity]. destruct (proj1 (parse_total (S (length r))) r) as [->|(x & rest & -> & LR)]; [lia| |]; cbn [bind]; [reflexivity|].
  apply IH; lia.
Qed.
Definition pd (s : str) (l : list xnode) : res (list xnode) := parse_document (S (length s)) s l.
Lemma pd_eq s l : pd s l = match skip is_ws s with
  | [] => Ok l
  | c :: r => if Ascii.eqb c "<"%char then let* (n, rest) := parse_node (S (length r)) r in pd rest (l ++ match n with Some x => [x] | None => [] end) else Throw
  end.
Proof.
  unfold pd at 1. cbn [parse_document]. pose proof (skip_len is_ws s) as LS. destruct (skip is_ws s) as [|c r]; [reflexivity|]. destruct (Ascii.eqb c "<"); [|reflexivity].
  destruct (proj1 (parse_total (S (length r))) r) as [->|(x & rest & -> & LR)]; [lia| |]; cbn [bind]; [reflexivity|]. cbn [length] in LS.
  unfold pd. apply (parse_document_fuel (length rest)); lia.
Qed.
Lemma pd_total : forall n s l, (length s <= n)%nat -> pd s l = Throw \/ exists l', pd s l = Ok l'.
Proof.
  induction n as [|n IH]; intros s l L; rewrite pd_eq; pose proof (skip_len is_ws s) as LS; destruct (skip is_ws s) as [|c r]; eauto; cbn [length] in LS; try lia.
  destruct (Ascii.eqb c "<"); [|auto]. destruct (proj1 (parse_total (S (length r))) r) as [->|(x & rest & -> & LR)]; [lia| |]; cbn [bind]; [auto|]. apply IH. lia.
Qed.
Lemma pd_blank w s l : Blank w -> pd (w ++ s) l = pd s l.
Proof. intros H. rewrite !pd_eq. rewrite skip_ws by exact H. reflexivity. Qed.
