From Verif Require Import Model.Base Proofs.BaseFacts Model.StdString Model.Strings Model.Number Model.CharStream Model.PropTree Model.PropFile
  Spec.Strings Spec.Quote Spec.Token Proofs.StringFacts Proofs.StringsProofs Proofs.QuoteProofs Proofs.TokenProofs Proofs.DictionaryProofs.
Local Open Scope nat_scope.

Notation PT := (Token PROP_DELIMS PROP_OPS PROP_QUOTS).
Notation PH := (Hang PROP_DELIMS PROP_OPS PROP_QUOTS).

(* streams of the parser *)
Definition pst (st : char_stream) : Prop := AtEnd st /\ cs_delim st = PROP_DELIMS.
Notation len st := (length (cs_rest st)).

Definition suffix_of (r s : str) : Prop := exists p, s = p ++ r.
Lemma suffix_refl s : suffix_of s s. Proof. exists []. reflexivity. Qed.
Lemma suffix_trans a b c : suffix_of a b -> suffix_of b c -> suffix_of a c.
Proof. intros [p ->] [q ->]. exists (q ++ p). apply app_assoc. Qed.
Lemma suffix_len a b : suffix_of a b -> length a <= length b.
Proof. intros [p ->]. rewrite app_length. lia. Qed.
Lemma suffix_nil s : suffix_of [] s. Proof. exists s. symmetry. apply app_nil_r. Qed.

Lemma drop_suffix d s : suffix_of (drop_delims d s) s.
Proof. destruct (drop_skipped d s) as (l & E & _). exists l. exact E. Qed.
Lemma token_suffix D O Q s t tok r : Token D O Q s t tok r -> suffix_of r t.
Proof.
  induction 1 as [s w W|s w c r W Hc|s w c r W Hc NE|c r Hc|s w q t out t' tok r W Hq HQ HT IH].
  - apply suffix_nil.
  - exists w. reflexivity.
  - exists w. reflexivity.
  - exists [c]. reflexivity.
  - destruct IH as [p ->]. apply quoted_suffix in HQ as [p' ->]. exists (w ++ q :: p' ++ p). rewrite <- !app_assoc. cbn. rewrite <- app_assoc. reflexivity.
Qed.

Lemma get_line_state st : pst st -> let st' := snd (get_line st) in pst st' /\ suffix_of (cs_rest st') (cs_rest st).
Proof.
  intros [A D]. cbn zeta. unfold get_line. cbn [snd]. split; [split; [apply AtEnd_process; exact A|]|].
  - unfold process_end_pos. destruct (_ =? 0); [exact D|]. unfold skip_delimiters, test_eof, with_rest. cbn. destruct (drop_delims _ _); exact D.
  - unfold process_end_pos. destruct (_ =? 0); [apply suffix_refl|]. unfold skip_delimiters, test_eof, with_rest. cbn.
    set (n := line_length (cs_rest st)). assert (S : suffix_of (skipn n (cs_rest st)) (cs_rest st)).
    { exists (firstn n (cs_rest st)). symmetry. apply firstn_skipn. }
    pose proof (suffix_trans _ _ _ (drop_suffix (cs_delim st) (skipn n (cs_rest st))) S) as X.
    destruct (drop_delims _ _); exact X.
Qed.

Lemma fits_suffix a b : suffix_of a b -> fits b -> fits a.
Proof. intros S F. apply suffix_len in S. unfold fits in *. lia. Qed.

(* one token *)
Lemma get_token_state st : pst st -> ~ PH (cs_rest st) ->
  exists t st', get_token (S (len st)) PROP_OPS PROP_QUOTS st = Ok (t, st') /\ pst st' /\ suffix_of (cs_rest st') (cs_rest st) /\
    length t <= len st /\ (good st = true -> len st' < len st) /\ (good st = false -> t = []).
Proof.
  intros [A D] NH. destruct (good st) eqn:G.
  - assert (F : cs_fail st = false) by (unfold good in G; destruct (cs_fail st); [discriminate|reflexivity]).
    pose proof (AtEnd_strm st A F) as E. assert (NE : cs_rest st <> []).
    { intros X. apply A in X. unfold good in G. rewrite X, andb_false_r in G. discriminate. }
    rewrite D in E. destruct (token_total PROP_DELIMS PROP_OPS PROP_QUOTS (cs_rest st) []) as [H|(tok & r & H)]; [contradiction|].
    exists tok, (strm PROP_DELIMS (drop_delims PROP_DELIMS r)). split.
    { rewrite E at 2. apply get_token_spec; [exact H|lia]. }
    split; [split; [unfold AtEnd, strm; cbn; destruct (drop_delims _ r); cbn; split; congruence|reflexivity]|].
    split; [cbn; eapply suffix_trans; [apply drop_suffix|eapply token_suffix; exact H]|].
    split; [apply token_len in H; cbn [length] in H; lia|]. split; [intros _; eapply token_progress; eauto|discriminate].
  - exists [], (test_eof (skip_delimiters st)). split; [apply get_token_bad; exact G|].
    assert (S : suffix_of (cs_rest (test_eof (skip_delimiters st))) (cs_rest st)).
    { unfold test_eof, skip_delimiters, test_eof, with_rest. cbn. pose proof (drop_suffix (cs_delim st) (cs_rest st)) as X.
      destruct (drop_delims _ _); cbn; exact X. }
    split; [split|].
    + apply AtEnd_test. intros E. apply AtEnd_skip; [|exact E]. intros X. apply A. exact X.
    + unfold test_eof, skip_delimiters, test_eof, with_rest. cbn. destruct (drop_delims _ _); cbn; exact D.
    + split; [exact S|]. split; [cbn; lia|]. split; [discriminate|reflexivity].
Qed.

(* texts on which no token call can hang *)
Definition calm (s : str) : Prop := forall p r, s = p ++ r -> ~ PH r.
Lemma calm_suffix a b : suffix_of a b -> calm b -> calm a.
Proof. intros [p ->] C q r ->. apply (C (p ++ q) r). rewrite app_assoc. reflexivity. Qed.
Lemma calm_here s : calm s -> ~ PH s. Proof. intros C. apply (C [] s). reflexivity. Qed.
Lemma no_final_backslash_calm s : (forall t, s <> t ++ ["\"%char]) -> calm s.
Proof. intros H p r -> X. apply hang_bslash in X as [t ->]. apply (H (p ++ t)). rewrite app_assoc. reflexivity. Qed.

Definition inv (s : str) (st : char_stream) : Prop := pst st /\ suffix_of (cs_rest st) s.

Section S.
Variable s : str.
Hypothesis Hcalm : calm s.
Hypothesis Hfits : fits s.

Lemma inv_calm st : inv s st -> ~ PH (cs_rest st).
Proof. intros [_ S]. apply calm_here. eapply calm_suffix; eauto. Qed.

Lemma prop_token_total : forall fuel st, inv s st -> len st < fuel ->
  exists t st', get_prop_token fuel st = Ok (t, st') /\ inv s st' /\ len st' <= len st /\
    (good st = true -> len st' < len st) /\ (good st = false -> t = []).
Proof.
  induction fuel as [|fuel IH]; intros st I L; [lia|]. cbn [get_prop_token].
  destruct (get_token_state st (proj1 I) (inv_calm st I)) as (t & st1 & E & P1 & S1 & Lt & G1 & G2). rewrite E. cbn [bind].
  pose proof (suffix_len _ _ S1) as L1. assert (I1 : inv s st1) by (split; [exact P1|eapply suffix_trans; [exact S1|apply I]]).
  destruct (str_eqb t ["%"%char]) eqn:ET.
  - apply str_eqb_eq in ET. subst t. assert (G : good st = true) by (destruct (good st); [reflexivity|specialize (G2 eq_refl); discriminate]).
    specialize (G1 G). destruct (get_line_state st1 P1) as [P2 S2]. set (st2 := snd (get_line st1)) in *.
    pose proof (suffix_len _ _ S2) as L2. destruct (IH st2) as (t' & st' & E' & I' & L' & A1 & A2).
    + split; [exact P2|]. eapply suffix_trans; [exact S2|apply I1].
    + lia.
    + exists t', st'. split; [exact E'|]. split; [exact I'|]. split; [lia|]. split; [intros _; lia|congruence].
  - assert (Ft : fits t). { destruct I as [_ Ss]. apply suffix_len in Ss. unfold fits in *. lia. }
    destruct (trim_spec t default_delimiters Ft) as (m & -> & HM). cbn [bind]. exists m, st1. split; [reflexivity|]. split; [exact I1|]. split; [exact L1|].
    split; [exact G1|]. intros G. specialize (G2 G). subst t. destruct HM as (l & r & X & _). destruct l, m; try discriminate. reflexivity.
Qed.

Definition finished {A} (ok : A -> char_stream -> Prop) (x : res (A * char_stream)) : Prop :=
  match x with Ok (a, st) => ok a st | Throw => True | _ => False end.

Lemma read_total : forall fuel st,
  inv s st ->
  (2 * len st + 2 <= fuel -> forall p, finished (fun _ st' => inv s st' /\ len st' <= len st) (read_prop_node fuel st p)) /\
  (2 * len st + 1 <= fuel -> forall t p, finished (fun _ st' => inv s st' /\ len st' <= len st) (read_children fuel st t p)).
Proof.
  induction fuel as [|fuel IH]; intros st I; [split; intros; lia|]. split; intros L.
  - intros p. cbn [read_prop_node]. destruct (prop_token_total fuel st I ltac:(lia)) as (t & st1 & -> & I1 & L1 & A1 & A2). cbn [bind].
    destruct (str_eqb t ["="%char]).
    + destruct (prop_token_total fuel st1 I1 ltac:(lia)) as (v & st2 & -> & I2 & L2 & _). cbn. split; [exact I2|lia].
    + destruct (str_eqb t ["{"%char]) eqn:ET; [|cbn; auto]. apply str_eqb_eq in ET.
      assert (G : good st = true) by (destruct (good st); [reflexivity|specialize (A2 eq_refl); subst; discriminate]). specialize (A1 G).
      destruct (IH st1 I1) as [_ H]. specialize (H ltac:(lia) t p). destruct (read_children fuel st1 t p) as [[p' st']| | |]; cbn in *; auto. destruct H. split; [assumption|lia].
  - intros t p. cbn [read_children]. destruct (good st) eqn:G; cbn [andb]; [|cbn; auto]. destruct (negb _); [|cbn; auto].
    assert (N : 1 <= len st).
    { destruct (cs_rest st) eqn:X; [|cbn [length]; lia]. apply (proj1 I) in X. unfold good in G. rewrite X, andb_false_r in G. discriminate. }
    destruct (prop_token_total fuel st I ltac:(lia)) as (t' & st1 & -> & I1 & L1 & A1 & A2). cbn [bind]. specialize (A1 G).
    destruct (IH st1 I1) as [H1 H2]. destruct (is_valid_prop_label t').
    + specialize (H1 ltac:(lia) pn_empty). destruct (read_prop_node fuel st1 pn_empty) as [[c st2]| | |]; cbn in *; auto. destruct H1 as [I2 L2].
      destruct (IH st2 I2) as [_ H3]. specialize (H3 ltac:(lia) t' (pn_push p t' c)). destruct (read_children fuel st2 t' _) as [[p' st']| | |]; cbn in *; auto. destruct H3. split; [assumption|lia].
    + destruct (str_eqb t' _); [|cbn; exact Logic.I]. specialize (H2 ltac:(lia) t' p). destruct (read_children fuel st1 t' p) as [[p' st']| | |]; cbn in *; auto. destruct H2. split; [assumption|lia].
Qed.

Lemma parse_total : forall fuel st root, inv s st -> 2 * len st + 2 <= fuel ->
  parse_loop fuel st root = Throw \/ exists r, parse_loop fuel st root = Ok r.
Proof.
  induction fuel as [|fuel IH]; intros st root I L; [lia|]. cbn [parse_loop].
  destruct (prop_token_total fuel st I ltac:(lia)) as (t & st1 & -> & I1 & L1 & A1 & A2). cbn [bind].
  destruct (is_valid_prop_label t) eqn:V; [|right; eexists; reflexivity].
  assert (G : good st = true) by (destruct (good st); [reflexivity|specialize (A2 eq_refl); subst; discriminate]). specialize (A1 G).
  destruct (read_total fuel st1 I1) as [H _]. specialize (H ltac:(lia) pn_empty). destruct (read_prop_node fuel st1 pn_empty) as [[c st2]| | |]; cbn in *; auto; try contradiction.
  destruct H as [I2 L2]. apply IH; [exact I2|lia].
Qed.
End S.

(* more fuel does not change a result *)
Lemma prop_token_mono : forall fuel st, get_prop_token fuel st <> OutOfFuel -> get_prop_token (S fuel) st = get_prop_token fuel st.
Proof.
  induction fuel as [|fuel IH]; intros st H; [exfalso; apply H; reflexivity|]. cbn [get_prop_token] in H |- *.
  destruct (get_token _ _ _ st) as [[t st1]| | |]; cbn [bind] in *; try reflexivity.
  destruct (str_eqb t ["%"%char]); [|reflexivity]. apply IH. exact H.
Qed.
Ltac mono_token k st := let X := fresh in
  destruct (get_prop_token k st) as [[? ?]| | |] eqn:X; cbn [bind] in *;
  [rewrite (prop_token_mono k st) by congruence; rewrite X; cbn [bind]
  |rewrite (prop_token_mono k st) by congruence; rewrite X; reflexivity
  |rewrite (prop_token_mono k st) by congruence; rewrite X; reflexivity
  |congruence].
Lemma read_children_S k st t p : read_children (S k) st t p =
  if good st && negb (str_eqb t ["}"%char]) then
    let* (t', st1) := get_prop_token k st in
    if is_valid_prop_label t' then let* (child, st2) := read_prop_node k st1 pn_empty in read_children k st2 t' (pn_push p t' child)
    else if str_eqb t' ["}"%char] then read_children k st1 t' p else Throw
  else Ok (p, st).
Proof. reflexivity. Qed.
Lemma read_prop_node_S k st p : read_prop_node (S k) st p =
  let* (t, st1) := get_prop_token k st in
  if str_eqb t ["="%char] then let* (v, st2) := get_prop_token k st1 in Ok (set_value p v, st2)
  else if str_eqb t ["{"%char] then read_children k st1 t p
  else Ok (p, st1).
Proof. reflexivity. Qed.
Lemma read_mono : forall fuel,
  (forall st p, read_prop_node fuel st p <> OutOfFuel -> read_prop_node (S fuel) st p = read_prop_node fuel st p) /\
  (forall st t p, read_children fuel st t p <> OutOfFuel -> read_children (S fuel) st t p = read_children fuel st t p).
Proof.
  induction fuel as [|fuel [IH1 IH2]]; (split; [intros st p H|intros st t p H]).
  - exfalso. apply H. reflexivity.
  - cbn [read_children] in H |- *. destruct (good st && _); [|reflexivity]. exfalso. apply H. reflexivity.
  - rewrite (read_prop_node_S fuel) in H |- *. rewrite (read_prop_node_S (S fuel)).
    mono_token fuel st. destruct (str_eqb _ ["="%char]).
    + mono_token fuel c. reflexivity.
    + destruct (str_eqb _ ["{"%char]); [|reflexivity]. apply IH2. exact H.
  - rewrite (read_children_S fuel) in H |- *. rewrite (read_children_S (S fuel)).
    destruct (good st && _); [|reflexivity]. mono_token fuel st. destruct (is_valid_prop_label _).
    + destruct (read_prop_node fuel c pn_empty) as [[ch st2]| | |] eqn:E; cbn [bind] in *.
      * rewrite IH1 by congruence. rewrite E. cbn [bind]. apply IH2. exact H.
      * rewrite IH1 by congruence. rewrite E. reflexivity.
      * rewrite IH1 by congruence. rewrite E. reflexivity.
      * congruence.
    + destruct (str_eqb _ ["}"%char]); [|reflexivity]. apply IH2. exact H.
Qed.
Lemma parse_mono : forall fuel st root, parse_loop fuel st root <> OutOfFuel -> parse_loop (S fuel) st root = parse_loop fuel st root.
Proof.
  induction fuel as [|fuel IH]; intros st root H; [exfalso; apply H; reflexivity|].
  remember (S fuel) as F eqn:EF. cbn [parse_loop]. rewrite EF in H, IH |- *. cbn [parse_loop] in H |- *.
  mono_token fuel st. destruct (is_valid_prop_label _); [|reflexivity].
  destruct (read_prop_node fuel c pn_empty) as [[ch st2]| | |] eqn:E; cbn [bind] in *.
  - rewrite (proj1 (read_mono fuel)) by congruence. rewrite E. cbn [bind]. apply IH. exact H.
  - rewrite (proj1 (read_mono fuel)) by congruence. rewrite E. reflexivity.
  - rewrite (proj1 (read_mono fuel)) by congruence. rewrite E. reflexivity.
  - congruence.
Qed.
Lemma parse_more f1 f2 st root : f1 <= f2 -> parse_loop f1 st root <> OutOfFuel -> parse_loop f2 st root = parse_loop f1 st root.
Proof.
  intros L H. induction L as [|f2 L IH]; [reflexivity|]. rewrite parse_mono; [exact IH|]. rewrite IH. exact H.
Qed.
Lemma token_more f1 f2 st : f1 <= f2 -> get_prop_token f1 st <> OutOfFuel -> get_prop_token f2 st = get_prop_token f1 st.
Proof.
  intros L H. induction L as [|f2 L IH]; [reflexivity|]. rewrite prop_token_mono; [exact IH|]. rewrite IH. exact H.
Qed.
Lemma read_more f1 f2 st p : f1 <= f2 -> read_prop_node f1 st p <> OutOfFuel -> read_prop_node f2 st p = read_prop_node f1 st p.
Proof.
  intros L H. induction L as [|f2 L IH]; [reflexivity|]. rewrite (proj1 (read_mono f2)); [exact IH|]. rewrite IH. exact H.
Qed.

Lemma parse_start text : inv (cstr text) (cs_of_cstr text PROP_DELIMS).
Proof.
  unfold cs_of_cstr. split; [split|].
  - apply AtEnd_skip. discriminate.
  - unfold skip_delimiters, test_eof, with_rest. cbn. destruct (drop_delims _ _); reflexivity.
  - unfold skip_delimiters, test_eof, with_rest. cbn. pose proof (drop_suffix PROP_DELIMS (cstr text)) as S. destruct (drop_delims _ _); exact S.
Qed.
Lemma length_cstr s : length (cstr s) <= length s.
Proof. induction s as [|c s IH]; cbn [cstr]; [lia|]. destruct (Ascii.eqb c NUL); cbn [length]; lia. Qed.

(* parse_prop terminates with enough fuel, and all larger fuel agrees *)
Lemma parse_prop_total text : fits text -> calm (cstr text) ->
  (parse_prop text = Throw \/ exists r, parse_prop text = Ok r) /\
  forall fuel, 2 * length text + 3 <= fuel -> parse_prop_fuel fuel text = parse_prop text.
Proof.
  intros F C. assert (F' : fits (cstr text)) by (unfold fits in *; pose proof (length_cstr text); lia).
  pose proof (parse_start text) as I. pose proof (suffix_len _ _ (proj2 I)) as L. pose proof (length_cstr text) as L2.
  assert (T : parse_prop text = Throw \/ exists r, parse_prop text = Ok r).
  { unfold parse_prop, parse_prop_fuel. apply (parse_total (cstr text) C F'); [exact I|lia]. }
  split; [exact T|]. intros fuel Hf. apply parse_more; [exact Hf|].
  change (parse_loop _ _ _) with (parse_prop text). destruct T as [->|[r ->]]; discriminate.
Qed.

(* non-termination *)
Lemma prop_token_hang st : pst st -> cs_fail st = false -> PH (cs_rest st) -> forall fuel, get_prop_token fuel st = OutOfFuel.
Proof.
  intros [A D] F H [|fuel]; [reflexivity|]. cbn [get_prop_token]. pose proof (AtEnd_strm st A F) as E. rewrite D in E.
  rewrite E at 2. rewrite get_token_hang by exact H. reflexivity.
Qed.
