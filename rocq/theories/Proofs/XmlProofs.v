(* the parser on documents of the grammar *)
From Coq Require Import String.
From Verif Require Import Model.Base Model.StdString Model.Strings Model.PropTree Model.RapidXml Model.Xml Spec.Strings Spec.Xml Proofs.RapidXmlProofs.
Local Open Scope Z_scope.
Local Open Scope list_scope.

(* UTF-8 *)
Lemma byte_Byte b z : 0 <= z < 256 -> (byte z = b <-> Byte b z).
Proof.
  intros H. unfold byte, Byte. rewrite Z.mod_small by exact H. split.
  - intros <-. unfold nat_of_ascii. rewrite N_ascii_embedding by lia. lia.
  - intros <-. unfold nat_of_ascii. replace (Z.to_N (Z.of_nat (N.to_nat (N_of_ascii b)))) with (N_of_ascii b) by lia. apply ascii_N_embedding.
Qed.
Lemma byte_mod z : byte z = byte (z mod 256).
Proof. unfold byte. rewrite Z.mod_mod by lia. reflexivity. Qed.
Lemma bits_lt8 i : 0 <= i < 8 -> i = 0 \/ i = 1 \/ i = 2 \/ i = 3 \/ i = 4 \/ i = 5 \/ i = 6 \/ i = 7.
Proof. lia. Qed.
Lemma lor_add a b k : 0 <= a < 2 ^ k -> 0 <= k -> Z.land b (2 ^ k - 1) = 0 -> Z.lor a b = b + a.
Proof.
  intros A K B. assert (E : Z.land a b = 0).
  { apply Z.bits_inj'. intros i I. rewrite Z.land_spec, Z.bits_0. destruct (Z_lt_ge_dec i k).
    - assert (X : Z.testbit (Z.land b (2 ^ k - 1)) i = false) by (rewrite B; apply Z.bits_0). rewrite Z.land_spec in X.
      replace (2 ^ k - 1) with (Z.ones k) in X by (rewrite Z.ones_equiv; lia). rewrite Z.ones_spec_low in X by lia. rewrite Bool.andb_true_r in X. rewrite X. apply Bool.andb_false_r.
    - replace a with (a mod 2 ^ k) by (apply Z.mod_small; exact A). rewrite Z.mod_pow2_bits_high by lia. reflexivity. }
  rewrite <- Z.lxor_lor by exact E. rewrite <- Z.add_nocarry_lxor by exact E. lia.
Qed.
Lemma low_spec c : 0 <= c -> Z.land (Z.lor c 128) 191 mod 256 = 128 + c mod 64.
Proof.
  intros H. replace (128 + c mod 64) with (Z.lor (c mod 64) 128).
  - apply Z.bits_inj'. intros i I. change 256 with (2 ^ 8). change 64 with (2 ^ 6).
    destruct (Z_lt_ge_dec i 8) as [L|L].
    + rewrite Z.mod_pow2_bits_low by lia. rewrite Z.land_spec, !Z.lor_spec.
      destruct (Z_lt_ge_dec i 6) as [L6|L6]; [rewrite Z.mod_pow2_bits_low by lia|rewrite Z.mod_pow2_bits_high by lia];
        destruct (bits_lt8 i ltac:(lia)) as [->|[->|[->|[->|[->|[->|[->| ->]]]]]]]; try lia; cbn; rewrite ?Bool.orb_false_r, ?Bool.andb_true_r, ?Bool.andb_false_r, ?Bool.orb_true_r; reflexivity.
    + rewrite Z.mod_pow2_bits_high by lia. rewrite Z.lor_spec. rewrite Z.mod_pow2_bits_high by lia. cbn [orb]. symmetry.
      apply Z.bits_above_log2; [lia|]. change (Z.log2 128) with 7. lia.
  - rewrite (lor_add (c mod 64) 128 6); [lia|apply Z.mod_pos_bound; lia|lia|reflexivity].
Qed.
Lemma coded_Utf8 c v : 0 <= c -> (coded_character c = Ok v <-> Utf8 c v).
Proof.
  intros P. unfold coded_character. rewrite !Z.shiftr_div_pow2 by lia. change (2 ^ 6) with 64. change (2 ^ 12) with 4096. change (2 ^ 18) with 262144.
  assert (LB : forall d, 0 <= d -> byte (Z.land (Z.lor d 128) 191) = byte (128 + d mod 64)).
  { intros d D. rewrite byte_mod, low_spec by exact D. reflexivity. }
  assert (MB : forall d, 0 <= 128 + d mod 64 < 256) by (intros d; pose proof (Z.mod_pos_bound d 64); lia).
  pose proof (Z.div_pos c 64 P ltac:(lia)). pose proof (Z.div_pos c 4096 P ltac:(lia)).
  rewrite (LB c), (LB (c / 64)), (LB (c / 4096)) by lia.
  destruct (c <? 128) eqn:E1; [apply Z.ltb_lt in E1|apply Z.ltb_ge in E1; destruct (c <? 2048) eqn:E2; [apply Z.ltb_lt in E2|apply Z.ltb_ge in E2; destruct (c <? 65536) eqn:E3; [apply Z.ltb_lt in E3|apply Z.ltb_ge in E3; destruct (c <? 1114112) eqn:E4; [apply Z.ltb_lt in E4|apply Z.ltb_ge in E4]]]].
  - split.
    + intros X. inversion X; subst. apply Utf8_1; [lia|]. apply byte_Byte; [lia|reflexivity].
    + intros X. inversion X; subst; try lia. f_equal. f_equal. apply byte_Byte; [lia|assumption].
  - assert (B1 : 0 <= c / 64 < 32) by (split; [lia|apply Z.div_lt_upper_bound; lia]). rewrite (lor_add (c / 64) 192 5) by (try reflexivity; lia).
    split.
    + intros X. inversion X; subst. apply Utf8_2; [lia| |]; apply byte_Byte; try reflexivity; auto; lia.
    + intros X. inversion X; subst; try lia. f_equal. f_equal; [|f_equal]; apply byte_Byte; auto; lia.
  - assert (B1 : 0 <= c / 4096 < 16) by (split; [lia|apply Z.div_lt_upper_bound; lia]). rewrite (lor_add (c / 4096) 224 4) by (try reflexivity; lia).
    split.
    + intros X. inversion X; subst. apply Utf8_3; [lia| | |]; apply byte_Byte; try reflexivity; auto; lia.
    + intros X. inversion X; subst; try lia. f_equal. f_equal; [|f_equal; [|f_equal]]; apply byte_Byte; auto; lia.
  - assert (B1 : 0 <= c / 262144 < 8) by (split; [apply Z.div_pos; lia|apply Z.div_lt_upper_bound; lia]). rewrite (lor_add (c / 262144) 240 3) by (try reflexivity; lia).
    split.
    + intros X. inversion X; subst. apply Utf8_4; [lia| | | |]; apply byte_Byte; try reflexivity; auto; lia.
    + intros X. inversion X; subst; try lia. f_equal. f_equal; [|f_equal; [|f_equal; [|f_equal]]]; apply byte_Byte; auto; lia.
  - split; [discriminate|]. intros X. inversion X; subst; lia.
Qed.
(* numbers *)
Lemma digit_Digit base c d : Digit base c d -> digit c = Some d.
Proof.
  unfold digit, code. intros [? ? H|? ? H|? ? H]; rewrite H.
  - replace ((48 <=? 48 + d0) && (48 + d0 <=? 57)) with true by (symmetry; apply andb_true_intro; split; apply Z.leb_le; lia). f_equal. lia.
  - replace ((48 <=? 55 + d0) && (55 + d0 <=? 57)) with false by (symmetry; apply andb_false_iff; right; apply Z.leb_gt; lia).
    replace ((65 <=? 55 + d0) && (55 + d0 <=? 70)) with true by (symmetry; apply andb_true_intro; split; apply Z.leb_le; lia). f_equal. lia.
  - replace ((48 <=? 87 + d0) && (87 + d0 <=? 57)) with false by (symmetry; apply andb_false_iff; right; apply Z.leb_gt; lia).
    replace ((65 <=? 87 + d0) && (87 + d0 <=? 70)) with false by (symmetry; apply andb_false_iff; right; apply Z.leb_gt; lia).
    replace ((97 <=? 87 + d0) && (87 + d0 <=? 102)) with true by (symmetry; apply andb_true_intro; split; apply Z.leb_le; lia). f_equal. lia.
Qed.
Lemma Digit_nonneg base c d : Digit base c d -> 0 <= d < base.
Proof. intros [? ? H|? ? H|? ? H]; lia. Qed.
Lemma Number_nonneg base l n : 0 < base -> Number base l n -> 0 <= n.
Proof. intros B. induction 1 as [|l n c d H IH D]; [lia|]. apply Digit_nonneg in D. nia. Qed.
Lemma read_number base l n : 0 < base -> Number base l n -> n < 2 ^ 32 -> forall s, read_code base 0 (l ++ s) = read_code base n s.
Proof.
  intros B H. induction H as [|l n c d H IH D]; intros L s; [reflexivity|]. pose proof (Number_nonneg base l n B H) as P. pose proof (Digit_nonneg base c d D) as PD.
  rewrite <- app_assoc. cbn [app]. rewrite IH by nia. cbn [read_code]. rewrite (digit_Digit base c d D). rewrite Z.mod_small by nia. reflexivity.
Qed.
Lemma Number_chars base l n : Number base l n -> Forall (fun c => exists d, Digit base c d) l.
Proof. induction 1; [constructor|]. apply Forall_app. split; [assumption|]. constructor; [eauto|constructor]. Qed.
(* encoded text *)
Lemma Digit_not base c d x : Digit base c d -> ~ (48 <= Z.of_nat (nat_of_ascii x) < 48 + 10 \/ 65 <= Z.of_nat (nat_of_ascii x) < 71 \/ 97 <= Z.of_nat (nat_of_ascii x) < 103) -> c <> x.
Proof. intros H N ->. apply N. destruct H as [? ? H|? ? H|? ? H]; lia. Qed.
Lemma digit_semicolon : digit ";" = None.
Proof. reflexivity. Qed.
Lemma Utf8_lt n v : Utf8 n v -> n < 2 ^ 32.
Proof. intros H. inversion H; subst; lia. Qed.
Definition Stops (stop : str) (p : ascii -> bool) : Prop := p "&"%char = true /\ forall c, c <> "&"%char -> c <> zero -> ~ In c stop -> p c = true.
Lemma expand_encodes stop p q : Stops stop p -> p q = false -> forall t v, Encodes stop t v ->
  forall rest fuel, (length (t ++ q :: rest) < fuel)%nat -> expand fuel p (t ++ q :: rest) = Ok (v, q :: rest).
Proof.
  intros [PA PC] PQ t v H. induction H as [|c t v N1 N2 N3 H IH|r x t v R H IH]; intros rest fuel L; (destruct fuel as [|fuel]; [lia|]).
  - cbn [app expand]. rewrite PQ. reflexivity.
  - cbn [app length] in *. cbn [expand]. rewrite (PC c N1 N2 N3). cbn [negb]. destruct (no_ref c (t ++ q :: rest) N1) as (E1 & E2 & E3). rewrite E1, E2, E3.
    rewrite IH by lia. reflexivity.
  - rewrite <- app_assoc in *. rewrite app_length in L. pose proof (fun f L => IH rest f L) as IH'. clear IH. set (s := t ++ q :: rest) in *. clearbody s.
    destruct R as [| | | | |ds n x ND HN P U|ds n x ND HN P U].
    1-5: unfold Text in *; cbn [list_ascii_of_string app length] in *; cbn [expand]; rewrite PA; cbn [negb]; unfold named_refs, lit;
      cbn [find_ref strip list_ascii_of_string Ascii.eqb Bool.eqb]; rewrite IH' by lia; reflexivity.
    + assert (FD : exists c ds', ds = c :: ds' /\ exists d, Digit 10 c d).
      { pose proof (Number_chars _ _ _ HN) as F. destruct F as [|c ds' D F]; [contradiction|]. exists c, ds'. auto. }
      rewrite <- !app_assoc in *. unfold Text in *. cbn [list_ascii_of_string app length] in *. cbn [expand]. rewrite PA. cbn [negb].
      destruct FD as (c & ds' & E & d & D). assert (NX : Ascii.eqb "x" c = false).
      { apply Ascii.eqb_neq. intros X. apply (Digit_not 10 c d "x" D); [cbn; lia|congruence]. }
      assert (N1 : find_ref named_refs ("&"%char :: "#"%char :: ds ++ ";"%char :: s) = None) by reflexivity.
      assert (N2 : strip (lit "&#x") ("&"%char :: "#"%char :: ds ++ ";"%char :: s) = None) by (rewrite E; unfold lit; cbn [list_ascii_of_string app strip]; rewrite NX; reflexivity).
      assert (N3 : strip (lit "&#") ("&"%char :: "#"%char :: ds ++ ";"%char :: s) = Some (ds ++ ";"%char :: s)) by reflexivity.
      rewrite N1, N2, N3. rewrite (read_number 10 ds n) by (try exact HN; try lia; eapply Utf8_lt; exact U).
      cbn [read_code]. rewrite digit_semicolon. rewrite (proj2 (coded_Utf8 n x ltac:(lia)) U). cbn [bind]. cbn [Ascii.eqb Bool.eqb].
      rewrite IH' by (rewrite app_length in L; cbn [length] in L; lia). reflexivity.
    + rewrite <- !app_assoc in *. unfold Text in *. cbn [list_ascii_of_string app length] in *. cbn [expand]. rewrite PA. cbn [negb].
      assert (N1 : find_ref named_refs ("&"%char :: "#"%char :: "x"%char :: ds ++ ";"%char :: s) = None) by reflexivity.
      assert (N2 : strip (lit "&#x") ("&"%char :: "#"%char :: "x"%char :: ds ++ ";"%char :: s) = Some (ds ++ ";"%char :: s)) by reflexivity.
      rewrite N1, N2. rewrite (read_number 16 ds n) by (try exact HN; try lia; eapply Utf8_lt; exact U).
      cbn [read_code]. rewrite digit_semicolon. rewrite (proj2 (coded_Utf8 n x ltac:(lia)) U). cbn [bind]. cbn [Ascii.eqb Bool.eqb].
      rewrite IH' by (rewrite app_length in L; cbn [length] in L; lia). reflexivity.
Qed.
Lemma Byte_not_zero b z : Byte b z -> 0 < z -> b <> zero.
Proof. intros H P ->. unfold Byte in H. cbn in H. lia. Qed.
Lemma Reference_value r x : Reference r x -> x <> [] /\ free [zero] x.
Proof.
  assert (U : forall n v, 0 < n -> Utf8 n v -> v <> [] /\ free [zero] v).
  { intros n v P H. pose proof (Z.mod_pos_bound n 64 ltac:(lia)). pose proof (Z.mod_pos_bound (n / 64) 64 ltac:(lia)). pose proof (Z.mod_pos_bound (n / 4096) 64 ltac:(lia)).
    pose proof (Z.div_pos n 64 ltac:(lia) ltac:(lia)). pose proof (Z.div_pos n 4096 ltac:(lia) ltac:(lia)). pose proof (Z.div_pos n 262144 ltac:(lia) ltac:(lia)).
    inversion H; subst; (split; [discriminate|]); repeat (constructor; [intros [X|[]]; symmetry in X; revert X; eapply Byte_not_zero; [eassumption|lia]|]); constructor. }
  intros [| | | | |ds n v ND HN P H|ds n v ND HN P H]; try (split; [discriminate|repeat constructor; intros [X|[]]; discriminate]); apply (U n v P H).
Qed.
Lemma Encodes_free stop t v : Encodes stop t v -> free [zero] v.
Proof.
  induction 1 as [|c t v N1 N2 N3 H IH|r x t v R H IH]; [constructor| |].
  - constructor; [intros [X|[]]; congruence|exact IH].
  - apply Forall_app. split; [apply (Reference_value r x R)|exact IH].
Qed.
Lemma Reference_text r x : Reference r x -> r <> [] /\ free [zero] r.
Proof.
  intros R. split; [destruct R; discriminate|].
  assert (D : forall base ds n, Number base ds n -> free [zero] ds).
  { intros base ds n H. eapply Forall_impl; [|apply (Number_chars base ds n H)]. intros c [d C] [X|[]]. apply (Digit_not base c d zero C); [cbn; lia|auto]. }
  destruct R as [| | | | |ds n v ND HN P H|ds n v ND HN P H]; try (repeat constructor; intros [X|[]]; discriminate);
    apply Forall_app; split; try (repeat constructor; intros [X|[]]; discriminate); apply Forall_app; split; try (repeat constructor; intros [X|[]]; discriminate); eapply D; exact HN.
Qed.
Lemma Encodes_text stop t v : Encodes stop t v -> free [zero] t /\ (t <> [] -> v <> []) /\ (v <> [] -> t <> []).
Proof.
  induction 1 as [|c t v N1 N2 N3 H IH|r x t v R H IH]; [split; [constructor|auto]| |].
  - split; [constructor; [intros [X|[]]; congruence|apply IH]|]. split; discriminate.
  - destruct (Reference_text r x R). destruct (Reference_value r x R). split; [apply Forall_app; split; [assumption|apply IH]|].
    split; intros _; intros X; apply app_eq_nil in X; destruct X; contradiction.
Qed.
Lemma cstr_free s : free [zero] s -> cstr s = s.
Proof.
  induction 1 as [|c s H F IH]; [reflexivity|]. cbn [cstr]. destruct (Ascii.eqb c NUL) eqn:E; [|f_equal; exact IH].
  apply Ascii.eqb_eq in E. exfalso. apply H. left. subst. reflexivity.
Qed.
Lemma text_stops : Stops ["<"%char] is_text.
Proof. split; [reflexivity|]. intros c H1 H2 H3. apply Bool.negb_true_iff, mem_notIn. intros [X|[X|[]]]; [apply H3; left; exact X|]. apply H2. symmetry. exact X. Qed.
Lemma attr_stops q : q = "'"%char \/ q = """"%char -> Stops [q] (is_attr_value q) /\ is_attr_value q q = false.
Proof.
  intros Q. split; [|apply Bool.negb_false_iff, mem_In; left; reflexivity]. split; [destruct Q as [-> | ->]; reflexivity|].
  intros c H1 H2 H3. apply Bool.negb_true_iff, mem_notIn. intros [X|[X|[]]]; [apply H3; left; exact X|]. apply H2. symmetry. exact X.
Qed.
Lemma read_text t v rest : Encodes ["<"%char] t v -> skip_and_expand is_text is_text_pure (t ++ "<"%char :: rest) = Ok (v, "<"%char :: rest).
Proof. intros H. rewrite (skip_and_expand_eq _ _ _ text_pure). apply (expand_encodes _ _ _ text_stops); [reflexivity|exact H|lia]. Qed.
Lemma read_attr q t v rest : q = "'"%char \/ q = """"%char -> Encodes [q] t v -> skip_and_expand (is_attr_value q) (is_attr_pure q) (t ++ q :: rest) = Ok (v, q :: rest).
Proof. intros Q H. destruct (attr_stops q Q) as [S E]. rewrite (skip_and_expand_eq _ _ _ (attr_pure q)). apply (expand_encodes _ _ _ S); [exact E|exact H|lia]. Qed.

(* attributes *)
Lemma attr_name_char c : is_attr_name c = true <-> ~ In c (zero :: "/" :: "<" :: ">" :: "=" :: "?" :: "!" :: blank_chars)%char.
Proof.
  unfold is_attr_name. rewrite Bool.negb_true_iff, mem_notIn. unfold attr_name_stop, xml_ws, blank_chars, LF, CR, TAB, NUL, zero. cbn [app In]. intuition.
Qed.
Lemma node_name_char c : is_node_name c = true <-> ~ In c (zero :: "/" :: ">" :: "?" :: blank_chars)%char.
Proof.
  unfold is_node_name. rewrite Bool.negb_true_iff, mem_notIn. unfold node_name_stop, xml_ws, blank_chars, LF, CR, TAB, NUL, zero. cbn [app In]. intuition.
Qed.
Lemma attr_name_false c : In c (zero :: "/" :: "<" :: ">" :: "=" :: "?" :: "!" :: blank_chars)%char -> is_attr_name c = false.
Proof. intros I. destruct (is_attr_name c) eqn:E; [|reflexivity]. apply attr_name_char in E. contradiction. Qed.
Lemma node_name_false c : In c (zero :: "/" :: ">" :: "?" :: blank_chars)%char -> is_node_name c = false.
Proof. intros I. destruct (is_node_name c) eqn:E; [|reflexivity]. apply node_name_char in E. contradiction. Qed.
Lemma attr_name_span n s : AttributeName n -> (exists c r, s = c :: r /\ In c (zero :: "/" :: "<" :: ">" :: "=" :: "?" :: "!" :: blank_chars)%char) -> span is_attr_name (n ++ s) = (n, s).
Proof.
  intros [_ F] (c & r & -> & I). apply span_stop; [|apply attr_name_false; exact I]. eapply Forall_impl; [|exact F]. intros d. apply attr_name_char.
Qed.
Lemma node_name_span n s : free (zero :: "/" :: ">" :: "?" :: blank_chars)%char n -> (exists c r, s = c :: r /\ In c (zero :: "/" :: ">" :: "?" :: blank_chars)%char) -> span is_node_name (n ++ s) = (n, s).
Proof.
  intros F (c & r & -> & I). apply span_stop; [|apply node_name_false; exact I]. eapply Forall_impl; [|exact F]. intros d. apply node_name_char.
Qed.
(* blanks followed by a character *)
Lemma blank_then w c s : Blank w -> exists d r, w ++ c :: s = d :: r /\ (d = c \/ In d blank_chars).
Proof. intros H. destruct H as [|d w I F]; cbn [app]; eauto. Qed.
Lemma quote_ok q : q = "'"%char \/ q = """"%char -> negb (Ascii.eqb q "'" || Ascii.eqb q QUOTE) = false /\ ~ In q blank_chars.
Proof. intros [-> | ->]; (split; [reflexivity|]); intros H; cbn in H; intuition discriminate. Qed.
Lemma read_attributes t l : Attributes t l -> forall c rest, In c ["/"; ">"]%char ->
  (exists d r, t ++ c :: rest = d :: r /\ (d = c \/ In d blank_chars)) /\
  forall f, (length (t ++ c :: rest) < f)%nat -> parse_attributes f (skip is_ws (t ++ c :: rest)) = Ok (l, c :: rest).
Proof.
  induction 1 as [w B|w n w1 w2 q t v rest0 l NW B AN B1 B2 Q E H IH]; intros c rest C.
  - split; [apply blank_then; exact B|]. intros f L.
    assert (NB : ~ In c blank_chars) by (cbn in C |- *; intuition (subst; discriminate)). rewrite skip_ws_stop by assumption.
    destruct f as [|f]; [lia|]. cbn [parse_attributes span]. rewrite attr_name_false; [reflexivity|]. cbn [In] in *. intuition.
  - split.
    { destruct w as [|d w]; [contradiction|]. inversion B; subst. cbn [app]. eauto. }
    intros f L. repeat (rewrite <- ?app_assoc in *; cbn [app] in * ). rewrite skip_ws by exact B.
    rewrite !app_length in L. cbn [length] in L. destruct AN as [NN FN].
    assert (SN : skip is_ws (n ++ w1 ++ "="%char :: w2 ++ q :: t ++ q :: rest0 ++ c :: rest) = n ++ w1 ++ "="%char :: w2 ++ q :: t ++ q :: rest0 ++ c :: rest).
    { destruct n as [|d n]; [contradiction|]. inversion FN; subst. apply (skip_ws_stop [] d); [constructor|]. cbn [In] in *. intuition. }
    rewrite SN. destruct f as [|f]; [lia|]. cbn [parse_attributes].
    rewrite (attr_name_span n) by (first [split; assumption|destruct (blank_then w1 "=" (w2 ++ q :: t ++ q :: rest0 ++ c :: rest) B1) as (d & r & E1 & [->|I]); rewrite E1; eexists; eexists; (split; [reflexivity|]); cbn [In] in *; intuition]).
    destruct n as [|d n]; [contradiction|].
    rewrite skip_ws_stop by (try exact B1; cbn; intuition discriminate). cbn [Ascii.eqb Bool.eqb negb].
    destruct (quote_ok q Q) as [Q1 Q2]. rewrite (skip_ws_stop w2) by assumption. rewrite Q1. rewrite (read_attr q t v) by assumption. cbn [bind].
    rewrite Ascii.eqb_refl. cbn [negb]. destruct (IH c rest C) as [_ IH']. rewrite IH' by (repeat (rewrite ?app_length in *; cbn [length] in * ); lia). reflexivity.
Qed.

(* comments and instructions *)
Lemma skip_behind_end s t r : s <> [] -> EndsAt s t -> skip_behind s (t ++ s ++ r) = Some r.
Proof.
  intros NS. induction t as [|c t IH]; intros H.
  - cbn [app]. destruct (s ++ r) eqn:E; [destruct s; [contradiction|discriminate]|]. cbn [skip_behind]. rewrite <- E, strip_app. reflexivity.
  - cbn [app skip_behind]. destruct (strip s (c :: t ++ s ++ r)) as [r'|] eqn:E.
    + exfalso. apply strip_iff in E. pose proof (f_equal (firstn (length (c :: t ++ s))) E) as F.
      change (c :: t ++ s ++ r) with ((c :: t) ++ s ++ r) in F. rewrite app_assoc in F. change (c :: t ++ s) with ((c :: t) ++ s) in F.
      rewrite firstn_app, Nat.sub_diag, firstn_all, firstn_O, app_nil_r, firstn_app, firstn_all2 in F by (cbn [app length]; rewrite !app_length; lia).
      specialize (H [] _ F). rewrite H, app_nil_r in F. apply (f_equal (@length _)) in F. cbn [app length] in F. rewrite app_length in F. lia.
    + apply IH. intros l r' E'. apply (H (c :: l) r'). cbn [app]. rewrite E'. reflexivity.
Qed.
Lemma EndsAt_tail s c t : EndsAt s (c :: t) -> EndsAt s t.
Proof. intros H l r E. apply (H (c :: l) r). cbn [app]. rewrite E. reflexivity. Qed.
Lemma ws_chars c : is_ws c = true -> In c blank_chars.
Proof. intros H. apply ws_blank. exact H. Qed.
Lemma read_question t r : EndsAt (Text "?>") t -> parse_question (t ++ Text "?>" ++ r) = Ok r.
Proof.
  intros H. unfold parse_question.
  assert (K : forall u, EndsAt (Text "?>") u -> some_or_throw (skip_behind (lit "?>") (u ++ Text "?>" ++ r)) = Ok r).
  { intros u U. change (lit "?>") with (Text "?>"). rewrite skip_behind_end by (try exact U; discriminate). reflexivity. }
  destruct t as [|a [|b [|c [|d t]]]].
  1-4: assert (E : forall b : bool, b = false -> forall s : str, (if b then skipn 4 s else s) = s) by (intros ? -> ?; reflexivity);
    rewrite E; [apply K; exact H|]; cbn [app Text list_ascii_of_string]; try (destruct r as [|r0 [|r1 r]]); try reflexivity;
    repeat match goal with |- context [mem ?l ?x] => is_var x; destruct (mem l x) end; reflexivity.
  cbn [app]. destruct (mem (lit "xX") a && mem (lit "mM") b && mem (lit "lL") c && is_ws d)%bool.
  - cbn [skipn]. apply K. do 4 apply EndsAt_tail in H. exact H.
  - apply (K (a :: b :: c :: d :: t)). exact H.
Qed.
Lemma subset_free t : Subset t -> free [zero] t.
Proof.
  induction 1 as [|c t N S IH|t u S IHS U IHU]; [constructor|constructor; [intros [X|[]]; subst; apply N; left; reflexivity|exact IH]|]. constructor; [intros [X|[]]; discriminate|]. apply Forall_app. split; [exact IHS|]. constructor; [intros [X|[]]; discriminate|exact IHU].
Qed.
Lemma doctype_free t : Doctype t -> free [zero] t.
Proof.
  induction 1 as [|c t N S IH|t u S U IHU]; [constructor|constructor; [intros [X|[]]; subst; apply N; left; reflexivity|exact IH]|]. constructor; [intros [X|[]]; discriminate|]. apply Forall_app. split; [apply subset_free, S|]. constructor; [intros [X|[]]; discriminate|exact IHU].
Qed.
Lemma skip_subset t : Subset t -> forall d r, skip_doctype (S d) (t ++ r) = skip_doctype (S d) r.
Proof.
  induction 1 as [|c t N S IH|t u S IHS U IHU]; intros d r; [reflexivity| |].
  - cbn [app skip_doctype]. rewrite (proj2 (Ascii.eqb_neq c "["%char)) by (intros ->; apply N; cbn; tauto). rewrite (proj2 (Ascii.eqb_neq c "]"%char)) by (intros ->; apply N; cbn; tauto). apply IH.
  - cbn [app skip_doctype]. rewrite Ascii.eqb_refl, <- app_assoc. rewrite IHS. cbn [app skip_doctype]. change (Ascii.eqb "]" "[") with false. rewrite Ascii.eqb_refl. apply IHU.
Qed.
Lemma skip_doctype_end t : Doctype t -> forall r, skip_doctype 0 (t ++ ">"%char :: r) = Some r.
Proof.
  induction 1 as [|c t N S IH|t u S U IHU]; intros r; [reflexivity| |].
  - cbn [app skip_doctype]. rewrite (proj2 (Ascii.eqb_neq c ">"%char)) by (intros ->; apply N; cbn; tauto). rewrite (proj2 (Ascii.eqb_neq c "["%char)) by (intros ->; apply N; cbn; tauto). apply IH.
  - cbn [app skip_doctype]. change (Ascii.eqb "[" ">") with false. rewrite Ascii.eqb_refl, <- app_assoc. rewrite (skip_subset t S). cbn [app skip_doctype]. change (Ascii.eqb "]" "[") with false. rewrite Ascii.eqb_refl. apply IHU.
Qed.
Lemma read_misc t : Misc t -> exists t' c, t = "<"%char :: t' /\ free [zero] t /\ hd_error t' = Some c /\ c <> "/"%char /\ forall rest f, parse_node (S f) (t' ++ rest) = Ok (None, rest).
Proof.
  intros M. destruct M as [u F H|u F H|b u B D].
  3:{ eexists. eexists. split; [reflexivity|]. split.
      - apply Forall_app. split; [repeat constructor; intros [X|[]]; discriminate|]. constructor; [intros [X|[]]; subst; cbn in B; intuition discriminate|]. apply Forall_app. split; [apply doctype_free, D|]. repeat constructor. intros [X|[]]; discriminate.
      - split; [reflexivity|]. split; [discriminate|]. intros rest f. cbn [app]. rewrite <- app_assoc. cbn [app parse_node]. unfold lit at 1 2. cbn [strip list_ascii_of_string Ascii.eqb Bool.eqb].
        unfold parse_exclamation. unfold lit. cbn [strip list_ascii_of_string Ascii.eqb Bool.eqb]. rewrite (proj2 (ws_blank b) B). rewrite (skip_doctype_end u D rest). reflexivity. }
  all: eexists; eexists; (split; [reflexivity|]); (split; [repeat (apply Forall_app; split); try exact F; repeat constructor; intros [X|[]]; discriminate|]);
    (split; [reflexivity|]); (split; [discriminate|]); intros rest f.
  - cbn [app]. repeat (rewrite <- ?app_assoc; cbn [app]). cbn [parse_node]. unfold lit at 1 2. cbn [strip list_ascii_of_string Ascii.eqb Bool.eqb].
    unfold parse_exclamation. unfold lit at 1. cbn [strip list_ascii_of_string Ascii.eqb Bool.eqb].
    change (lit "-->") with (Text "-->"). change ("-"%char :: "-"%char :: ">"%char :: rest) with (Text "-->" ++ rest). rewrite skip_behind_end by (try exact H; discriminate). reflexivity.
  - cbn [app]. repeat (rewrite <- ?app_assoc; cbn [app]). cbn [parse_node]. unfold lit at 1. cbn [strip list_ascii_of_string Ascii.eqb Bool.eqb].
    change ("?"%char :: ">"%char :: rest) with (Text "?>" ++ rest). rewrite (read_question u rest H). reflexivity.
Qed.

(* elements *)
Definition converted (xs : list xnode) : list (str * pnode) :=
  flat_map (fun c => match x_name c with [] => [] | name => [(cstr name, get_rapid_xml_node c)] end) xs.
Definition updated (value v : str) : str := if Ascii.eqb (hd NUL value) NUL then (match v with [] => value | _ => v end) else value.
Lemma free_sub a b (s : str) : (forall c, In c b -> In c a) -> free a s -> free b s.
Proof. intros H. apply Forall_impl. intros c N I. apply N, H, I. Qed.
Lemma name_free n : ElementName n -> free [zero] n.
Proof. intros (_ & F & _). eapply free_sub; [|exact F]. intros c [<-|[]]. left. reflexivity. Qed.
Lemma Blank_free w : Blank w -> free [zero] w.
Proof. apply Forall_impl. intros c I [X|[]]. subst. cbn in I. intuition discriminate. Qed.
Lemma Attributes_values t l : Attributes t l -> free [zero] t /\ map (fun a => (cstr (fst a), pn_of (cstr (snd a)))) l = of_attributes l.
Proof.
  induction 1 as [w B|w n w1 w2 q t v rest0 l NW B AN B1 B2 Q E H IH]; [split; [apply Blank_free; exact B|reflexivity]|].
  destruct AN as [_ AN]. assert (FN : free [zero] n) by (eapply free_sub; [|exact AN]; intros c [<-|[]]; left; reflexivity).
  split.
  - assert (FQ : free [zero] [q]) by (constructor; [destruct Q as [-> | ->]; intros [X|[]]; discriminate|constructor]).
    repeat (apply Forall_app; split); first [apply Blank_free; assumption|assumption|apply (Encodes_text _ _ _ E)|apply IH|repeat constructor; intros [X|[]]; discriminate].
  - cbn [map of_attributes fst snd]. rewrite (cstr_free n FN), (cstr_free v (Encodes_free _ _ _ E)). f_equal. apply IH.
Qed.
Lemma Encodes_no_open t v : Encodes ["<"%char] t v -> ~ In "<"%char t.
Proof.
  induction 1 as [|c t v N1 N2 N3 H IH|r x t v R H IH]; [intros []| |].
  - intros [->|I]; [apply N3; left; reflexivity|contradiction].
  - intros I. apply in_app_or in I. destruct I as [I|I]; [|contradiction]. clear -R I.
    assert (D : forall base ds n, Number base ds n -> ~ In "<"%char ds).
    { intros base ds n H J. pose proof (Number_chars base ds n H) as F. rewrite Forall_forall in F. destruct (F _ J) as [d C]. apply (Digit_not base "<" d "<" C); [cbn; lia|reflexivity]. }
    destruct R as [| | | | |ds n v ND HN P U|ds n v ND HN P U]; try (cbn in I; intuition discriminate);
      apply in_app_or in I; (destruct I as [I|I]; [cbn in I; intuition discriminate|]); apply in_app_or in I; (destruct I as [I|I]; [|cbn in I; intuition discriminate]); exact (D _ _ _ HN I).
Qed.
Lemma not_blank_split t : ~ Blank t -> exists w c r, t = w ++ c :: r /\ Blank w /\ ~ In c blank_chars.
Proof.
  induction t as [|c t IH]; intros N; [exfalso; apply N; constructor|]. destruct (in_dec ascii_dec c blank_chars) as [I|I].
  - destruct IH as (w & d & r & -> & B & J); [intros B; apply N; constructor; assumption|]. exists (c :: w), d, r. split; [reflexivity|]. split; [constructor; assumption|exact J].
  - exists [], c, t. split; [reflexivity|]. split; [constructor|exact I].
Qed.
(* a piece of text *)
Lemma contents_text t v f s value children : Encodes ["<"%char] t v -> ~ Blank t ->
  parse_contents (S f) (t ++ "<"%char :: s) value children = parse_contents (S f) ("<"%char :: s) (if Ascii.eqb (hd NUL value) NUL then v else value) (children ++ [XData v]).
Proof.
  intros E N. pose proof (Encodes_no_open t v E) as NO. destruct (not_blank_split t N) as (w & c & r & ET & B & I). cbn [parse_contents].
  assert (S1 : skip is_ws (t ++ "<"%char :: s) = c :: r ++ "<"%char :: s) by (rewrite ET, <- app_assoc; cbn [app]; apply skip_ws_stop; assumption).
  rewrite S1. assert (NC : Ascii.eqb c "<" = false) by (apply Ascii.eqb_neq; intros ->; apply NO; rewrite ET; apply in_or_app; right; left; reflexivity).
  rewrite NC. rewrite (read_text t v s E). cbn [bind].
  assert (S2 : skip is_ws ("<"%char :: s) = "<"%char :: s) by reflexivity. rewrite S2. cbn [Ascii.eqb Bool.eqb bind]. reflexivity.
Qed.
Lemma contents_blank w f s value children : Blank w -> parse_contents (S f) (w ++ "<"%char :: s) value children = parse_contents (S f) ("<"%char :: s) value children.
Proof.
  intros B. cbn [parse_contents]. rewrite (skip_ws_stop w "<" s B) by (cbn; intuition discriminate).
  assert (S2 : skip is_ws ("<"%char :: s) = "<"%char :: s) by reflexivity. rewrite S2. reflexivity.
Qed.
Lemma contents_node f s c value children : hd_error s = Some c -> c <> "/"%char ->
  parse_contents (S f) ("<"%char :: s) value children = let* (n, rest) := parse_node f s in parse_contents f rest value (children ++ match n with Some x => [x] | None => [] end).
Proof.
  intros H N. cbn [parse_contents]. assert (S2 : skip is_ws ("<"%char :: s) = "<"%char :: s) by reflexivity. rewrite S2. cbn [Ascii.eqb Bool.eqb bind].
  destruct s as [|d s]; [discriminate|]. cbn in H. injection H as ->. unfold lit. cbn [strip list_ascii_of_string Ascii.eqb Bool.eqb].
  assert (E : Ascii.eqb "/" c = false) by (apply Ascii.eqb_neq; congruence). unfold Ascii.eqb, Bool.eqb in E. rewrite E. reflexivity.
Qed.
Lemma contents_close f n w rest value children : free (zero :: "/" :: ">" :: "?" :: blank_chars)%char n -> Blank w ->
  parse_contents (S f) ("<"%char :: "/"%char :: n ++ w ++ ">"%char :: rest) value children = Ok (value, children, rest).
Proof.
  intros F B. cbn [parse_contents]. assert (S2 : forall s, skip is_ws ("<"%char :: s) = "<"%char :: s) by reflexivity. rewrite S2. cbn [Ascii.eqb Bool.eqb bind].
  unfold lit. cbn [strip list_ascii_of_string Ascii.eqb Bool.eqb].
  assert (SN : skip is_node_name (n ++ w ++ ">"%char :: rest) = w ++ ">"%char :: rest).
  { destruct (blank_then w ">" rest B) as (d & r & E & D). rewrite E. apply skip_stop; [eapply Forall_impl; [|exact F]; intros c; apply node_name_char|].
    apply node_name_false. destruct D as [->|D]; cbn [In] in *; intuition. }
  rewrite SN. rewrite skip_ws_stop by (try exact B; cbn; intuition discriminate). cbn [Ascii.eqb Bool.eqb]. reflexivity.
Qed.
Scheme Element_mut := Minimality for Element Sort Prop with Content_mut := Minimality for Content Sort Prop.
Combined Scheme Element_Content from Element_mut, Content_mut.
Lemma name_start n s : ElementName n -> exists c, hd_error (n ++ s) = Some c /\ c <> "/"%char /\ c <> "?"%char /\ c <> "!"%char.
Proof.
  intros (N & F & B). destruct n as [|c n]; [contradiction|]. exists c. split; [reflexivity|]. inversion F as [|? ? I _]; subst. cbn [In] in I. repeat split; intros ->; try (apply I; tauto). exact (B n eq_refl).
Qed.
Lemma node_head f n t l c rest : ElementName n -> Attributes t l -> In c ["/"; ">"]%char ->
  parse_node (S f) (n ++ t ++ c :: rest) =
    match strip (lit ">") (c :: rest) with
    | Some s3 => let* (v, cs, rest) := parse_contents f s3 [] [] in Ok (Some (XElement n v l cs), rest)
    | None => match strip (lit "/>") (c :: rest) with Some rest => Ok (Some (XElement n [] l []), rest) | None => Throw end
    end.
Proof.
  intros N A C. destruct (name_start n (t ++ c :: rest) N) as (d & H & H1 & H2 & H3). cbn [parse_node].
  assert (E1 : strip (lit "?") (n ++ t ++ c :: rest) = None).
  { destruct (n ++ t ++ c :: rest) as [|e s]; [reflexivity|]. cbn in H. injection H as ->. unfold lit. cbn [list_ascii_of_string strip]. rewrite (proj2 (Ascii.eqb_neq "?" d)) by congruence. reflexivity. }
  assert (E2 : strip (lit "!") (n ++ t ++ c :: rest) = None).
  { destruct (n ++ t ++ c :: rest) as [|e s]; [reflexivity|]. cbn in H. injection H as ->. unfold lit. cbn [list_ascii_of_string strip]. rewrite (proj2 (Ascii.eqb_neq "!" d)) by congruence. reflexivity. }
  rewrite E1, E2. destruct (read_attributes t l A c rest C) as [(e & r & E & D) PA]. destruct N as (NN & F & _).
  rewrite (node_name_span n) by (first [exact F|rewrite E; exists e, r; split; [reflexivity|]; destruct D as [->|D]; cbn [In] in *; intuition]).
  destruct n as [|n0 n]; [contradiction|]. rewrite PA by lia. reflexivity.
Qed.
Lemma read_grammar :
  (forall t n p, Element t n p -> ElementName n /\ free [zero] t /\ exists t' c x, t = "<"%char :: t' /\ hd_error t' = Some c /\ c <> "/"%char /\ x_name x = n /\ get_rapid_xml_node x = p /\
     forall rest f, (length (t' ++ rest) < f)%nat -> parse_node f (t' ++ rest) = Ok (Some x, rest)) /\
  (forall c v cs, Content c v cs -> free [zero] c /\ free [zero] v /\ exists xs, converted xs = cs /\
     forall n w rest value children f, free (zero :: "/" :: ">" :: "?" :: blank_chars)%char n -> Blank w -> (length (c ++ "<"%char :: "/"%char :: n ++ w ++ ">"%char :: rest) < f)%nat ->
     parse_contents f (c ++ "<"%char :: "/"%char :: n ++ w ++ ">"%char :: rest) value children = Ok (updated value v, children ++ xs, rest)).
Proof.
  apply Element_Content.
  - intros n t l N A. destruct (Attributes_values t l A) as [FA VA]. split; [exact N|]. split.
    { constructor; [intros [X|[]]; discriminate|]. apply Forall_app. split; [apply name_free; exact N|]. apply Forall_app. split; [exact FA|]. repeat constructor; intros [X|[]]; discriminate. }
    destruct (name_start n (t ++ Text "/>") N) as (d & H & H1 & _). eexists. exists d, (XElement n [] l []). split; [reflexivity|]. split; [exact H|]. split; [exact H1|]. split; [reflexivity|].
    split; [cbn [get_rapid_xml_node flat_map cstr]; rewrite VA, app_nil_r; reflexivity|].
    intros rest f L. destruct f as [|f]; [lia|]. repeat (rewrite <- ?app_assoc; cbn [app Text list_ascii_of_string]). rewrite (node_head f n t l) by (try assumption; left; reflexivity). reflexivity.
  - intros n t l c v cs w N A HC (FC & FV & xs & CX & IH) B. destruct (Attributes_values t l A) as [FA VA]. split; [exact N|]. split.
    { pose proof (name_free n N) as FN. pose proof (Blank_free w B) as FB.
      constructor; [intros [X|[]]; discriminate|]. apply Forall_app. split; [exact FN|]. apply Forall_app. split; [exact FA|]. constructor; [intros [X|[]]; discriminate|].
      apply Forall_app. split; [exact FC|]. repeat (apply Forall_app; split); try assumption; repeat constructor; intros [X|[]]; discriminate. }
    destruct (name_start n (t ++ ">"%char :: c ++ Text "</" ++ n ++ w ++ [">"%char]) N) as (d & H & H1 & _). eexists. exists d, (XElement n v l xs). split; [reflexivity|]. split; [exact H|]. split; [exact H1|]. split; [reflexivity|].
    split; [cbn [get_rapid_xml_node]; rewrite VA, (cstr_free v FV); f_equal; f_equal; exact CX|].
    intros rest f L. destruct f as [|f]; [lia|]. repeat (rewrite <- ?app_assoc in *; cbn [app Text list_ascii_of_string] in * ). rewrite (node_head f n t l) by (try assumption; right; left; reflexivity).
    unfold lit. cbn [strip list_ascii_of_string Ascii.eqb Bool.eqb]. destruct N as (_ & F & _).
    rewrite IH by (try assumption; repeat (rewrite ?app_length in *; cbn [length] in * ); lia). cbn [bind app]. unfold updated. cbn. destruct v; reflexivity.
  - intros w B. split; [apply Blank_free; exact B|]. split; [constructor|]. exists []. split; [reflexivity|].
    intros n w' rest value children f F B' L. destruct f as [|f]; [lia|]. rewrite contents_blank by exact B. rewrite contents_close by assumption.
    rewrite app_nil_r. unfold updated. destruct (Ascii.eqb _ _); reflexivity.
  - intros w t n p rest0 v cs B HE (N & FT & t' & c & x & -> & HC & NC & XN & XP & IHE) HR (FC & FV & xs & CX & IHR).
    split; [apply Forall_app; split; [apply Blank_free; exact B|apply Forall_app; split; assumption]|]. split; [exact FV|]. exists (x :: xs). split.
    { cbn [converted flat_map]. rewrite XN. pose proof (name_free n N) as FN. destruct N as (NN & _). destruct n as [|n0 n]; [contradiction|]. rewrite (cstr_free _ FN), XP. cbn [app]. f_equal. exact CX. }
    intros m w' rest value children f F B' L. repeat (rewrite <- ?app_assoc in *; cbn [app] in * ). destruct f as [|f]; [lia|]. rewrite contents_blank by exact B.
    rewrite (contents_node f _ c) by (first [exact NC|destruct t'; [discriminate|exact HC]]).
    rewrite IHE by (repeat (rewrite ?app_length in *; cbn [length] in * ); lia). cbn [bind]. rewrite IHR by (try assumption; repeat (rewrite ?app_length in *; cbn [length] in * ); lia).
    rewrite <- app_assoc. reflexivity.
  - intros w t rest0 v cs B HM HR (FC & FV & xs & CX & IHR). destruct (read_misc t HM) as (t' & c & -> & FT & HC & NC & PM).
    split; [apply Forall_app; split; [apply Blank_free; exact B|apply Forall_app; split; assumption]|]. split; [exact FV|]. exists xs. split; [exact CX|].
    intros m w' rest value children f F B' L. repeat (rewrite <- ?app_assoc in *; cbn [app] in * ). destruct f as [|f]; [lia|]. rewrite contents_blank by exact B.
    rewrite (contents_node f _ c) by (first [exact NC|destruct t'; [discriminate|exact HC]]).
    destruct f as [|f]; [repeat (rewrite ?app_length in *; cbn [length] in * ); lia|]. rewrite PM. cbn [bind]. rewrite app_nil_r. apply IHR; try assumption. repeat (rewrite ?app_length in *; cbn [length] in * ); lia.
  - intros t v rest0 v' cs E N R HR (FC & FV & xs & CX & IHR). destruct (Encodes_text _ _ _ E) as (FT & NV & _).
    split; [apply Forall_app; split; assumption|]. split; [exact (Encodes_free _ _ _ E)|]. exists (XData v :: xs). split; [exact CX|].
    intros m w' rest value children f F B' L. rewrite <- app_assoc in *.
    assert (G : exists r, rest0 ++ "<"%char :: "/"%char :: m ++ w' ++ ">"%char :: rest = "<"%char :: r) by (destruct R as [->|[r ->]]; cbn [app]; eauto).
    destruct G as [r G]. destruct f as [|f]; [lia|]. rewrite G. rewrite (contents_text t v) by assumption. rewrite <- G.
    rewrite IHR by (try assumption; rewrite app_length in L; lia). rewrite <- app_assoc. cbn [app]. f_equal. f_equal. f_equal.
    assert (NE : v <> []) by (apply NV; intros ->; apply N; constructor). destruct v as [|v0 v]; [contradiction|].
    pose proof (Encodes_free _ _ _ E) as FE. inversion FE as [|? ? I0 _]; subst. unfold updated. destruct (Ascii.eqb (hd NUL value) NUL) eqn:EV; [|rewrite EV; reflexivity].
    cbn [hd]. assert (X : Ascii.eqb v0 NUL = false) by (apply Ascii.eqb_neq; intros ->; apply I0; left; reflexivity). rewrite X. reflexivity.
Qed.
