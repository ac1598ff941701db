From Verif Require Import Model.Base Proofs.BaseFacts Model.StdString Model.Strings Model.Number Model.CharStream Model.PropTree Model.PropNode Model.Ini
  Spec.Strings Spec.PropNode Spec.Ini Proofs.StringFacts Proofs.StringsProofs Proofs.DictionaryProofs Proofs.PropNodeProofs.
Local Open Scope nat_scope.

(* ---------- lines ---------- *)
Lemma blanks_default : blanks = default_delimiters.
Proof. reflexivity. Qed.
Lemma strchr_blank c : strchr blanks c = true <-> In c ("000"%char :: blanks).
Proof.
  unfold strchr. rewrite Bool.orb_true_iff, mem_In. unfold NUL. split.
  - intros [H|H]; [right; exact H|left]. apply Ascii.eqb_eq in H. congruence.
  - intros [<-|H]; [right; apply Ascii.eqb_refl|left; exact H].
Qed.
Definition stream (s : str) : char_stream := skip_delimiters (mkCs s false false blanks).
Lemma drop_only pre s : only ("000"%char :: blanks) pre -> drop_delims blanks (pre ++ s) = drop_delims blanks s.
Proof. induction 1 as [|c pre H _ IH]; [reflexivity|]. cbn [app drop_delims]. apply strchr_blank in H. rewrite H. exact IH. Qed.
Lemma drop_head c s : ~ In c ("000"%char :: blanks) -> drop_delims blanks (c :: s) = c :: s.
Proof. intros H. cbn [drop_delims]. destruct (strchr blanks c) eqn:E; [|reflexivity]. apply strchr_blank in E. contradiction. Qed.
Lemma stream_head c s : ~ In c ("000"%char :: blanks) -> forall pre, only ("000"%char :: blanks) pre -> stream (pre ++ c :: s) = mkCs (c :: s) false false blanks.
Proof. intros H pre P. unfold stream, skip_delimiters, with_rest. cbn [cs_rest cs_delim cs_fail cs_eof]. rewrite drop_only, drop_head by assumption. reflexivity. Qed.
Lemma stream_end s : only ("000"%char :: blanks) s -> stream s = mkCs [] false true blanks.
Proof.
  intros H. unfold stream, skip_delimiters, with_rest. cbn [cs_rest cs_delim cs_fail cs_eof]. rewrite <- (app_nil_r s), drop_only by exact H. reflexivity.
Qed.
Lemma is_break c : Ascii.eqb c NUL || Ascii.eqb c CR || Ascii.eqb c LF = true <-> In c breaks.
Proof.
  rewrite !Bool.orb_true_iff, !Ascii.eqb_eq. unfold breaks. cbn [In]. split.
  - intros [[->| ->]| ->]; [right; right; left; reflexivity|left; reflexivity|right; left; reflexivity].
  - intros [<-|[<-|[<-|[]]]]; [left; right; reflexivity|right; reflexivity|left; left; reflexivity].
Qed.
Lemma line_length_free l r : free breaks l -> (r = [] \/ exists c r', r = c :: r' /\ In c breaks) -> line_length (l ++ r) = length l.
Proof.
  intros F R. induction F as [|c l H _ IH]; cbn [app line_length length].
  - destruct R as [->|(c & r' & -> & H)]; [reflexivity|]. cbn [line_length]. apply is_break in H. rewrite H. reflexivity.
  - destruct (Ascii.eqb c NUL || Ascii.eqb c CR || Ascii.eqb c LF) eqn:E; [apply is_break in E; contradiction|]. rewrite IH. reflexivity.
Qed.
Lemma trim_first l post : l <> [] -> IsTrim blanks (l ++ post) l -> free breaks (l ++ post) -> exists c l', l = c :: l' /\ ~ In c ("000"%char :: blanks).
Proof.
  intros N (a & b & _ & _ & _ & H & _) F. destruct l as [|c l']; [contradiction|]. exists c, l'. split; [reflexivity|].
  intros [<-|I]; [|apply (H c l'); auto]. inversion F as [|? ? X _]; subst. apply X. right. right. left. reflexivity.
Qed.
Lemma get_line_stream pre l post r : only ("000"%char :: blanks) pre -> l <> [] -> IsTrim blanks (l ++ post) l -> free breaks (l ++ post) ->
  (r = [] \/ exists c r', r = c :: r' /\ In c breaks) ->
  good (stream (pre ++ (l ++ post) ++ r)) = true /\ get_line (stream (pre ++ (l ++ post) ++ r)) = (l ++ post, stream r).
Proof.
  intros P N T F R. destruct (trim_first l post N T F) as (c & l' & -> & C). cbn [app].
  rewrite stream_head by assumption. split; [reflexivity|]. unfold get_line. cbn [cs_rest].
  change (c :: (l' ++ post) ++ r) with ((c :: l' ++ post) ++ r). rewrite line_length_free by assumption. rewrite firstn_app, Nat.sub_diag, firstn_O, app_nil_r, firstn_all.
  unfold process_end_pos. cbn [length Nat.eqb]. f_equal. unfold stream, skip_delimiters, with_rest. cbn [cs_rest cs_delim cs_fail cs_eof].
  change (S (length (l' ++ post))) with (length (c :: l' ++ post)). rewrite skipn_app, Nat.sub_diag, skipn_O, skipn_all2 by lia. reflexivity.
Qed.

(* every text has lines *)
Lemma split_blank s : exists pre r, s = pre ++ r /\ only ("000"%char :: blanks) pre /\ (r = [] \/ exists c r', r = c :: r' /\ ~ In c ("000"%char :: blanks)).
Proof.
  induction s as [|c s (pre & r & -> & P & R)]; [exists [], []; split; [reflexivity|]; split; [constructor|left; reflexivity]|].
  destruct (in_dec ascii_dec c ("000"%char :: blanks)) as [I|I].
  - exists (c :: pre), r. split; [reflexivity|]. split; [constructor; assumption|exact R].
  - exists [], (c :: pre ++ r). split; [reflexivity|]. split; [constructor|right; eauto].
Qed.
Lemma split_break s : exists l r, s = l ++ r /\ free breaks l /\ (r = [] \/ exists c r', r = c :: r' /\ In c breaks).
Proof.
  induction s as [|c s (l & r & -> & P & R)]; [exists [], []; split; [reflexivity|]; split; [constructor|left; reflexivity]|].
  destruct (in_dec ascii_dec c breaks) as [I|I].
  - exists [], (c :: l ++ r). split; [reflexivity|]. split; [constructor|right; eauto].
  - exists (c :: l), r. split; [reflexivity|]. split; [constructor; assumption|exact R].
Qed.
Lemma split_tail s : exists l post, s = l ++ post /\ only blanks post /\ (forall c m, l = m ++ [c] -> ~ In c blanks).
Proof.
  induction s as [|c s IH] using rev_ind; [exists [], []; split; [reflexivity|]; split; [constructor|intros c m E; destruct m; discriminate]|].
  destruct (in_dec ascii_dec c blanks) as [I|I].
  - destruct IH as (l & post & -> & P & L). exists l, (post ++ [c]). split; [rewrite app_assoc; reflexivity|]. split; [apply Forall_app; split; [exact P|constructor; [exact I|constructor]]|exact L].
  - exists (s ++ [c]), []. split; [rewrite app_nil_r; reflexivity|]. split; [constructor|]. intros c' m E. apply app_inj_tail in E as [_ <-]. exact I.
Qed.
Lemma Lines_exists : forall s, exists ls, Lines s ls.
Proof.
  intros s. remember (length s) as n eqn:E. revert s E. induction n as [n IH] using (well_founded_induction lt_wf). intros s E.
  destruct (split_blank s) as (pre & r & -> & P & [->|(c & r' & -> & C)]); [exists []; constructor; rewrite app_nil_r; exact P|].
  destruct (split_break (c :: r')) as (lp & r & E2 & F & R). destruct (split_tail lp) as (l & post & -> & PO & L).
  assert (NL : l <> []).
  { intros ->. cbn [app] in E2, F. destruct post as [|d post].
    - destruct R as [->|(c' & r2 & -> & I)]; [discriminate|]. cbn in E2. injection E2 as <- _. apply C. destruct I as [<-|[<-|[<-|[]]]]; cbn; tauto.
    - cbn in E2. injection E2 as -> _. inversion PO; subst. apply C. right. assumption. }
  destruct (IH (length r)) with (s := r) as [ls H]; [|reflexivity|].
  { rewrite E, app_length, E2, app_length. rewrite app_length. destruct l; [contradiction|]. cbn. lia. }
  exists (l :: ls). rewrite E2. apply Lines_cons; auto. exists [], post. split; [reflexivity|]. split; [constructor|]. split; [exact PO|]. split; [|exact L].
  intros d m ->. cbn in E2. injection E2 as -> _. intros X. apply C. right. exact X.
Qed.
Lemma Lines_length s ls : Lines s ls -> length ls <= length s.
Proof. induction 1 as [|pre l post r ls P N T F R H IH]; cbn [length]; [lia|]. rewrite !app_length. destruct l; [contradiction|]. cbn. lia. Qed.

(* ---------- one line ---------- *)
Definition run_item (grow : nat -> bool) (st : pnode * option nat) (i : item) : pnode * option nat :=
  match i, snd st with
  | Group g, _ => (pn_push_back grow (fst st) g pn_empty, Some (length (pn_children (fst st))))
  | Pair k v, None => (pn_set grow (fst st) k v, None)
  | Pair k v, Some n => (fst (with_child (fst st) n (fun c => (pn_set grow c k v, Ok tt))), Some n)
  end.
Lemma group_test l c l' : l = c :: l' -> (2 <? length l) && Ascii.eqb c "["%char && Ascii.eqb (last l NUL) "]"%char = true <-> GroupLine l.
Proof.
  intros ->. rewrite !Bool.andb_true_iff, Nat.ltb_lt, !Ascii.eqb_eq. split.
  - intros [[L ->] E]. destruct l' as [|x l'] using rev_ind; [cbn in L; lia|]. rewrite app_comm_cons, last_last in E. subst x. exists l'. split; [|reflexivity].
    intros ->. cbn in L. lia.
  - intros (g & N & E). injection E as -> ->. split; [split; [cbn; rewrite app_length; destruct g; [contradiction|]; cbn; lia|reflexivity]|].
    rewrite app_comm_cons, last_last. reflexivity.
Qed.
Lemma trim_line l post : fits (l ++ post) -> IsTrim blanks (l ++ post) l -> trim_str (l ++ post) default_delimiters = Ok l.
Proof. intros F T. apply trim_iff; assumption. Qed.

Lemma effective_comment c l2 ls : effective (("#"%char :: c) :: l2 :: ls) = effective ls.
Proof. reflexivity. Qed.
Lemma effective_other c l ls : c <> "#"%char -> effective ((c :: l) :: ls) = (c :: l) :: effective ls.
Proof.
  intros N. destruct ls as [|l2 ls]; destruct c as [[|] [|] [|] [|] [|] [|] [|] [|]]; try reflexivity; exfalso; apply N; reflexivity.
Qed.
Lemma not_good_loop grow fuel st pn cur : good st = false -> ini_loop grow fuel st pn cur = Ok pn.
Proof. intros G. destruct fuel; cbn [ini_loop]; rewrite G; reflexivity. Qed.
Lemma get_line_end : good (snd (get_line (mkCs [] false true blanks))) = false.
Proof. reflexivity. Qed.

Lemma ini_loop_lines grow : forall n ls s fuel pn cur, length ls <= n -> Lines s ls -> length ls < fuel -> fits s ->
  (forall items, Forall2 ReadsAs (effective ls) items -> ini_loop grow fuel (stream s) pn cur = Ok (fst (fold_left (run_item grow) items (pn, cur)))) /\
  (Exists BadLine (effective ls) -> ini_loop grow fuel (stream s) pn cur = Throw).
Proof.
  induction n as [|n IH]; intros ls s fuel pn cur LN H LF FT.
  { destruct ls; [|cbn in LN; lia]. inversion H; subst. rewrite stream_end by assumption. split; [|intros E; inversion E]. intros items X. inversion X; subst. apply not_good_loop. reflexivity. }
  destruct H as [s P|pre l post r ls P N T F R H].
  { rewrite stream_end by assumption. split; [|intros E; inversion E]. intros items X. inversion X; subst. apply not_good_loop. reflexivity. }
  destruct (get_line_stream pre l post r P N T F R) as [G E]. destruct fuel as [|fuel]; [lia|]. cbn [ini_loop]. rewrite G, E.
  assert (FL : fits (l ++ post)) by (apply fits_app_r in FT; apply fits_app_l in FT; exact FT). assert (FR : fits r) by (apply fits_app_r in FT; apply fits_app_r in FT; exact FT).
  rewrite trim_line by assumption. cbn [bind]. cbn [length] in LN, LF. destruct l as [|c l]; [contradiction|].
  assert (FLl : fits (c :: l)) by (apply fits_app_l in FL; exact FL).
  destruct (Ascii.eqb_spec c "#"%char) as [->|NC].
  - destruct H as [r P2|pre2 l2 post2 r2 ls P2 N2 T2 F2 R2 H].
    + rewrite stream_end by assumption. cbn [effective]. split; [|intros X; inversion X]. intros items X. inversion X; subst. apply not_good_loop. reflexivity.
    + destruct (get_line_stream pre2 l2 post2 r2 P2 N2 T2 F2 R2) as [_ E2]. rewrite E2. cbn [snd]. rewrite effective_comment. apply IH; [cbn in LN; lia|exact H|cbn in LF; lia|].
      apply fits_app_r in FR. apply fits_app_r in FR. exact FR.
  - rewrite effective_other by exact NC. pose proof (group_test (c :: l) c l eq_refl) as GT.
    destruct ((2 <? length (c :: l)) && Ascii.eqb c "["%char && Ascii.eqb (last (c :: l) NUL) "]"%char) eqn:EG.
    + destruct (proj1 GT eq_refl) as (g & NG & Eg). injection Eg as -> ->.
      assert (ES : substr ("["%char :: g ++ ["]"%char]) 1 (wsub (size_ ("["%char :: g ++ ["]"%char])) 2) = Ok g).
      { change ("["%char :: g ++ ["]"%char]) with (["["%char] ++ g ++ ["]"%char]). change 1%Z with (size_ ["["%char]). apply substr_mid.
        rewrite wsub_small; rewrite !size_app; change (size_ ["["%char]) with 1%Z; change (size_ ["]"%char]) with 1%Z; [lia|]. apply fits_lt in FLl. rewrite size_cons, size_app in FLl. change (size_ ["]"%char]) with 1%Z in FLl. pose proof (size_nonneg g). lia. }
      rewrite ES. cbn [bind]. destruct (IH ls r fuel (pn_push_back grow pn g pn_empty) (Some (length (pn_children pn))) ltac:(lia) H ltac:(lia) FR) as [I1 I2]. split.
      * intros items X. inversion X as [|? i ? is Hi His]; subst. inversion Hi as [g' NG' Eg'|a b k v NGL _ _ _ Ea]; subst.
        -- apply app_inj_tail in Eg' as [-> _]. cbn [fold_left run_item fst snd]. apply I1. exact His.
        -- exfalso. apply NGL. exists g. split; [exact NG|]. exact Ea.
      * intros X. inversion X as [? ? [B _]|? ? X2]; subst; [exfalso; apply B; exists g; auto|]. apply I2. exact X2.
    + assert (NG : ~ GroupLine (c :: l)) by (intros X; apply GT in X; discriminate). clear GT EG.
      destruct (key_value_spec (c :: l) ["="%char] FLl) as [KV1 KV2]. change (cstr ["="%char]) with ["="%char] in *.
      destruct (in_dec ascii_dec "="%char (c :: l)) as [I|I].
      * assert (X : exists a b, c :: l = a ++ "="%char :: b /\ ~ In "="%char a).
        { clear - I. induction (c :: l) as [|d s IHs]; [destruct I|]. destruct (ascii_dec d "="%char) as [->|D]; [exists [], s; split; [reflexivity|intros []]|].
          destruct I as [X|I]; [congruence|]. destruct (IHs I) as (a & b & -> & Na). exists (d :: a), b. split; [reflexivity|]. intros [X|X]; [congruence|contradiction]. }
        destruct X as (a & b & Eab & Na). assert (Fa : free ["="%char] a) by (apply Forall_forall; intros x Ix [<-|[]]; contradiction).
        destruct (KV2 a "="%char b Eab Fa ltac:(left; reflexivity)) as (k & v & EK & Tk & Tv). rewrite EK. cbn [bind].
        assert (NK : str_eqb k (c :: l) = false).
        { destruct (str_eqb_spec k (c :: l)) as [->|_]; [|reflexivity]. exfalso. destruct Tk as (x & y & E3 & _). apply Na. rewrite E3. apply in_or_app. right. apply in_or_app. left. exact I. }
        rewrite NK. split.
        -- intros items X. inversion X as [|? i ? is Hi His]; subst. rewrite Eab in Hi. inversion Hi as [g' NG' Eg'|a' b' k' v' NGL Na' Tk' Tv' Ea]; subst.
           ++ exfalso. apply NG. exists g'. split; [exact NG'|]. rewrite Eab. symmetry. exact Eg'.
           ++ assert (a' = a /\ b' = b) as [-> ->].
              { clear - Na Na' Ea. revert a' Na' Ea. induction a as [|x a IHa]; intros [|x' a'] Na' Ea; cbn in Ea.
                - injection Ea as ->. auto.
                - injection Ea as -> _. exfalso. apply Na'. left. reflexivity.
                - injection Ea as <- _. exfalso. apply Na. left. reflexivity.
                - injection Ea as -> Ea. destruct (IHa) with (a' := a') as [-> ->]; auto; intros X; [apply Na|apply Na']; right; exact X. }
              rewrite (IsTrim_unique _ _ _ _ Tk' Tk), (IsTrim_unique _ _ _ _ Tv' Tv). cbn [fold_left run_item fst snd].
              destruct cur as [i|]; cbn [snd]; apply (IH ls r fuel); auto; lia.
        -- intros X. inversion X as [? ? [_ B]|? ? X2]; subst; [contradiction|]. destruct cur as [i|]; apply (IH ls r fuel); auto; lia.
      * assert (FE : free ["="%char] (c :: l)) by (apply Forall_forall; intros x Ix [<-|[]]; contradiction).
        rewrite (KV1 FE). cbn [bind]. destruct (str_eqb_spec (c :: l) (c :: l)) as [_|X]; [|congruence]. split; [|reflexivity].
        intros items X. inversion X as [|? i ? is Hi His]; subst. inversion Hi as [g' NG' Eg'|a' b' k' v' NGL Na' Tk' Tv' Ea]; subst.
        -- exfalso. apply NG. exists g'. auto.
        -- exfalso. apply I. rewrite <- Ea. apply in_or_app. right. left. reflexivity.
Qed.

(* ---------- the tree built ---------- *)
Lemma SameChildren_split l r cs k c : SameChildren (l ++ (k, c) :: r) cs -> exists l' c' r', cs = l' ++ (k, c') :: r' /\ SameChildren l l' /\ Same c c' /\ SameChildren r r'.
Proof.
  intros H. apply Forall2_app_inv_l in H as (l' & r' & H1 & H2 & ->). inversion H2 as [|? [k' y] ? r2 [E S] H3]; subst. cbn in E, S. subst k'. exists l', y, r2. auto.
Qed.
Lemma put_new k v l : ~ In k (map fst l) -> put k v l = l ++ [(k, v)].
Proof.
  induction l as [|[k' v'] l IH]; intros N; [reflexivity|]. cbn [put]. destruct (list_eq_dec ascii_dec k' k) as [->|D]; [exfalso; apply N; left; reflexivity|].
  cbn [app]. rewrite IH; [reflexivity|]. intros X. apply N. right. exact X.
Qed.
Lemma put_old k v l x r : ~ In k (map fst l) -> put k v (l ++ (k, x) :: r) = l ++ (k, v) :: r.
Proof.
  induction l as [|[k' v'] l IH]; intros N; cbn [app put].
  - destruct (list_eq_dec ascii_dec k k); [reflexivity|congruence].
  - destruct (list_eq_dec ascii_dec k' k) as [->|D]; [exfalso; apply N; left; reflexivity|]. rewrite IH; [reflexivity|]. intros X. apply N. right. exact X.
Qed.
Lemma keys_leaf l : map fst (map leaf l) = map fst l.
Proof. rewrite map_map. reflexivity. Qed.
Lemma set_leaf grow p k v l : SameChildren (pn_children p) (map leaf l) -> SameChildren (pn_children (pn_set grow p k v)) (map leaf (put k v l)) /\ pn_value (pn_set grow p k v) = pn_value p.
Proof.
  intros H. destruct (First_or_Absent k (pn_children p)) as [(c & a & b & E & N)|A].
  - rewrite (pn_set_old grow p k v a c b E N). split; [|reflexivity]. cbn [pn_children]. rewrite E in H. apply SameChildren_split in H as (a' & c' & b' & E' & H1 & H2 & H3).
    apply map_eq_app in E' as (l1 & l2 & -> & <- & E'). apply map_eq_cons in E' as ([k0 v0] & l3 & -> & E0 & <-). injection E0 as -> <-.
    rewrite put_old. { rewrite map_app. apply Forall2_app; [exact H1|]. cbn [map]. constructor; [split; [reflexivity|apply Same_intro; constructor]|exact H3]. }
    rewrite <- keys_leaf, <- (SameChildren_keys _ _ H1). exact N.
  - destruct (pn_set_new grow p k v A) as (cs & -> & S). split; [|reflexivity]. cbn [pn_children]. rewrite put_new.
    + rewrite map_app. apply Forall2_app; [eapply SameChildren_trans; [apply SameChildren_sym; exact S|exact H]|]. constructor; [split; [reflexivity|apply Same_refl]|constructor].
    + rewrite <- keys_leaf, <- (SameChildren_keys _ _ H). exact A.
Qed.
Definition tracks (st : pnode * option nat) (c : contents) : Prop :=
  Same (fst st) (ini_tree c) /\ snd st = match snd c with [] => None | _ => Some (length (fst c) + length (snd c) - 1) end.
Lemma put_last_snoc k v gs g l : put_last k v (gs ++ [(g, l)]) = gs ++ [(g, put k v l)].
Proof. induction gs as [|x gs IH]; [reflexivity|]. cbn [app put_last]. rewrite IH. destruct x. destruct gs as [|y gs]; reflexivity. Qed.
Lemma run_item_tracks grow st c i : tracks st c -> tracks (run_item grow st i) (add_item c i).
Proof.
  destruct st as [p cur], c as [ms gs]. intros [S C]. cbn [fst snd] in *. destruct p as [a w cs]. apply Same_inv in S as [-> S]. cbn [fst snd] in S.
  destruct i as [g|k v]; cbn [run_item add_item fst snd].
  - split; cbn [fst snd].
    + unfold pn_push_back. cbn [pn_children pn_value pn_accessed]. apply Same_intro. cbn [fst snd]. rewrite map_app, app_assoc. apply Forall2_app.
      * eapply SameChildren_trans; [|exact S]. destruct (grow _); [apply SameChildren_sym, SameChildren_copy|apply SameChildren_refl].
      * constructor; [split; [reflexivity|apply Same_refl]|constructor].
    + cbn [pn_children]. rewrite (Forall2_length _ _ _ S), app_length, !map_length. destruct (gs ++ [(g, [])]) eqn:E; [destruct gs; discriminate|]. rewrite <- E, app_length. cbn [length]. f_equal. lia.
  - destruct gs as [|g0 gs0] using rev_ind.
    + subst cur. cbn [map] in S. rewrite app_nil_r in S. destruct (set_leaf grow (PN a [] cs) k v ms S) as [H1 H2]. split; cbn [fst snd]; [|reflexivity].
      destruct (pn_set grow (PN a [] cs) k v) as [a2 w2 cs2]. cbn in H2. subst w2. apply Same_intro. cbn [fst snd map]. rewrite app_nil_r. exact H1.
    + clear IHgs0. destruct g0 as [g l]. destruct (gs0 ++ [(g, l)]) eqn:E; [destruct gs0; discriminate|]. rewrite <- E in *. clear E p l0. subst cur.
      rewrite put_last_snoc. rewrite map_app, app_assoc in S. cbn [map] in S. apply Forall2_app_inv_r in S as (l1 & l2 & S1 & S2 & ->).
      inversion S2 as [|[g' c] ? ? ? [Eg Sg] S3]; subst. inversion S3; subst. cbn [fst snd] in Eg, Sg. cbn in Eg. subst g'.
      assert (LL : length ms + length (gs0 ++ [(g, l)]) - 1 = length l1) by (rewrite (Forall2_length _ _ _ S1), !app_length, !map_length; cbn; lia).
      rewrite LL, (with_child_split _ l1 g c []) by reflexivity. cbn [fst snd pn_accessed pn_value]. split; cbn [fst snd].
      * apply Same_intro. cbn [fst snd]. rewrite map_app, app_assoc. apply Forall2_app; [exact S1|]. constructor; [|constructor]. split; [reflexivity|]. cbn [snd map group_node fst].
        destruct c as [a2 w2 cs2]. apply Same_inv in Sg as [-> Sg]. destruct (set_leaf grow (PN a2 [] cs2) k v l Sg) as [H1 H2].
        destruct (pn_set grow (PN a2 [] cs2) k v) as [a3 w3 cs3]. cbn in H2. subst w3. apply Same_intro. exact H1.
      * destruct (gs0 ++ [(g, put k v l)]) eqn:E2; [destruct gs0; discriminate|]. rewrite <- E2, !app_length. cbn [length]. f_equal. rewrite (Forall2_length _ _ _ S1), app_length, !map_length. lia.
Qed.
Lemma run_tracks grow items : forall st c, tracks st c -> tracks (fold_left (run_item grow) items st) (fold_left add_item items c).
Proof. induction items as [|i items IH]; intros st c H; [exact H|]. cbn [fold_left]. apply IH. apply run_item_tracks. exact H. Qed.

(* ---------- saving ---------- *)
Definition pair_line (kv : str * str) : str := fst kv ++ "="%char :: snd kv.
Definition ini_lines (c : contents) : list str :=
  map pair_line (fst c) ++ flat_map (fun g => ("["%char :: fst g ++ ["]"%char]) :: map pair_line (snd g)) (snd c).
Definition ini_items (c : contents) : list item :=
  map (fun kv => Pair (fst kv) (snd kv)) (fst c) ++ flat_map (fun g => Group (fst g) :: map (fun kv => Pair (fst kv) (snd kv)) (snd g)) (snd c).
Definition unlines (ls : list str) : str := flat_map (fun l => l ++ [LF]) ls.
Lemma save_pairs l : flat_map save_ini_pair (map leaf l) = unlines (map pair_line l).
Proof.
  unfold unlines. induction l as [|[k v] l IH]; [reflexivity|]. cbn [map flat_map]. rewrite IH. f_equal. unfold save_ini_pair, pair_line, leaf. cbn [fst snd pn_value]. rewrite <- app_assoc. reflexivity.
Qed.
Lemma save_lines c : Forall (fun kv => snd kv <> []) (fst c) -> Forall (fun g => snd g <> []) (snd c) -> save_ini (ini_tree c) = unlines (ini_lines c).
Proof.
  destruct c as [ms gs]. cbn [fst snd]. intros M G. unfold save_ini, ini_tree, ini_lines, unlines. cbn [pn_children fst snd]. rewrite !flat_map_app. f_equal.
  - fold (unlines (map pair_line ms)). rewrite <- save_pairs. induction M as [|[k v] ms H _ IH]; [reflexivity|]. cbn [map flat_map]. rewrite IH. f_equal. cbn [snd] in H.
    unfold save_ini_entry. cbn [leaf snd fst pn_children]. destruct v; [contradiction|]. reflexivity.
  - induction G as [|[g l] gs H _ IH]; [reflexivity|]. cbn [map flat_map app]. rewrite IH. cbn [snd] in H. rewrite flat_map_app, app_assoc. f_equal.
    fold (unlines (map pair_line l)). rewrite <- save_pairs. unfold save_ini_entry, group_node. cbn [fst snd pn_children]. destruct l as [|x l]; [contradiction|]. cbn [map].
    cbn [app]. f_equal. rewrite <- !app_assoc. reflexivity.
Qed.
Lemma free_app set a b : free set (a ++ b) <-> free set a /\ free set b.
Proof. apply Forall_app. Qed.
Definition GoodLine (l : str) : Prop := l <> [] /\ IsTrim blanks l l /\ free breaks l.
Lemma Lines_unlines ls : Forall GoodLine ls -> Lines (unlines ls) ls.
Proof.
  intros H. assert (X : forall pre, only ("000"%char :: blanks) pre -> Lines (pre ++ unlines ls) ls).
  { induction H as [|l ls (N & T & F) _ IH]; intros pre P.
    - constructor. cbn. rewrite app_nil_r. exact P.
    - cbn [unlines flat_map]. fold (unlines ls). assert (E : pre ++ (l ++ [LF]) ++ unlines ls = pre ++ (l ++ []) ++ [LF] ++ unlines ls) by (rewrite app_nil_r, <- app_assoc; reflexivity). rewrite E.
      apply Lines_cons; auto; try (rewrite app_nil_r; assumption).
      + right. exists LF, (unlines ls). split; [reflexivity|]. right. left. reflexivity.
      + apply IH. constructor; [cbn; tauto|constructor]. }
  apply (X []). constructor.
Qed.
Lemma good_pair k v : IniKey k -> IniValue v -> GoodLine (pair_line (k, v)) /\ ReadsAs (pair_line (k, v)) (Pair k v) /\ (forall r, pair_line (k, v) <> "#"%char :: r).
Proof.
  intros (Tk & Fk & Ek & Hk & Gk) (Tv & Fv). unfold pair_line. cbn [fst snd].
  assert (NE : forall d, In d blanks -> d <> "="%char) by (intros d I ->; cbn in I; intuition discriminate).
  split; [|split].
  - split; [destruct k; discriminate|]. split.
    + exists [], []. split; [rewrite app_nil_r; reflexivity|]. split; [constructor|]. split; [constructor|]. split.
      * intros c m E I. destruct k as [|x k]; cbn in E; injection E as <- _; [eapply NE; eauto|]. destruct Tk as (_ & _ & _ & _ & _ & X & _). eapply X; eauto.
      * intros c m E I. destruct v as [|x v] using rev_ind; [apply app_inj_tail in E as [_ <-]; eapply NE; eauto|].
        rewrite app_comm_cons, app_assoc in E. apply app_inj_tail in E as [_ <-]. destruct Tv as (_ & _ & _ & _ & _ & _ & X). eapply X; eauto.
    + apply free_app. split; [exact Fk|]. constructor; [cbn; intuition discriminate|exact Fv].
  - constructor; auto. intros (g & _ & E). destruct k as [|x k]; [discriminate|]. cbn in E. injection E as -> _. eapply Gk; reflexivity.
  - intros r E. destruct k as [|x k]; [discriminate|]. cbn in E. injection E as -> _. eapply Hk; reflexivity.
Qed.
Lemma good_group g : g <> [] -> free breaks g -> let l := "["%char :: g ++ ["]"%char] in GoodLine l /\ ReadsAs l (Group g) /\ (forall r, l <> "#"%char :: r).
Proof.
  intros N F. cbn zeta. split; [|split; [constructor; exact N|discriminate]]. split; [discriminate|]. split.
  - exists [], []. split; [rewrite app_nil_r; reflexivity|]. split; [constructor|]. split; [constructor|]. split.
    + intros c m E I. injection E as <- _. cbn in I. intuition discriminate.
    + intros c m E I. rewrite app_comm_cons in E. apply app_inj_tail in E as [_ <-]. cbn in I. intuition discriminate.
  - constructor; [cbn; intuition discriminate|]. apply free_app. split; [exact F|]. constructor; [cbn; intuition discriminate|constructor].
Qed.
Lemma effective_id ls : Forall (fun l => l <> [] /\ forall r, l <> "#"%char :: r) ls -> effective ls = ls.
Proof.
  induction 1 as [|l ls [N H] _ IH]; [reflexivity|]. destruct l as [|c l]; [contradiction|]. rewrite effective_other, IH; [reflexivity|]. intros ->. eapply H. reflexivity.
Qed.
Lemma build_pairs l : forall m gs, NoDup (map fst (m ++ l)) -> fold_left add_item (map (fun kv => Pair (fst kv) (snd kv)) l) (m, []) = (m ++ l, []) /\
  forall g ms, fold_left add_item (map (fun kv => Pair (fst kv) (snd kv)) l) (ms, gs ++ [(g, m)]) = (ms, gs ++ [(g, m ++ l)]).
Proof.
  induction l as [|[k v] l IH]; intros m gs ND; cbn [map fold_left fst snd]; [rewrite app_nil_r; auto|].
  assert (NI : ~ In k (map fst m)).
  { rewrite map_app in ND. cbn [map fst] in ND. apply NoDup_remove_2 in ND. intros I. apply ND. apply in_or_app. left. exact I. }
  assert (ND2 : NoDup (map fst ((m ++ [(k, v)]) ++ l))) by (rewrite <- app_assoc; exact ND).
  destruct (IH (m ++ [(k, v)]) gs ND2) as [H1 H2]. split.
  - unfold add_item at 2. cbn [fst snd]. rewrite put_new by exact NI. rewrite H1, <- app_assoc. reflexivity.
  - intros g ms. replace (add_item (ms, gs ++ [(g, m)]) (Pair k v)) with (ms, gs ++ [(g, m ++ [(k, v)])]); [rewrite H2, <- app_assoc; reflexivity|].
    unfold add_item. cbn [fst snd]. rewrite <- (put_new k v m NI), <- put_last_snoc. destruct (gs ++ [(g, m)]) eqn:E; [destruct gs; discriminate|reflexivity].
Qed.
Lemma build_groups groups : Forall (fun g : str * list (str * str) => NoDup (map fst (snd g))) groups -> forall ms gs,
  fold_left add_item (flat_map (fun g => Group (fst g) :: map (fun kv => Pair (fst kv) (snd kv)) (snd g)) groups) (ms, gs) = (ms, gs ++ groups).
Proof.
  induction 1 as [|[g l] groups H _ IH]; intros ms gs; cbn [flat_map fst snd]; [rewrite app_nil_r; reflexivity|].
  cbn [app fold_left]. rewrite fold_left_app. unfold add_item at 3. cbn [fst snd]. destruct (build_pairs l [] gs H) as [_ X]. rewrite (X g ms). cbn [app]. rewrite IH, <- app_assoc. reflexivity.
Qed.
Lemma build_items c : NoDup (map fst (fst c)) -> Forall (fun g => NoDup (map fst (snd g))) (snd c) -> build (ini_items c) = c.
Proof.
  destruct c as [ms gs]. cbn [fst snd]. intros M G. unfold build, ini_items. cbn [fst snd]. rewrite fold_left_app. destruct (build_pairs ms [] [] M) as [X _]. rewrite X. cbn [app]. rewrite build_groups by exact G. reflexivity.
Qed.
Lemma ini_lines_good c : IniContents c -> Forall GoodLine (ini_lines c) /\ Forall2 ReadsAs (ini_lines c) (ini_items c) /\ Forall (fun l => l <> [] /\ forall r, l <> "#"%char :: r) (ini_lines c).
Proof.
  destruct c as [ms gs]. intros (M & _ & G). cbn [fst snd] in *. unfold ini_lines, ini_items. cbn [fst snd].
  assert (P : forall l, IniItems l -> Forall GoodLine (map pair_line l) /\ Forall2 ReadsAs (map pair_line l) (map (fun kv => Pair (fst kv) (snd kv)) l) /\ Forall (fun l => l <> [] /\ forall r, l <> "#"%char :: r) (map pair_line l)).
  { intros l [_ H]. induction H as [|[k v] l [Hk Hv] _ (I1 & I2 & I3)]; cbn [map]; [repeat constructor|]. destruct (good_pair k v Hk Hv) as (H1 & H2 & H3).
    split; [constructor; assumption|]. split; [constructor; assumption|]. constructor; [split; [apply H1|exact H3]|exact I3]. }
  destruct (P ms M) as (A1 & A2 & A3).
  assert (Q : Forall GoodLine (flat_map (fun g => ("["%char :: fst g ++ ["]"%char]) :: map pair_line (snd g)) gs) /\
    Forall2 ReadsAs (flat_map (fun g => ("["%char :: fst g ++ ["]"%char]) :: map pair_line (snd g)) gs) (flat_map (fun g => Group (fst g) :: map (fun kv => Pair (fst kv) (snd kv)) (snd g)) gs) /\
    Forall (fun l => l <> [] /\ forall r, l <> "#"%char :: r) (flat_map (fun g => ("["%char :: fst g ++ ["]"%char]) :: map pair_line (snd g)) gs)).
  { induction G as [|[g l] gs (N & F & _ & I) _ (I1 & I2 & I3)]; cbn [flat_map fst snd]; [repeat constructor|]. cbn [fst snd] in *. destruct (P l I) as (B1 & B2 & B3). destruct (good_group g N F) as (C1 & C2 & C3).
    split; [constructor; [exact C1|apply Forall_app; auto]|]. split; [constructor; [exact C2|apply Forall2_app; auto]|]. constructor; [split; [discriminate|exact C3]|apply Forall_app; auto]. }
  destruct Q as (Q1 & Q2 & Q3). split; [apply Forall_app; auto|]. split; [apply Forall2_app; auto|apply Forall_app; auto].
Qed.
Lemma load_ini_lines grow text ls : fits text -> Lines text ls ->
  (forall items, Forall2 ReadsAs (effective ls) items -> exists t, load_ini grow text = Ok t /\ Same t (ini_tree (build items))) /\
  (Exists BadLine (effective ls) -> load_ini grow text = Throw).
Proof.
  intros F L. pose proof (Lines_length _ _ L) as LL. unfold load_ini. change (cs_of_string text default_delimiters) with (stream text).
  destruct (ini_loop_lines grow (length ls) ls text (S (length text)) pn_empty None (le_n _) L ltac:(lia) F) as [H1 H2]. split; [|exact H2].
  intros items R. rewrite (H1 items R). eexists. split; [reflexivity|]. apply (run_tracks grow items (pn_empty, None) ([], [])). split; [apply Same_refl|reflexivity].
Qed.
