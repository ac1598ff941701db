From Verif Require Import Model.Base Proofs.BaseFacts Model.StdString Model.Strings Model.Number Model.CharStream Spec.Strings Spec.Decimal Spec.Scan Proofs.StringFacts Proofs.NumberProofs.
Local Open Scope Z_scope.

Definition tk (t : target) : kind := match t with Tlong => Long | Tint => Int | Tstring => Text end.
Definition tv (v : value) : val := match v with Vnum z => Num z | Vstr s => Str s end.
Definition zero (t : target) : value := match t with Tstring => Vstr [] | _ => Vnum 0 end.
Definition nonul (s : str) : Prop := Forall (fun c => c <> NUL) s.

Lemma cstr_nonul s : nonul (cstr s).
Proof. induction s as [|c s IH]; cbn [cstr]; [constructor|]. destruct (Ascii.eqb_spec c NUL); constructor; assumption. Qed.

Lemma strchr_nonul d c : c <> NUL -> strchr d c = mem d c.
Proof. intros H. unfold strchr. apply Ascii.eqb_neq in H. rewrite H. apply orb_false_r. Qed.

Lemma drop_delims_spec d s : nonul s -> exists l, s = l ++ drop_delims d s /\ only d l /\ forall c r, drop_delims d s = c :: r -> ~ In c d.
Proof.
  induction 1 as [|c s Hc H IH]; cbn [drop_delims].
  - exists []. repeat split; [constructor|discriminate].
  - rewrite strchr_nonul by exact Hc. destruct (mem d c) eqn:E.
    + destruct IH as (l & El & O & N). exists (c :: l). split; [cbn; f_equal; exact El|]. split; [constructor; [apply mem_In; exact E|exact O]|exact N].
    + exists []. split; [reflexivity|]. split; [constructor|]. intros c' r E'. inversion E'; subst. apply mem_false. exact E.
Qed.
Lemma drop_delims_app d l r : only d l -> (forall c r', r = c :: r' -> c <> NUL /\ ~ In c d) -> drop_delims d (l ++ r) = r.
Proof.
  intros H N. induction H as [|c l Hc H IH]; cbn [app drop_delims].
  - destruct r as [|c r]; [reflexivity|]. destruct (N c r eq_refl) as [N1 N2]. cbn [drop_delims]. rewrite strchr_nonul by exact N1.
    apply mem_false in N2. rewrite N2. reflexivity.
  - unfold strchr. apply mem_In in Hc. rewrite Hc. exact IH.
Qed.

Lemma word_length_spec s : nonul s -> exists w t, s = w ++ t /\ word_length s = length w /\ Forall (fun c => ~ White c) w /\
  (t = [] \/ exists c t', t = c :: t' /\ White c).
Proof.
  induction 1 as [|c s Hc H IH]; cbn [word_length].
  - exists [], []. repeat split; [constructor|left; reflexivity].
  - apply Ascii.eqb_neq in Hc. rewrite Hc. cbn [orb]. destruct (isspace c) eqn:E.
    + exists [], (c :: s). repeat split; [constructor|]. right. exists c, s. split; [reflexivity|apply isspace_spec; exact E].
    + destruct IH as (w & t & -> & L & W & T). exists (c :: w), t. repeat split; [cbn; f_equal; exact L| |exact T].
      constructor; [apply isspace_false; exact E|exact W].
Qed.
Lemma word_unique w t w' t' : w ++ t = w' ++ t' -> Forall (fun c => ~ White c) w -> Forall (fun c => ~ White c) w' ->
  (t = [] \/ exists c u, t = c :: u /\ White c) -> (t' = [] \/ exists c u, t' = c :: u /\ White c) -> w = w' /\ t = t'.
Proof.
  revert w'. induction w as [|c w IH]; intros [|c' w'] E F F' T T'; cbn in E.
  - auto.
  - subst t. inversion F'; subst. destruct T as [T|(x & u & T & W)]; [discriminate|]. inversion T; subst. contradiction.
  - subst t'. inversion F; subst. destruct T' as [T'|(x & u & T' & W)]; [discriminate|]. inversion T'; subst. contradiction.
  - inversion E; subst. inversion F; inversion F'; subst. destruct (IH w' ltac:(assumption) ltac:(assumption) ltac:(assumption) T T') as [-> ->]. auto.
Qed.

Lemma Nearest_clamp lo hi z v : lo <= hi -> Nearest lo hi z v -> v = clamp_Z lo hi z.
Proof.
  intros H [R N]. unfold clamp_Z. destruct (Z.ltb_spec z lo); [|destruct (Z.ltb_spec hi z)].
  - specialize (N lo ltac:(lia)). lia.
  - specialize (N hi ltac:(lia)). lia.
  - specialize (N z ltac:(lia)). lia.
Qed.
Lemma wrap32_spec v i : - 2 ^ 31 <= i < 2 ^ 31 -> (exists k, v = i + k * 2 ^ 32) -> wrap32 v = i.
Proof.
  intros R [k ->]. unfold wrap32. replace (i + k * 2 ^ 32 + 2 ^ 31) with (i + 2 ^ 31 + k * 2 ^ 32) by lia.
  rewrite Z.mod_add by lia. rewrite Z.mod_small by lia. lia.
Qed.
Lemma wrap32_ex v : - 2 ^ 31 <= wrap32 v < 2 ^ 31 /\ exists k, v = wrap32 v + k * 2 ^ 32.
Proof.
  unfold wrap32. pose proof (Z.mod_pos_bound (v + 2 ^ 31) (2 ^ 32) ltac:(lia)). split; [lia|].
  exists ((v + 2 ^ 31) / 2 ^ 32). pose proof (Z.div_mod (v + 2 ^ 31) (2 ^ 32) ltac:(lia)). lia.
Qed.

Lemma Leads_split s z t : Leads s z t -> exists p, s = p ++ t /\ p <> [].
Proof.
  intros [w n v t' W N T]. exists (w ++ n). split; [rewrite app_assoc; reflexivity|].
  intros E. apply app_eq_nil in E as [_ ->]. inversion N; congruence.
Qed.

Lemma skip_len {A} (p t : list A) : skipn (length (p ++ t) - length t) (p ++ t) = t.
Proof. rewrite app_length. replace (length p + length t - length t)%nat with (length p) by lia. rewrite skipn_app, skipn_all, Nat.sub_diag. reflexivity. Qed.

Lemma process_split st p t : cs_rest st = p ++ t -> p <> [] ->
  process_end_pos st (length (p ++ t) - length t) = skip_delimiters (with_rest st t).
Proof.
  intros E N. unfold process_end_pos. rewrite app_length. destruct p; [congruence|].
  destruct (Nat.eqb_spec (length (a :: p) + length t - length t) 0) as [X|X]; [cbn [length] in X; lia|]. rewrite E.
  replace (length (a :: p) + length t - length t)%nat with (length ((a :: p) ++ t) - length t)%nat by (rewrite app_length; lia).
  rewrite skip_len. reflexivity.
Qed.

Lemma read_long_leads st z t : Leads (cs_rest st) z t ->
  read_long st = (clamp_Z LONG_MIN LONG_MAX z, skip_delimiters (with_rest st t)).
Proof.
  intros L. unfold read_long. rewrite strtol_scan. destruct (scan_leads _ _ _ L) as (neg & ds & -> & Nd & Fd & -> & Ns).
  destruct ds as [|d ds]; [congruence|]. cbn zeta beta. destruct (Leads_split _ _ _ L) as (p & E & N). rewrite E.
  f_equal. apply process_split; assumption.
Qed.
Lemma read_long_none st : (forall z t, ~ Leads (cs_rest st) z t) -> read_long st = (0, set_fail st).
Proof. intros H. apply scan_none in H as (neg & t & E). unfold read_long. rewrite strtol_scan, E. reflexivity. Qed.

Lemma leads_dec s : (exists z t, Leads s z t) \/ (forall z t, ~ Leads s z t).
Proof.
  destruct (scan s) as [[neg ds] t] eqn:E. destruct ds as [|d ds].
  - right. intros z u L. apply scan_leads in L as (n & d & E' & N & _). rewrite E in E'. inversion E'; subst. congruence.
  - left. eexists _, _. eapply scan_inv; eauto. discriminate.
Qed.

Lemma read_some t st v r : nonul (cs_rest st) -> Element (tk t) (cs_rest st) v r ->
  exists v', read_target t st = (v', skip_delimiters (with_rest st r)) /\ tv v' = v /\ exists p, cs_rest st = p ++ r /\ p <> [].
Proof.
  intros NN E. remember (tk t) as k eqn:K. remember (cs_rest st) as s eqn:S. destruct E as [s z u v L N|s z u v i L N R X|w u W F T].
  - destruct t; inversion K. subst s. cbn [read_target]. rewrite (read_long_leads _ _ _ L). eexists. split; [reflexivity|]. split.
    + cbn [tv]. f_equal. symmetry. apply Nearest_clamp; [unfold LONG_MIN, LONG_MAX; lia|exact N].
    + eapply Leads_split; eauto.
  - destruct t; inversion K. subst s. cbn [read_target]. unfold read_int. rewrite (read_long_leads _ _ _ L). eexists. split; [reflexivity|]. split.
    + cbn [tv]. f_equal. apply (Nearest_clamp LONG_MIN LONG_MAX) in N; [|unfold LONG_MIN, LONG_MAX; lia]. rewrite <- N. apply wrap32_spec; assumption.
    + eapply Leads_split; eauto.
  - destruct t; inversion K. cbn [read_target]. unfold read_string. rewrite <- S.
    destruct (word_length_spec (w ++ u) NN) as (w' & u' & E & L & F' & T'). destruct (word_unique _ _ _ _ E F F' T T') as [-> ->].
    rewrite L. eexists. split; [|split].
    + f_equal. unfold process_end_pos. destruct (Nat.eqb_spec (length w') 0) as [X|X]; [destruct w'; [congruence|discriminate]|].
      rewrite <- S, skipn_app, skipn_all, Nat.sub_diag. reflexivity.
    + cbn [tv]. f_equal. rewrite firstn_app, firstn_all, Nat.sub_diag. cbn. apply app_nil_r.
    + exists w'. auto.
Qed.

Lemma read_none t st : nonul (cs_rest st) -> (forall v r, ~ Element (tk t) (cs_rest st) v r) -> read_target t st = (zero t, set_fail st).
Proof.
  intros NN H. destruct t; cbn [tk read_target zero] in *.
  - rewrite read_long_none; [reflexivity|]. intros z r L. eapply H. eapply El_long; [exact L|]. apply clamp_nearest. lia.
  - unfold read_int. rewrite read_long_none; [reflexivity|]. intros z r L. eapply H.
    eapply El_int; [exact L|apply clamp_nearest; lia|apply wrap32_ex|apply wrap32_ex].
  - unfold read_string. destruct (word_length_spec (cs_rest st) NN) as (w & u & E & L & F & T). rewrite L. destruct w as [|c w].
    + reflexivity.
    + exfalso. eapply H. rewrite E. apply El_text; [discriminate|exact F|exact T].
Qed.

Lemma element_dec t s : nonul s -> (exists v r, Element (tk t) s v r) \/ (forall v r, ~ Element (tk t) s v r).
Proof.
  intros NN. destruct t; cbn [tk].
  - destruct (leads_dec s) as [(z & r & L)|N]; [left|right].
    + eexists _, _. eapply El_long; [exact L|apply clamp_nearest; lia].
    + intros v r E. inversion E; subst. eapply N; eauto.
  - destruct (leads_dec s) as [(z & r & L)|N]; [left|right].
    + eexists _, _. eapply El_int; [exact L|apply clamp_nearest; lia|apply wrap32_ex|apply wrap32_ex].
    + intros v r E. inversion E; subst. eapply N; eauto.
  - destruct (word_length_spec s NN) as (w & u & E & L & F & T). destruct w as [|c w].
    + right. intros v r X. inversion X as [| |w0 t0 W0 F0 T0 E0 E1 E2 E3]. rewrite <- E1 in E. cbn [app] in E.
      destruct w0 as [|x w0]; [congruence|]. cbn [app] in E. destruct T as [->|(c & u' & -> & Wc)]; [discriminate|].
      inversion E; subst. inversion F0; subst. contradiction.
    + left. exists (Str (c :: w)), u. subst s. apply El_text; [discriminate|exact F|exact T].
Qed.

Lemma nonul_app a b : nonul (a ++ b) -> nonul a /\ nonul b.
Proof. unfold nonul. rewrite Forall_app. tauto. Qed.

Lemma skip_state st r : nonul r -> cs_fail st = false -> cs_eof st = false ->
  let r' := drop_delims (cs_delim st) r in
  skip_delimiters (with_rest st r) = mkCs r' false (match r' with [] => true | _ => false end) (cs_delim st).
Proof.
  intros N F E. cbn zeta. unfold skip_delimiters, with_rest, test_eof. cbn [cs_rest cs_fail cs_eof cs_delim]. rewrite F, E.
  destruct (drop_delims _ r); reflexivity.
Qed.

(* str_to_vec *)
Definition take_max (m : option nat) {A} (l : list A) : list A := match m with Some n => firstn n l | None => l end.

Lemma vec_loop t maxv d : forall fuel s vec, nonul s -> (length s < fuel)%nat ->
  (match maxv with Some m => (length vec <= m)%nat | None => True end) ->
  exists vs, Elements d (tk t) s (map tv vs) /\
    str_to_vec_loop fuel t maxv (mkCs s false (match s with [] => true | _ => false end) d) vec = Ok (vec ++ take_max (option_map (fun m => m - length vec)%nat maxv) vs).
Proof.
  induction fuel as [|fuel IH]; intros s vec NN HF HM; [lia|]. cbn [str_to_vec_loop].
  destruct s as [|c s].
  - exists []. split; [|cbn [good cs_fail cs_eof negb andb]; destruct maxv; cbn [take_max option_map]; rewrite ?firstn_nil, app_nil_r; reflexivity].
    apply Els_none. intros v r E. destruct t; inversion E as [s0 z u v0 L N|s0 z u v0 i L N R X|w u W F T]; subst;
      try (apply Leads_split in L as (p & E1 & E2); symmetry in E1; apply app_eq_nil in E1 as [-> _]; congruence).
    destruct w; [congruence|discriminate].
  - set (st := mkCs (c :: s) false false d). cbn [good cs_fail cs_eof negb andb].
    assert (CUT : (exists m, maxv = Some m /\ length vec = m) \/ (match maxv with Some m => length vec <? m | None => true end)%nat = true).
    { destruct maxv as [m|]; [|right; reflexivity]. destruct (Nat.ltb_spec (length vec) m); [right; reflexivity|left; exists m; split; [reflexivity|lia]]. }
    assert (EX : exists vs, Elements d (tk t) (c :: s) (map tv vs) /\
      ((match maxv with Some m => length vec <? m | None => true end)%nat = true ->
       (let '(v, st') := read_target t st in str_to_vec_loop fuel t maxv st' (if cs_fail st' then vec else vec ++ [v])) =
       Ok (vec ++ take_max (option_map (fun m => m - length vec)%nat maxv) vs))).
    { destruct (element_dec t (c :: s) NN) as [(v & r & E)|N].
      - destruct (read_some t st v r NN E) as (v' & Er & Ev & p & Ep & Np). cbn [cs_rest st] in Ep.
        rewrite Er. rewrite Ep in NN. destruct (nonul_app _ _ NN) as [Np' Nr]. rewrite skip_state by (auto). cbn [cs_delim st cs_fail].
        destruct (drop_delims_spec d r Nr) as (l & El & Ol & Hl).
        set (vec' := if (match maxv with Some m => length vec <? m | None => true end)%nat then vec ++ [v'] else []).
        destruct (IH (drop_delims d r) vec') as (vs & Hvs & Hloop).
        + rewrite El in Nr. apply nonul_app in Nr. tauto.
        + assert (length (c :: s) = length p + length r)%nat as L1 by (rewrite Ep, app_length; reflexivity).
          assert (length r = length l + length (drop_delims d r))%nat as L2 by (rewrite El at 1; rewrite app_length; reflexivity).
          destruct p; [congruence|]. cbn [length] in *. lia.
        + unfold vec'. destruct maxv as [m|]; [|exact I]. destruct (Nat.ltb_spec (length vec) m); [rewrite app_length; cbn; lia|cbn; lia].
        + exists (v' :: vs). split.
          * cbn [map]. eapply Els_some; [rewrite Ev; exact E|exact El|exact Ol| |exact Hvs]. intros c' r' E'. eapply Hl; eauto.
          * intros C. unfold vec' in Hloop. rewrite C in Hloop. rewrite Hloop. f_equal. rewrite <- app_assoc. f_equal. cbn [app].
            destruct maxv as [m|]; cbn [option_map take_max]; [|reflexivity]. apply Nat.ltb_lt in C. rewrite app_length. cbn [length].
            replace (m - length vec)%nat with (S (m - (length vec + 1)))%nat by lia. reflexivity.
      - exists []. split; [apply Els_none; exact N|]. intros _. rewrite (read_none t st NN N). cbn [set_fail cs_fail].
        destruct fuel as [|f]; [cbn [length] in HF; lia|]. cbn [str_to_vec_loop good set_fail cs_fail negb andb].
        destruct maxv; cbn [take_max option_map]; rewrite ?firstn_nil, app_nil_r; reflexivity. }
    destruct EX as (vs & Hvs & HC). exists vs. split; [exact Hvs|]. destruct CUT as [(m & -> & Hm)|C].
    + subst m. rewrite Nat.ltb_irrefl. cbn [option_map take_max]. rewrite Nat.sub_diag. cbn. rewrite app_nil_r. reflexivity.
    + rewrite C. apply HC. exact C.
Qed.

Lemma length_cstr s : (length (cstr s) <= length s)%nat.
Proof. induction s as [|c s IH]; cbn [cstr]; [lia|]. destruct (Ascii.eqb c NUL); cbn [length]; lia. Qed.

Lemma str_to_vec_spec t s maxv d : exists l r vs, cstr s = l ++ r /\ only d l /\ (forall c r', r = c :: r' -> ~ In c d) /\
  Elements d (tk t) r (map tv vs) /\ str_to_vec t s maxv d = Ok (take_max maxv vs).
Proof.
  destruct (drop_delims_spec d (cstr s) (cstr_nonul s)) as (l & El & Ol & Hl). pose proof (cstr_nonul s) as NN.
  destruct (vec_loop t maxv d (S (length s)) (drop_delims d (cstr s)) []) as (vs & Hv & Hloop).
  - rewrite El in NN. apply nonul_app in NN. tauto.
  - pose proof (length_cstr s). pose proof (f_equal (@length _) El) as L. rewrite app_length in L. lia.
  - destruct maxv; [cbn; lia|exact I].
  - exists l, (drop_delims d (cstr s)), vs. repeat split; try assumption. unfold str_to_vec, cs_of_cstr.
    change (mkCs (cstr s) false false d) with (with_rest (mkCs (cstr s) false false d) (cstr s)).
    rewrite skip_state by auto. cbn [cs_delim]. rewrite Hloop. cbn [app length]. destruct maxv; cbn [option_map take_max]; [rewrite Nat.sub_0_r|]; reflexivity.
Qed.

(* the elements are unique *)
Lemma Nearest_fun lo hi z v w : lo <= hi -> Nearest lo hi z v -> Nearest lo hi z w -> v = w.
Proof. intros H A B. rewrite (Nearest_clamp _ _ _ _ H A), (Nearest_clamp _ _ _ _ H B). reflexivity. Qed.
Lemma Element_fun k s v r v' r' : Element k s v r -> Element k s v' r' -> v = v' /\ r = r'.
Proof.
  intros A B. destruct A as [s z u v L N|s z u v i L N R X|w u W F T]; inversion B as [s0 z0 u0 v0 L0 N0|s0 z0 u0 v0 i0 L0 N0 R0 X0|w0 u0 W0 F0 T0]; subst.
  - destruct (Leads_fun _ _ _ _ _ L L0) as [-> ->]. split; [|reflexivity]. f_equal.
    eapply Nearest_fun; [|exact N|exact N0]. lia.
  - destruct (Leads_fun _ _ _ _ _ L L0) as [-> ->]. split; [|reflexivity]. f_equal.
    assert (v = v0) by (eapply Nearest_fun; [|exact N|exact N0]; lia). subst v0.
    rewrite <- (wrap32_spec v i R X). apply wrap32_spec; assumption.
  - destruct (word_unique _ _ _ _ (eq_sym H) F F0 T T0) as [-> ->]. auto.
Qed.
Lemma drop_unique (d : str) l r l' r' : l ++ r = l' ++ r' -> only d l -> only d l' -> (forall c u, r = c :: u -> ~ In c d) -> (forall c u, r' = c :: u -> ~ In c d) ->
  l = l' /\ r = r'.
Proof.
  revert l'. induction l as [|c l IH]; intros [|c' l'] E A B C D; cbn in E.
  - auto.
  - inversion B; subst. exfalso. eapply C; [reflexivity|assumption].
  - inversion A; subst. exfalso. eapply D; [reflexivity|assumption].
  - inversion E; subst. inversion A; inversion B; subst. destruct (IH l' ltac:(assumption) ltac:(assumption) ltac:(assumption) C D) as [-> ->]. auto.
Qed.
Lemma Elements_fun d k s vs : Elements d k s vs -> forall vs', Elements d k s vs' -> vs = vs'.
Proof.
  induction 1 as [s N|s v t l r vs E Et O H HE IH]; intros vs' B; inversion B as [s0 N0|s0 v0 t0 l0 r0 vs0 E0 Et0 O0 H0 HE0]; subst.
  - reflexivity.
  - exfalso. eapply N; eauto.
  - exfalso. eapply N0; eauto.
  - destruct (Element_fun _ _ _ _ _ _ E E0) as [-> Et2]. destruct (drop_unique _ _ _ _ _ Et2 O O0 H H0) as [-> ->]. f_equal. apply IH. exact HE0.
Qed.

(* scan_str *)
Lemma scan_spec d : forall ts s, nonul s -> let '(vs, n) := scan_str_impl (mkCs s false (match s with [] => true | _ => false end) d) ts in
  Scanned d s (map tk ts) (map tv vs) n.
Proof.
  induction ts as [|t ts IH]; intros s NN; cbn [scan_str_impl map]; [constructor|].
  set (st := mkCs s false (match s with [] => true | _ => false end) d).
  destruct (element_dec t s NN) as [(v & r & E)|N].
  - destruct (read_some t st v r NN E) as (v' & Er & Ev & p & Ep & Np). cbn [cs_rest st] in Ep. rewrite Er.
    assert (EO : cs_eof st = false) by (destruct s; [destruct p; [congruence|discriminate]|reflexivity]).
    rewrite Ep in NN. destruct (nonul_app _ _ NN) as [_ Nr]. rewrite skip_state by auto. cbn [cs_delim st].
    destruct (drop_delims_spec d r Nr) as (l & El & Ol & Hl). destruct (drop_delims d r) as [|c r'] eqn:ED.
    + cbn [good cs_fail cs_eof negb andb]. cbn [map]. rewrite Ev. eapply Sc_last; [exact E|]. rewrite El, app_nil_r. exact Ol.
    + cbn [good cs_fail cs_eof negb andb]. assert (NN' : nonul (c :: r')) by (rewrite El in Nr; apply nonul_app in Nr; tauto).
      specialize (IH (c :: r') NN'). destruct (scan_str_impl _ ts) as [vs n]. cbn [map]. rewrite Ev, Nat.add_1_r.
      eapply Sc_more; [rewrite <- El; exact E|exact Ol|apply (Hl c r' eq_refl)|exact IH].
  - rewrite (read_none t st NN N). cbn [good set_fail cs_fail negb andb map]. apply Sc_fail; [exact N|]. destruct t; reflexivity.
Qed.

Lemma scan_str_spec s ts : exists l r, cstr s = l ++ r /\ only default_delimiters l /\ (forall c r', r = c :: r' -> ~ In c default_delimiters) /\
  let '(vs, n) := scan_str s ts in Scanned default_delimiters r (map tk ts) (map tv vs) n.
Proof.
  pose proof (cstr_nonul s) as NN. destruct (drop_delims_spec default_delimiters (cstr s) NN) as (l & El & Ol & Hl).
  exists l, (drop_delims default_delimiters (cstr s)). repeat split; try assumption. unfold scan_str, cs_of_cstr.
  change (mkCs (cstr s) false false default_delimiters) with (with_rest (mkCs (cstr s) false false default_delimiters) (cstr s)).
  rewrite skip_state by auto. cbn [cs_delim]. apply scan_spec. rewrite El in NN. apply nonul_app in NN. tauto.
Qed.

(* numbers separated by single spaces *)
Fixpoint numbers_text (zs : list Z) : str :=
  match zs with
  | [] => []
  | [z] => dec z
  | z :: zs' => dec z ++ " "%char :: numbers_text zs'
  end.
Definition longs (zs : list Z) : Prop := Forall (fun z => - 2 ^ 63 <= z < 2 ^ 63) zs.

Lemma dec_head z : printable z -> exists c r, dec z = c :: r /\ ~ In c default_delimiters.
Proof.
  intros P. pose proof (dec_canonical z P) as C. inversion C as [E1 E2|d ds D1 D2 D3 E1 E2|d ds D1 D2 D3 E1 E2].
  - exists "0"%char, []. split; [reflexivity|]. intros X. apply mem_In in X. vm_compute in X. discriminate.
  - exists d, ds. split; [reflexivity|]. intros X. apply mem_In in X. apply isspace_spec in X. eapply digit_not_white; eauto.
  - exists "-"%char, (d :: ds). split; [reflexivity|]. intros X. apply mem_In in X. vm_compute in X. discriminate.
Qed.
Lemma numbers_head zs : longs zs -> forall c r, numbers_text zs = c :: r -> ~ In c default_delimiters.
Proof.
  intros L c r E. destruct L as [|z zs Hz L]; [discriminate|]. destruct (dec_head z) as (d & ds & D & N); [unfold printable; lia|].
  cbn [numbers_text] in E. destruct zs; rewrite D in E; inversion E; subst; exact N.
Qed.
Lemma nearest_self lo hi z : lo <= z <= hi -> Nearest lo hi z z.
Proof. intros H. split; [exact H|]. intros. lia. Qed.
Lemma no_element_nil k v t : ~ Element k [] v t.
Proof.
  intros E. inversion E as [s0 z u v0 L N|s0 z u v0 i L N R X|w u W F T]; subst;
    try (apply Leads_split in L as (p & E1 & E2); symmetry in E1; apply app_eq_nil in E1 as [-> _]; congruence).
  destruct w; [congruence|discriminate].
Qed.
Lemma numbers_elements zs : longs zs -> Elements default_delimiters Long (numbers_text zs) (map Num zs).
Proof.
  intros L. induction L as [|z zs Hz L IH]; [apply Els_none; intros v t; apply no_element_nil|].
  assert (P : printable z) by (unfold printable; lia). cbn [map]. destruct zs as [|y zs].
  - cbn [numbers_text]. eapply Els_some with (l := []) (r := []); [eapply El_long; [apply dec_leads'; exact P|apply nearest_self; lia]|reflexivity|constructor|discriminate|].
    apply Els_none; intros v t; apply no_element_nil.
  - change (numbers_text (z :: y :: zs)) with (dec z ++ " "%char :: numbers_text (y :: zs)).
    eapply Els_some with (l := [" "%char]).
    + eapply El_long; [apply dec_leads; [exact P|]|apply nearest_self; lia]. cbn. intros H. absurd_digit H.
    + reflexivity.
    + repeat constructor.
    + apply numbers_head. exact L.
    + exact IH.
Qed.
Lemma numbers_nonul zs : longs zs -> cstr (numbers_text zs) = numbers_text zs.
Proof.
  assert (A : forall a b, cstr a = a -> cstr b = b -> cstr (a ++ b) = a ++ b).
  { induction a as [|c a IH]; intros b Ha Hb; [exact Hb|]. cbn [cstr app] in *. destruct (Ascii.eqb c NUL); [discriminate|].
    injection Ha as Ha. rewrite IH by assumption. reflexivity. }
  induction 1 as [|z zs Hz L IH]; [reflexivity|]. destruct zs as [|y zs].
  - apply dec_nonul. unfold printable. lia.
  - change (numbers_text (z :: y :: zs)) with (dec z ++ [" "%char] ++ numbers_text (y :: zs)).
    apply A; [apply dec_nonul; unfold printable; lia|]. apply A; [reflexivity|exact IH].
Qed.
Lemma map_tv_num vs zs : map tv vs = map Num zs -> vs = map Vnum zs.
Proof.
  revert zs. induction vs as [|v vs IH]; intros [|z zs] H; try discriminate; [reflexivity|]. cbn in H. inversion H. cbn. f_equal; [|auto].
  destruct v; inversion H1; reflexivity.
Qed.
Lemma numbers_vec zs maxv : longs zs -> str_to_vec Tlong (numbers_text zs) maxv default_delimiters = Ok (take_max maxv (map Vnum zs)).
Proof.
  intros L. destruct (str_to_vec_spec Tlong (numbers_text zs) maxv default_delimiters) as (l & r & vs & E & O & H & HE & ->).
  rewrite numbers_nonul in E by exact L. destruct (drop_unique default_delimiters [] (numbers_text zs) l r E ltac:(constructor) O (numbers_head zs L) H) as [<- <-].
  pose proof (Elements_fun _ _ _ _ HE _ (numbers_elements zs L)) as X. apply map_tv_num in X. subst. reflexivity.
Qed.

Lemma Scanned_fun d s ks vs n : (forall c s', s = c :: s' -> True) -> Scanned d s ks vs n -> forall vs' n', Scanned d s ks vs' n' -> vs = vs' /\ n = n'.
Proof.
  intros _. induction 1 as [s|s k ks z N Hz|s k ks v t E O|s k ks v l c r vs n E O H HS IH]; intros vs' n' B;
    inversion B as [s0|s0 k0 ks0 z0 N0 Hz0|s0 k0 ks0 v0 t0 E0 O0|s0 k0 ks0 v0 l0 c0 r0 vs0 n0 E0 O0 H0 HS0]; subst; auto;
    try (exfalso; eapply N; eassumption); try (exfalso; eapply N0; eassumption);
    destruct (Element_fun _ _ _ _ _ _ E E0) as [-> Et]; subst.
  - auto.
  - exfalso. apply H0. unfold only in O. rewrite Forall_app in O. destruct O as [_ O]. inversion O; assumption.
  - exfalso. apply H. unfold only in O0. rewrite Forall_app in O0. destruct O0 as [_ O0]. inversion O0; assumption.
  - destruct (drop_unique d _ _ _ _ Et O O0) as [-> Er]; [intros x u X; inversion X; subst; assumption..|]. inversion Er; subst.
    destruct (IH _ _ HS0) as [-> ->]. auto.
Qed.

Lemma numbers_scanned zs : longs zs -> zs <> [] -> Scanned default_delimiters (numbers_text zs) (map (fun _ => Long) zs) (map Num zs) (length zs - 1).
Proof.
  intros L. induction L as [|z zs Hz L IH]; [congruence|]. intros _. assert (P : printable z) by (unfold printable; lia). cbn [map]. destruct zs as [|y zs].
  - cbn. eapply Sc_last; [eapply El_long; [apply dec_leads'; exact P|apply nearest_self; lia]|constructor].
  - change (numbers_text (z :: y :: zs)) with (dec z ++ " "%char :: numbers_text (y :: zs)). specialize (IH ltac:(discriminate)).
    destruct (numbers_text (y :: zs)) as [|c r] eqn:E.
    { cbn [numbers_text] in E. inversion L; subst. exfalso. destruct zs; [apply dec_nonempty in E; [exact E|unfold printable; lia]|].
      apply app_eq_nil in E as [_ E]. discriminate. }
    replace (length (z :: y :: zs) - 1)%nat with (S (length (y :: zs) - 1)) by (cbn [length]; lia).
    apply (Sc_more default_delimiters _ Long _ (Num z) [" "%char] c r).
    + eapply El_long; [apply dec_leads; [exact P|]|apply nearest_self; lia]. cbn. intros H. absurd_digit H.
    + repeat constructor.
    + eapply numbers_head; [exact L|exact E].
    + exact IH.
Qed.
Lemma numbers_scan zs : longs zs -> zs <> [] -> scan_str (numbers_text zs) (map (fun _ => Tlong) zs) = (map Vnum zs, length zs - 1)%nat.
Proof.
  intros L NE. destruct (scan_str_spec (numbers_text zs) (map (fun _ => Tlong) zs)) as (l & r & E & O & H & HE).
  rewrite numbers_nonul in E by exact L. destruct (drop_unique default_delimiters [] (numbers_text zs) l r E ltac:(constructor) O (numbers_head zs L) H) as [<- <-].
  destruct (scan_str _ _) as [vs n]. rewrite map_map in HE. change (fun x : Z => tk Tlong) with (fun _ : Z => Long) in HE.
  destruct (Scanned_fun _ _ _ _ _ ltac:(auto) HE _ _ (numbers_scanned zs L NE)) as [X ->]. apply map_tv_num in X. subst. reflexivity.
Qed.
