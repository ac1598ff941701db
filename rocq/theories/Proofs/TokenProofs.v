From Verif Require Import Model.Base Proofs.BaseFacts Model.StdString Model.Strings Model.Number Model.CharStream Spec.Strings Spec.Quote Spec.Token Proofs.StringFacts Proofs.QuoteProofs.
Local Open Scope nat_scope.

Lemma strchr_Delim d c : strchr d c = true <-> Delim d c.
Proof. unfold strchr, Delim. rewrite orb_true_iff, mem_In, Ascii.eqb_eq. tauto. Qed.
Lemma strchr_not_Delim d c : strchr d c = false <-> ~ Delim d c.
Proof. rewrite <- strchr_Delim. destruct (strchr d c); split; congruence. Qed.

Lemma drop_skipped d s : Skipped d s (drop_delims d s).
Proof.
  induction s as [|c s (l & E & F & N)]; cbn [drop_delims].
  - exists []. repeat split; [constructor|discriminate].
  - destruct (strchr d c) eqn:S.
    + exists (c :: l). split; [cbn; f_equal; exact E|]. split; [constructor; [apply strchr_Delim; exact S|exact F]|exact N].
    + exists []. split; [reflexivity|]. split; [constructor|]. intros c' r' E'. inversion E'; subst. apply strchr_not_Delim. exact S.
Qed.

Definition endb (s : str) : bool := match s with [] => true | _ => false end.
(* streams that have not failed *)
Definition strm (d s : str) : char_stream := mkCs s false (endb s) d.

Lemma good_strm d s : good (strm d s) = negb (endb s).
Proof. reflexivity. Qed.
Lemma getc_strm d c s : getc (strm d (c :: s)) = Ok (c, strm d s).
Proof. destruct s; reflexivity. Qed.
Lemma getcs_strm d n : forall s, n <= length s -> getcs n (strm d s) = Ok (strm d (skipn n s)).
Proof.
  induction n as [|n IH]; intros s H; [reflexivity|]. destruct s as [|c s]; [cbn in H; lia|]. cbn [getcs skipn].
  rewrite getc_strm. cbn [bind]. apply IH. cbn in H. lia.
Qed.

Lemma escape_suffix e c t : Escape e c t -> length t <= length e.
Proof. intros H. inversion H; subst; cbn [length]; rewrite ?app_length; lia. Qed.

Lemma decode_len buf c n : decode_char buf = Ok (c, n) -> n <= length buf.
Proof.
  destruct buf as [|a rest]; [discriminate|]. unfold decode_char. destruct (negb (Ascii.eqb a BSLASH)); [intros H; inversion H; lia|].
  destruct rest as [|e rest]; [intros H; inversion H; lia|].
  repeat match goal with |- (if ?b then _ else _) = _ -> _ => destruct b; [intros H; inversion H; cbn [length]; lia|] end.
  destruct (octal_run (Nat.min (length (e :: rest)) 3) (e :: rest)) as (ds & r & E & F & L & T).
  rewrite E in *. rewrite read_oct_spec by assumption. intros H. cbn zeta in H.
  assert (n = 1 + length ds) as ->. { match type of H with (if ?b then _ else _) = _ => destruct b end; inversion H; reflexivity. }
  cbn [length]. rewrite app_length. lia.
Qed.

(* quotations *)
Lemma stuck_loop d q t : Stuck q t -> forall fuel s, quote_loop fuel q s (strm d t) = OutOfFuel.
Proof.
  induction 1 as [NQ|c t N1 N2 H IH|e c t NQ E H IH]; intros fuel; revert IH || idtac.
  - induction fuel as [|fuel IHf]; intros s; [reflexivity|]. cbn [quote_loop]. rewrite good_strm. cbn [endb negb strm cs_rest].
    destruct (Ascii.eqb_spec "\" q); [congruence|]. cbn [Ascii.eqb Bool.eqb BSLASH]. exact (IHf (s ++ [BSLASH])).
  - intros IH s. destruct fuel as [|fuel]; [reflexivity|]. cbn [quote_loop]. rewrite good_strm. cbn [endb negb]. change (cs_rest (strm d (c :: t))) with (c :: t).
    apply Ascii.eqb_neq in N1, N2. cbn iota. rewrite N1. unfold BSLASH. rewrite N2, getc_strm. cbn [bind]. apply IH.
  - intros IH s. destruct fuel as [|fuel]; [reflexivity|]. cbn [quote_loop]. rewrite good_strm. cbn [endb negb]. change (cs_rest (strm d ("\"%char :: e))) with ("\"%char :: e).
    apply Ascii.eqb_neq in NQ. cbn iota. rewrite NQ. change (Ascii.eqb "\" BSLASH) with true. cbn iota.
    destruct (escape_decode _ _ _ E) as (n & Dn & Sk & Ln). unfold BSLASH in Dn, Sk. rewrite Dn. cbn [bind].
    rewrite getcs_strm by (eapply decode_len; exact Dn). cbn [bind]. rewrite Sk. apply IH.
Qed.

Lemma quoted_loop d q t out r : Quoted q t out r -> forall fuel s, length t < fuel -> quote_loop fuel q s (strm d t) = Ok (s ++ out, strm d r).
Proof.
  induction 1 as [r| |c t out r N1 N2 H IH|e c t out r NQ E H IH]; intros [|fuel] s L; try lia; cbn [quote_loop]; rewrite good_strm; cbn [endb negb].
  - change (cs_rest (strm d (q :: r))) with (q :: r). cbn iota. rewrite Ascii.eqb_refl, getc_strm. cbn [bind]. rewrite app_nil_r. reflexivity.
  - rewrite app_nil_r. reflexivity.
  - change (cs_rest (strm d (c :: t))) with (c :: t). apply Ascii.eqb_neq in N1, N2. cbn iota. unfold BSLASH. rewrite N1, N2, getc_strm. cbn [bind].
    rewrite IH by (cbn in L; lia). rewrite <- app_assoc. reflexivity.
  - change (cs_rest (strm d ("\"%char :: e))) with ("\"%char :: e). apply Ascii.eqb_neq in NQ. cbn iota. rewrite NQ. change (Ascii.eqb "\" BSLASH) with true. cbn iota.
    destruct (escape_decode _ _ _ E) as (n & Dn & Sk & Ln). unfold BSLASH in Dn, Sk. rewrite Dn. cbn [bind].
    rewrite getcs_strm by (eapply decode_len; exact Dn). cbn [bind]. rewrite Sk. rewrite IH by (apply escape_suffix in E; cbn in L; lia). rewrite <- app_assoc. reflexivity.
Qed.

Lemma quoted_or_stuck q t : Stuck q t \/ exists out r, Quoted q t out r.
Proof.
  assert (K : forall n t, length t <= n -> Stuck q t \/ exists out r, Quoted q t out r).
  { induction n as [|n IH]; intros u L.
    - destruct u; [right; exists [], []; constructor|cbn in L; lia].
    - destruct u as [|c u]; [right; exists [], []; constructor|]. destruct (ascii_dec c q) as [->|N1]; [right; exists [], u; constructor|].
      destruct (ascii_dec c "\"%char) as [->|N2].
      + destruct u as [|x u]; [left; constructor; exact N1|]. destruct (escape_total (x :: u) ltac:(discriminate)) as (c & r & E).
        pose proof (escape_suffix _ _ _ E). destruct (IH r) as [S|(out & r' & H')]; [cbn in L, H; lia| |].
        * left. eapply St_escape; eauto.
        * right. eexists _, _. eapply Qd_escape; eauto.
      + destruct (IH u) as [S|(out & r & H)]; [cbn in L; lia| |].
        * left. apply St_char; assumption.
        * right. eexists _, _. apply Qd_char; eauto. }
  apply (K (length t)). lia.
Qed.

Lemma quoted_len q t out r : Quoted q t out r -> length r + length out <= length t.
Proof.
  induction 1 as [r| |c t out r N1 N2 H IH|e c t out r NQ E H IH]; cbn [length]; try lia. apply escape_suffix in E. lia.
Qed.

(* tokens *)
Section K.
Variables D O Q : str.

Lemma raw_tests c : Raw D O Q c -> strchr D c = false /\ strchr Q c = false /\ strchr O c = false.
Proof.
  intros (A & B & C). assert (c <> NUL) by (intros ->; apply A; right; reflexivity).
  unfold Delim in A. unfold strchr. apply mem_false in B, C. rewrite B, C. apply Ascii.eqb_neq in H. rewrite H.
  assert (mem D c = false) as -> by (apply mem_false; tauto). auto.
Qed.
Lemma quot_tests c : Quot D Q c -> strchr D c = false /\ strchr Q c = true.
Proof. intros (A & B). split; [apply strchr_not_Delim; exact B|]. unfold strchr. apply mem_In in A. rewrite A. reflexivity. Qed.
Lemma oper_tests c : Oper D O Q c -> strchr D c = false /\ strchr Q c = false /\ strchr O c = true.
Proof.
  intros (A & B & C). split; [apply strchr_not_Delim; exact B|]. assert (c <> NUL) by (intros ->; apply B; right; reflexivity).
  unfold strchr. apply mem_In in A. apply mem_false in C. apply Ascii.eqb_neq in H. rewrite A, C, H. auto.
Qed.
Lemma char_cases c : Delim D c \/ Quot D Q c \/ Oper D O Q c \/ Raw D O Q c.
Proof.
  unfold Quot, Oper, Raw. assert (X : Delim D c \/ ~ Delim D c) by (rewrite <- strchr_Delim; destruct (strchr D c); auto).
  destruct (in_dec ascii_dec c Q), (in_dec ascii_dec c O); tauto.
Qed.

(* the position moves over raw characters *)
Lemma loop_raw w : Forall (Raw D O Q) w -> forall u r s fuel,
  token_loop (length w + fuel) O Q s (strm D (u ++ w ++ r)) (length u) = token_loop fuel O Q s (strm D (u ++ w ++ r)) (length (u ++ w)).
Proof.
  induction 1 as [|c w Hc H IH]; intros u r s fuel; [rewrite app_nil_r; reflexivity|].
  destruct (raw_tests c Hc) as (T1 & T2 & T3). cbn [length plus token_loop]. rewrite good_strm.
  assert (endb (u ++ (c :: w) ++ r) = false) as EB by (destruct u; reflexivity). rewrite EB. cbn [negb]. unfold with_rest. cbn [strm cs_rest cs_delim].
  rewrite skipn_app, skipn_all, Nat.sub_diag. cbn [skipn app]. rewrite T1, T2, T3.
  specialize (IH (u ++ [c]) r s fuel). replace ((u ++ [c]) ++ w ++ r) with (u ++ c :: w ++ r) in IH by (rewrite <- app_assoc; reflexivity).
  replace ((u ++ [c]) ++ w) with (u ++ c :: w) in IH by (rewrite <- app_assoc; reflexivity).
  rewrite (app_length u [c]) in IH. cbn [length] in IH. rewrite Nat.add_1_r in IH. exact IH.
Qed.

Lemma loop_raw0 w r s fuel : Forall (Raw D O Q) w ->
  token_loop (length w + fuel) O Q s (strm D (w ++ r)) 0 = token_loop fuel O Q s (strm D (w ++ r)) (length w).
Proof.
  intros H. destruct w as [|c w]; [reflexivity|]. exact (loop_raw (c :: w) H [] r s fuel).
Qed.

Lemma loop_at w c r s fuel : token_loop (S fuel) O Q s (strm D (w ++ c :: r)) (length w) =
  if strchr D c then Ok (s ++ w, strm D (c :: r))
  else if strchr Q c then
    let* (s', st3) := quote_loop fuel c s (strm D r) in token_loop fuel O Q s' st3 0
  else if strchr O c then
    if (length w =? 0) && endb s then Ok ([c], mkCs r false false D) else Ok (s ++ w, strm D (c :: r))
  else token_loop fuel O Q s (strm D (w ++ c :: r)) (S (length w)).
Proof.
  cbn [token_loop]. rewrite good_strm. assert (endb (w ++ c :: r) = false) as EB by (destruct w; reflexivity). rewrite EB. cbn [negb].
  unfold with_rest. cbn [strm cs_rest cs_delim cs_fail cs_eof]. rewrite skipn_app, skipn_all, Nat.sub_diag. cbn [skipn app].
  rewrite firstn_app, firstn_all, Nat.sub_diag. cbn [firstn]. rewrite app_nil_r, EB. cbn [endb].
  destruct (strchr D c); [reflexivity|]. destruct (strchr Q c).
  - change (mkCs (c :: r) false false D) with (strm D (c :: r)). rewrite getc_strm. cbn [bind]. reflexivity.
  - destruct (strchr O c); reflexivity.
Qed.

Lemma loop_end w s fuel : w <> [] -> token_loop (S fuel) O Q s (strm D w) (length w) = Ok (s ++ w, mkCs [] false false D).
Proof.
  intros N. cbn [token_loop]. rewrite good_strm. destruct w as [|c w]; [congruence|]. cbn [endb negb].
  unfold with_rest. cbn [strm cs_rest cs_delim cs_fail cs_eof]. rewrite skipn_all, firstn_all. reflexivity.
Qed.

(* all that matters of the state after the loop *)
Definition settle (x : res (str * char_stream)) : res (str * char_stream) :=
  let* (s, st1) := x in Ok (s, test_eof (skip_delimiters st1)).

Lemma settle_flags s r e : (e = true -> r = []) -> settle (Ok (s, mkCs r false e D)) = Ok (s, strm D (drop_delims D r)).
Proof.
  intros H. unfold settle, skip_delimiters, test_eof, with_rest, strm. cbn [bind cs_rest cs_fail cs_eof cs_delim].
  destruct e; [rewrite (H eq_refl); reflexivity|]. destruct (drop_delims D r); reflexivity.
Qed.
Lemma settle_strm s r : settle (Ok (s, strm D r)) = Ok (s, strm D (drop_delims D r)).
Proof. apply settle_flags. destruct r; [reflexivity|discriminate]. Qed.

Lemma token_loop_spec s t tok r : Token D O Q s t tok r -> forall fuel, length t < fuel ->
  settle (token_loop fuel O Q s (strm D t) 0) = Ok (tok, strm D (drop_delims D r)).
Proof.
  induction 1 as [s w W|s w c r W Hc|s w c r W Hc NE|c r Hc|s w q t out t' tok r W Hq HQ HT IH]; intros fuel L.
  - destruct w as [|c w].
    + rewrite app_nil_r. destruct fuel; [cbn in L; lia|]. exact (settle_strm s []).
    + rewrite <- (app_nil_r (c :: w)) at 1. replace fuel with (length (c :: w) + S (fuel - length (c :: w) - 1)) by lia.
      rewrite loop_raw0 by exact W. rewrite app_nil_r, loop_end by discriminate. apply settle_flags. discriminate.
  - rewrite app_length in L. cbn [length] in L. replace fuel with (length w + S (fuel - length w - 1)) by lia. rewrite loop_raw0 by exact W. rewrite loop_at.
    apply strchr_Delim in Hc. rewrite Hc. apply settle_strm.
  - rewrite app_length in L. cbn [length] in L. replace fuel with (length w + S (fuel - length w - 1)) by lia. rewrite loop_raw0 by exact W. rewrite loop_at.
    destruct (oper_tests c Hc) as (-> & -> & ->). assert ((length w =? 0) && endb s = false) as ->.
    { destruct w, s; cbn in *; try reflexivity. congruence. } apply settle_strm.
  - destruct fuel as [|fuel]; [cbn in L; lia|]. pose proof (loop_at [] c r [] fuel) as LA. cbn [app length] in LA. rewrite LA.
    destruct (oper_tests c Hc) as (-> & -> & ->). cbn [Nat.eqb endb andb]. apply settle_flags. discriminate.
  - rewrite app_length in L. cbn [length] in L. replace fuel with (length w + S (fuel - length w - 1)) by lia. rewrite loop_raw0 by exact W. rewrite loop_at.
    destruct (quot_tests q Hq) as (-> & ->). rewrite (quoted_loop D q t out t' HQ) by lia. cbn [bind]. apply IH. apply quoted_len in HQ. lia.
Qed.

Lemma fuel_mono_hang t : Hang D O Q t -> forall fuel s, token_loop fuel O Q s (strm D t) 0 = OutOfFuel.
Proof.
  intros H fuel. revert t H.
  (* a loop that runs out with plenty of fuel runs out with less *)
  assert (SK : forall w q t r0, Forall (Raw D O Q) w -> Quot D Q q -> forall s,
    (forall k, token_loop (S k) O Q s (strm D (w ++ q :: t)) (length w) = OutOfFuel) -> r0 = w ++ q :: t ->
    forall u w', w = u ++ w' -> forall fuel, token_loop fuel O Q s (strm D r0) (length u) = OutOfFuel).
  { intros w q t r0 W Hq s Hk -> u w' Ew. revert u Ew. induction w' as [|c w' IH]; intros u Ew fuel0.
    - rewrite app_nil_r in Ew. subst u. destruct fuel0 as [|k]; [|apply Hk]. cbn [token_loop]. rewrite good_strm.
      assert (endb (w ++ q :: t) = false) as -> by (destruct w; reflexivity). reflexivity.
    - destruct fuel0 as [|k]; [cbn [token_loop]; rewrite good_strm; assert (endb (w ++ q :: t) = false) as -> by (destruct w; reflexivity); reflexivity|].
      assert (Hc : Raw D O Q c). { rewrite Ew in W. apply Forall_app in W as [_ W]. inversion W; assumption. }
      destruct (raw_tests c Hc) as (T1 & T2 & T3). subst w. rewrite <- app_assoc. cbn [app]. rewrite loop_at, T1, T2, T3.
      specialize (IH (u ++ [c]) ltac:(rewrite <- app_assoc; reflexivity) k). rewrite app_length in IH. cbn [length] in IH. rewrite Nat.add_1_r in IH.
      rewrite <- app_assoc in IH. exact IH. }
  intros t H. revert fuel. induction H as [w q t W Hq HS|w q t out t' W Hq HQ HH IH]; intros fuel s.
  - refine (SK w q t _ W Hq s _ eq_refl [] w eq_refl fuel). intros k. rewrite loop_at. destruct (quot_tests q Hq) as (-> & ->).
    rewrite (stuck_loop D q t HS). reflexivity.
  - refine (SK w q t _ W Hq s _ eq_refl [] w eq_refl fuel). intros k. rewrite loop_at. destruct (quot_tests q Hq) as (-> & ->).
    destruct (Nat.lt_ge_cases (length t) k) as [L|L].
    + rewrite (quoted_loop D q t out t' HQ) by exact L. cbn [bind]. apply IH.
    + (* with too little fuel the inner loop may run out, or finish *)
      assert (X : quote_loop k q s (strm D t) = OutOfFuel \/ quote_loop k q s (strm D t) = Ok (s ++ out, strm D t')).
      { clear - HQ. revert s k. induction HQ as [r| |c t out r N1 N2 H IH|e c t out r NQ E H IH]; intros s [|k]; cbn [quote_loop]; rewrite good_strm; cbn [endb negb]; auto.
        - right. change (cs_rest (strm D (q :: r))) with (q :: r). cbn iota. rewrite Ascii.eqb_refl, getc_strm. cbn [bind]. rewrite app_nil_r. reflexivity.
        - right. rewrite app_nil_r. reflexivity.
        - right. rewrite app_nil_r. reflexivity.
        - change (cs_rest (strm D (c :: t))) with (c :: t). apply Ascii.eqb_neq in N1, N2. cbn iota. unfold BSLASH. rewrite N1, N2, getc_strm. cbn [bind].
          destruct (IH (s ++ [c]) k) as [-> | ->]; [left; reflexivity|right; rewrite <- app_assoc; reflexivity].
        - change (cs_rest (strm D ("\"%char :: e))) with ("\"%char :: e). apply Ascii.eqb_neq in NQ. cbn iota. rewrite NQ. change (Ascii.eqb "\" BSLASH) with true. cbn iota.
          destruct (escape_decode _ _ _ E) as (n & Dn & Sk & Ln). unfold BSLASH in Dn, Sk. rewrite Dn. cbn [bind].
          rewrite getcs_strm by (eapply decode_len; exact Dn). cbn [bind]. rewrite Sk.
          destruct (IH (s ++ [c]) k) as [-> | ->]; [left; reflexivity|right; rewrite <- app_assoc; reflexivity]. }
      destruct X as [-> | ->]; [reflexivity|]. cbn [bind]. apply IH.
Qed.

Lemma raw_run t : exists w r, t = w ++ r /\ Forall (Raw D O Q) w /\ (forall c r', r = c :: r' -> ~ Raw D O Q c).
Proof.
  induction t as [|c t (w & r & E & W & N)]; [exists [], []; repeat split; [constructor|discriminate]|].
  destruct (char_cases c) as [H|[H|[H|H]]].
  1-3: exists [], (c :: t); split; [reflexivity|]; split; [constructor|]; intros c' r' X; inversion X; subst;
    unfold Raw, Quot, Oper in *; tauto.
  exists (c :: w), r. split; [cbn; f_equal; exact E|]. split; [constructor; assumption|exact N].
Qed.

Lemma token_total t : forall s, Hang D O Q t \/ exists tok r, Token D O Q s t tok r.
Proof.
  assert (K : forall n t, length t <= n -> forall s, Hang D O Q t \/ exists tok r, Token D O Q s t tok r).
  { induction n as [|n IH]; intros u L s.
    - destruct u; [|cbn in L; lia]. right. eexists _, _. apply Tok_end. constructor.
    - destruct (raw_run u) as (w & r & E & W & N). subst u. destruct r as [|c r].
      + right. rewrite app_nil_r. eexists _, _. apply Tok_end. exact W.
      + destruct (char_cases c) as [H|[H|[H|H]]].
        * right. eexists _, _. apply Tok_delim; assumption.
        * destruct (quoted_or_stuck c r) as [S|(out & r' & HQ)]; [left; apply Hang_here; assumption|].
          pose proof (quoted_len _ _ _ _ HQ). rewrite app_length in L. cbn [length] in L.
          destruct (IH r' ltac:(lia) (s ++ out)) as [HH|(tok & r'' & HT)].
          -- left. eapply Hang_later; eauto.
          -- right. eexists _, _. eapply Tok_quote; eauto.
        * right. destruct (list_eq_dec ascii_dec (s ++ w) []) as [E|E].
          -- apply app_eq_nil in E as [-> ->]. eexists _, _. apply Tok_op. exact H.
          -- eexists _, _. apply Tok_before_op; assumption.
        * exfalso. eapply N; eauto. }
  apply (K (length t)). lia.
Qed.

Lemma token_len s t tok r : Token D O Q s t tok r -> length tok + length r <= length s + length t.
Proof.
  induction 1 as [s w W|s w c r W Hc|s w c r W Hc NE|c r Hc|s w q t out t' tok r W Hq HQ HT IH]; rewrite ?app_length in *; cbn [length] in *; try lia.
  apply quoted_len in HQ. lia.
Qed.
(* a token, with the delimiters after it, takes at least one character *)
Lemma token_progress t tok r : Token D O Q [] t tok r -> t <> [] -> length (drop_delims D r) < length t.
Proof.
  intros H N. assert (DL : forall x, length (drop_delims D x) <= length x).
  { induction x as [|c x IH]; cbn [drop_delims]; [lia|]. destruct (strchr D c); cbn [length]; lia. }
  inversion H as [s w W|s w c r0 W Hc|s w c r0 W Hc NE|c r0 Hc|s w q u out t' tok0 r0 W Hq HQ HT]; subst.
  - cbn. destruct t; [congruence|cbn; lia].
  - cbn [drop_delims]. apply strchr_Delim in Hc. rewrite Hc. specialize (DL r0). rewrite app_length. cbn [length]. lia.
  - specialize (DL (c :: r0)). rewrite app_length. destruct w; [cbn in NE; congruence|]. cbn [length] in *. lia.
  - specialize (DL r). cbn [length]. lia.
  - specialize (DL r). apply quoted_len in HQ. apply token_len in HT. rewrite !app_length in *. cbn [length] in *. lia.
Qed.

Lemma get_token_spec s tok r fuel : Token D O Q [] s tok r -> length s < fuel ->
  get_token fuel O Q (strm D s) = Ok (tok, strm D (drop_delims D r)).
Proof. intros H L. apply (token_loop_spec _ _ _ _ H fuel L). Qed.
Lemma get_token_hang s fuel : Hang D O Q s -> get_token fuel O Q (strm D s) = OutOfFuel.
Proof. intros H. unfold get_token. rewrite (fuel_mono_hang s H). reflexivity. Qed.
Lemma get_token_bad st fuel : good st = false -> get_token fuel O Q st = Ok ([], test_eof (skip_delimiters st)).
Proof. intros H. unfold get_token. destruct fuel; cbn [token_loop]; rewrite H; reflexivity. Qed.

Lemma token_det s tok r tok' r' : Token D O Q [] s tok r -> Token D O Q [] s tok' r' -> tok = tok' /\ drop_delims D r = drop_delims D r'.
Proof.
  intros A B. pose proof (get_token_spec s tok r (S (length s)) A ltac:(lia)) as X. rewrite (get_token_spec s tok' r' (S (length s)) B ltac:(lia)) in X.
  inversion X. auto.
Qed.
Lemma token_not_hang s tok r : Token D O Q [] s tok r -> ~ Hang D O Q s.
Proof.
  intros A B. pose proof (get_token_spec s tok r (S (length s)) A ltac:(lia)) as X. rewrite (get_token_hang _ _ B) in X. discriminate.
Qed.
Lemma stuck_bslash q t : Stuck q t -> exists t', t = t' ++ ["\"%char].
Proof.
  induction 1 as [NQ|c t N1 N2 H [t' ->]|e c t NQ E H [t' ->]].
  - exists []. reflexivity.
  - exists (c :: t'). reflexivity.
  - inversion E; subst; try (eexists (_ :: _ :: _); cbn; reflexivity). exists ("\"%char :: ds ++ t'). cbn. rewrite <- app_assoc. reflexivity.
Qed.
Lemma quoted_suffix q t out r : Quoted q t out r -> exists p, t = p ++ r.
Proof.
  induction 1 as [r| |c t out r N1 N2 H [p ->]|e c t out r NQ E H [p ->]].
  - exists [q]. reflexivity.
  - exists []. reflexivity.
  - exists (c :: p). reflexivity.
  - inversion E; subst; try (eexists (_ :: _ :: _); cbn; reflexivity). exists ("\"%char :: ds ++ p). cbn. rewrite <- app_assoc. reflexivity.
Qed.
Lemma hang_bslash t : Hang D O Q t -> exists t', t = t' ++ ["\"%char].
Proof.
  induction 1 as [w q t W Hq HS|w q t out t' W Hq HQ HH [u ->]].
  - apply stuck_bslash in HS as [u ->]. exists (w ++ q :: u). rewrite <- app_assoc. reflexivity.
  - apply quoted_suffix in HQ as [p ->]. exists (w ++ q :: p ++ u). rewrite <- !app_assoc. cbn. rewrite <- !app_assoc. reflexivity.
Qed.
End K.

(* every stream a client can have knows whether it is at its end *)
Definition AtEnd (st : char_stream) : Prop := cs_eof st = true <-> cs_rest st = [].
Lemma AtEnd_strm st : AtEnd st -> cs_fail st = false -> st = strm (cs_delim st) (cs_rest st).
Proof.
  destruct st as [r f e d]. unfold AtEnd, strm. cbn. intros A ->. f_equal. destruct r, e; cbn in *; try reflexivity; [|destruct A as [A _]; specialize (A eq_refl); discriminate].
  destruct A as [_ A]. specialize (A eq_refl). discriminate.
Qed.
Lemma AtEnd_test st : (cs_eof st = true -> cs_rest st = []) -> AtEnd (test_eof st).
Proof.
  unfold AtEnd, test_eof. intros H. destruct (cs_rest st) eqn:E; cbn; [tauto|]. rewrite E. split; [auto|discriminate].
Qed.
Lemma AtEnd_skip st : (cs_eof st = true -> cs_rest st = []) -> AtEnd (skip_delimiters st).
Proof.
  intros H. apply AtEnd_test. cbn. intros E. rewrite (H E). reflexivity.
Qed.
Lemma AtEnd_process st n : AtEnd st -> AtEnd (process_end_pos st n).
Proof.
  intros H. unfold process_end_pos. destruct (n =? 0); [exact H|]. apply AtEnd_skip. cbn. intros E. apply H in E. rewrite E. apply skipn_nil.
Qed.
Lemma AtEnd_getc st c st' : AtEnd st -> getc st = Ok (c, st') -> AtEnd st'.
Proof.
  intros H. unfold getc. destruct (cs_rest st) eqn:E; [discriminate|]. intros X; inversion X; subst. apply AtEnd_test. cbn.
  intros Y. apply H in Y. congruence.
Qed.
Lemma AtEnd_target t st : AtEnd st -> AtEnd (snd (read_target t st)).
Proof.
  intros H. assert (R : AtEnd (snd (read_long st))). { unfold read_long. destruct (strtol _) as [[[v e] r]|]; cbn [snd]; apply AtEnd_process; exact H. }
  destruct t; cbn [read_target]; unfold read_int; try (destruct (read_long st); exact R). cbn [read_string]. apply AtEnd_process, H.
Qed.
