From Verif Require Import Model.Base Proofs.BaseFacts Model.StdString Model.Strings.
From Verif Require Import Spec.Strings Spec.Quote Proofs.StringFacts.
Local Open Scope Z_scope.

Definition encq (c : ascii) : str :=
  if Ascii.eqb c QUOTE || Ascii.eqb c BSLASH || (scode c <? 32) then encode_char c else [c].

Lemma quoted_encq s : quoted s = QUOTE :: flat_map encq s ++ [QUOTE].
Proof. reflexivity. Qed.

Ltac all_chars c := destruct c as [[|] [|] [|] [|] [|] [|] [|] [|]].

Definition plainb (c : ascii) : bool := ((1 <=? code c) && (code c <=? 127))%nat.
Lemma plainb_spec c : plainb c = true <-> plain c.
Proof. unfold plainb, plain, code. rewrite andb_true_iff, !Nat.leb_le. tauto. Qed.


Lemma octal_test c : ((48 <=? code c) && (code c <? 56))%nat = true <-> octal c.
Proof. unfold octal, code. rewrite andb_true_iff, Nat.leb_le, Nat.ltb_lt. tauto. Qed.

Lemma read_oct_spec ds : forall r k v n,
  Forall octal ds -> (length ds <= k)%nat ->
  (length ds = k \/ r = [] \/ exists c t, r = c :: t /\ ~ octal c) ->
  read_oct (ds ++ r) k v n =
  (fold_left (fun v c => v * 8 + (Z.of_nat (nat_of_ascii c) - 48)) ds v, (n + length ds)%nat).
Proof.
  induction ds as [|d ds IH]; intros r k v n Hd Hk Hend; cbn [app length fold_left].
  - rewrite Nat.add_0_r. destruct k; [destruct r; reflexivity|]. destruct Hend as [E|[->|(c & t & -> & Hc)]]; [discriminate|reflexivity|].
    cbn [read_oct]. destruct (_ && _) eqn:E; [|reflexivity]. apply octal_test in E. contradiction.
  - destruct k; [cbn in Hk; lia|]. inversion Hd; subst. cbn [read_oct]. apply octal_test in H1. rewrite H1.
    rewrite IH; [|assumption|cbn in Hk; lia|].
    + f_equal; [f_equal; unfold code; lia|lia].
    + destruct Hend as [E|E]; [left; cbn in E; lia|right; exact E].
Qed.

Lemma special_dec c :
  {Ascii.eqb c NUL = true} + {Ascii.eqb c BSLASH = true} + {Ascii.eqb c QUOTE = true} +
  {Ascii.eqb c "r" = true} + {Ascii.eqb c "n" = true} + {Ascii.eqb c "t" = true} +
  {~ special c /\ Ascii.eqb c NUL = false /\ Ascii.eqb c BSLASH = false /\ Ascii.eqb c QUOTE = false /\
   Ascii.eqb c "r" = false /\ Ascii.eqb c "n" = false /\ Ascii.eqb c "t" = false}.
Proof.
  destruct (Ascii.eqb c NUL) eqn:E1; [auto 10|]. destruct (Ascii.eqb c BSLASH) eqn:E2; [auto 10|].
  destruct (Ascii.eqb c QUOTE) eqn:E3; [auto 10|]. destruct (Ascii.eqb c "r") eqn:E4; [auto 10|].
  destruct (Ascii.eqb c "n") eqn:E5; [auto 10|]. destruct (Ascii.eqb c "t") eqn:E6; [auto 10|].
  right. split; [|auto 10]. intros [<-|[<-|[<-|[<-|[<-|[<-|[]]]]]]]; discriminate.
Qed.

Lemma escape_decode t c r : Escape t c r ->
  exists n, decode_char (BSLASH :: t) = Ok (c, n) /\ skipn n (BSLASH :: t) = r /\ (1 <= n)%nat.
Proof.
  intros H. destruct H as [r|r|r|r|r|r|ds r Hn Hsp Ho Hl Hend].
  1-6: exists 2%nat; split; [reflexivity|split; [reflexivity|lia]].
  exists (S (length ds)). split; [|split; [|lia]].
  - unfold decode_char. change (negb (BSLASH =? BSLASH)%char) with false. cbn iota.
    destruct (ds ++ r) as [|e t] eqn:E; [congruence|].
    destruct (special_dec e) as [[[[[[D|D]|D]|D]|D]|D]|(_ & -> & -> & -> & -> & -> & ->)].
    1-6: exfalso; apply Ascii.eqb_eq in D; subst; apply (Hsp _ _ eq_refl); unfold special, NUL, BSLASH, QUOTE; cbn; auto 10.
    rewrite <- E. rewrite read_oct_spec.
    + cbn [Nat.add]. fold (oct_value ds). destruct ds as [|d ds]; [reflexivity|].
      change ((1 <? S (length (d :: ds)))%nat) with true. cbn [andb]. destruct (_ && _); reflexivity.
    + exact Ho.
    + rewrite app_length. lia.
    + rewrite app_length. destruct Hend as [Hend|[->|Hend]]; [left; lia|left; cbn; lia|right; right; exact Hend].
  - cbn [skipn]. rewrite skipn_app, skipn_all, Nat.sub_diag. reflexivity.
Qed.

Lemma octal_dec c : {octal c} + {~ octal c}.
Proof. destruct (((48 <=? code c) && (code c <? 56))%nat) eqn:E; [left|right; intros H; apply octal_test in H; congruence]. apply octal_test. exact E. Qed.

Lemma octal_run k t : exists ds r, t = ds ++ r /\ Forall octal ds /\ (length ds <= k)%nat /\
  (length ds = k \/ r = [] \/ exists c u, r = c :: u /\ ~ octal c).
Proof.
  revert t. induction k as [|k IH]; intros t.
  - exists [], t. cbn. auto.
  - destruct t as [|c t]; [exists [], []; cbn; auto 10 with arith|].
    destruct (octal_dec c) as [Ho|Ho].
    + destruct (IH t) as (ds & r & -> & H1 & H2 & H3). exists (c :: ds), r. cbn. split; [reflexivity|]. split; [constructor; assumption|]. split; [lia|].
      destruct H3 as [H3|H3]; auto.
    + exists [], (c :: t). cbn. split; [reflexivity|]. split; [constructor|]. split; [lia|]. right; right. eauto.
Qed.

Lemma escape_total t : t <> [] -> exists c r, Escape t c r.
Proof.
  intros Hn. destruct t as [|e t]; [congruence|].
  destruct (special_dec e) as [[[[[[D|D]|D]|D]|D]|D]|(Hs & _)]; try (apply Ascii.eqb_eq in D; subst; eexists _, _; constructor).
  destruct (octal_run 3 (e :: t)) as (ds & r & E & H1 & H2 & H3). rewrite E. eexists _, _.
  apply Esc_octal; [rewrite <- E; discriminate| |assumption..]. rewrite <- E. intros c t' E'. inversion E'; subst. exact Hs.
Qed.

Lemma scan_loop rest out : Scan rest out -> forall fuel, (length rest < fuel)%nat -> unquote_loop fuel rest = Ok out.
Proof.
  induction 1 as [r|c r out H1 H2 Hs IH|t c r out He Hs IH]; intros [|fuel] Hf; try lia; cbn [unquote_loop].
  - reflexivity.
  - apply Ascii.eqb_neq in H1. apply Ascii.eqb_neq in H2. unfold QUOTE, BSLASH. rewrite H1, H2. rewrite IH by (cbn in Hf; lia). reflexivity.
  - change ("\" =? QUOTE)%char with false. change ("\" =? BSLASH)%char with true. cbn iota.
    destruct (escape_decode t c r He) as (n & E & Er & Hn). fold BSLASH. rewrite E. cbn [bind]. rewrite Er.
    rewrite IH; [reflexivity|]. rewrite <- Er. rewrite skipn_length. cbn [length] in *. lia.
Qed.

Definition ends_quote (s : str) : Prop := exists s', s = s' ++ [QUOTE].

Lemma ends_quote_suffix n s : ends_quote s -> (n < length s)%nat -> ends_quote (skipn n s).
Proof.
  intros [s' ->] H. rewrite app_length in H. cbn in H. exists (skipn n s'). rewrite skipn_app.
  replace (n - length s')%nat with 0%nat by lia. reflexivity.
Qed.

Lemma loop_total fuel : forall rest, (length rest < fuel)%nat -> (rest = [] \/ ends_quote rest) ->
  (exists out, unquote_loop fuel rest = Ok out /\ Scan rest out) \/
  (unquote_loop fuel rest = UB /\ forall out, ~ Scan rest out).
Proof.
  induction fuel as [|fuel IH]; intros rest Hf He; [lia|].
  assert (Sub : forall n r, skipn n rest = r -> r = [] \/ ends_quote r).
  { intros n r <-. destruct (le_lt_dec (length rest) n) as [L|L]; [left; apply skipn_all2; exact L|].
    right. apply ends_quote_suffix; [|exact L]. destruct He as [->|He]; [cbn in L; lia|exact He]. }
  destruct rest as [|c rest].
  - right. split; [reflexivity|]. intros out H. inversion H.
  - cbn [unquote_loop]. destruct (Ascii.eqb c QUOTE) eqn:Eq; [apply Ascii.eqb_eq in Eq; subst; left; eexists; split; [reflexivity|constructor]|].
    destruct (Ascii.eqb c BSLASH) eqn:Eb.
    + apply Ascii.eqb_eq in Eb; subst c.
      destruct rest as [|e t].
      { exfalso. destruct He as [He|[s' He]]; [discriminate|]. destruct s' as [|? [|? ?]]; discriminate. }
      destruct (escape_total (e :: t)) as (d & r & Hesc); [discriminate|].
      destruct (escape_decode _ _ _ Hesc) as (n & E & Er & Hn). rewrite E. cbn [bind]. rewrite Er.
      assert (Hlr : (length r < fuel)%nat) by (rewrite <- Er, skipn_length; cbn [length] in *; lia).
      destruct (IH r Hlr (Sub n r Er)) as [(out & Eo & Hs)|(Eo & Hs)]; rewrite Eo; cbn [bind].
      * left. eexists; split; [reflexivity|]. eapply Scan_escape; eauto.
      * right. split; [reflexivity|]. intros out H. unfold BSLASH in H. inversion H as [|? ? ? N1 N2|t0 c0 r0 o0 He0 Hs0]; subst; try congruence.
        destruct (escape_decode _ _ _ He0) as (n' & E' & Er' & _). rewrite E in E'. inversion E'; subst. eapply Hs; eauto.
    + apply Ascii.eqb_neq in Eq. apply Ascii.eqb_neq in Eb.
      destruct (IH rest) as [(out & Eo & Hs)|(Eo & Hs)]; [cbn in Hf; lia|apply (Sub 1%nat); reflexivity| |]; rewrite Eo; cbn [bind].
      * left. eexists; split; [reflexivity|]. apply Scan_char; assumption.
      * right. split; [reflexivity|]. unfold QUOTE, BSLASH in *. intros out H. inversion H; subst; try congruence. eapply Hs; eauto.
Qed.

Lemma last_quote s c : last (c :: s) NUL = QUOTE <-> ends_quote (c :: s).
Proof.
  split.
  - intros H. exists (removelast (c :: s)). rewrite <- H. apply app_removelast_last. discriminate.
  - intros [s' ->]. apply last_last.
Qed.

Lemma try_unquoted_other s : ~ (exists b, s = QUOTE :: b /\ ends_quote s) -> try_unquoted s = Ok s.
Proof.
  destruct s as [|c s]; [reflexivity|]. intros H. unfold try_unquoted.
  destruct (Ascii.eqb c QUOTE) eqn:E; [|reflexivity]. apply Ascii.eqb_eq in E; subst c. cbn [negb orb].
  destruct (Ascii.eqb (last (QUOTE :: s) NUL) QUOTE) eqn:E; [|reflexivity]. exfalso. apply H. exists s. split; [reflexivity|].
  apply last_quote. apply Ascii.eqb_eq. exact E.
Qed.

Lemma try_unquoted_quoted b : ends_quote (QUOTE :: b) ->
  (forall out, try_unquoted (QUOTE :: b) = Ok out <-> Scan b out) /\
  (try_unquoted (QUOTE :: b) = UB <-> forall out, ~ Scan b out) /\
  (try_unquoted (QUOTE :: b) <> Throw /\ try_unquoted (QUOTE :: b) <> OutOfFuel).
Proof.
  intros H. assert (Hb : b = [] \/ ends_quote b).
  { destruct H as [s' H]. destruct s' as [|x s']; [inversion H; auto|]. inversion H; subst. right. exists s'. reflexivity. }
  apply last_quote, Ascii.eqb_eq in H.
  assert (E : try_unquoted (QUOTE :: b) = unquote_loop (S (S (length b))) b).
  { unfold try_unquoted. rewrite H. reflexivity. }
  rewrite E.
  assert (Hlen : (length b < S (S (length b)))%nat) by lia.
  destruct (loop_total (S (S (length b))) b Hlen Hb) as [(o & Eo & Hs)|(Eo & Hs)]; rewrite Eo.
  - split; [|split; [split; [discriminate|intros X; exfalso; eapply X; eauto]|split; discriminate]].
    intros out. split; [intros X; inversion X; subst; exact Hs|].
    intros X. apply (scan_loop b out X) in Hlen. rewrite Eo in Hlen. exact Hlen.
  - split; [|split; [split; [intros _; exact Hs|reflexivity]|split; discriminate]].
    intros out. split; [discriminate|]. intros X. exfalso. eapply Hs; eauto.
Qed.

(* encoding *)
Lemma encq_plain c : plain c ->
  (encq c = [c] /\ c <> QUOTE /\ c <> BSLASH) \/ (exists e, encq c = BSLASH :: e /\ forall r, Escape (e ++ r) c r).
Proof.
  intros H. apply plainb_spec in H.
  all_chars c; try (vm_compute in H; discriminate); clear H;
  match goal with |- context [encq ?c] => let e := eval vm_compute in (encq c) in change (encq c) with e end;
  try (left; split; [reflexivity|split; discriminate]);
  right; eexists; (split; [reflexivity|]); intros r; cbn [app]; try constructor;
  match goal with |- Escape (?a :: ?b :: ?c :: r) ?d r =>
    change (Escape ([a; b; c] ++ r)
      (if ((0 <? oct_value [a; b; c]) && (oct_value [a; b; c] <? 32)) then ascii_of_nat (Z.to_nat (oct_value [a; b; c])) else "?"%char) r);
    apply Esc_octal; [discriminate| |repeat constructor|cbn; lia|left; reflexivity] end;
  cbn [app]; intros x t E; inversion E; subst; intros [X|[X|[X|[X|[X|[X|[]]]]]]]; discriminate.
Qed.

Lemma encq_bad c : ~ plain c ->
  c <> QMARK /\ (scode c <? 33) = true /\ exists e e', encq c = BSLASH :: e ++ e' /\ forall r, Escape (e ++ r) QMARK r.
Proof.
  intros H. rewrite <- plainb_spec in H.
  all_chars c; try (exfalso; apply H; vm_compute; reflexivity); clear H;
  (split; [discriminate|]; split; [reflexivity|]);
  match goal with |- context [encq ?c] => let e := eval vm_compute in (encq c) in change (encq c) with e end;
  match goal with |- exists e e', ?b :: ?x :: ?y :: ?z :: ?t = _ /\ _ => exists [x; y; z], t; split; [reflexivity|]; intros r;
    change (Escape ([x; y; z] ++ r)
      (if ((0 <? oct_value [x; y; z]) && (oct_value [x; y; z] <? 32)) then ascii_of_nat (Z.to_nat (oct_value [x; y; z])) else "?"%char) r);
    apply Esc_octal; [discriminate| |repeat constructor|cbn; lia|left; reflexivity] end;
  cbn [app]; intros x t E; inversion E; subst; intros [X|[X|[X|[X|[X|[X|[]]]]]]]; discriminate.
Qed.

Lemma scan_quoted s : Forall plain s -> forall r, Scan (flat_map encq s ++ QUOTE :: r) s.
Proof.
  induction 1 as [|c s Hc Hs IH]; intros r; cbn [flat_map app]; [constructor|].
  rewrite <- app_assoc. destruct (encq_plain c Hc) as [(-> & H1 & H2)|(e & -> & He)].
  - apply Scan_char; auto.
  - cbn [app]. eapply Scan_escape; [apply He|apply IH].
Qed.

Lemma scan_bad a c s out : Forall plain a -> ~ plain c ->
  Scan (flat_map encq (a ++ c :: s) ++ [QUOTE]) out -> exists out', out = a ++ QMARK :: out'.
Proof.
  intros Ha Hc. revert out. induction Ha as [|d a Hd Ha IH]; intros out; cbn [app flat_map].
  - destruct (encq_bad c Hc) as (_ & _ & e & e' & -> & He). cbn [app]. rewrite <- !app_assoc. intros H. unfold BSLASH in H. inversion H; subst; try congruence.
    match goal with X : Escape _ ?c0 _ |- _ => destruct (escape_decode _ _ _ X) as (n' & E' & Er' & _) end.
    destruct (escape_decode _ _ _ (He (e' ++ flat_map encq s ++ [QUOTE]))) as (n & E & Er & _). rewrite E in E'. inversion E'; subst. eauto.
  - rewrite <- app_assoc. destruct (encq_plain d Hd) as [(-> & H1 & H2)|(e & -> & He)]; cbn [app]; intros H; unfold BSLASH in H; inversion H; subst; unfold QUOTE in *; try (unfold BSLASH in *; congruence).
    + match goal with X : Scan _ _ |- _ => destruct (IH _ X) as (o & ->) end. eauto.
    + match goal with X : Escape _ ?c0 _ |- _ => destruct (escape_decode _ _ _ X) as (n' & E' & Er' & _) end.
      destruct (escape_decode _ _ _ (He (flat_map encq (a ++ c :: s) ++ [QUOTE]))) as (n & E & Er & _). unfold QUOTE in *. rewrite E in E'. inversion E'; subst.
      rewrite Er in H2. destruct (IH _ H2) as (o & ->). eauto.
Qed.

Lemma plain_split s : Forall plain s \/ exists a c b, s = a ++ c :: b /\ Forall plain a /\ ~ plain c.
Proof.
  destruct (split_first (fun c => negb (plainb c)) s) as [H|(a & c & b & -> & Hc & Ha)].
  - left. eapply Forall_impl; [|exact H]. intros c E. apply plainb_spec. apply negb_false_iff. exact E.
  - right. exists a, c, b. split; [reflexivity|]. split.
    + eapply Forall_impl; [|exact Ha]. intros x E. apply plainb_spec. apply negb_false_iff. exact E.
    + rewrite <- plainb_spec. apply negb_true_iff in Hc. congruence.
Qed.

Lemma quoted_ends s : ends_quote (quoted s).
Proof. rewrite quoted_encq. exists (QUOTE :: flat_map encq s). reflexivity. Qed.

Lemma quoted_roundtrip s : try_unquoted (quoted s) = Ok s <-> Forall plain s.
Proof.
  pose proof (quoted_ends s) as He. rewrite quoted_encq in *. destruct (try_unquoted_quoted _ He) as [H _]. rewrite H. split.
  - intros Hs. destruct (plain_split s) as [P|(a & c & b & -> & Ha & Hc)]; [exact P|]. exfalso.
    destruct (scan_bad _ _ _ _ Ha Hc Hs) as (o & E). apply app_inv_head in E. inversion E; subst.
    destruct (encq_bad QMARK Hc) as (X & _). congruence.
  - intros P. apply scan_quoted. exact P.
Qed.

Lemma try_quoted_roundtrip s : try_unquoted (try_quoted s) = Ok s <-> Forall plain s.
Proof.
  unfold try_quoted. destruct (needs_quotes s) eqn:E; [apply quoted_roundtrip|].
  unfold needs_quotes in E. split.
  - intros _. destruct (plain_split s) as [P|(a & c & b & -> & Ha & Hc)]; [exact P|]. exfalso.
    rewrite existsb_app in E. cbn [existsb] in E. destruct (encq_bad c Hc) as (_ & X & _). rewrite X in E. cbn in E. rewrite orb_true_r in E. discriminate.
  - intros _. apply try_unquoted_other. intros (b & -> & _). cbn in E. discriminate.
Qed.

(* the quoted text holds no control characters *)
Lemma encq_printable c : Forall (fun x => (32 <= code x < 128)%nat) (encq c).
Proof.
  assert (K : forallb (fun x => ((32 <=? code x) && (code x <? 128))%nat) (encq c) = true).
  { all_chars c; vm_compute; reflexivity. }
  rewrite forallb_forall in K. apply Forall_forall. intros x Hx. apply K in Hx. apply andb_true_iff in Hx. destruct Hx as [H1 H2].
  apply Nat.leb_le in H1. apply Nat.ltb_lt in H2. auto.
Qed.
Lemma quoted_printable s : Forall (fun x => (32 <= code x < 128)%nat) (quoted s).
Proof.
  rewrite quoted_encq. constructor; [cbn; lia|]. apply Forall_app. split; [|repeat constructor].
  induction s as [|c s IH]; cbn [flat_map]; [constructor|]. apply Forall_app. split; [apply encq_printable|exact IH].
Qed.
