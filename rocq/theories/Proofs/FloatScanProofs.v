(* The language of strtod. *)
From Coq Require Import String.
From Verif Require Import Model.Base Proofs.BaseFacts Model.StdString Model.Strings Model.Number Model.FloatText
  Spec.Strings Spec.Decimal Spec.FloatText Proofs.NumberProofs.
Local Open Scope list_scope.
Local Open Scope Z_scope.

Lemma take_inv p s : forall ds r, take p s = (ds, r) -> s = ds ++ r /\ Forall (fun c => p c = true) ds /\ match r with [] => True | c :: _ => p c = false end.
Proof.
  induction s as [|c s IH]; cbn [take]; intros ds r E; [injection E as <- <-; repeat constructor|]. destruct (p c) eqn:P.
  - destruct (take p s) as [ds' r']. injection E as <- <-. destruct (IH _ _ eq_refl) as (-> & F & R). repeat split; [constructor; assumption|exact R].
  - injection E as <- <-. repeat split; [constructor|exact P].
Qed.
Lemma take_app p ds t : Forall (fun c => p c = true) ds -> take p (ds ++ t) = (ds ++ fst (take p t), snd (take p t)).
Proof. induction 1 as [|c ds C F IH]; cbn [app take]; [destruct (take p t); reflexivity|]. rewrite C, IH. reflexivity. Qed.
Lemma take_stop p c t : p c = false -> take p (c :: t) = ([], c :: t).
Proof. intros C. cbn [take]. rewrite C. reflexivity. Qed.
Lemma take_digits_take s : take_digits s = take isdigit s.
Proof. induction s as [|c s IH]; [reflexivity|]. cbn [take_digits take]. rewrite IH. reflexivity. Qed.

(* letters *)
Definition small (d : ascii) : Prop := (97 <= nat_of_ascii d <= 122)%nat.
Lemma lower_letter d c : small d -> (lower c = d <-> Letter d c).
Proof.
  intros S. unfold small in S. unfold lower, Letter, code in *. pose proof (nat_ascii_bounded c) as B. destruct ((65 <=? nat_of_ascii c)%nat && (nat_of_ascii c <=? 90)%nat) eqn:U.
  - apply andb_true_iff in U as [U1 U2]. apply Nat.leb_le in U1, U2. split.
    + intros <-. right. rewrite nat_ascii_embedding by lia. reflexivity.
    + intros [->|E]; [lia|]. rewrite E. apply ascii_nat_embedding.
  - apply andb_false_iff in U. rewrite !Nat.leb_gt in U. split; [intros ->; left; reflexivity|]. intros [->|E]; [reflexivity|lia].
Qed.
Lemma lower_eqb d c : small d -> (Ascii.eqb (lower c) d = true <-> Letter d c).
Proof. intros S. rewrite Ascii.eqb_eq. apply lower_letter. exact S. Qed.
Lemma lower_neqb d c : small d -> ~ Letter d c -> Ascii.eqb (lower c) d = false.
Proof. intros S N. apply Ascii.eqb_neq. intros E. apply N. apply lower_letter; assumption. Qed.
Lemma hex_digit c v : HexDigit c v -> ishex c = true /\ hexval c = Z.of_nat v.
Proof. intros [H|H]; do 16 (destruct v as [|v]; [cbn in H; injection H as <-; vm_compute; split; reflexivity|]); cbn in H; destruct v; discriminate. Qed.
Lemma ishex_digit c : ishex c = true -> HexDigit c (Z.to_nat (hexval c)).
Proof. destruct c as [[] [] [] [] [] [] [] []]; vm_compute; intros H; try discriminate; try (left; reflexivity); right; reflexivity. Qed.
Lemma ishex_spec c : ishex c = true <-> IsHex c.
Proof. split; [intros H; exists (Z.to_nat (hexval c)); apply ishex_digit; exact H|intros [v V]; apply (hex_digit c v V)]. Qed.
Lemma isnchar_spec c : isnchar c = true <-> Alnum c.
Proof.
  unfold isnchar, isdigit, isalpha, Alnum, code. rewrite !orb_true_iff, !andb_true_iff, !Nat.leb_le, Ascii.eqb_eq. tauto.
Qed.
Lemma acc_hex_snoc ds c : acc_hex (ds ++ [c]) = acc_hex ds * 16 + hexval c.
Proof. unfold acc_hex. rewrite fold_left_app. reflexivity. Qed.
Lemma hex_value_acc ds z : HexValue ds z -> acc_hex ds = z.
Proof. induction 1 as [|ds c z v H IH D]; [reflexivity|]. rewrite acc_hex_snoc, IH. destruct (hex_digit c v D) as [_ ->]. reflexivity. Qed.
Lemma acc_hex_value ds : Forall IsHex ds -> HexValue ds (acc_hex ds).
Proof.
  induction ds as [|c ds IH] using rev_ind; intros F; [constructor|]. apply Forall_app in F as [F1 F2]. inversion F2 as [|? ? H _]; subst. rewrite acc_hex_snoc.
  destruct H as [v V]. destruct (hex_digit c v V) as [_ ->]. constructor; [apply IH; exact F1|exact V].
Qed.
Lemma scaled_power base d e : scaled base d e = power base d e.
Proof.
  unfold scaled, power. destruct (0 <=? e) eqn:E; [apply Z.leb_le in E|apply Z.leb_gt in E].
  - rewrite (Z.max_r 0 e), (Z.max_l 0 (- e)) by lia. reflexivity.
  - rewrite (Z.max_l 0 e), (Z.max_r 0 (- e)) by lia. rewrite Z.pow_0_r, Z.mul_1_r. reflexivity.
Qed.

(* exponents *)
Lemma exponent_sound l s z r : small l -> exponent l s = (z, r) -> exists x, s = x ++ r /\ Expo (Letter l) x z.
Proof.
  intros S E. unfold exponent in E. destruct s as [|c s]; [injection E as <- <-; exists []; split; [reflexivity|constructor]|].
  destruct (Ascii.eqb (lower c) l) eqn:C; [|injection E as <- <-; exists []; split; [reflexivity|constructor]]. apply lower_eqb in C; [|exact S].
  destruct (take_sign s) as [neg s1] eqn:TS. destruct (take_digits s1) as [ds s2] eqn:TD. apply take_digits_inv in TD as (-> & D & _).
  destruct ds as [|d ds]; [injection E as <- <-; exists []; split; [reflexivity|constructor]|]. injection E as <- <-. rewrite acc_digits_value.
  unfold take_sign in TS. destruct s as [|a s]; [discriminate|]. destruct (Ascii.eqb a "-") eqn:M; [apply Ascii.eqb_eq in M as ->; injection TS as <- ->|destruct (Ascii.eqb a "+") eqn:P; [apply Ascii.eqb_eq in P as ->; injection TS as <- ->|injection TS as <- -> ->]].
  - exists (c :: "-"%char :: d :: ds). split; [reflexivity|]. constructor; [exact C|]. apply Num_minus; [discriminate|exact D].
  - exists (c :: "+"%char :: d :: ds). split; [reflexivity|]. constructor; [exact C|]. apply Num_plus; [discriminate|exact D].
  - exists (c :: d :: ds). split; [reflexivity|]. constructor; [exact C|]. apply Num_plain; [discriminate|exact D].
Qed.
Lemma exponent_le l s z r : small l -> exponent l s = (z, r) -> (List.length r <= List.length s)%nat.
Proof. intros S E. destruct (exponent_sound l s z r S E) as (x & -> & _). rewrite app_length. lia. Qed.
Lemma exponent_max l x z t : small l -> Expo (Letter l) x z ->
  exists z' r, exponent l (x ++ t) = (z', r) /\ ((List.length r < List.length t)%nat \/ r = t /\ z' = z).
Proof.
  intros S [|c n z' C N]; cbn [app].
  - destruct (exponent l t) as [z' r] eqn:E. exists z', r. split; [reflexivity|]. destruct (exponent_sound l t z' r S E) as (y & -> & Y). destruct y as [|c y]; [right; inversion Y; auto|left]. cbn. rewrite app_length. lia.
  - unfold exponent. rewrite (proj2 (lower_eqb l c S) C).
    assert (G : exists neg ds, take_sign (n ++ t) = (neg, ds ++ t) /\ ds <> [] /\ Forall IsDigit ds /\ z' = if neg then - digits_value ds else digits_value ds).
    { inversion N; subst; [exists false, n|exists false, ds|exists true, ds]; try (repeat split; try assumption; reflexivity). split; [apply take_sign_digits; assumption|auto]. }
    destruct G as (neg & ds & -> & NE & F & ->). rewrite take_digits_take, take_app by (eapply Forall_impl; [|exact F]; intros; apply isdigit_spec; assumption).
    destruct (take isdigit t) as [d' t'] eqn:T. cbn [fst snd]. pose proof (take_inv _ _ _ _ T) as (-> & _ & _). destruct ds as [|d ds]; [congruence|]. cbn [app]. do 2 eexists. split; [reflexivity|].
    destruct d' as [|a d']; [right; rewrite app_nil_r, acc_digits_value; split; [reflexivity|destruct neg; reflexivity]|left; cbn; rewrite app_length; lia].
Qed.

(* mantissa and exponent *)
Definition Digits_of (isd : ascii -> bool) (c : ascii) : Prop := isd c = true.
Lemma mantissa_sound isd l s ip fp e r : small l -> mantissa isd l s = Some (ip, fp, e, r) ->
  exists m x, s = m ++ x ++ r /\ Mant (Digits_of isd) m ip fp /\ Expo (Letter l) x e.
Proof.
  intros S E. unfold mantissa in E. destruct (take isd s) as [ip' s1] eqn:T. apply take_inv in T as (-> & F & _).
  assert (INT : ip' <> [] -> (let '(e0, s3) := exponent l s1 in Some (ip', @nil ascii, e0, s3)) = Some (ip, fp, e, r) -> exists m x, ip' ++ s1 = m ++ x ++ r /\ Mant (Digits_of isd) m ip fp /\ Expo (Letter l) x e).
  { intros NE H. destruct (exponent l s1) as [e0 s3] eqn:X. injection H as <- <- <- <-. destruct (exponent_sound l s1 e0 s3 S X) as (x & -> & EX). exists ip', x. split; [reflexivity|]. split; [constructor; assumption|exact EX]. }
  destruct s1 as [|c s1]; [rewrite app_nil_r in E; destruct ip'; [discriminate|apply INT; [discriminate|exact E]]|].
  destruct (Ascii.eqb c ".") eqn:C; [|rewrite app_nil_r in E; destruct ip'; [discriminate|apply INT; [discriminate|exact E]]]. apply Ascii.eqb_eq in C as ->. clear INT.
  destruct (take isd s1) as [fp' s2] eqn:T2. apply take_inv in T2 as (-> & F2 & _).
  assert (NE : ip' ++ fp' <> []) by (intros Z0; rewrite Z0 in E; discriminate). assert (E' : (let '(e0, s3) := exponent l s2 in Some (ip', fp', e0, s3)) = Some (ip, fp, e, r)) by (destruct (ip' ++ fp'); [discriminate|exact E]). clear E.
  destruct (exponent l s2) as [e0 s3] eqn:X. injection E' as <- <- <- <-. destruct (exponent_sound l s2 e0 s3 S X) as (x & -> & EX). exists (ip' ++ lit "." ++ fp'), x. split; [cbn; rewrite <- app_assoc; reflexivity|]. split; [apply Mant_frac; assumption|exact EX].
Qed.
Lemma mantissa_max isd l m ip fp x z t : small l -> isd "."%char = false -> (forall c, Letter l c -> isd c = false /\ c <> "."%char) ->
  Mant (Digits_of isd) m ip fp -> Expo (Letter l) x z ->
  exists ip' fp' z' r, mantissa isd l (m ++ x ++ t) = Some (ip', fp', z', r) /\ ((List.length r < List.length t)%nat \/ r = t /\ ip' = ip /\ fp' = fp /\ z' = z).
Proof.
  intros S DOT LET M X.
  (* the end of a run of digits *)
  assert (RUN : forall ds, Forall (Digits_of isd) ds -> (x = [] /\ exists d' t', t = d' ++ t' /\ d' <> [] /\ take isd (ds ++ x ++ t) = (ds ++ d', t')) \/ take isd (ds ++ x ++ t) = (ds, x ++ t)).
  { intros ds F. rewrite (take_app isd ds (x ++ t) F). inversion X as [Y1 Y2|c n z0 C N Y1 Y2]; subst; cbn [app].
    - destruct (take isd t) as [d' t'] eqn:T. cbn [fst snd]. pose proof (take_inv _ _ _ _ T) as (-> & _ & _). destruct d' as [|d d']; [right; rewrite app_nil_r; reflexivity|left]. split; [reflexivity|]. exists (d :: d'), t'. repeat split. discriminate.
    - right. destruct (LET c C) as [LC _]. rewrite take_stop by exact LC. cbn. rewrite app_nil_r. reflexivity. }
  destruct (exponent_max l x z t S X) as (z1 & r1 & EX & EXD).
  inversion M as [ip0 F NE|ip0 fp0 F F2 NE]; subst.
  - unfold mantissa. destruct (RUN ip F) as [(-> & d' & t' & -> & ND & TK)|TK]; rewrite TK.
    + (* more digits *)
      destruct (match t' with [] => ([], t') | c :: r => if Ascii.eqb c "." then take isd r else ([], t') end) as [fp' s2] eqn:FR.
      assert (LS : (List.length s2 <= List.length t')%nat).
      { destruct t' as [|c t']; [injection FR as <- <-; lia|]. destruct (Ascii.eqb c "."); [apply take_inv in FR as (-> & _ & _); cbn; rewrite app_length; lia|injection FR as <- <-; lia]. }
      destruct (exponent l s2) as [e s3] eqn:E3. pose proof (exponent_le l s2 e s3 S E3) as LE. destruct ((ip ++ d') ++ fp') eqn:Q; [destruct ip; [congruence|discriminate]|]. do 4 eexists. split; [reflexivity|]. left. rewrite app_length. destruct d'; [congruence|cbn; lia].
    + destruct (x ++ t) as [|c u] eqn:XT.
      * rewrite app_nil_r, EX. destruct ip as [|i ip]; [congruence|]. do 4 eexists. split; [reflexivity|]. destruct EXD as [|[-> ->]]; [left; assumption|right; auto].
      * destruct (Ascii.eqb c ".") eqn:C.
        -- apply Ascii.eqb_eq in C as ->. inversion X as [Y1 Y2|c n z0 C N Y1 Y2]; subst; [|cbn in XT; injection XT as -> _; destruct (LET _ C) as [_ Y]; congruence]. cbn in XT. subst t.
           destruct (take isd u) as [fp' s2] eqn:T2. pose proof (take_inv _ _ _ _ T2) as (-> & _ & _). destruct (exponent l s2) as [e s3] eqn:E3. pose proof (exponent_le l s2 e s3 S E3) as LE. destruct (ip ++ fp') eqn:Q; [destruct ip; [congruence|discriminate]|].
           do 4 eexists. split; [reflexivity|]. left. cbn. rewrite app_length. lia.
        -- rewrite app_nil_r, EX. destruct ip as [|i ip]; [congruence|]. do 4 eexists. split; [reflexivity|]. destruct EXD as [|[-> ->]]; [left; assumption|right; auto].
  - unfold mantissa. rewrite <- app_assoc. cbn [lit String.list_ascii_of_string app]. rewrite (take_app isd ip _ F), take_stop by exact DOT. cbn [fst snd]. rewrite app_nil_r. change (Ascii.eqb "." ".") with true. cbv iota.
    destruct (RUN fp F2) as [(-> & d' & t' & -> & ND & TK)|TK]; rewrite TK.
    + destruct (exponent l t') as [e s3] eqn:E3. pose proof (exponent_le l t' e s3 S E3) as LE. destruct (ip ++ fp ++ d') eqn:Q; [exfalso; destruct ip; [destruct fp; [cbn in *; congruence|discriminate]|discriminate]|].
      do 4 eexists. split; [reflexivity|]. left. rewrite app_length. destruct d'; [congruence|cbn; lia].
    + rewrite EX. destruct (ip ++ fp) eqn:Q; [congruence|]. do 4 eexists. split; [reflexivity|]. destruct EXD as [|[-> ->]]; [left; assumption|right; auto].
Qed.

Lemma mant_impl (D D' : ascii -> Prop) m ip fp : (forall c, D c -> D' c) -> Mant D m ip fp -> Mant D' m ip fp.
Proof. intros I [ip' F N|ip' fp' F F' N]; [apply Mant_int|apply Mant_frac]; try assumption; eapply Forall_impl; try exact I; assumption. Qed.
Lemma mant_parts (D : ascii -> Prop) m ip fp : Mant D m ip fp -> Forall D (ip ++ fp) /\ ip ++ fp <> [].
Proof. intros [ip' F N|ip' fp' F F' N]; [rewrite app_nil_r; auto|split; [apply Forall_app; auto|exact N]]. Qed.
Ltac letters := let c := fresh "c" in let L := fresh "L" in intros c [->|L]; [vm_compute; split; [reflexivity|discriminate]|];
  let E := fresh "E" in assert (E : c = ascii_of_nat (nat_of_ascii c)) by (symmetry; apply ascii_nat_embedding); 
  match type of L with (?n + 32)%nat = nat_of_ascii ?d => let k := eval vm_compute in (nat_of_ascii d - 32)%nat in replace n with k in E by (change (nat_of_ascii d) with (k + 32)%nat in L; lia) end;
  rewrite E; vm_compute; split; [reflexivity|discriminate].
Lemma e_letters c : Letter "e" c -> isdigit c = false /\ c <> "."%char. Proof. revert c. letters. Qed.
Lemma p_letters c : Letter "p" c -> ishex c = false /\ c <> "."%char. Proof. revert c. letters. Qed.
Lemma small_x : small "x". Proof. unfold small. cbn. lia. Qed.
Lemma small_e : small "e". Proof. unfold small. cbn. lia. Qed.
Lemma small_p : small "p". Proof. unfold small. cbn. lia. Qed.

Lemma word_lower w s t : Forall small w -> Word w s -> prefixb w (map lower (s ++ t)) = true /\ skipn (List.length w) (s ++ t) = t /\ List.length s = List.length w.
Proof.
  intros F W. induction W as [|d c w s L W IH]; [repeat split; destruct t; reflexivity|]. inversion F; subst. destruct (IH H2) as (P & K & N). cbn [app map prefixb List.length skipn].
  rewrite (proj2 (lower_letter d c H1) L), Ascii.eqb_refl. cbn [andb]. rewrite N. auto.
Qed.
Lemma lower_word w : forall s, Forall small w -> prefixb w (map lower s) = true -> exists v, s = v ++ skipn (List.length w) s /\ Word w v.
Proof.
  induction w as [|d w IH]; intros s F P; [exists []; split; [reflexivity|constructor]|]. inversion F; subst. destruct s as [|c s]; [discriminate|]. cbn [map prefixb] in P. apply andb_true_iff in P as [P1 P2]. apply Ascii.eqb_eq in P1.
  destruct (IH s H2 P2) as (v & E & W). exists (c :: v). cbn [List.length skipn app]. split; [f_equal; exact E|]. constructor; [apply lower_letter; [exact H1|congruence]|exact W].
Qed.
Lemma words_small : Forall small (lit "inf") /\ Forall small (lit "infinity") /\ Forall small (lit "nan").
Proof. unfold small. repeat split; repeat constructor; cbn; lia. Qed.

Lemma decimal_sound s v r : decimal s = Some (v, r) -> exists b, s = b ++ r /\ Form b v.
Proof.
  intros E. unfold decimal in E. destruct (mantissa isdigit "e" s) as [[[[ip fp] e] r']|] eqn:M; [|discriminate]. injection E as <- <-. destruct (mantissa_sound _ _ _ _ _ _ _ small_e M) as (m & x & -> & MA & EX).
  exists (m ++ x). split; [apply app_assoc|]. rewrite scaled_power, acc_digits_value. apply F_dec; [|exact EX]. eapply mant_impl; [|exact MA]. intros c. apply isdigit_spec.
Qed.
Lemma hexadecimal_sound s v r : hexadecimal s = Some (v, r) -> (exists b, s = b ++ r /\ Form b v) /\ exists x u, s = "0"%char :: x :: u /\ Letter "x" x /\ (List.length r <= List.length u)%nat.
Proof.
  intros E. unfold hexadecimal in E. destruct s as [|c [|x u]]; try discriminate. destruct (Ascii.eqb c "0") eqn:C; [|discriminate]. destruct (Ascii.eqb (lower x) "x") eqn:X; [|discriminate]. cbn [andb] in E.
  apply Ascii.eqb_eq in C as ->. apply lower_eqb in X; [|exact small_x]. destruct (mantissa ishex "p" u) as [[[[ip fp] e] r']|] eqn:M; [|discriminate]. injection E as <- <-. destruct (mantissa_sound _ _ _ _ _ _ _ small_p M) as (m & y & -> & MA & EX). split.
  - exists (lit "0" ++ [x] ++ m ++ y). split; [cbn; rewrite <- app_assoc; reflexivity|]. apply (mant_impl _ IsHex) in MA; [|intros d; apply ishex_spec]. rewrite scaled_power. eapply F_hex; [exact X|exact MA| |exact EX]. apply acc_hex_value, (mant_parts _ _ _ _ MA).
  - exists x, (m ++ y ++ r'). split; [reflexivity|]. split; [exact X|]. rewrite !app_length. lia.
Qed.
Lemma named_sound s v r : named s = Some (v, r) -> exists b, s = b ++ r /\ Form b v.
Proof.
  intros E. destruct words_small as (S1 & S2 & S3). unfold named in E. destruct (prefixb (lit "infinity") (map lower s)) eqn:P1.
  { injection E as <- <-. destruct (lower_word _ s S2 P1) as (b & B & W). exists b. split; [exact B|]. apply F_infinity. exact W. }
  destruct (prefixb (lit "inf") (map lower s)) eqn:P2.
  { injection E as <- <-. destruct (lower_word _ s S1 P2) as (b & B & W). exists b. split; [exact B|]. apply F_inf. exact W. }
  destruct (prefixb (lit "nan") (map lower s)) eqn:P3; [|discriminate]. destruct (lower_word _ s S3 P3) as (b & B & W). change (List.length (lit "nan")) with 3%nat in B.
  assert (PLAIN : Some (VNan, skipn 3 s) = Some (v, r) -> exists b, s = b ++ r /\ Form b v) by (intros H; injection H as <- <-; exists b; split; [exact B|apply F_nan; exact W]).
  destruct (skipn 3 s) as [|c u] eqn:K; [apply PLAIN; exact E|]. destruct (Ascii.eqb c "(") eqn:C; [|apply PLAIN; exact E]. destruct (take isnchar u) as [a t] eqn:T. cbn [snd] in E. destruct t as [|d t]; [apply PLAIN; exact E|].
  destruct (Ascii.eqb d ")") eqn:D; [|apply PLAIN; exact E]. injection E as <- <-. apply Ascii.eqb_eq in C as ->. apply Ascii.eqb_eq in D as ->. apply take_inv in T as (-> & F & _).
  exists (b ++ lit "(" ++ a ++ lit ")"). split; [rewrite B; cbn; rewrite <- !app_assoc; cbn; rewrite <- app_assoc; reflexivity|]. apply F_nan_seq; [exact W|]. eapply Forall_impl; [|exact F]. intros x. apply isnchar_spec.
Qed.
Lemma number_sound s v r : number s = Some (v, r) -> exists b, s = b ++ r /\ Form b v.
Proof.
  unfold number. destruct (hexadecimal s) as [[v1 r1]|] eqn:H; [intros E; injection E as <- <-; apply (hexadecimal_sound s v1 r1 H)|]. destruct (decimal s) as [[v1 r1]|] eqn:D; [intros E; injection E as <- <-; apply (decimal_sound s v1 r1 D)|apply named_sound].
Qed.

(* a name is no number *)
Lemma name_only d c s : small d -> Letter d c -> hexadecimal (c :: s) = None /\ decimal (c :: s) = None.
Proof.
  intros S L. assert (N : (65 <= nat_of_ascii c)%nat) by (unfold small in S; destruct L as [->|L]; lia). split.
  - cbn [hexadecimal]. destruct s as [|x u]; [reflexivity|]. destruct (Ascii.eqb c "0") eqn:C; [|reflexivity]. apply Ascii.eqb_eq in C as ->. cbn in N. lia.
  - unfold decimal, mantissa. rewrite take_stop by (unfold isdigit, code; destruct (nat_of_ascii c <=? 57)%nat eqn:Q; [apply Nat.leb_le in Q; lia|apply andb_false_r]).
    destruct (Ascii.eqb c ".") eqn:C; [apply Ascii.eqb_eq in C as ->; cbn in N; lia|reflexivity].
Qed.
Lemma number_named w s t : Forall small w -> w <> [] -> Word w s -> number (s ++ t) = named (s ++ t).
Proof. intros F N W. destruct W as [|d c w s L W]; [congruence|]. inversion F; subst. destruct (name_only d c (s ++ t) H1 L) as [H D]. unfold number. cbn [app]. rewrite H, D. reflexivity. Qed.

Lemma number_max b v t : Form b v -> exists v' r, number (b ++ t) = Some (v', r) /\ ((List.length r < List.length t)%nat \/ r = t /\ v' = v).
Proof.
  destruct words_small as (S1 & S2 & S3). intros [m ip fp x z M X|p m ip fp h x z P M H X|w W|w W|w W|w a W A].
  - apply (mant_impl _ (Digits_of isdigit)) in M; [|intros c; apply isdigit_spec]. destruct (mantissa_max isdigit "e" m ip fp x z t small_e eq_refl e_letters M X) as (ip' & fp' & z' & r & E & D).
    rewrite <- app_assoc. assert (DEC : decimal (m ++ x ++ t) = Some (scaled 10 (acc_digits (ip' ++ fp')) (z' - Z.of_nat (List.length fp')), r)) by (unfold decimal; rewrite E; reflexivity).
    unfold number. destruct (hexadecimal (m ++ x ++ t)) as [[v1 r1]|] eqn:HX.
    + do 2 eexists. split; [reflexivity|]. left. destruct (hexadecimal_sound _ _ _ HX) as [_ (y & u & EQ & L & LE)].
      assert (G : r = y :: u).
      { rewrite EQ in E. unfold mantissa in E. assert (Y : isdigit y = false /\ y <> "."%char /\ Ascii.eqb (lower y) "e" = false).
        { clear - L. revert y L. intros y [->|L]; [vm_compute; repeat split; discriminate|]. assert (Q : y = ascii_of_nat (nat_of_ascii y)) by (symmetry; apply ascii_nat_embedding).
          replace (nat_of_ascii y) with 88%nat in Q by (change (nat_of_ascii "x") with (88 + 32)%nat in L; lia). rewrite Q. vm_compute. repeat split; discriminate. }
        destruct Y as (Y1 & Y2 & Y3). cbn [take] in E. change (isdigit "0") with true in E. rewrite Y1 in E. cbv iota beta in E. rewrite (proj2 (Ascii.eqb_neq y ".") Y2) in E. cbn [app] in E. unfold exponent in E. rewrite Y3 in E. injection E as _ _ _ <-. reflexivity. }
      subst r. cbn in D. destruct D as [D|[<- _]]; cbn; lia.
    + rewrite DEC. do 2 eexists. split; [reflexivity|]. destruct D as [D|(-> & -> & -> & ->)]; [left; exact D|right]. rewrite scaled_power, acc_digits_value. auto.
  - apply (mant_impl _ (Digits_of ishex)) in M; [|intros c; apply ishex_spec]. destruct (mantissa_max ishex "p" m ip fp x z t small_p eq_refl p_letters M X) as (ip' & fp' & z' & r & E & D).
    unfold number. assert (HEX : hexadecimal ((lit "0" ++ [p] ++ m ++ x) ++ t) = Some (scaled 2 (acc_hex (ip' ++ fp')) (z' - 4 * Z.of_nat (List.length fp')), r)).
    { cbn [lit String.list_ascii_of_string app]. rewrite <- app_assoc. cbn [hexadecimal]. rewrite (proj2 (lower_eqb "x" p small_x) P), E. reflexivity. }
    rewrite HEX. do 2 eexists. split; [reflexivity|]. destruct D as [D|(-> & -> & -> & ->)]; [left; exact D|right]. rewrite scaled_power, (hex_value_acc _ _ H). auto.
  - rewrite (number_named _ _ _ S1 ltac:(discriminate) W). destruct (word_lower _ w t S1 W) as (P & K & N). unfold named. destruct (prefixb (lit "infinity") (map lower (w ++ t))) eqn:I.
    + destruct (lower_word _ _ S2 I) as (q & B & WB). do 2 eexists. split; [reflexivity|]. left. apply (f_equal (@List.length ascii)) in B. rewrite !app_length in B. destruct (word_lower _ q [] S2 WB) as (_ & _ & NB). cbn in NB, N, B. rewrite NB, N in B. cbn. lia.
    + rewrite P. do 2 eexists. split; [reflexivity|]. right. auto.
  - rewrite (number_named _ _ _ S2 ltac:(discriminate) W). destruct (word_lower _ w t S2 W) as (P & K & N). unfold named. rewrite P. do 2 eexists. split; [reflexivity|]. right. auto.
  - rewrite (number_named _ _ _ S3 ltac:(discriminate) W). destruct (word_lower _ w t S3 W) as (P & K & N). change (List.length (lit "nan")) with 3%nat in K.
    assert (NI : prefixb (lit "infinity") (map lower (w ++ t)) = false /\ prefixb (lit "inf") (map lower (w ++ t)) = false).
    { destruct (map lower (w ++ t)) as [|c s]; [discriminate|]. cbn [prefixb lit String.list_ascii_of_string] in P |- *. apply andb_true_iff in P as [P _]. apply Ascii.eqb_eq in P as <-. split; reflexivity. }
    unfold named. destruct NI as [-> ->]. rewrite P, K. destruct t as [|c u]; [do 2 eexists; split; [reflexivity|right; auto]|]. destruct (Ascii.eqb c "("); [|do 2 eexists; split; [reflexivity|right; auto]].
    destruct (take isnchar u) as [a r] eqn:T. cbn [snd]. apply take_inv in T as (-> & _ & _). destruct r as [|d r]; [do 2 eexists; split; [reflexivity|right; auto]|]. destruct (Ascii.eqb d ")"); [|do 2 eexists; split; [reflexivity|right; auto]].
    do 2 eexists. split; [reflexivity|]. left. cbn. rewrite app_length. cbn. lia.
  - rewrite <- app_assoc. rewrite (number_named _ _ _ S3 ltac:(discriminate) W). set (u := (lit "(" ++ a ++ lit ")") ++ t). destruct (word_lower _ w u S3 W) as (P & K & N). change (List.length (lit "nan")) with 3%nat in K.
    assert (NI : prefixb (lit "infinity") (map lower (w ++ u)) = false /\ prefixb (lit "inf") (map lower (w ++ u)) = false).
    { destruct (map lower (w ++ u)) as [|c s]; [discriminate|]. cbn [prefixb lit String.list_ascii_of_string] in P |- *. apply andb_true_iff in P as [P _]. apply Ascii.eqb_eq in P as <-. split; reflexivity. }
    unfold named. destruct NI as [-> ->]. rewrite P, K. subst u. cbn [lit String.list_ascii_of_string app]. change (Ascii.eqb "(" "(") with true. cbv iota. rewrite <- app_assoc, (take_app isnchar a) by (eapply Forall_impl; [|exact A]; intros c; apply isnchar_spec).
    cbn [app]. rewrite take_stop by reflexivity. cbn [snd]. change (Ascii.eqb ")" ")") with true. cbv iota. do 2 eexists. split; [reflexivity|right; auto].
Qed.
Lemma form_fun b v v' : Form b v -> Form b v' -> v = v'.
Proof.
  intros F F'. destruct (number_max b v [] F) as (v1 & r1 & E1 & D1). destruct (number_max b v' [] F') as (v2 & r2 & E2 & D2). rewrite E1 in E2. injection E2 as -> ->. cbn in D1, D2. destruct D1 as [|[_ ->]]; [lia|]. destruct D2 as [|[_ ->]]; [lia|]. reflexivity.
Qed.
Lemma form_head b v : Form b v -> exists c u, b = c :: u /\ ~ White c /\ c <> "-"%char /\ c <> "+"%char.
Proof.
  assert (DG : forall c, IsDigit c -> ~ White c /\ c <> "-"%char /\ c <> "+"%char) by (intros c D; split; [apply digit_not_white; exact D|apply digit_not_sign; exact D]).
  assert (LT : forall d c, small d -> Letter d c -> ~ White c /\ c <> "-"%char /\ c <> "+"%char).
  { intros d c S L. assert (N : (65 <= nat_of_ascii c)%nat) by (unfold small in S; destruct L as [->|L]; lia). repeat split; [intros [->|W]; [cbn in N; lia|lia]|intros ->; cbn in N; lia|intros ->; cbn in N; lia]. }
  assert (WD : forall w s t, Forall small w -> w <> [] -> Word w s -> exists c u, s ++ t = c :: u /\ ~ White c /\ c <> "-"%char /\ c <> "+"%char).
  { intros w s t F N W. destruct W as [|d c w' s' L W]; [congruence|]. inversion F; subst. exists c, (s' ++ t). split; [reflexivity|]. apply (LT d); assumption. }
  destruct words_small as (S1 & S2 & S3). intros [m ip fp x z M X|p m ip fp h x z P M H X|w W|w W|w W|w a W A].
  - destruct M as [ip F N|ip fp F F' N].
    + destruct ip as [|c ip]; [congruence|]. exists c, (ip ++ x). split; [reflexivity|]. inversion F; subst. apply DG. assumption.
    + destruct ip as [|c ip]; [exists "."%char, (fp ++ x)|exists c, ((ip ++ lit "." ++ fp) ++ x)]; (split; [reflexivity|]).
      * repeat split; try discriminate. intros [W|W]; [discriminate|cbn in W; lia].
      * inversion F; subst. apply DG. assumption.
  - exists "0"%char, (p :: m ++ x). split; [reflexivity|]. apply DG. unfold IsDigit, dval. cbn. lia.
  - rewrite <- (app_nil_r w). apply (WD _ w [] S1); [discriminate|exact W].
  - rewrite <- (app_nil_r w). apply (WD _ w [] S2); [discriminate|exact W].
  - rewrite <- (app_nil_r w). apply (WD _ w [] S3); [discriminate|exact W].
  - apply (WD _ w _ S3); [discriminate|exact W].
Qed.
Definition parse (s : str) : bool * option (subject * str) := let '(neg, s1) := take_sign (skip_ws s) in (neg, number s1).
Lemma begins_parse s neg v r : Begins s neg v r <-> parse s = (neg, Some (v, r)).
Proof.
  unfold parse. split.
  - intros (w & g & b & -> & W & G & F & MAX). rewrite skip_ws_app by exact W. destruct (form_head b v F) as (c & u & EB & NW & NM & NP).
    assert (TS : take_sign (skip_ws (g ++ b ++ r)) = (neg, b ++ r)).
    { destruct G; cbn [lit String.list_ascii_of_string app].
      - rewrite EB. cbn [app]. rewrite skip_ws_head by exact NW. cbn [take_sign]. rewrite (proj2 (Ascii.eqb_neq c "-") NM), (proj2 (Ascii.eqb_neq c "+") NP). reflexivity.
      - rewrite skip_ws_head by (intros [X|X]; [discriminate|cbn in X; lia]). reflexivity.
      - rewrite skip_ws_head by (intros [X|X]; [discriminate|cbn in X; lia]). reflexivity. }
    rewrite TS. destruct (number_max b v r F) as (v' & r' & E & [L|[-> ->]]); [|rewrite E; reflexivity]. exfalso. destruct (number_sound _ _ _ E) as (b' & EQ & F'). pose proof (MAX b' v' r' (eq_sym EQ) F'). apply (f_equal (@List.length ascii)) in EQ. rewrite !app_length in EQ. lia.
  - intros E. destruct (skip_ws_inv s) as (w & EW & W & _). destruct (take_sign (skip_ws s)) as [neg' s1] eqn:TS. injection E as -> E. destruct (number_sound _ _ _ E) as (b & -> & F).
    assert (G : exists g, skip_ws s = g ++ b ++ r /\ Sign neg g).
    { unfold take_sign in TS. destruct (skip_ws s) as [|a u]; [injection TS as <- X; exists []; split; [exact X|constructor]|]. destruct (Ascii.eqb a "-") eqn:M; [apply Ascii.eqb_eq in M as ->; injection TS as <- ->; exists (lit "-"); split; [reflexivity|constructor]|].
      destruct (Ascii.eqb a "+") eqn:P; [apply Ascii.eqb_eq in P as ->; injection TS as <- ->; exists (lit "+"); split; [reflexivity|constructor]|]. injection TS as <- X. exists []. split; [exact X|constructor]. }
    destruct G as (g & EG & SG). exists w, g, b. split; [rewrite EW at 1; rewrite EG; reflexivity|]. repeat split; try assumption. intros b' v' r' EQ F'. destruct (number_max b' v' r' F') as (v2 & r2 & E2 & D). rewrite EQ, E in E2. injection E2 as <- <-.
    apply (f_equal (@List.length ascii)) in EQ. rewrite !app_length in EQ. destruct D as [D|[<- _]]; lia.
Qed.
