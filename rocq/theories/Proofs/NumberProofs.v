From Verif Require Import Model.Base Proofs.BaseFacts Model.StdString Model.Strings Model.Number Model.StringCast Spec.Strings Spec.Decimal Proofs.StringFacts.
Local Open Scope Z_scope.

Lemma isdigit_spec c : isdigit c = true <-> IsDigit c.
Proof.
  unfold isdigit, IsDigit, dval, code. rewrite andb_true_iff, !Nat.leb_le. lia.
Qed.
Lemma isdigit_false c : isdigit c = false <-> ~ IsDigit c.
Proof. rewrite <- isdigit_spec. destruct (isdigit c); split; congruence. Qed.

Lemma isspace_spec c : isspace c = true <-> White c.
Proof.
  unfold isspace, White. rewrite mem_In. split.
  - intros [<-|[<-|[<-|[<-|[<-|[<-|[]]]]]]]; [left; reflexivity|right; vm_compute; lia..].
  - intros [->|H]; [left; reflexivity|]. rewrite <- (ascii_nat_embedding c). revert H. generalize (nat_of_ascii c). intros n H.
    assert (n = 9 \/ n = 10 \/ n = 11 \/ n = 12 \/ n = 13)%nat as [->|[->|[->|[->| ->]]]] by lia; vm_compute; tauto.
Qed.
Lemma isspace_false c : isspace c = false <-> ~ White c.
Proof. rewrite <- isspace_spec. destruct (isspace c); split; congruence. Qed.

Lemma fold_digits ds : forall a,
  fold_left (fun a c => a * 10 + (Z.of_nat (code c) - 48)) ds a = a * 10 ^ Z.of_nat (length ds) + digits_value ds.
Proof.
  induction ds as [|d ds IH]; intros a; cbn [fold_left digits_value length].
  - change (10 ^ Z.of_nat 0) with 1. lia.
  - rewrite IH. rewrite Nat2Z.inj_succ, Z.pow_succ_r by lia. change (Z.of_nat (code d) - 48) with (dval d). ring.
Qed.
Lemma acc_digits_value ds : acc_digits ds = digits_value ds.
Proof. unfold acc_digits. rewrite fold_digits. lia. Qed.

Lemma take_digits_inv s : forall ds r, take_digits s = (ds, r) -> s = ds ++ r /\ Forall IsDigit ds /\ nodigit r.
Proof.
  induction s as [|c s IH]; intros ds r; cbn [take_digits].
  - intros H; inversion H; subst. repeat split. constructor.
  - destruct (isdigit c) eqn:E.
    + destruct (take_digits s) as [ds' r'] eqn:T. intros H; inversion H; subst. destruct (IH _ _ eq_refl) as (-> & A & B).
      repeat split; [|exact B]. constructor; [apply isdigit_spec; exact E|exact A].
    + intros H; inversion H; subst. repeat split; [constructor|]. cbn. apply isdigit_false. exact E.
Qed.
Lemma take_digits_app ds t : Forall IsDigit ds -> nodigit t -> take_digits (ds ++ t) = (ds, t).
Proof.
  intros H N. induction H as [|c ds Hc H IH]; cbn [take_digits app].
  - destruct t as [|c t]; [reflexivity|]. cbn in N |- *. apply isdigit_false in N. rewrite N. reflexivity.
  - apply isdigit_spec in Hc. rewrite Hc, IH. reflexivity.
Qed.

Lemma skip_ws_app w s : Forall White w -> skip_ws (w ++ s) = skip_ws s.
Proof. induction 1 as [|c w Hc H IH]; cbn [app skip_ws]; [reflexivity|]. apply isspace_spec in Hc. rewrite Hc. exact IH. Qed.
Lemma skip_ws_head c s : ~ White c -> skip_ws (c :: s) = c :: s.
Proof. intros H. cbn [skip_ws]. apply isspace_false in H. rewrite H. reflexivity. Qed.
Lemma skip_ws_inv s : exists w, s = w ++ skip_ws s /\ Forall White w /\ match skip_ws s with [] => True | c :: _ => ~ White c end.
Proof.
  induction s as [|c s (w & E & W & N)]; cbn [skip_ws].
  - exists []. repeat split. constructor.
  - destruct (isspace c) eqn:S.
    + exists (c :: w). split; [cbn; f_equal; exact E|]. split; [constructor; [apply isspace_spec; exact S|exact W]|exact N].
    + exists []. split; [reflexivity|]. split; [constructor|apply isspace_false; exact S].
Qed.

Ltac absurd_digit H := exfalso; let H2 := fresh in destruct H as [H H2]; vm_compute in H; vm_compute in H2; congruence.

Lemma digit_not_white c : IsDigit c -> ~ White c.
Proof. unfold IsDigit, White, dval. intros H [->|W]; [absurd_digit H|lia]. Qed.
Lemma digit_not_sign c : IsDigit c -> c <> "-"%char /\ c <> "+"%char.
Proof. unfold IsDigit, dval. intros H; split; intros ->; absurd_digit H. Qed.

(* the common scan *)
Definition scan (s : str) : bool * str * str :=
  let '(neg, s2) := take_sign (skip_ws s) in let '(ds, s3) := take_digits s2 in (neg, ds, s3).
Definition signed (neg : bool) (v : Z) : Z := if neg then - v else v.

Lemma take_sign_digits ds t : ds <> [] -> Forall IsDigit ds -> take_sign (ds ++ t) = (false, ds ++ t).
Proof.
  intros N F. destruct F as [|c ds Hc F]; [congruence|]. cbn [app take_sign]. apply digit_not_sign in Hc as [A B].
  apply Ascii.eqb_neq in A. apply Ascii.eqb_neq in B. rewrite A, B. reflexivity.
Qed.

Lemma scan_leads s z t : Leads s z t ->
  exists neg ds, scan s = (neg, ds, t) /\ ds <> [] /\ Forall IsDigit ds /\ z = signed neg (digits_value ds) /\ skip_ws s <> [].
Proof.
  intros [w n v t' W N T]. unfold scan. rewrite skip_ws_app by exact W. inversion N as [ds Nd Fd E1 E2|ds Nd Fd E1 E2|ds Nd Fd E1 E2]; subst n v.
  - exists false, ds. assert (skip_ws (ds ++ t') = ds ++ t') as ->.
    { destruct Fd; [congruence|]. cbn [app]. apply skip_ws_head. apply digit_not_white. assumption. }
    rewrite take_sign_digits by assumption. rewrite take_digits_app by assumption. repeat split; try assumption.
    destruct ds; [congruence|discriminate].
  - exists false, ds. cbn [app]. rewrite skip_ws_head by (intros [X|X]; [discriminate|change (nat_of_ascii "+"%char) with 43%nat in X; lia]).
    cbn [app take_sign Ascii.eqb Bool.eqb]. rewrite take_digits_app by assumption. repeat split; try assumption. discriminate.
  - exists true, ds. cbn [app]. rewrite skip_ws_head by (intros [X|X]; [discriminate|change (nat_of_ascii "-"%char) with 45%nat in X; lia]).
    cbn [app take_sign Ascii.eqb Bool.eqb]. rewrite take_digits_app by assumption. repeat split; try assumption. discriminate.
Qed.

Lemma scan_inv s neg ds t : scan s = (neg, ds, t) -> ds <> [] -> Leads s (signed neg (digits_value ds)) t.
Proof.
  unfold scan. destruct (skip_ws_inv s) as (w & E & W & N).
  destruct (take_sign (skip_ws s)) as [ng s2] eqn:TS. destruct (take_digits s2) as [ds' s3] eqn:TD.
  intros H Nd. inversion H; subst ng ds' s3; clear H. apply take_digits_inv in TD as (-> & Fd & Nt).
  unfold take_sign in TS. destruct (skip_ws s) as [|c r].
  - inversion TS as [[E1 E2]]. symmetry in E2. apply app_eq_nil in E2 as [-> ->]. congruence.
  - destruct (Ascii.eqb_spec c "-"); [|destruct (Ascii.eqb_spec c "+")]; inversion TS; subst.
    + change ("-"%char :: ds ++ t) with (("-"%char :: ds) ++ t). constructor; [exact W| |exact Nt]. apply Num_minus; assumption.
    + change ("+"%char :: ds ++ t) with (("+"%char :: ds) ++ t). constructor; [exact W| |exact Nt]. apply Num_plus; assumption.
    + rewrite H1. constructor; [exact W| |exact Nt]. apply Num_plain; assumption.
Qed.

Lemma scan_none s : (forall z t, ~ Leads s z t) -> exists neg t, scan s = (neg, [], t).
Proof.
  intros H. destruct (scan s) as [[neg ds] t] eqn:E. destruct ds as [|d ds]; [eauto|].
  exfalso. eapply H. eapply scan_inv; eauto. discriminate.
Qed.

Lemma Leads_fun s z t z' t' : Leads s z t -> Leads s z' t' -> z = z' /\ t = t'.
Proof.
  intros A B. apply scan_leads in A as (n1 & d1 & E1 & _ & _ & -> & _). apply scan_leads in B as (n2 & d2 & E2 & _ & _ & -> & _).
  rewrite E1 in E2. inversion E2; subst. split; reflexivity.
Qed.

Lemma strtol_scan s : strtol s = let '(neg, ds, t) := scan s in
  match ds with [] => None | _ => let v := signed neg (digits_value ds) in
    Some (clamp_Z LONG_MIN LONG_MAX v, negb ((LONG_MIN <=? v) && (v <=? LONG_MAX)), t) end.
Proof.
  unfold strtol, scan. destruct (take_sign _) as [neg s2]. destruct (take_digits s2) as [ds s3]. destruct ds; [reflexivity|].
  rewrite acc_digits_value. reflexivity.
Qed.
Lemma strtoul_scan s : strtoul s = let '(neg, ds, t) := scan s in
  match ds with [] => None | _ => let v := digits_value ds in
    if two64 <=? v then Some (two64 - 1, true, t) else Some (if neg then (- v) mod two64 else v, false, t) end.
Proof.
  unfold strtoul, scan. destruct (take_sign _) as [neg s2]. destruct (take_digits s2) as [ds s3]. destruct ds; [reflexivity|].
  rewrite acc_digits_value. reflexivity.
Qed.

Lemma digits_value_nonneg ds : Forall IsDigit ds -> 0 <= digits_value ds.
Proof.
  induction 1 as [|c ds Hc H IH]; cbn [digits_value]; [lia|]. unfold IsDigit in Hc.
  assert (0 < 10 ^ Z.of_nat (length ds)) by (apply Z.pow_pos_nonneg; lia). nia.
Qed.

Lemma clamp_nearest lo hi z : lo <= hi -> Nearest lo hi z (clamp_Z lo hi z).
Proof.
  intros H. unfold Nearest, clamp_Z. destruct (Z.ltb_spec z lo); [|destruct (Z.ltb_spec hi z)]; (split; [lia|intros; lia]).
Qed.
Lemma clamp_in lo hi z : lo <= z <= hi -> clamp_Z lo hi z = z.
Proof. intros H. unfold clamp_Z. destruct (Z.ltb_spec z lo); [lia|]. destruct (Z.ltb_spec hi z); [lia|reflexivity]. Qed.

(* stream extraction *)
Lemma is_read_int_good lo hi old s : (forall z t, Leads s z t ->
    is_read_int lo hi old (is_make s) = (Some (clamp_Z lo hi z), mkIs t (match t with [] => true | _ => false end) (negb ((lo <=? z) && (z <=? hi))))).
Proof.
  intros z t L. unfold is_read_int, is_sentry, is_make. cbn [is_good is_eof is_fail negb andb is_rest].
  destruct (scan_leads _ _ _ L) as (neg & ds & E & Nd & Fd & Hz & Ns). destruct (skip_ws s) as [|c r] eqn:SW; [congruence|].
  cbn [is_rest]. unfold scan in E. rewrite SW in E. destruct (take_sign (c :: r)) as [ng s2]. destruct (take_digits s2) as [ds' s3].
  inversion E; subst ng ds' s3. destruct ds; [congruence|]. rewrite acc_digits_value. subst z. reflexivity.
Qed.

Lemma from_signed_leads lo hi s z t : Leads s z t -> from_signed lo hi s = clamp_Z lo hi z.
Proof. intros L. unfold from_signed. rewrite (is_read_int_good _ _ _ _ _ _ L). reflexivity. Qed.
Lemma from_signed_none lo hi s : (forall z t, ~ Leads s z t) -> from_signed lo hi s = 0.
Proof.
  intros H. apply scan_none in H as (neg & t & E). unfold from_signed, is_read_int, is_sentry, is_make. cbn [is_good is_eof is_fail negb andb is_rest].
  destruct (skip_ws s) as [|c r] eqn:SW; [reflexivity|]. cbn [is_rest]. unfold scan in E. rewrite SW in E.
  destruct (take_sign (c :: r)) as [ng s2]. destruct (take_digits s2) as [ds' s3]. inversion E; subst. reflexivity.
Qed.

Lemma from_uint_leads s z t : Leads s z t ->
  from_uint s = if Z.abs z <? 2 ^ 32 then z mod 2 ^ 32 else 2 ^ 32 - 1.
Proof.
  intros L. unfold from_uint, is_read_uint, is_sentry, is_make. cbn [is_good is_eof is_fail negb andb is_rest].
  destruct (scan_leads _ _ _ L) as (neg & ds & E & Nd & Fd & Hz & Ns). destruct (skip_ws s) as [|c r] eqn:SW; [congruence|].
  cbn [is_rest]. unfold scan in E. rewrite SW in E. destruct (take_sign (c :: r)) as [ng s2]. destruct (take_digits s2) as [ds' s3].
  inversion E; subst ng ds' s3. destruct ds as [|d0 ds0]; [congruence|]. rewrite acc_digits_value. subst z.
  pose proof (digits_value_nonneg _ Fd) as P. set (v := digits_value (d0 :: ds0)) in *.
  assert (Z.abs (signed neg v) = v) as -> by (destruct neg; cbn [signed]; lia).
  destruct (Z.leb_spec (2 ^ 32) v) as [A|A], (Z.ltb_spec v (2 ^ 32)) as [B|B]; try lia; cbn [fst].
  - reflexivity.
  - destruct neg; cbn [signed]; [reflexivity|]. symmetry. apply Z.mod_small. lia.
Qed.
Lemma from_uint_none s : (forall z t, ~ Leads s z t) -> from_uint s = 0.
Proof.
  intros H. apply scan_none in H as (neg & t & E). unfold from_uint, is_read_uint, is_sentry, is_make. cbn [is_good is_eof is_fail negb andb is_rest].
  destruct (skip_ws s) as [|c r] eqn:SW; [reflexivity|]. cbn [is_rest]. unfold scan in E. rewrite SW in E.
  destruct (take_sign (c :: r)) as [ng s2]. destruct (take_digits s2) as [ds' s3]. inversion E; subst. reflexivity.
Qed.

Lemma from_bool_leads s z t : Leads s z t -> from_bool s = negb (z =? 0).
Proof.
  intros L. unfold from_bool, is_read_bool. rewrite (is_read_int_good _ _ _ _ _ _ L).
  assert (C : clamp_Z LONG_MIN LONG_MAX z = 0 <-> z = 0).
  { unfold clamp_Z, LONG_MIN, LONG_MAX. destruct (Z.ltb_spec z (- 2 ^ 63)); [lia|]. destruct (Z.ltb_spec (2 ^ 63 - 1) z); lia. }
  destruct (Z.eqb_spec z 0) as [Z0|Z0].
  - apply C in Z0. rewrite Z0. reflexivity.
  - destruct (clamp_Z LONG_MIN LONG_MAX z) as [|[p|p|]|p]; try reflexivity. exfalso. apply Z0, C. reflexivity.
Qed.
Lemma from_bool_none s : (forall z t, ~ Leads s z t) -> from_bool s = false.
Proof.
  intros H. apply scan_none in H as (neg & t & E). unfold from_bool, is_read_bool, is_read_int, is_sentry, is_make. cbn [is_good is_eof is_fail negb andb is_rest].
  destruct (skip_ws s) as [|c r] eqn:SW; [reflexivity|]. cbn [is_rest]. unfold scan in E. rewrite SW in E.
  destruct (take_sign (c :: r)) as [ng s2]. destruct (take_digits s2) as [ds' s3]. inversion E; subst. reflexivity.
Qed.

Lemma from_long_leads s z t : Leads (cstr s) z t -> from_long s = if (LONG_MIN <=? z) && (z <=? LONG_MAX) then Ok z else Throw.
Proof.
  intros L. unfold from_long, stol. rewrite strtol_scan. destruct (scan_leads _ _ _ L) as (neg & ds & -> & Nd & Fd & -> & Ns).
  destruct ds; [congruence|]. cbn zeta. destruct ((LONG_MIN <=? _) && _) eqn:E; cbn [negb]; [|reflexivity].
  rewrite clamp_in; [reflexivity|]. apply andb_true_iff in E as [A B]. apply Z.leb_le in A, B. lia.
Qed.
Lemma from_long_none s : (forall z t, ~ Leads (cstr s) z t) -> from_long s = Throw.
Proof. intros H. apply scan_none in H as (neg & t & E). unfold from_long, stol. rewrite strtol_scan, E. reflexivity. Qed.
Lemma from_ulong_leads s z t : Leads (cstr s) z t -> from_ulong s = if Z.abs z <? 2 ^ 64 then Ok (z mod 2 ^ 64) else Throw.
Proof.
  intros L. unfold from_ulong, stoul. rewrite strtoul_scan. destruct (scan_leads _ _ _ L) as (neg & ds & -> & Nd & Fd & -> & Ns).
  destruct ds as [|d ds]; [congruence|]. pose proof (digits_value_nonneg _ Fd) as P. cbn zeta. set (v := digits_value (d :: ds)) in *.
  assert (Z.abs (signed neg v) = v) as -> by (destruct neg; cbn [signed]; lia). unfold two64.
  destruct (Z.leb_spec (2 ^ 64) v), (Z.ltb_spec v (2 ^ 64)); try lia; [reflexivity|]. f_equal.
  destruct neg; cbn [signed]; [reflexivity|]. symmetry. apply Z.mod_small. lia.
Qed.
Lemma from_ulong_none s : (forall z t, ~ Leads (cstr s) z t) -> from_ulong s = Throw.
Proof. intros H. apply scan_none in H as (neg & t & E). unfold from_ulong, stoul. rewrite strtoul_scan, E. reflexivity. Qed.

(* printing *)
Lemma digit_dval n : 0 <= n <= 9 -> dval (digit n) = n.
Proof.
  intros H. unfold dval, digit. rewrite nat_ascii_embedding by lia. lia.
Qed.
Lemma digits_value_snoc ds d : digits_value (ds ++ [d]) = digits_value ds * 10 + dval d.
Proof.
  induction ds as [|c ds IH]; cbn [app digits_value length]; [change (10 ^ Z.of_nat 0) with 1; lia|].
  rewrite IH, app_length. cbn [length]. rewrite Nat2Z.inj_add. change (Z.of_nat 1) with 1. rewrite Z.pow_add_r by lia. change (10 ^ 1) with 10. ring.
Qed.
Lemma digit_zero n : 0 <= n <= 9 -> digit n = "0"%char -> n = 0.
Proof. intros H E. rewrite <- (digit_dval n H), E. reflexivity. Qed.

Lemma dec_digits_spec f : forall n, 0 < n < 10 ^ Z.of_nat f ->
  exists d ds, dec_digits f n = d :: ds /\ Forall IsDigit (d :: ds) /\ d <> "0"%char /\ digits_value (d :: ds) = n.
Proof.
  induction f as [|f IH]; intros n H.
  - change (10 ^ Z.of_nat 0) with 1 in H. lia.
  - cbn [dec_digits]. pose proof (Z.mod_pos_bound n 10 ltac:(lia)) as M. destruct (Z.ltb_spec n 10) as [L|L].
    + exists (digit (n mod 10)), []. rewrite Z.mod_small by lia. split; [reflexivity|].
      split; [constructor; [unfold IsDigit; rewrite digit_dval by lia; lia|constructor]|].
      split; [intros E; apply digit_zero in E; lia|]. cbn [digits_value length]. change (10 ^ Z.of_nat 0) with 1. rewrite digit_dval by lia. lia.
    + destruct (IH (n / 10)) as (d & ds & E & F & N0 & V).
      { rewrite Nat2Z.inj_succ, Z.pow_succ_r in H by lia. split; [apply Z.div_str_pos; lia|apply Z.div_lt_upper_bound; lia]. }
      rewrite E. exists d, (ds ++ [digit (n mod 10)]). split; [reflexivity|].
      split. { change (d :: ds ++ [digit (n mod 10)]) with ((d :: ds) ++ [digit (n mod 10)]). apply Forall_app. split; [exact F|].
        constructor; [unfold IsDigit; rewrite digit_dval by lia; lia|constructor]. }
      split; [exact N0|]. change (d :: ds ++ [digit (n mod 10)]) with ((d :: ds) ++ [digit (n mod 10)]).
      rewrite digits_value_snoc, V, digit_dval by lia. pose proof (Z.div_mod n 10 ltac:(lia)). lia.
Qed.

Definition printable (z : Z) : Prop := - 10 ^ 20 < z < 10 ^ 20.

Lemma dec_canonical z : printable z -> Canonical (dec z) z.
Proof.
  unfold printable. intros H. unfold dec. destruct (Z.ltb_spec z 0).
  - destruct (dec_digits_spec 20 (- z)) as (d & ds & E & F & N & V). { change (10 ^ Z.of_nat 20) with (10 ^ 20). lia. }
    rewrite E. replace z with (- digits_value (d :: ds)) by lia. inversion F; subst. constructor; assumption.
  - destruct (Z.eq_dec z 0) as [->|NZ]; [apply Can_zero|].
    destruct (dec_digits_spec 20 z) as (d & ds & E & F & N & V). { change (10 ^ Z.of_nat 20) with (10 ^ 20). lia. }
    rewrite E. rewrite <- V. inversion F; subst. constructor; assumption.
Qed.

Lemma Canonical_Numeral s z : Canonical s z -> Numeral s z.
Proof.
  intros [|d ds A B C|d ds A B C].
  - change 0 with (digits_value ["0"%char]). apply Num_plain; [discriminate|]. repeat constructor; vm_compute; discriminate.
  - apply Num_plain; [discriminate|constructor; assumption].
  - apply Num_minus; [discriminate|constructor; assumption].
Qed.

Lemma dec_leads z t : printable z -> nodigit t -> Leads (dec z ++ t) z t.
Proof. intros P N. apply (Leads_intro [] (dec z) z t); [constructor|apply Canonical_Numeral, dec_canonical; exact P|exact N]. Qed.
Lemma dec_leads' z : printable z -> Leads (dec z) z [].
Proof. intros P. rewrite <- (app_nil_r (dec z)). apply dec_leads; [exact P|exact I]. Qed.

(* canonical numerals are unique *)
Lemma digits_value_bound ds : Forall IsDigit ds -> digits_value ds < 10 ^ Z.of_nat (length ds).
Proof.
  induction 1 as [|c ds Hc H IH]; cbn [digits_value length]; [change (10 ^ Z.of_nat 0) with 1; lia|].
  rewrite Nat2Z.inj_succ, Z.pow_succ_r by lia. unfold IsDigit in Hc. assert (0 < 10 ^ Z.of_nat (length ds)) by (apply Z.pow_pos_nonneg; lia). nia.
Qed.
Lemma dval_inj c d : dval c = dval d -> c = d.
Proof. unfold dval. intros H. rewrite <- (ascii_nat_embedding c), <- (ascii_nat_embedding d). f_equal. lia. Qed.
Lemma digits_value_inj a : forall b, length a = length b -> Forall IsDigit a -> Forall IsDigit b -> digits_value a = digits_value b -> a = b.
Proof.
  induction a as [|x a IH]; intros [|y b] L A B V; try discriminate; [reflexivity|].
  inversion A; inversion B; subst. cbn [length] in L. injection L as L. cbn [digits_value] in V. rewrite L in V.
  pose proof (digits_value_bound a ltac:(assumption)) as B1. pose proof (digits_value_bound b ltac:(assumption)) as B2. rewrite L in B1.
  pose proof (digits_value_nonneg a ltac:(assumption)). pose proof (digits_value_nonneg b ltac:(assumption)).
  assert (0 < 10 ^ Z.of_nat (length b)) by (apply Z.pow_pos_nonneg; lia).
  assert (dval x = dval y) by nia. assert (digits_value a = digits_value b) by nia.
  f_equal; [apply dval_inj; assumption|apply IH; assumption].
Qed.
Lemma digits_value_lower d ds : IsDigit d -> d <> "0"%char -> Forall IsDigit ds -> 10 ^ Z.of_nat (length ds) <= digits_value (d :: ds).
Proof.
  intros A N F. cbn [digits_value]. pose proof (digits_value_nonneg _ F). assert (0 < dval d).
  { unfold IsDigit in A. destruct (Z.eq_dec (dval d) 0) as [E|]; [|lia]. exfalso. apply N. apply dval_inj. rewrite E. reflexivity. }
  assert (0 < 10 ^ Z.of_nat (length ds)) by (apply Z.pow_pos_nonneg; lia). nia.
Qed.
Lemma canonical_digits_unique d ds e es : IsDigit d -> d <> "0"%char -> Forall IsDigit ds -> IsDigit e -> e <> "0"%char -> Forall IsDigit es ->
  digits_value (d :: ds) = digits_value (e :: es) -> d :: ds = e :: es.
Proof.
  intros D1 D2 D3 E1 E2 E3 V.
  pose proof (digits_value_lower _ _ D1 D2 D3) as L1. pose proof (digits_value_lower _ _ E1 E2 E3) as L2.
  pose proof (digits_value_bound (d :: ds) ltac:(constructor; assumption)) as U1. pose proof (digits_value_bound (e :: es) ltac:(constructor; assumption)) as U2.
  apply digits_value_inj; [|constructor; assumption..|exact V]. cbn [length] in *.
  assert (A : forall m n, 10 ^ Z.of_nat m < 10 ^ Z.of_nat n -> (m < n)%nat).
  { intros m n H. apply Z.pow_lt_mono_r_iff in H; lia. }
  assert (length ds < S (length es))%nat by (apply A; lia). assert (length es < S (length ds))%nat by (apply A; lia). lia.
Qed.
Lemma Canonical_unique s t z : Canonical s z -> Canonical t z -> s = t.
Proof.
  assert (P : forall d ds, IsDigit d -> d <> "0"%char -> Forall IsDigit ds -> 0 < digits_value (d :: ds)).
  { intros d ds A B C. pose proof (digits_value_lower d ds A B C). assert (0 < 10 ^ Z.of_nat (length ds)) by (apply Z.pow_pos_nonneg; lia). lia. }
  intros A B.
  inversion A as [E1 E2|d ds D1 D2 D3 E1 E2|d ds D1 D2 D3 E1 E2]; inversion B as [G1 G2|e es H1 H2 H3 G1 G2|e es H1 H2 H3 G1 G2]; subst s t; try reflexivity;
    try (pose proof (P _ _ D1 D2 D3)); try (pose proof (P _ _ H1 H2 H3)); try lia.
  - apply canonical_digits_unique; try assumption. lia.
  - f_equal. apply canonical_digits_unique; try assumption. lia.
Qed.

(* characters of printed numbers *)
Lemma Numeral_nonul s z : Numeral s z -> cstr s = s.
Proof.
  assert (D : forall ds, Forall IsDigit ds -> cstr ds = ds).
  { induction 1 as [|c ds Hc H IH]; [reflexivity|]. cbn [cstr]. destruct (Ascii.eqb_spec c NUL) as [->|]; [absurd_digit Hc|]. rewrite IH. reflexivity. }
  intros [ds A B|ds A B|ds A B]; [apply D, B|cbn; rewrite D by exact B; reflexivity..].
Qed.
Lemma dec_nonul z : printable z -> cstr (dec z) = dec z.
Proof. intros P. eapply Numeral_nonul. apply Canonical_Numeral, dec_canonical, P. Qed.
Lemma dec_nonempty z : printable z -> dec z <> [].
Proof. intros P E. apply dec_canonical in P. rewrite E in P. inversion P. Qed.
