From Verif Require Import Model.Base Proofs.BaseFacts Model.StdString Model.Strings Model.Number Model.StringCast Model.Version Spec.Strings Spec.Decimal Spec.Version Proofs.StringFacts Proofs.NumberProofs.
Local Open Scope Z_scope.

Definition DOT : ascii := "."%char.
Definition endb (t : str) : bool := match t with [] => true | _ => false end.

Lemma int32_printable z : int32 z -> printable z.
Proof. unfold int32, printable. lia. Qed.

Lemma read_dec z t : int32 z -> nodigit t ->
  is_read_int INT_MIN INT_MAX None (mkIs (dec z ++ t) false false) = (Some z, mkIs t (endb t) false).
Proof.
  intros H N. change (mkIs (dec z ++ t) false false) with (is_make (dec z ++ t)).
  rewrite (is_read_int_good _ _ _ _ _ _ (dec_leads z t (int32_printable _ H) N)). unfold int32 in H.
  rewrite clamp_in by (unfold INT_MIN, INT_MAX; lia). unfold INT_MIN, INT_MAX.
  destruct (Z.leb_spec (- 2 ^ 31) z); [|lia]. destruct (Z.leb_spec z (2 ^ 31 - 1)); [|lia]. reflexivity.
Qed.

Lemma read_dot t : is_read_char None (mkIs (DOT :: t) false false) = (Some DOT, mkIs t false false).
Proof. reflexivity. Qed.

Lemma take_word_all p : Word p -> take_word p = (p, []).
Proof.
  induction 1 as [|c p Hc H IH]; [reflexivity|]. cbn [take_word]. apply isspace_false in Hc. rewrite Hc, IH. reflexivity.
Qed.

Lemma read_postfix p : Word p -> p <> [] ->
  is_read_word [] (mkIs (" "%char :: p) false false) = (p, mkIs [] true false).
Proof.
  intros W N. unfold is_read_word, is_sentry. cbn [is_good is_eof is_fail negb andb is_rest]. change (skip_ws (" "%char :: p)) with (skip_ws p).
  destruct W as [|c p Hc H]; [congruence|]. rewrite skip_ws_head by exact Hc. cbn [is_rest]. rewrite take_word_all by (constructor; assumption). reflexivity.
Qed.

Lemma nodigit_dot t : nodigit (DOT :: t).
Proof. cbn. intros H. absurd_digit H. Qed.
Lemma nodigit_space t : nodigit (" "%char :: t).
Proof. cbn. intros H. absurd_digit H. Qed.

(* the text of a version *)
Definition vtext (ma mi pa : Z) (t : str) : str := dec ma ++ DOT :: dec mi ++ DOT :: dec pa ++ t.

Lemma to_str_vtext ma mi pa bu po : version_to_str (version_of ma mi pa bu po) =
  Ok (vtext ma mi pa ((if 0 <? bu then DOT :: dec bu else []) ++ (match po with [] => [] | p => " "%char :: p end))).
Proof.
  unfold version_to_str, version_of, vtext. cbn [major minor patch build postfix]. f_equal.
  destruct (0 <? bu), po; repeat (rewrite <- ?app_assoc; cbn [app]); rewrite ?app_nil_r; reflexivity.
Qed.

Lemma parse_vtext ma mi pa t : int32 ma -> int32 mi -> int32 pa -> nodigit t ->
  version_parse (vtext ma mi pa t) =
  let s5 := mkIs t (endb t) false in
  let '(_, s6) := is_read_char None s5 in
  let '(bu, s7) := if is_good s6 then is_read_int INT_MIN INT_MAX None s6 else (None, s6) in
  let '(po, _) := if is_good s7 then is_read_word [] s7 else ([], s7) in
  mkV (Some ma) (Some mi) (Some pa) bu po.
Proof.
  intros A B C N. unfold version_parse, vtext, is_make. cbn zeta.
  rewrite (read_dec ma) by (auto; apply nodigit_dot). cbn [endb]. rewrite read_dot.
  rewrite (read_dec mi) by (auto; apply nodigit_dot). cbn [endb]. rewrite read_dot.
  rewrite (read_dec pa) by auto. reflexivity.
Qed.

Lemma version_roundtrip ma mi pa bu po : int32 ma -> int32 mi -> int32 pa -> 0 < bu < 2 ^ 31 -> Word po ->
  exists s, version_to_str (version_of ma mi pa bu po) = Ok s /\ version_parse s = version_of ma mi pa bu po.
Proof.
  intros A B C D W. eexists. split; [apply to_str_vtext|]. destruct (Z.ltb_spec 0 bu); [|lia]. cbn [app].
  rewrite parse_vtext by (auto; apply nodigit_dot). cbn zeta. cbn [endb]. rewrite read_dot. cbn [is_good is_eof is_fail negb andb].
  assert (int32 bu) by (unfold int32; lia). destruct po as [|c po].
  - rewrite (read_dec bu) by (auto; exact I). reflexivity.
  - rewrite (read_dec bu) by (auto; apply nodigit_space). cbn [endb is_good is_eof is_fail negb andb].
    rewrite read_postfix by (auto; discriminate). reflexivity.
Qed.

(* build <= 0, no postfix: the build number is never read *)
Lemma version_no_build ma mi pa bu : int32 ma -> int32 mi -> int32 pa -> bu <= 0 ->
  exists s, version_to_str (version_of ma mi pa bu []) = Ok s /\ version_parse s = mkV (Some ma) (Some mi) (Some pa) None [].
Proof.
  intros A B C D. eexists. split; [apply to_str_vtext|]. destruct (Z.ltb_spec 0 bu); [lia|]. cbn [app].
  rewrite parse_vtext by (auto; exact I). reflexivity.
Qed.

(* build <= 0 with a postfix: its first character is taken for a separator and
   the rest is read as build number *)
Lemma version_no_build_postfix ma mi pa bu c po : int32 ma -> int32 mi -> int32 pa -> bu <= 0 -> ~ White c ->
  (forall z t, ~ Leads po z t) ->
  exists s b, version_to_str (version_of ma mi pa bu (c :: po)) = Ok s /\ version_parse s = mkV (Some ma) (Some mi) (Some pa) b [] /\
    (b = None \/ b = Some 0).
Proof.
  intros A B C D Hc NL. eexists. 
  assert (E : exists b, version_parse (vtext ma mi pa (" "%char :: c :: po)) = mkV (Some ma) (Some mi) (Some pa) b [] /\ (b = None \/ b = Some 0)).
  { rewrite parse_vtext by (auto; apply nodigit_space). cbn zeta. cbn [endb].
    assert (R : is_read_char None (mkIs (" "%char :: c :: po) false false) = (Some c, mkIs po false false)).
    { unfold is_read_char, is_sentry. cbn [is_good is_eof is_fail negb andb is_rest]. change (skip_ws (" "%char :: c :: po)) with (skip_ws (c :: po)).
      rewrite skip_ws_head by exact Hc. reflexivity. }
    rewrite R. cbn [is_good is_eof is_fail negb andb]. apply scan_none in NL as (neg & t & E).
    unfold is_read_int, is_sentry. cbn [is_good is_eof is_fail negb andb is_rest].
    destruct (skip_ws po) as [|d r] eqn:SW.
    - exists None. split; [reflexivity|left; reflexivity].
    - cbn [is_rest]. unfold scan in E. rewrite SW in E. destruct (take_sign (d :: r)) as [ng s2]. destruct (take_digits s2) as [ds' s3]. inversion E; subst.
      exists (Some 0). unfold is_good at 1. cbn [is_fail is_eof negb]. rewrite andb_false_r. split; [reflexivity|right; reflexivity]. }
  destruct E as (b & E & Hb). exists b. split; [rewrite to_str_vtext; destruct (Z.ltb_spec 0 bu); [lia|]; reflexivity|]. split; [exact E|exact Hb].
Qed.
