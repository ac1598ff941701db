(* C78, C85: property names of members, short names of types *)
From Coq Require Import String.
From Verif Require Import Model.Base Model.StdString Model.Strings Model.PropTree Model.PropNode Model.Identifier Model.FlatMap
  Spec.FlatMap Spec.Strings Spec.PropNode Spec.Identifier Proofs.StringFacts Proofs.StringsProofs Proofs.IdentifierProofs Proofs.FlatMapProofs Props.PropNode Props.FlatMap.
Local Open Scope Z_scope.
Local Open Scope list_scope.

(* C78: which name an identifier gets *)
Theorem C78_tidy : forall id, fits id ->
  (forall n, tidy_identifier id = Ok n <-> Tidy id n) /\ (exists n, Tidy id n) /\
  (forall n1 n2, Tidy id n1 -> Tidy id n2 -> n1 = n2).
Proof.
  intros id Hf. split; [intros n; apply tidy_iff; exact Hf|]. split; [|intros; eapply Tidy_unique; eauto].
  destruct (tidy_spec id Hf) as (n & _ & H). exists n. exact H.
Qed.
Print Assumptions C78_tidy.
Theorem C78_clean : forall id n, fits id -> tidy_identifier id = Ok n ->
  free [":"%char] n /\ (forall c r, n = r ++ [c] -> c <> "_"%char).
Proof. intros id n Hf H. apply (Tidy_free id). apply tidy_iff; assumption. Qed.
Print Assumptions C78_clean.
(* the usual ways to decorate a member name all give the name itself *)
Theorem C78_decorations : forall n l r q, Bare n -> only ["_"%char] l -> only ["_"%char] r ->
  (fits ("m"%char :: "_"%char :: n ++ r) -> tidy_identifier ("m"%char :: "_"%char :: n ++ r) = Ok n) /\
  (fits (q ++ ":"%char :: l ++ n ++ r) -> tidy_identifier (q ++ ":"%char :: l ++ n ++ r) = Ok n) /\
  (n <> ["m"%char] -> fits (l ++ n ++ r) -> tidy_identifier (l ++ n ++ r) = Ok n).
Proof.
  intros n l r q H L R. split; [|split]; intros; apply tidy_iff; auto using Bare_member, Bare_qualified, Bare_plain.
Qed.
Print Assumptions C78_decorations.
(* saving and restoring members: a member gets its own value back if no member
   saved after it has the same property name, and otherwise the other's value *)
Theorem C78_save_restore : forall (T : Type) (to : T -> str) (from : str -> res T) grow, (forall x, from (to x) = Ok x) ->
  forall a b na nb x y p, tidy_identifier a = Ok na -> tidy_identifier b = Ok nb ->
  exists p1 p2, set_prop to grow p a x = Ok p1 /\ set_prop to grow p1 b y = Ok p2 /\
    snd (init_prop_required from p1 a) = Ok x /\ (forall def, snd (init_prop from p1 a def) = Ok x) /\
    snd (init_prop_required from p2 b) = Ok y /\ (forall def, snd (init_prop from p2 b def) = Ok y) /\
    (na <> nb -> snd (init_prop_required from p2 a) = Ok x /\ (forall def, snd (init_prop from p2 a def) = Ok x)) /\
    (na = nb -> snd (init_prop_required from p2 a) = Ok y /\ (forall def, snd (init_prop from p2 a def) = Ok y)).
Proof.
  intros T to from grow RT a b na nb x y p Ha Hb. unfold set_prop, init_prop, init_prop_required. rewrite Ha, Hb. cbn [bind].
  exists (pn_set grow p na (to x)), (pn_set grow (pn_set grow p na (to x)) nb (to y)). do 2 (split; [reflexivity|]).
  destruct (C37_set_get T to from grow p na x (RT x)) as [G1 G2].
  destruct (C37_set_get T to from grow (pn_set grow p na (to x)) nb y (RT y)) as [G3 G4].
  do 4 (split; [assumption|]). split; [|intros ->; auto]. intros NE.
  destruct (C37_set_others grow (pn_set grow p na (to x)) nb (to y) na NE) as (A & F & K).
  split; [rewrite K; exact G1|]. intros def.
  set (p1 := pn_set grow p na (to x)) in *. set (p2 := pn_set grow p1 nb (to y)) in *.
  assert (K2 : snd (pn_get_key from p2 na) = Ok x) by (rewrite K; exact G1).
  destruct (C37_get T from p2 na) as (HF & HA & [[c C]|C]).
  - destruct (HF c C) as (E1 & E2 & _). rewrite E2, <- E1. exact K2.
  - destruct (HA C) as (E1 & _). congruence.
Qed.
Print Assumptions C78_save_restore.
(* an absent property: the default, or an exception *)
Theorem C78_absent : forall (T : Type) (from : str -> res T) a na p, tidy_identifier a = Ok na -> Absent na (pn_children p) ->
  (forall def, snd (init_prop from p a def) = Ok def) /\ snd (init_prop_required from p a) = Throw.
Proof.
  intros T from a na p Ha A. unfold init_prop, init_prop_required. rewrite Ha. destruct (C37_get T from p na) as (_ & HA & _).
  destruct (HA A) as (E1 & E2 & _). auto.
Qed.
Print Assumptions C78_absent.
(* members whose names differ only in decoration share one property *)
Theorem C78_separate_refuted : forall n, Bare n -> n <> ["m"%char] -> fits ("m"%char :: "_"%char :: n) ->
  tidy_identifier n = Ok n /\ tidy_identifier (n ++ ["_"%char]) = Ok n /\ tidy_identifier ("_"%char :: n) = Ok n /\
  tidy_identifier ("m"%char :: "_"%char :: n) = Ok n.
Proof.
  intros n H NM Hf.
  assert (S : forall s, (length s <= S (S (length n)))%nat -> fits s).
  { intros s Hs. unfold fits in *. cbn [length] in Hf. lia. }
  assert (U : only ["_"%char] ["_"%char]) by (constructor; [left; reflexivity|constructor]).
  assert (E : only ["_"%char] []) by constructor.
  split; [|split; [|split]]; apply tidy_iff.
  - apply S. lia.
  - pose proof (Bare_plain n [] [] H NM E E) as X. cbn [app] in X. rewrite app_nil_r in X. exact X.
  - apply S. rewrite app_length. cbn. lia.
  - apply (Bare_plain n [] ["_"%char] H NM E U).
  - apply S. cbn. lia.
  - pose proof (Bare_plain n ["_"%char] [] H NM U E) as X. cbn [app] in X. rewrite app_nil_r in X. exact X.
  - exact Hf.
  - pose proof (Bare_member n [] H E) as X. rewrite app_nil_r in X. exact X.
Qed.
Print Assumptions C78_separate_refuted.
(* the prefix m_ survives a qualification, an underscore survives m_, the member
   m_ has no name, and applying the function again may change the result *)
Theorem C78_bare_refuted :
  (forall q n, Bare n -> fits (q ++ ":"%char :: "m"%char :: "_"%char :: n) ->
     tidy_identifier (q ++ ":"%char :: "m"%char :: "_"%char :: n) = Ok ("m"%char :: "_"%char :: n)) /\
  (forall n, Bare n -> fits ("m"%char :: "_"%char :: "_"%char :: n) ->
     tidy_identifier ("m"%char :: "_"%char :: "_"%char :: n) = Ok ("_"%char :: n)) /\
  tidy_identifier ["m"%char; "_"%char] = Ok [] /\
  ~ (forall id n, fits id -> tidy_identifier id = Ok n -> tidy_identifier n = Ok n).
Proof.
  split; [|split; [|split]].
  - intros q n (NE & F & _ & A & B) Hf. apply tidy_iff; [exact Hf|]. apply Tidy_qualified.
    + constructor; [intros [X|[]]; discriminate|]. constructor; [intros [X|[]]; discriminate|exact F].
    + exists [], []. cbn [app]. rewrite app_nil_r. split; [reflexivity|]. split; [constructor|]. split; [constructor|]. split.
      * intros c m E [X|[]]. inversion E; subst. discriminate.
      * intros c m E [X|[]]. subst c. destruct (exists_last NE) as (n' & c & ->). apply (B c n' eq_refl).
        change ("m"%char :: "_"%char :: n' ++ [c]) with (("m"%char :: "_"%char :: n') ++ [c]) in E. apply app_inj_tail in E. apply E.
  - intros n (NE & F & _ & A & B) Hf. apply tidy_iff; [exact Hf|]. apply Tidy_member.
    + constructor; [intros [X|[]]; discriminate|exact F].
    + exists []. rewrite app_nil_r. split; [reflexivity|]. split; [constructor|].
      intros c m E [X|[]]. subst c. destruct (exists_last NE) as (n' & c & ->). apply (B c n' eq_refl).
      change ("_"%char :: n' ++ [c]) with (("_"%char :: n') ++ [c]) in E. apply app_inj_tail in E. apply E.
  - reflexivity.
  - intros H. specialize (H (lit "a::m_b") (lit "m_b")). assert (X : tidy_identifier (lit "m_b") = Ok (lit "m_b")) by (apply H; reflexivity).
    vm_compute in X. discriminate.
Qed.
Print Assumptions C78_bare_refuted.
Example C78_nonvacuous :
  tidy_identifier (lit "m_mass") = Ok (lit "mass") /\ tidy_identifier (lit "mass_") = Ok (lit "mass") /\
  tidy_identifier (lit "body::mass_") = Ok (lit "mass") /\ tidy_identifier (lit "__mass__") = Ok (lit "mass") /\
  tidy_identifier (lit "m__mass_") = Ok (lit "_mass") /\ tidy_identifier (lit "____") = Ok [] /\
  (exists p, set_prop (fun s : str => s) (fun _ => false) pn_empty (lit "m_mass") (lit "3") = Ok p /\
     snd (init_prop Ok p (lit "mass_") []) = Ok (lit "3")).
Proof. do 6 (split; [vm_compute; reflexivity|]). eexists. split; vm_compute; reflexivity. Qed.

(* C85: the short name of a type is what follows the last ':' or blank *)
Theorem C85_short_name : forall s t, fits s -> (clean_type_name s = Ok t <-> LastPart (lit ": ") s t).
Proof.
  intros s t Hf. destruct (clean_spec s Hf) as (t' & E & H). split.
  - intros X. rewrite E in X. inversion X; subst. exact H.
  - intros X. rewrite E. f_equal. eapply LastPart_unique; eauto.
Qed.
Print Assumptions C85_short_name.
Theorem C85_idempotent : forall s t, fits s -> clean_type_name s = Ok t -> clean_type_name t = Ok t.
Proof.
  intros s t Hf H. pose proof H as H0. apply C85_short_name in H; [|exact Hf]. destruct H as [F E].
  apply C85_short_name; [|split; auto]. destruct E as [->|(l & c & _ & ->)]; [exact Hf|].
  apply fits_app_r in Hf. apply (fits_app_r [c]). exact Hf.
Qed.
Print Assumptions C85_idempotent.
(* classes registered under their short names: of two classes with the same
   short name only the one registered last can be created *)
Theorem C85_factory : forall (F U : Type) (f0 : F) (apply : F -> U) s1 s2 t (f1 f2 : F) mid,
  fits s1 -> fits s2 -> LastPart (lit ": ") s1 t -> LastPart (lit ": ") s2 t -> ~ In t (map fst mid) ->
  exists n1 n2 m, clean_type_name s1 = Ok n1 /\ clean_type_name s2 = Ok n2 /\
    register_all str_eqb f0 [] ((n1, f1) :: (n2, f2) :: mid) = Ok m /\ create str_eqb apply m n1 = Ok (apply f2).
Proof.
  intros F U f0 apply s1 s2 t f1 f2 mid F1 F2 L1 L2 N.
  exists t, t. assert (EQ : forall a b, str_eqb a b = true <-> a = b).
  { intros a b. unfold str_eqb. destruct (list_eq_dec ascii_dec a b); split; congruence. }
  destruct (C05_factory_last_registration str F U str_eqb f0 apply EQ ((t, f1) :: (t, f2) :: mid)) as (m & R & H).
  exists m. split; [apply C85_short_name; assumption|]. split; [apply C85_short_name; assumption|]. split; [exact R|].
  specialize (H t). assert (X : last_reg str_eqb ((t, f1) :: (t, f2) :: mid) t = Some f2).
  { assert (Y : last_reg str_eqb mid t = None).
    { clear - N EQ. induction mid as [|[k f] mid IH]; [reflexivity|]. cbn [map fst] in N. rewrite last_reg_cons, IH by (intros X; apply N; right; exact X).
      destruct (str_eqb k t) eqn:E; [apply EQ in E; exfalso; apply N; left; exact E|reflexivity]. }
    rewrite !last_reg_cons, Y. rewrite (proj2 (EQ t t) eq_refl). reflexivity. }
  rewrite X in H. apply H.
Qed.
Print Assumptions C85_factory.
(* all types whose name ends in "> >" are called ">" *)
Theorem C85_template_refuted : forall a b, fits (a ++ lit "> >") -> fits (b ++ lit "> >") ->
  clean_type_name (a ++ lit "> >") = Ok (lit ">") /\ clean_type_name (b ++ lit "> >") = Ok (lit ">").
Proof.
  assert (K : forall a, fits (a ++ lit "> >") -> clean_type_name (a ++ lit "> >") = Ok (lit ">")).
  { intros a Hf. apply C85_short_name; [exact Hf|]. split.
    - constructor; [intros [X|[X|[]]]; discriminate|constructor].
    - right. exists (a ++ [">"%char]), " "%char. split; [right; left; reflexivity|]. rewrite <- app_assoc. reflexivity. }
  intros a b Ha Hb. auto.
Qed.
Print Assumptions C85_template_refuted.
Example C85_nonvacuous :
  clean_type_name (lit "class flut::optimizer") = Ok (lit "optimizer") /\ clean_type_name (lit "class cma") = Ok (lit "cma") /\
  clean_type_name (lit "int") = Ok (lit "int") /\ clean_type_name (lit "class a::holder<class b::item>") = Ok (lit "item>").
Proof. repeat split. Qed.
