From Verif Require Import Model.Base Proofs.BaseFacts Model.StdString Model.Dictionary.

Lemma str_eqb_eq a b : str_eqb a b = true <-> a = b.
Proof. unfold str_eqb. destruct (list_eq_dec ascii_dec a b); split; congruence. Qed.
Lemma str_eqb_refl a : str_eqb a a = true.
Proof. apply str_eqb_eq. reflexivity. Qed.

Section P.
Context {T : Type} (eqb : T -> T -> bool) (eqb_eq : forall a b, eqb a b = true <-> a = b).
Notation dict := (list (T * str)).

(* first entry with a property *)
Definition FirstWith {A} (P : A -> Prop) (l : list A) (x : A) : Prop :=
  exists l1 l2, l = l1 ++ x :: l2 /\ P x /\ Forall (fun y => ~ P y) l1.

Lemma find_first_with {A} (p : A -> bool) (P : A -> Prop) l : (forall x, p x = true <-> P x) ->
  match List.find p l with Some x => FirstWith P l x | None => Forall (fun y => ~ P y) l end.
Proof.
  intros H. induction l as [|a l IH]; cbn [List.find]; [constructor|]. destruct (p a) eqn:E.
  - exists [], l. split; [reflexivity|]. split; [apply H; exact E|constructor].
  - assert (~ P a) by (intros X; apply H in X; congruence). destruct (List.find p l) as [x|].
    + destruct IH as (l1 & l2 & -> & Hx & Hl). exists (a :: l1), l2. split; [reflexivity|]. split; [exact Hx|constructor; assumption].
    + constructor; assumption.
Qed.

Lemma name_spec (d : dict) e :
  (exists n, name_of eqb d e = Ok n /\ FirstWith (fun p => fst p = e) d (e, n)) \/
  (name_of eqb d e = Throw /\ forall n, ~ In (e, n) d).
Proof.
  unfold name_of. pose proof (find_first_with (fun p : T * str => eqb e (fst p)) (fun p => fst p = e) d) as F.
  destruct (List.find _ d) as [[k n]|].
  - left. exists n. split; [reflexivity|]. assert (k = e). { destruct F as (l1 & l2 & _ & E & _); [intros x; rewrite eqb_eq; split; congruence|exact E]. }
    subst. apply F. intros x; rewrite eqb_eq; split; congruence.
  - right. split; [reflexivity|]. intros n Hin. rewrite Forall_forall in F. assert (X : ~ (e = e)).
    { apply (F ltac:(intros x; rewrite eqb_eq; split; congruence) (e, n) Hin). } congruence.
Qed.

Lemma element_spec (d : dict) s dflt :
  (exists e, element d s = Ok e /\ element_or d s dflt = e /\ FirstWith (fun p => snd p = s) d (e, s)) \/
  (element d s = Throw /\ element_or d s dflt = dflt /\ forall e, ~ In (e, s) d).
Proof.
  unfold element, element_or. pose proof (find_first_with (fun p : T * str => str_eqb s (snd p)) (fun p => snd p = s) d) as F.
  assert (Hp : forall x : T * str, str_eqb s (snd x) = true <-> snd x = s) by (intros x; rewrite str_eqb_eq; split; congruence).
  destruct (List.find _ d) as [[e n]|].
  - left. exists e. split; [reflexivity|]. split; [reflexivity|]. specialize (F Hp). assert (n = s) by (destruct F as (? & ? & _ & E & _); exact E). subst. exact F.
  - right. split; [reflexivity|]. split; [reflexivity|]. intros e Hin. specialize (F Hp). rewrite Forall_forall in F. apply (F _ Hin). reflexivity.
Qed.

Lemma FirstWith_In {A} (P : A -> Prop) l x : FirstWith P l x -> In x l.
Proof. intros (l1 & l2 & -> & _). apply in_or_app. right. left. reflexivity. Qed.

Lemma dictionary_inverse (d : dict) : NoDup (map fst d) -> NoDup (map snd d) ->
  forall e n, name_of eqb d e = Ok n <-> element d n = Ok e.
Proof.
  intros N1 N2 e n.
  assert (U1 : forall e n n', In (e, n) d -> In (e, n') d -> n = n').
  { intros e0 n0 n1 H1 H2. clear N2 e n. induction d as [|[a b] l IH]; [contradiction|]. cbn in N1. inversion N1; subst.
    destruct H1 as [H1|H1], H2 as [H2|H2]; try congruence.
    - inversion H1; subst. exfalso. apply H3. apply in_map_iff. exists (e0, n1). auto.
    - inversion H2; subst. exfalso. apply H3. apply in_map_iff. exists (e0, n0). auto.
    - apply IH; assumption. }
  assert (U2 : forall e e' n, In (e, n) d -> In (e', n) d -> e = e').
  { intros e0 e1 n0 H1 H2. clear N1 U1 e n. induction d as [|[a b] l IH]; [contradiction|]. cbn in N2. inversion N2; subst.
    destruct H1 as [H1|H1], H2 as [H2|H2]; try congruence.
    - inversion H1; subst. exfalso. apply H3. apply in_map_iff. exists (e1, n0). auto.
    - inversion H2; subst. exfalso. apply H3. apply in_map_iff. exists (e0, n0). auto.
    - apply IH; assumption. }
  assert (A : forall e n, name_of eqb d e = Ok n <-> In (e, n) d).
  { intros e0 n0. destruct (name_spec d e0) as [(m & E & F)|(E & F)]; rewrite E.
    - apply FirstWith_In in F. split; [intros X; inversion X; subst; exact F|]. intros X. f_equal. eapply U1; eauto.
    - split; [discriminate|]. intros X. exfalso. eapply F; eauto. }
  assert (B : forall e n, element d n = Ok e <-> In (e, n) d).
  { intros e0 n0. destruct (element_spec d n0 e0) as [(m & E & _ & F)|(E & _ & F)]; rewrite E.
    - apply FirstWith_In in F. split; [intros X; inversion X; subst; exact F|]. intros X. f_equal. eapply U2; eauto.
    - split; [discriminate|]. intros X. exfalso. eapply F; eauto. }
  rewrite A, B. tauto.
Qed.

Lemma lookup_spec s (t : list (str * T)) :
  (exists v, lookup s t = Ok v /\ FirstWith (fun p => fst p = s) t (s, v)) \/
  (lookup s t = Throw /\ forall v, ~ In (s, v) t).
Proof.
  induction t as [|[k v] t IH]; cbn [lookup]; [right; auto|].
  destruct (str_eqb s k) eqn:E.
  - apply str_eqb_eq in E; subst. left. exists v. split; [reflexivity|]. exists [], t. repeat split. constructor.
  - assert (k <> s) by (intros ->; rewrite str_eqb_refl in E; discriminate). destruct IH as [(w & -> & l1 & l2 & -> & Hx & Hl)|(-> & Hn)].
    + left. exists w. split; [reflexivity|]. exists ((k, v) :: l1), l2. split; [reflexivity|]. split; [reflexivity|constructor; assumption].
    + right. split; [reflexivity|]. intros w [X|X]; [inversion X; congruence|]. eapply Hn; eauto.
Qed.
End P.
