From Coq Require Import Reals List Lra.
From Verif Require Import Model.Base Model.Math Model.Vec3 Model.Box Spec.Box Proofs.MathProofs Proofs.Vec3Proofs.
Import ListNotations.
Local Open Scope R_scope.

Lemma smaller_spec a b : set_if_smaller a b <= a /\ set_if_smaller a b <= b /\ (forall c, c <= a -> c <= b -> c <= set_if_smaller a b).
Proof. unfold set_if_smaller, Rltb. destruct (Rlt_dec b a); repeat split; intros; lra. Qed.
Lemma bigger_spec a b : a <= set_if_bigger a b /\ b <= set_if_bigger a b /\ (forall c, a <= c -> b <= c -> set_if_bigger a b <= c).
Proof. unfold set_if_bigger, Rltb. destruct (Rlt_dec a b); repeat split; intros; lra. Qed.

(* componentwise order *)
Definition vle (a b : vec3) : Prop := vx a <= vx b /\ vy a <= vy b /\ vz a <= vz b.
Lemma vle_refl a : vle a a. Proof. unfold vle. lra. Qed.
Lemma vle_trans a b c : vle a b -> vle b c -> vle a c. Proof. unfold vle. lra. Qed.
Lemma vle_antisym a b : vle a b -> vle b a -> a = b.
Proof. destruct a, b. unfold vle. cbn. intros. f_equal; lra. Qed.
Lemma inbox_vle p b : InBox p b <-> vle (lower b) p /\ vle p (upper b).
Proof. unfold InBox, vle. tauto. Qed.

Definition ilow (i : item) := match i with Point p => p | Whole c => lower c end.
Definition ihigh (i : item) := match i with Point p => p | Whole c => upper c end.
Lemma covers_vle i p : Covers i p <-> vle (ilow i) p /\ vle p (ihigh i).
Proof.
  destruct i as [q|c]; cbn [Covers ilow ihigh]; [|apply inbox_vle].
  split; [intros ->; split; apply vle_refl|intros [A B]; apply vle_antisym; assumption].
Qed.

Lemma include_spec b i :
  vle (lower (include b i)) (lower b) /\ vle (lower (include b i)) (ilow i) /\
  (forall c, vle c (lower b) -> vle c (ilow i) -> vle c (lower (include b i))) /\
  vle (upper b) (upper (include b i)) /\ vle (ihigh i) (upper (include b i)) /\
  (forall c, vle (upper b) c -> vle (ihigh i) c -> vle (upper (include b i)) c).
Proof.
  destruct i as [q|q]; unfold vle; cbn [include box_add_point box_add_box lower upper vx vy vz ilow ihigh];
  (repeat split; intros; first [apply smaller_spec|apply bigger_spec]); tauto.
Qed.

Lemma include_all_spec l : forall b,
  vle (lower (include_all b l)) (lower b) /\ (forall i, In i l -> vle (lower (include_all b l)) (ilow i)) /\
  (forall c, vle c (lower b) -> (forall i, In i l -> vle c (ilow i)) -> vle c (lower (include_all b l))) /\
  vle (upper b) (upper (include_all b l)) /\ (forall i, In i l -> vle (ihigh i) (upper (include_all b l))) /\
  (forall c, vle (upper b) c -> (forall i, In i l -> vle (ihigh i) c) -> vle (upper (include_all b l)) c).
Proof.
  induction l as [|i l IH]; intros b; cbn [include_all fold_left].
  - repeat split; intros; try apply vle_refl; try contradiction; try assumption; unfold vle in *; lra.
  - fold (include_all (include b i) l). destruct (IH (include b i)) as (A & B & C & D & E & F).
    destruct (include_spec b i) as (A' & B' & C' & D' & E' & F').
    split; [eapply vle_trans; eassumption|].
    split. { intros j [->|J]; [eapply vle_trans; eassumption|apply B; exact J]. }
    split. { intros c X Y. apply C; [apply C'; [exact X|apply Y; left; reflexivity]|intros j J; apply Y; right; exact J]. }
    split; [eapply vle_trans; eassumption|].
    split. { intros j [->|J]; [eapply vle_trans; eassumption|apply E; exact J]. }
    intros c X Y. apply F; [apply F'; [exact X|apply Y; left; reflexivity]|intros j J; apply Y; right; exact J].
Qed.

Lemma proper_vle i : Proper i -> vle (ilow i) (ihigh i).
Proof. intros [p C]. apply covers_vle in C. eapply vle_trans; apply C. Qed.
Lemma corners i : Proper i -> Covers i (ilow i) /\ Covers i (ihigh i).
Proof. intros P. apply proper_vle in P. split; apply covers_vle; split; try apply vle_refl; exact P. Qed.

(* including items in a default box gives the smallest box around them *)
Lemma smallest_default M l : l <> [] -> Forall Proper l -> InRange M l -> Smallest (Covered l) (include_all (default_box M) l).
Proof.
  intros N P G. rewrite Forall_forall in P. destruct (include_all_spec l (default_box M)) as (A & B & C & D & E & F). split.
  - intros p (i & I & V). apply covers_vle in V. apply inbox_vle. split.
    + eapply vle_trans; [apply B; exact I|apply V].
    + eapply vle_trans; [apply V|apply E; exact I].
  - intros c V p Q. apply inbox_vle in Q. destruct Q as [Q1 Q2].
    assert (L : forall i, In i l -> vle (lower c) (ilow i) /\ vle (ihigh i) (upper c)).
    { intros i I. destruct (corners i (P i I)) as [K1 K2]. split.
      - apply (inbox_vle (ilow i) c). apply V. exists i. split; assumption.
      - apply (inbox_vle (ihigh i) c). apply V. exists i. split; assumption. }
    destruct l as [|i0 l0]; [contradiction|]. assert (I0 : In i0 (i0 :: l0)) by (left; reflexivity).
    destruct (corners i0 (P _ I0)) as [K1 K2].
    assert (R1 : vle (ilow i0) (lower (default_box M))).
    { assert (X := G (ilow i0) (ex_intro _ i0 (conj I0 K1))). unfold InBox in X. unfold vle. cbn in *. lra. }
    assert (R2 : vle (upper (default_box M)) (ihigh i0)).
    { assert (X := G (ihigh i0) (ex_intro _ i0 (conj I0 K2))). unfold InBox in X. unfold vle. cbn in *. lra. }
    apply inbox_vle. split.
    + eapply vle_trans; [|exact Q1]. apply C; [eapply vle_trans; [apply (L _ I0)|exact R1]|intros i I; apply (L _ I)].
    + eapply vle_trans; [exact Q2|]. apply F; [eapply vle_trans; [exact R2|apply (L _ I0)]|intros i I; apply (L _ I)].
Qed.

(* a smallest box around something is unique *)
Lemma smallest_unique P b c : (exists p, P p) -> Smallest P b -> Smallest P c -> b = c.
Proof.
  intros [p Pp] [B1 B2] [C1 C2]. assert (PB : vle (lower b) (upper b)).
  { assert (X := B1 p Pp). apply inbox_vle in X. eapply vle_trans; apply X. }
  assert (PC : vle (lower c) (upper c)). { assert (X := C1 p Pp). apply inbox_vle in X. eapply vle_trans; apply X. }
  assert (S1 : forall q, InBox q b -> InBox q c) by (apply B2; exact C1).
  assert (S2 : forall q, InBox q c -> InBox q b) by (apply C2; exact B1).
  assert (L1 : vle (lower c) (lower b)). { apply (inbox_vle _ c), S1, inbox_vle. split; [apply vle_refl|exact PB]. }
  assert (L2 : vle (lower b) (lower c)). { apply (inbox_vle _ b), S2, inbox_vle. split; [apply vle_refl|exact PC]. }
  assert (U1 : vle (upper b) (upper c)). { apply (inbox_vle _ c), S1, inbox_vle. split; [exact PB|apply vle_refl]. }
  assert (U2 : vle (upper c) (upper b)). { apply (inbox_vle _ b), S2, inbox_vle. split; [exact PC|apply vle_refl]. }
  destruct b, c. cbn in *. f_equal; apply vle_antisym; assumption.
Qed.

Lemma smallest_ext P Q b : (forall p, P p <-> Q p) -> Smallest P b -> Smallest Q b.
Proof. intros E [A B]. split; [intros p H; apply A, E, H|intros c H; apply B; intros p X; apply H, E, X]. Qed.
