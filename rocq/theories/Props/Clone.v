(* C82: clone *)
From Coq Require Import List FinFun Lia.
From Verif Require Import Model.Base Model.Clone Proofs.BaseFacts.
Import ListNotations.

(* p points to the object o *)
Definition Points {Obj} (h : list Obj) (p : option nat) (o : Obj) : Prop := exists a, p = Some a /\ nth_error h a = Some o.

Lemma Forall2_weaken {A B} (R Q : A -> B -> Prop) l m : (forall x y, R x y -> Q x y) -> Forall2 R l m -> Forall2 Q l m.
Proof. intros H F. induction F; constructor; auto. Qed.
Lemma Forall2_len {A B} (R : A -> B -> Prop) l m : Forall2 R l m -> length l = length m.
Proof. intros F. induction F; cbn; congruence. Qed.
Lemma clone_ptr_points {Obj} (copy : Obj -> res Obj) h p o : Points h p o ->
  clone_ptr copy h p = let* o' := copy o in Ok (Some (length h), h ++ [o']).
Proof. intros (a & -> & E). unfold clone_ptr, vget. rewrite E. reflexivity. Qed.
Lemma clone_loop_ok {Obj} (copy : Obj -> res Obj) : forall os os' ps h r, Forall2 (Points h) ps os -> Forall2 (fun o o' => copy o = Ok o') os os' ->
  clone_loop copy h ps r = Ok (r ++ map Some (seq (length h) (length ps)), h ++ os').
Proof.
  induction os as [|o os IH]; intros os' ps h r HP HC; inversion HC as [|? o' ? os2 C1 C2]; inversion HP as [|p ? ps2 ? P1 P2]; subst.
  - cbn. rewrite !app_nil_r. reflexivity.
  - cbn [clone_loop]. rewrite (clone_ptr_points copy h p o P1), C1. cbn [bind].
    rewrite (IH os2 ps2 (h ++ [o']) (r ++ [Some (length h)])); [|eapply Forall2_weaken; [|exact P2]|exact C2].
    + rewrite app_length, <- !app_assoc. cbn [length seq map app]. rewrite Nat.add_1_r. reflexivity.
    + intros q x (a & -> & E). exists a. split; [reflexivity|]. rewrite nth_error_app1; [exact E|]. apply nth_error_Some. congruence.
Qed.

(* the clones are new objects, all different, equal to copies of the originals,
   in the same order; the originals are as before *)
Theorem C82_clone : forall (Obj : Type) (copy : Obj -> res Obj) h ps os os', Forall2 (Points h) ps os -> Forall2 (fun o o' => copy o = Ok o') os os' ->
  exists qs h', clone_vector copy h ps = Ok (qs, h') /\
    Forall2 (Points h') qs os' /\ Forall2 (Points h') ps os /\ NoDup qs /\
    (forall a, In (Some a) qs -> length h <= a < length h') /\ ~ In None qs /\
    (forall a, a < length h -> nth_error h' a = nth_error h a).
Proof.
  intros Obj copy h ps os os' HP HC. exists (map Some (seq (length h) (length ps))), (h ++ os').
  split; [apply (clone_loop_ok copy os os' ps h [] HP HC)|].
  assert (L : length ps = length os') by (apply Forall2_len in HP; apply Forall2_len in HC; congruence).
  split; [|split; [|split; [|split; [|split]]]].
  - rewrite L. clear. revert h. induction os' as [|o os IH]; intros h; [constructor|]. cbn [length seq map]. constructor.
    + exists (length h). split; [reflexivity|]. rewrite nth_error_app2, Nat.sub_diag by lia. reflexivity.
    + replace (h ++ o :: os) with ((h ++ [o]) ++ os) by (rewrite <- app_assoc; reflexivity).
      specialize (IH (h ++ [o])). rewrite app_length, Nat.add_1_r in IH. exact IH.
  - eapply Forall2_weaken; [|exact HP]. intros p o (a & -> & E). exists a. split; [reflexivity|]. rewrite nth_error_app1; [exact E|]. apply nth_error_Some. congruence.
  - apply FinFun.Injective_map_NoDup; [intros x y E; congruence|apply seq_NoDup].
  - intros a I. apply in_map_iff in I. destruct I as (x & E & I). inversion E; subst. apply in_seq in I. rewrite app_length. lia.
  - intros I. apply in_map_iff in I. destruct I as (x & E & _). discriminate.
  - intros a A. apply nth_error_app1. exact A.
Qed.
Print Assumptions C82_clone.
(* changing the objects behind the clones, or making more, does not change the
   originals, and the other way round *)
Theorem C82_independent : forall (Obj : Type) (copy : Obj -> res Obj) h ps os os' qs h', Forall2 (Points h) ps os -> Forall2 (fun o o' => copy o = Ok o') os os' ->
  clone_vector copy h ps = Ok (qs, h') ->
  (forall a x h2, In (Some a) qs -> vset h' a x = Ok h2 -> Forall2 (Points h2) ps os) /\
  (forall a x h2, In (Some a) ps -> vset h' a x = Ok h2 -> Forall2 (Points h2) qs os').
Proof.
  intros Obj copy h ps os os' qs h' HP HC E. destruct (C82_clone Obj copy h ps os os' HP HC) as (qs0 & h0 & E0 & PQ & PP & _ & B & _ & _).
  rewrite E in E0. inversion E0; subst qs0 h0. clear E0.
  assert (B2 : forall a, In (Some a) ps -> a < length h).
  { clear -HP. induction HP as [|p o ps os (a & -> & E) HP IH]; intros b I; [destruct I|]; destruct I as [I|I]; [inversion I; subst; apply nth_error_Some; congruence|apply IH; exact I]. }
  assert (S : forall a x h2 l m, vset h' a x = Ok h2 -> ~ In (Some a) l -> Forall2 (Points h') l m -> Forall2 (Points h2) l m).
  { intros a x h2 l m V N F. induction F as [|p o l m (b & -> & Eb) F IH]; constructor.
    - exists b. split; [reflexivity|]. assert (b <> a) by (intros ->; apply N; left; reflexivity).
      unfold vset in V. destruct (a <? length h') eqn:Z; [|discriminate]. apply (f_equal (fun r => match r with Ok l => l | _ => h2 end)) in V. cbn beta iota in V. rewrite <- V. rewrite nth_error_upd by (apply Nat.ltb_lt; exact Z).
      destruct (Nat.eqb_spec b a); [congruence|]. exact Eb.
    - apply IH. intros I. apply N. right. exact I. }
  split; intros a x h2 I V.
  - apply (S a x h2 ps os V); [|exact PP]. intros J. apply B2 in J. apply B in I. lia.
  - apply (S a x h2 qs os' V); [|exact PQ]. intros J. apply B in J. apply B2 in I. lia.
Qed.
Print Assumptions C82_independent.
(* a null pointer anywhere is dereferenced, unless a copy throws before *)
Theorem C82_null_refuted : forall (Obj : Type) (copy : Obj -> res Obj) h ps os os' rest, Forall2 (Points h) ps os -> Forall2 (fun o o' => copy o = Ok o') os os' ->
  clone_ptr copy h None = UB /\ clone_vector copy h (ps ++ None :: rest) = UB.
Proof.
  intros Obj copy h ps os os' rest HP HC. split; [reflexivity|]. unfold clone_vector.
  assert (A : forall ps2 ps1 h r, clone_loop copy h (ps1 ++ ps2) r = let* (r', h') := clone_loop copy h ps1 r in clone_loop copy h' ps2 r').
  { clear. intros ps2. induction ps1 as [|p ps1 IH]; intros h r; [reflexivity|]. cbn [app clone_loop]. destruct (clone_ptr copy h p) as [[q h']| | |]; cbn [bind]; auto. }
  rewrite A, (clone_loop_ok copy os os' ps h [] HP HC). reflexivity.
Qed.
Print Assumptions C82_null_refuted.
Theorem C82_copy_throws : forall (Obj : Type) (copy : Obj -> res Obj) h ps os os' p o rest, Forall2 (Points h) ps os -> Forall2 (fun o o' => copy o = Ok o') os os' ->
  Points h p o -> copy o = Throw -> clone_vector copy h (ps ++ p :: rest) = Throw.
Proof.
  intros Obj copy h ps os os' p o rest HP HC PO T. unfold clone_vector.
  assert (A : forall ps2 ps1 h r, clone_loop copy h (ps1 ++ ps2) r = let* (r', h') := clone_loop copy h ps1 r in clone_loop copy h' ps2 r').
  { clear. intros ps2. induction ps1 as [|q ps1 IH]; intros h r; [reflexivity|]. cbn [app clone_loop]. destruct (clone_ptr copy h q) as [[x h']| | |]; cbn [bind]; auto. }
  rewrite A, (clone_loop_ok copy os os' ps h [] HP HC). cbn [bind clone_loop].
  rewrite (clone_ptr_points copy (h ++ os') p o), T; [reflexivity|]. destruct PO as (a & -> & E). exists a. split; [reflexivity|]. rewrite nth_error_app1; [exact E|]. apply nth_error_Some. congruence.
Qed.
Print Assumptions C82_copy_throws.
(* the clone of an object of a derived class is not of that class *)
Theorem C82_derived_refuted : forall (B D : Type) (h : list (object B D)) p b d, Points h p (mkObject b (Some d)) ->
  exists q h', clone_ptr slice h p = Ok (q, h') /\ Points h' q (mkObject b None).
Proof.
  intros B D h p b d P. rewrite (clone_ptr_points slice h p _ P). cbn [slice bind base_part]. do 2 eexists. split; [reflexivity|].
  eexists. split; [reflexivity|]. rewrite nth_error_app2, Nat.sub_diag by lia. reflexivity.
Qed.
Print Assumptions C82_derived_refuted.
Example C82_nonvacuous :
  clone_vector (fun n : nat => Ok n) [7; 8; 9] [Some 2; Some 0] = Ok ([Some 3; Some 4], [7; 8; 9; 9; 7]) /\
  clone_vector (fun n : nat => Ok n) [7; 8; 9] [Some 2; None] = UB /\
  clone_vector (fun n : nat => if n =? 8 then Throw else Ok n) [7; 8; 9] [Some 2; Some 1] = Throw.
Proof. repeat split. Qed.
