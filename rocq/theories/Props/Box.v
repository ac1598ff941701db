(* C59: bounding boxes (exact reals) *)
From Coq Require Import Reals List Permutation Lra.
From Verif Require Import Model.Base Model.Math Model.Vec3 Model.Box Spec.Box Proofs.MathProofs Proofs.Vec3Proofs Proofs.BoxProofs.
Import ListNotations.
Local Open Scope R_scope.

(* after any += of points and boxes, an initially default box is the smallest
   one around them *)
Theorem C59_smallest : forall max l, l <> [] -> Forall Proper l -> InRange max l ->
  Smallest (Covered l) (include_all (default_box max) l).
Proof. exact smallest_default. Qed.
Print Assumptions C59_smallest.

(* only the set of points matters: not the order, repetitions or grouping *)
Theorem C59_same_points_same_box : forall max l m, l <> [] -> m <> [] ->
  Forall Proper l -> Forall Proper m -> InRange max l -> InRange max m ->
  (forall p, Covered l p <-> Covered m p) ->
  include_all (default_box max) l = include_all (default_box max) m.
Proof.
  intros max l m L M PL PM GL GM E. apply (smallest_unique (Covered m)).
  - destruct m as [|i m]; [contradiction|]. inversion PM as [|? ? [p C] ?]; subst. exists p, i. split; [left; reflexivity|exact C].
  - apply (smallest_ext (Covered l)); [exact E|]. apply smallest_default; assumption.
  - apply smallest_default; assumption.
Qed.
Print Assumptions C59_same_points_same_box.

Theorem C59_order : forall max b l m, Permutation l m -> include_all b l = include_all b m /\
  (l <> [] -> Forall Proper l -> InRange max l -> Smallest (Covered m) (include_all (default_box max) l)).
Proof.
  intros max b l m P. split.
  - destruct (include_all_spec l b) as (A & B & C & D & E & F). destruct (include_all_spec m b) as (A' & B' & C' & D' & E' & F').
    pose proof (Permutation_in (l := l) (l' := m)) as I. pose proof (Permutation_in (l := m) (l' := l)) as J.
    assert (X : lower (include_all b l) = lower (include_all b m)).
    { apply vle_antisym; [apply C'|apply C]; try assumption; intros i H; [apply B|apply B']; [apply J|apply I]; auto using Permutation_sym. }
    assert (Y : upper (include_all b l) = upper (include_all b m)).
    { apply vle_antisym; [apply F|apply F']; try assumption; intros i H; [apply E'|apply E]; [apply I|apply J]; auto using Permutation_sym. }
    destruct (include_all b l), (include_all b m). cbn in *. subst. reflexivity.
  - intros N Q G. apply (smallest_ext (Covered l)); [|apply smallest_default; assumption].
    intros p. split; intros (i & I & V); exists i; (split; [|exact V]); eapply Permutation_in; try exact I; auto using Permutation_sym.
Qed.
Print Assumptions C59_order.

(* a default box contains nothing and adds nothing; a box built from a point is
   the default box with that point *)
Theorem C59_default : forall max, 0 < max -> (forall p, ~ InBox p (default_box max)) /\
  (forall b, InBox (lower b) (Bx (V3 (- max) (- max) (- max)) (V3 max max max)) ->
             InBox (upper b) (Bx (V3 (- max) (- max) (- max)) (V3 max max max)) ->
             box_add_box b (default_box max) = b /\ box_add_box (default_box max) b = b) /\
  (forall p, InBox p (Bx (V3 (- max) (- max) (- max)) (V3 max max max)) ->
             box_add_point (default_box max) p = box_of_point p).
Proof.
  intros max H. split; [|split].
  - intros p X. unfold InBox in X. cbn in X. lra.
  - intros [[a b c] [d e f]] X Y. unfold InBox in X, Y. cbn in X, Y. unfold box_add_box. cbn [lower upper default_box vx vy vz].
    unfold set_if_smaller, set_if_bigger, Rltb. split;
    repeat match goal with |- context [Rlt_dec ?x ?y] => destruct (Rlt_dec x y) end; try (exfalso; lra); repeat f_equal; lra.
  - intros [a b c] X. unfold InBox in X. cbn in X. unfold box_add_point, box_of_point. cbn [lower upper default_box vx vy vz].
    unfold set_if_smaller, set_if_bigger, Rltb.
    repeat match goal with |- context [Rlt_dec ?x ?y] => destruct (Rlt_dec x y) end; try (exfalso; lra); repeat f_equal; lra.
Qed.
Print Assumptions C59_default.

(* a box that is inside out contains no point and still makes others larger *)
Theorem C59_inside_out_refuted : exists b c, (forall p, ~ InBox p c) /\
  (exists p, InBox p (box_add_box b c) /\ ~ InBox p b).
Proof.
  exists (box_of_point (V3 0 0 0)), (Bx (V3 1 (-1) 0) (V3 0 1 0)). split.
  - intros p X. unfold InBox in X. cbn in X. lra.
  - exists (V3 0 1 0). unfold InBox, box_add_box, set_if_smaller, set_if_bigger, Rltb. cbn.
    repeat match goal with |- context [Rlt_dec ?x ?y] => destruct (Rlt_dec x y) end; lra.
Qed.
Print Assumptions C59_inside_out_refuted.

Example C59_nonvacuous : let l := [Point (V3 1 5 0); Point (V3 (-2) 7 0); Whole (Bx (V3 0 0 0) (V3 1 1 3))] in
  Forall Proper l /\ InRange 100 l /\ include_all (default_box 100) l = Bx (V3 (-2) 0 0) (V3 1 7 3).
Proof.
  cbn zeta. split; [|split].
  - repeat constructor; [exists (V3 1 5 0); reflexivity|exists (V3 (-2) 7 0); reflexivity|].
    exists (V3 0 0 0). cbn. unfold InBox. cbn. lra.
  - intros p (i & [<-|[<-|[<-|[]]]] & C); cbn in C; subst; unfold InBox in *; cbn in *; lra.
  - unfold include_all. cbn [fold_left include]. unfold box_add_point, box_add_box, set_if_smaller, set_if_bigger, Rltb. cbn [lower upper default_box vx vy vz].
    repeat (match goal with
      | |- context [Rlt_dec ?x ?y] =>
        lazymatch constr:((x, y)) with context [Rlt_dec] => fail | _ => destruct (Rlt_dec x y); try (exfalso; lra) end end).
    repeat f_equal; lra.
Qed.
