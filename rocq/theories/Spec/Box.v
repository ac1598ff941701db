(* Boxes as sets of points. *)
From Coq Require Import Reals List.
From Verif Require Import Model.Base Model.Vec3 Model.Box.
Local Open Scope R_scope.

Definition InBox (p : vec3) (b : box) : Prop :=
  (vx (lower b) <= vx p <= vx (upper b)) /\ (vy (lower b) <= vy p <= vy (upper b)) /\ (vz (lower b) <= vz p <= vz (upper b)).
(* b contains the set and lies in every box that contains it *)
Definition Smallest (P : vec3 -> Prop) (b : box) : Prop :=
  (forall p, P p -> InBox p b) /\
  forall c, (forall p, P p -> InBox p c) -> forall p, InBox p b -> InBox p c.
(* the points of an item *)
Definition Covers (i : item) (p : vec3) : Prop := match i with Point q => p = q | Whole c => InBox p c end.
Definition Covered (l : list item) (p : vec3) : Prop := exists i, In i l /\ Covers i p.
(* not a box inside out *)
Definition Proper (i : item) : Prop := exists p, Covers i p.
(* all coordinates are finite floating point numbers *)
Definition InRange (max : R) (l : list item) : Prop :=
  forall p, Covered l p -> InBox p (Bx (V3 (- max) (- max) (- max)) (V3 max max max)).
