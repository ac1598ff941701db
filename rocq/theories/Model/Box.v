(* flut/math/bounding_box.hpp over exact reals *)
From Coq Require Import Reals List.
From Verif Require Import Model.Base Model.Math Model.Vec3.
Local Open Scope R_scope.

(* bounding_box_ (flut/math/bounding_box.hpp:36-37) *)
Record box := Bx { lower : vec3; upper : vec3 }.
(* constructors (flut/math/bounding_box.hpp:12-14); max is constants<T>::max(),
   the largest finite number, and lowest() is -max *)
Definition default_box (max : R) : box := Bx (V3 max max max) (V3 (- max) (- max) (- max)).
Definition box_of_point (p : vec3) : box := Bx p p.
(* operator+= with a point (flut/math/bounding_box.hpp:16-24) *)
Definition box_add_point (b : box) (v : vec3) : box :=
  Bx (V3 (set_if_smaller (vx (lower b)) (vx v)) (set_if_smaller (vy (lower b)) (vy v)) (set_if_smaller (vz (lower b)) (vz v)))
     (V3 (set_if_bigger (vx (upper b)) (vx v)) (set_if_bigger (vy (upper b)) (vy v)) (set_if_bigger (vz (upper b)) (vz v))).
(* operator+= with a box (flut/math/bounding_box.hpp:26-34) *)
Definition box_add_box (b c : box) : box :=
  Bx (V3 (set_if_smaller (vx (lower b)) (vx (lower c))) (set_if_smaller (vy (lower b)) (vy (lower c))) (set_if_smaller (vz (lower b)) (vz (lower c))))
     (V3 (set_if_bigger (vx (upper b)) (vx (upper c))) (set_if_bigger (vy (upper b)) (vy (upper c))) (set_if_bigger (vz (upper b)) (vz (upper c)))).

(* a client's sequence of += *)
Inductive item := Point (p : vec3) | Whole (c : box).
Definition include (b : box) (i : item) : box :=
  match i with Point p => box_add_point b p | Whole c => box_add_box b c end.
Definition include_all (b : box) (l : list item) : box := fold_left include l b.
