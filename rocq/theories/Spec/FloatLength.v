(* The length of a polygon: the sum of the distances of its neighbouring
   vertices. *)
From Coq Require Import Reals ZArith List.
From Verif Require Import Model.FloatText Model.FloatMath Model.FloatVec Props.FloatAverage.
Import ListNotations.
Local Open Scope R_scope.

Fixpoint chords (f : fmt) (p : f_vec) (l : list f_vec) : list fnum :=
  match l with
  | [] => []
  | q :: l' => fv_distance f p q :: chords f q l'
  end.
Definition sum_of (f : fmt) (l : list fnum) : R := fold_right (fun x a => number f x + a) 0 l.
(* the sides of the polygon through a curve at t0 and at the parameters ts *)
Definition sides (f : fmt) (curve : fnum -> f_vec) (t0 : fnum) (ts : list fnum) : list fnum := chords f (curve t0) (map curve ts).
(* the numbers 1, ..., n *)
Definition upto (n : Z) : list Z := map Z.of_nat (seq 1 (Z.to_nat n)).
