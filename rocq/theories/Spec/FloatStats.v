(* Sums of products of deviations: rounded, in the order of the frames, and exact. *)
From Coq Require Import List ZArith Reals.
From Verif Require Import Model.FloatText Model.Ieee Model.FloatInterp Spec.Ieee Props.FloatAverage.
Import ListNotations.
Local Open Scope R_scope.

(* what the code adds up, given the means it computed *)
Definition products (f : fmt) (mx my : fnum) (xs ys : list fnum) : list fnum :=
  map (fun p => f_mul f (f_sub f (fst p) mx) (f_sub f (snd p) my)) (combine xs ys).
Definition rounded_sum (f : fmt) (l : list fnum) : fnum := fold_left (f_add f) l f_zero.

(* the exact mean, and the exact sum of the products of deviations *)
Definition mean_of (f : fmt) (l : list fnum) : R := total f l / INR (length l).
Definition scatter (f : fmt) (xs ys : list fnum) : R :=
  fold_right (fun p a => (number f (fst p) - mean_of f xs) * (number f (snd p) - mean_of f ys) + a) 0 (combine xs ys).
