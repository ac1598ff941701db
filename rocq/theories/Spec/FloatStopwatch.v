(* What a stopwatch on floating point numbers should have measured, from the
   history (latest call first) of a stopwatch created at reading x0. *)
From Coq Require Import List ZArith Reals.
From Verif Require Import Model.StdString Model.FloatText Model.Ieee Model.FloatStopwatch Spec.Ieee Props.FloatAverage.
Import ListNotations.
Local Open Scope R_scope.

Definition began (x0 : fnum) (h : list fs_op) : fnum :=
  match h with [] => x0 | FFirst x :: _ => x | FMeasure _ _ y :: _ => y end.
(* the intervals that ended in a measure of label s *)
Fixpoint intervals (x0 : fnum) (h : list fs_op) (s : str) : list (fnum * fnum) :=
  match h with
  | [] => []
  | FFirst _ :: h' => intervals x0 h' s
  | FMeasure n x _ :: h' => if list_eq_dec Ascii.ascii_dec n s then (began x0 h', x) :: intervals x0 h' s else intervals x0 h' s
  end.
(* those the stopwatch itself took, and those given up by starting anew *)
Fixpoint own_intervals (h : list fs_op) : list (fnum * fnum) :=
  match h with [] => [] | FFirst _ :: h' => own_intervals h' | FMeasure _ x y :: h' => (x, y) :: own_intervals h' end.
Fixpoint skipped_intervals (x0 : fnum) (h : list fs_op) : list (fnum * fnum) :=
  match h with [] => [] | FFirst x :: h' => (began x0 h', x) :: skipped_intervals x0 h' | FMeasure _ _ _ :: h' => skipped_intervals x0 h' end.
(* the labels, in the order they were first used *)
Fixpoint labels (h : list fs_op) : list str :=
  match h with
  | [] => []
  | FFirst _ :: h' => labels h'
  | FMeasure n _ _ :: h' => if in_dec (list_eq_dec Ascii.ascii_dec) n (labels h') then labels h' else labels h' ++ [n]
  end.
(* the sum of the lengths of intervals, in the order of time, rounded or not *)
Fixpoint summed (f : fmt) (l : list (fnum * fnum)) : fnum :=
  match l with
  | [] => f_zero
  | [p] => f_sub f (snd p) (fst p)
  | p :: l' => f_add f (summed f l') (f_sub f (snd p) (fst p))
  end.
Definition span (f : fmt) (l : list (fnum * fnum)) : R := fold_right (fun p a => a + (number f (snd p) - number f (fst p))) 0 l.
(* readings are numbers other than -0 and do not go back *)
Definition Reading (f : fmt) (x : fnum) : Prop := Fin f x /\ x <> FFin true 0%Z.
Fixpoint Ordered (f : fmt) (x0 : fnum) (h : list fs_op) : Prop :=
  match h with
  | [] => Reading f x0
  | FFirst x :: h' => Ordered f x0 h' /\ Reading f x /\ number f (began x0 h') <= number f x
  | FMeasure _ x y :: h' => Ordered f x0 h' /\ Reading f x /\ Reading f y /\ number f (began x0 h') <= number f x <= number f y
  end.
