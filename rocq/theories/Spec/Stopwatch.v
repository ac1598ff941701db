(* What a stopwatch should have measured, from the history (latest call first)
   of a stopwatch created at time t0. *)
From Coq Require Import List ZArith.
From Verif Require Import Model.StdString Model.Stopwatch.
Import ListNotations.
Local Open Scope Z_scope.

(* when the current interval began *)
Definition began (t0 : Z) (h : list sw_op) : Z :=
  match h with [] => t0 | First t :: _ => t | Measure _ _ t :: _ => t end.
Fixpoint measured (t0 : Z) (h : list sw_op) (s : str) : Z :=
  match h with
  | [] => 0
  | First _ :: h' => measured t0 h' s
  | Measure n t _ :: h' => measured t0 h' s + (if list_eq_dec Ascii.ascii_dec n s then t - began t0 h' else 0)
  end.
(* the time the stopwatch itself took *)
Fixpoint own (h : list sw_op) : Z :=
  match h with [] => 0 | First _ :: h' => own h' | Measure _ t t' :: h' => own h' + (t' - t) end.
(* the time thrown away by starting anew *)
Fixpoint skipped (t0 : Z) (h : list sw_op) : Z :=
  match h with [] => 0 | First t :: h' => skipped t0 h' + (t - began t0 h') | Measure _ _ _ :: h' => skipped t0 h' end.
(* the labels, in the order they were first used *)
Fixpoint labels (h : list sw_op) : list str :=
  match h with
  | [] => []
  | First _ :: h' => labels h'
  | Measure n _ _ :: h' => if in_dec (list_eq_dec Ascii.ascii_dec) n (labels h') then labels h' else labels h' ++ [n]
  end.
Definition total (l : list (str * Z)) : Z := fold_right (fun m a => snd m + a) 0 l.
