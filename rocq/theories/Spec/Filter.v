(* Linear filters, as difference equations on signals. *)
From Coq Require Import Reals List.
From Verif Require Import Model.Base Spec.Stats.
Local Open Scope R_scope.

(* the value of the signal x just before time k, and i steps before that;
   nothing happened before time 0 *)
Definition past (x : nat -> R) (k i : nat) : R := if (i <? k)%nat then x (k - 1 - i)%nat else 0.
(* y solves the difference equation with coefficients b0, b, a for input x, at time k *)
Definition Solves (b0 : R) (b a : list R) (x y : nat -> R) (k : nat) : Prop :=
  y k = b0 * x k + sumR (length b) (fun i => nth i b 0 * past x k i) + sumR (length a) (fun i => nth i a 0 * past y k i).
Definition signal (l : list R) : nat -> R := fun k => nth k l 0.
(* a signal that starts d steps later *)
Definition delay (d : nat) (x : nat -> R) (n : nat) : R := if (n <? d)%nat then 0 else x (n - d)%nat.
(* 1, 0, 0, 0, ... *)
Definition pulse (n : nat) : R := match n with 0%nat => 1 | _ => 0 end.
