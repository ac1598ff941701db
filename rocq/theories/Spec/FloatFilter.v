(* A difference equation, term by term. *)
From Coq Require Import ZArith List.
From Verif Require Import Model.FloatText Model.Ieee Spec.Rounding.

(* b0 x + (b[0] p[0] + a[0] q[0]) + ... + (b[n-1] p[n-1] + a[n-1] q[n-1]) *)
Fixpoint equation (n : nat) (b0 x : fnum) (b p a q : nat -> fnum) : expr :=
  match n with
  | O => Mul (Lit b0) (Lit x)
  | S m => Add (equation m b0 x b p a q) (Add (Mul (Lit (b m)) (Lit (p m))) (Mul (Lit (a m)) (Lit (q m))))
  end.
(* the signal x just before time k, and i steps before that; zero before time 0 *)
Definition earlier (x : nat -> fnum) (k i : nat) : fnum := if Nat.ltb i k then x (k - 1 - i) else FFin false 0%Z.
