(* Least squares. *)
From Coq Require Import Reals List.
From Verif Require Import Model.Base.
Import ListNotations.
Local Open Scope R_scope.

Fixpoint total {A} (f : A -> R) (l : list A) : R := match l with [] => 0 | a :: l' => f a + total f l' end.
(* c0 + c1 x + c2 x^2 + ... *)
Fixpoint powers (cs : list R) (x : R) (k : nat) : R := match cs with [] => 0 | c :: cs' => c * x ^ k + powers cs' x (S k) end.
Definition polynomial (cs : list R) (x : R) : R := powers cs x 0.
(* the sum of squared residuals of the line a + b x *)
Definition residuals (pts : list (R * R)) (a b : R) : R := total (fun p => Rsqr (snd p - (a + b * fst p))) pts.
(* a + b x is the one and only line of least squares *)
Definition BestLine (pts : list (R * R)) (a b : R) : Prop :=
  forall a' b', residuals pts a b <= residuals pts a' b' /\ (residuals pts a' b' = residuals pts a b -> a' = a /\ b' = b).
Definition grid (x h : R) (n : nat) : list R := map (fun i => x + INR i * h) (seq 0 n).
