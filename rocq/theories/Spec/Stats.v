(* Sums, mean and (population) covariance of real sequences. *)
From Coq Require Import Reals.
Local Open Scope R_scope.

Fixpoint sumR (n : nat) (f : nat -> R) : R :=
  match n with O => 0 | S k => sumR k f + f k end.
Definition mean (n : nat) (x : nat -> R) : R := sumR n x / INR n.
Definition cov (n : nat) (x y : nat -> R) : R :=
  sumR n (fun i => (x i - mean n x) * (y i - mean n y)) / INR n.
