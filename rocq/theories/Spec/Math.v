(* What the scalar functions of flut/math are meant to compute. *)
From Coq Require Import Reals.
From Verif Require Import Model.Base.
Local Open Scope R_scope.

(* w lies in [lo, hi] and no other point of it is closer to v *)
Definition Nearest (lo hi v w : R) : Prop :=
  lo <= w <= hi /\ forall u, lo <= u <= hi -> Rabs (v - w) <= Rabs (v - u).
(* r is the remainder of x by y, with the sign of x *)
Definition Remainder (x y r : R) : Prop :=
  (exists n : Z, x = IZR n * y + r) /\ Rabs r < Rabs y /\ 0 <= r * x.
(* a and b differ by a whole number of periods *)
Definition Congruent (period a b : R) : Prop := exists n : Z, a = b + IZR n * period.
Definition Increasing (f : R -> R) : Prop := forall x y, x < y -> f x < f y.
Definition Power_of_two (v : Z) : Prop := exists k, (0 <= k)%Z /\ v = (2 ^ k)%Z.
