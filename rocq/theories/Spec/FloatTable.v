(* Tables of the values of a function at equal distances. *)
From Coq Require Import Reals ZArith.
From Verif Require Import Spec.Interp.
Local Open Scope R_scope.

(* v lies above x on the broken line through the points (base + k step, d k),
   k = 0 ... n, whose first and last part go on without end *)
Definition Along (base step : R) (d : Z -> R) (n : Z) (x v : R) : Prop :=
  exists k, (0 <= k < n)%Z /\ (k = 0%Z \/ base + IZR k * step <= x) /\ (k = (n - 1)%Z \/ x <= base + IZR (k + 1) * step) /\
  v = chord (base + IZR k * step) (d k) (base + IZR (k + 1) * step) (d (k + 1)%Z) x.
