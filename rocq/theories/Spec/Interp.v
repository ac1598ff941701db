(* Straight lines and broken lines. *)
From Coq Require Import Reals List ZArith.
From Verif Require Import Model.Base.
Import ListNotations.
Local Open Scope R_scope.

(* the line through (x0, y0) and (x1, y1) *)
Definition chord (x0 y0 x1 y1 x : R) : R := y0 + (x - x0) / (x1 - x0) * (y1 - y0).
(* the i-th of the nodes that cut [a, b] in n parts *)
Definition node (a b : R) (n i : Z) : R := a + IZR i * ((b - a) / IZR n).

(* keys never decrease *)
Definition SortedKeys (l : list (R * R)) : Prop :=
  forall i j p q, (i <= j)%nat -> nth_error l i = Some p -> nth_error l j = Some q -> fst p <= fst q.
(* the value of the broken line through the samples, constant outside *)
Inductive Broken (l : list (R * R)) (key v : R) : Prop :=
| BAfter front k : l = front ++ [(k, v)] -> (forall p, In p l -> fst p <= key) -> Broken l key v
| BBefore k tail : l = (k, v) :: tail -> (forall p, In p l -> key < fst p) -> Broken l key v
| BBetween front k0 v0 k1 v1 tail : l = front ++ (k0, v0) :: (k1, v1) :: tail ->
    k0 <= key < k1 -> v = chord k0 v0 k1 v1 key -> Broken l key v.
(* samples at 0, 1, 2, ... *)
Definition enumerate (l : list R) : list (R * R) := combine (map INR (seq 0 (length l))) l.
Definition SortedInts (l : list (Z * R)) : Prop :=
  forall i j p q, (i <= j)%nat -> nth_error l i = Some p -> nth_error l j = Some q -> (fst p <= fst q)%Z.
(* the value of the last sample not after the key; the first before all *)
Inductive Held (l : list (Z * R)) (key : Z) (v : R) : Prop :=
| HBefore k tail : l = (k, v) :: tail -> (forall p, In p l -> (key < fst p)%Z) -> Held l key v
| HFrom front k tail : l = front ++ (k, v) :: tail -> (k <= key)%Z -> (forall p, In p tail -> (key < fst p)%Z) -> Held l key v.
