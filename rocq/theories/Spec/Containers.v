(* Order, middles and sums of lists. *)
From Coq Require Import Reals List Permutation Arith.
From Verif Require Import Spec.Average.
Import ListNotations.
Local Open Scope R_scope.

(* ordered by a relation *)
Definition Ordered {A} (le : A -> A -> Prop) (l : list A) : Prop :=
  forall i j x y, (i < j)%nat -> nth_error l i = Some x -> nth_error l j = Some y -> le x y.
(* the middle of an ordered list: the middle element or the mean of two *)
Inductive Middle (s : list R) (m : R) : Prop :=
| MOdd l r : s = l ++ m :: r -> length l = length r -> Middle s m
| MEven l r a b : s = l ++ a :: b :: r -> length l = length r -> m = (a + b) / 2 -> Middle s m.
Definition MedianOf (l : list R) (m : R) : Prop := exists s, Permutation l s /\ Ordered Rle s /\ Middle s m.
(* how far numbers are from m, in total *)
Definition deviation (l : list R) (m : R) : R := total (map (fun x => Rabs (x - m)) l).
Definition below (l : list R) (m : R) : list R := filter (fun x => if Rlt_dec x m then true else false) l.
Definition above (l : list R) (m : R) : list R := filter (fun x => if Rlt_dec m x then true else false) l.
(* s are k smallest elements of l *)
Definition Smallest (l s : list R) : Prop := exists rest, Permutation l (s ++ rest) /\ forall x y, In x s -> In y rest -> x <= y.
