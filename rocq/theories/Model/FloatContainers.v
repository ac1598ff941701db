(* flut/container_tools.hpp for vectors of float or double.  The code is the one
   of Model/Containers.v; what differs is the arithmetic, which rounds, and the
   order, in which nan has no place. *)
From Coq Require Import ZArith List Bool.
From Verif Require Import Model.Base Model.FloatText Model.Ieee Model.FloatInterp Model.Regression Model.Containers.
Import ListNotations.

(* std::sort, std::partial_sort_copy, std::min_element and std::max_element
   demand that < is a strict weak order of the elements at hand: no element is
   before itself, and both "before" and "neither is before the other" carry over
   from element to element.  Otherwise the behaviour is undefined. *)
Definition strict_weak {A} (lt : A -> A -> bool) (l : list A) : bool :=
  let no x y := negb (lt x y) && negb (lt y x) in
  forallb (fun x => negb (lt x x) && forallb (fun y => forallb (fun z => implb (lt x y && lt y z) (lt x z) && implb (no x y && no y z) (no x z)) l) l) l.
Definition ordered_call {A B} (lt : A -> A -> bool) (l : list A) (r : B) : res B := if strict_weak lt l then Ok r else UB.

(* sorted_copy (flut/container_tools.hpp:46); sort is std::sort, which may put
   elements that are not before one another, such as -0 and 0, in any order *)
Definition f_sorted_copy (sort : list fnum -> list fnum) (l : list fnum) : res (list fnum) := ordered_call f_lt l (sort l).

(* average (flut/container_tools.hpp:33-37): std::accumulate from T( 0 ), divided
   by the distance as a T *)
Definition f_average_of (f : fmt) (vec : list fnum) : fnum :=
  f_div f (fold_left (f_add f) vec f_zero) (f_of_int f (Z.of_nat (length vec))).

(* median (flut/container_tools.hpp:48-54) *)
Definition f_median (f : fmt) (sort : list fnum -> list fnum) (vec : list fnum) : res fnum :=
  let* _ := assert_ (0 <? length vec)%nat in
  let s := length vec in
  let* v := f_sorted_copy sort vec in
  if (s mod 2 =? 1)%nat then vget v (s / 2)
  else
    let* a := vget v (s / 2) in
    let* b := vget v (s / 2 - 1) in
    Ok (f_div f (f_add f a b) (f_of_int f 2)).

(* top_average (flut/container_tools.hpp:56-60): result( count ) is count times
   T(); std::partial_sort_copy puts the first elements of the sorted vector in it *)
Definition f_top_average (f : fmt) (sort : list fnum -> list fnum) (vec : list fnum) (count : nat) : res fnum :=
  let* v := f_sorted_copy sort vec in
  let k := Nat.min (length vec) count in
  Ok (f_average_of f (firstn k v ++ skipn k (repeat f_zero count))).

(* min_element, max_element (flut/container_tools.hpp:21-31) *)
Definition f_min_element (vec : list fnum) : res nat := ordered_call f_lt vec (min_element f_lt vec).
Definition f_max_element (vec : list fnum) : res nat := ordered_call f_lt vec (max_element f_lt vec).
(* sort_indices (flut/container_tools.hpp:39-44) *)
Definition f_sort_indices (sort : (nat -> nat -> bool) -> list nat -> list nat) (cont : list fnum) : res (list nat) :=
  ordered_call f_lt cont (sort_indices sort f_lt cont).
(* find_index (flut/container_tools.hpp:62-66) *)
Definition f_find_index (vec : list fnum) (val : fnum) : Z := find_index f_eq vec val.
