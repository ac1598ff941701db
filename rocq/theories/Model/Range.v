(* flut/math/irange.hpp: integer ranges.  T is a signed integer type of at least
   the size of int, where overflow is undefined, or an unsigned one, where it
   wraps.  (The header includes <xutility>, so it compiles with MSVC only; the
   postfix ++ of irange::iterator does not compile and is not modelled.) *)
From Coq Require Import ZArith List.
From Verif Require Import Model.Base.
Local Open Scope Z_scope.

Inductive int_type := Signed (bits : Z) | Unsigned (bits : Z).
Definition type_min (t : int_type) : Z := match t with Signed b => - 2 ^ (b - 1) | Unsigned _ => 0 end.
Definition type_max (t : int_type) : Z := match t with Signed b => 2 ^ (b - 1) - 1 | Unsigned b => 2 ^ b - 1 end.
Definition fits (t : int_type) (z : Z) : bool := (type_min t <=? z) && (z <=? type_max t).
(* the value of an arithmetic operation of exact result z *)
Definition arith (t : int_type) (z : Z) : res Z :=
  match t with
  | Signed _ => if fits t z then Ok z else UB
  | Unsigned b => Ok (z mod 2 ^ b)
  end.

(* irange_step and its iterator (flut/math/irange.hpp:33-57); irange (lines
   7-31) is the case step = 1: its iterator uses ++value_ *)
Record range := mkRange { begin_ : Z; end_ : Z; step_ : Z }.
(* make_irange (flut/math/irange.hpp:60-63); irange() (line 11) *)
Definition irange (b e : Z) : range := mkRange b e 1.
Definition irange_to (e : Z) : range := irange 0 e.
Definition irange_default : range := irange 0 0.
Definition irange_step (b e s : Z) : range := mkRange b e s.
Definition irange_of (r : range) (s : Z) : range := mkRange (begin_ r) (end_ r) s.

(* operator++ (lines 20, 46) and the postfix one (line 47) *)
Definition next (t : int_type) (s v : Z) : res Z := arith t (v + s).
Definition post_next (t : int_type) (s v : Z) : res (Z * Z) :=
  let* v := arith t (v + s) in
  let* r := arith t (v - s) in
  Ok (r, v).
(* operator- (lines 19, 45): without a step there is no division *)
Definition iter_diff (t : int_type) (a b : Z) : res Z := arith t (a - b).
Definition step_diff (t : int_type) (s a b : Z) : res Z :=
  let* d := arith t (a - b) in
  if s =? 0 then UB else arith t (Z.quot d s).

(* for ( auto i : r ): the values i takes *)
Fixpoint visit (t : int_type) (s v e : Z) (fuel : nat) : res (list Z) :=
  match fuel with
  | O => OutOfFuel
  | S fuel' =>
    if v =? e then Ok []
    else
      let* w := next t s v in
      let* l := visit t s w e fuel' in
      Ok (v :: l)
  end.
Definition loop (t : int_type) (r : range) (fuel : nat) : res (list Z) := visit t (step_ r) (begin_ r) (end_ r) fuel.
