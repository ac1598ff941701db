(* flut/container_tools.hpp.  Elements are reals (exact) or ints; indices are
   below 2 ^ 64.  Some declarations only compile with MSVC: "typename const
   It::value_type" (lines 87-88) and "I::value_type( 0 )" (line 34). *)
From Coq Require Import Reals ZArith List Ascii.
From Verif Require Import Model.Base Model.Math Model.Regression Model.StdString Model.Number Model.Range Model.PropTree.
Import ListNotations.

(* std::sort and std::partial_sort_copy on a totally ordered type: the sorted
   list is unique, so it does not matter how they work *)
Fixpoint insert {A} (leb : A -> A -> bool) (x : A) (l : list A) : list A :=
  match l with
  | nil => [x]
  | y :: l' => if leb x y then x :: l else y :: insert leb x l'
  end.
Definition std_sort {A} (leb : A -> A -> bool) (l : list A) : list A := fold_right (insert leb) nil l.
(* std::partial_sort_copy into a vector with old contents: the smallest
   min( size, old size ) elements in order, the rest of the vector is kept *)
Definition partial_sort_copy {A} (leb : A -> A -> bool) (l old : list A) : list A :=
  let k := Nat.min (length l) (length old) in
  firstn k (std_sort leb l) ++ skipn k old.

(* sorted_copy (flut/container_tools.hpp:46) *)
Definition sorted_copy {A} (leb : A -> A -> bool) (l : list A) : list A := std_sort leb l.

(* median (flut/container_tools.hpp:48-54) for T = real_t *)
Definition medianR (vec : list R) : res R :=
  let* _ := assert_ (0 <? length vec)%nat in
  let s := length vec in
  let v := sorted_copy Rleb vec in
  if (s mod 2 =? 1)%nat then vget v (s / 2)
  else
    let* a := vget v (s / 2) in
    let* b := vget v (s / 2 - 1) in
    rdiv (a + b)%R 2%R.
(* and for an integer type *)
Definition medianZ (t : int_type) (vec : list Z) : res Z :=
  let* _ := assert_ (0 <? length vec)%nat in
  let s := length vec in
  let v := sorted_copy Z.leb vec in
  if (s mod 2 =? 1)%nat then vget v (s / 2)
  else
    let* a := vget v (s / 2) in
    let* b := vget v (s / 2 - 1) in
    let* c := arith t (a + b)%Z in
    arith t (Z.quot c 2).

(* average (flut/container_tools.hpp:33-37) *)
Definition averageR (vec : list R) : res R := rdiv (fold_left Rplus vec 0%R) (INR (length vec)).
Fixpoint accumulate (t : int_type) (vec : list Z) (acc : Z) : res Z :=
  match vec with
  | nil => Ok acc
  | x :: vec' => let* acc := arith t (acc + x)%Z in accumulate t vec' acc
  end.
Definition averageZ (t : int_type) (vec : list Z) : res Z :=
  let* s := accumulate t vec 0 in
  let n := Z.of_nat (length vec) in
  if (n =? 0)%Z then UB else arith t (Z.quot s n).

(* top_average (flut/container_tools.hpp:56-60) *)
Definition top_average (vec : list R) (count : nat) : res R :=
  averageR (partial_sort_copy Rleb vec (repeat 0%R count)).

(* sort_indices (flut/container_tools.hpp:39-44): sort is std::sort with the
   comparison of the elements at two indices; it is not stable, so the order of
   equal elements is left open *)
Definition sort_indices {A} (sort : (nat -> nat -> bool) -> list nat -> list nat) (ltb : A -> A -> bool) (cont : list A) : list nat :=
  sort (fun i j => match nth_error cont i, nth_error cont j with Some a, Some b => ltb a b | _, _ => false end) (seq 0 (length cont)).

(* std::find_if *)
Fixpoint std_find_if {A} (p : A -> bool) (l : list A) (i : nat) : nat :=
  match l with
  | nil => i
  | x :: l' => if p x then i else std_find_if p l' (S i)
  end.
(* find, find_if (flut/container_tools.hpp:9-19): the position, size if none *)
Definition find_if {A} (p : A -> bool) (l : list A) : nat := std_find_if p l 0.
(* find_index (flut/container_tools.hpp:62-66); no_index = npos *)
Definition no_index : Z := (2 ^ 64 - 1)%Z.
Definition find_index {A} (eqb : A -> A -> bool) (vec : list A) (val : A) : Z :=
  let it := std_find_if (fun x => eqb x val) vec 0 in
  if (it =? length vec)%nat then no_index else Z.of_nat it.
(* back_index (flut/container_tools.hpp:68-69) *)
Definition back_index {A} (vec : list A) : res nat :=
  let* _ := assert_ (0 <? length vec)%nat in Ok (length vec - 1)%nat.

(* std::min_element and std::max_element with <: the first that is least (greatest) *)
Fixpoint best {A} (better : A -> A -> bool) (x : A) (at_ : nat) (l : list A) (i : nat) : nat :=
  match l with
  | nil => at_
  | y :: l' => if better y x then best better y i l' (S i) else best better x at_ l' (S i)
  end.
(* min_element, max_element (flut/container_tools.hpp:21-31): the position, which
   is the end for an empty container *)
Definition min_element {A} (ltb : A -> A -> bool) (l : list A) : nat := match l with nil => 0 | x :: l' => best ltb x 0 l' 1 end.
Definition max_element {A} (ltb : A -> A -> bool) (l : list A) : nat := match l with nil => 0 | x :: l' => best (fun y m => ltb m y) x 0 l' 1 end.

(* view_if::iterator (flut/container_tools.hpp:78-91); positions are indices,
   last_ is the size, and dereferencing the end is undefined *)
Fixpoint next_match {A} (fuel : nat) (l : list A) (p : A -> bool) (pos : nat) : res nat :=
  match fuel with
  | O => OutOfFuel
  | S fuel' =>
    if (pos =? length l)%nat then Ok pos
    else
      let* x := vget l pos in
      if p x then Ok pos else next_match fuel' l p (S pos)
  end.
Definition view_begin {A} (l : list A) (p : A -> bool) : res nat := next_match (S (length l)) l p 0.
Definition view_end {A} (l : list A) (p : A -> bool) : res nat := next_match (S (length l)) l p (length l).
Definition view_next {A} (l : list A) (p : A -> bool) (pos : nat) : res nat := next_match (S (length l)) l p (S pos).
(* for ( auto& x : view ) *)
Fixpoint view_loop {A} (fuel : nat) (l : list A) (p : A -> bool) (pos last : nat) : res (list A) :=
  match fuel with
  | O => OutOfFuel
  | S fuel' =>
    if (pos =? last)%nat then Ok nil
    else
      let* x := vget l pos in
      let* pos := view_next l p pos in
      let* r := view_loop fuel' l p pos last in
      Ok (x :: r)
  end.
Definition view_all {A} (l : list A) (p : A -> bool) : res (list A) :=
  let* b := view_begin l p in
  let* e := view_end l p in
  view_loop (S (length l)) l p b e.

(* prop_node::select (flut/prop_node.hpp:199): begin() marks the node accessed *)
Definition pn_select (p : pnode) (key : str) : pnode * res (list (str * pnode)) :=
  (PN true (pn_value p) (pn_children p), view_all (pn_children p) (fun kvp => str_eqb (fst kvp) key)).

(* operator<<( std::ostream&, vector ) (flut/container_tools.hpp:99-106): what
   is written for elements whose texts are given *)
Fixpoint print_rest (l : list str) : str :=
  match l with
  | nil => ["010"%char]
  | x :: l' => "009"%char :: x ++ print_rest l'
  end.
Definition print_vector (l : list str) : str :=
  match l with
  | nil => ["010"%char]
  | x :: l' => x ++ print_rest l'
  end.
