(* C06: sorted_vector *)
From Coq Require Import Permutation.
From Verif Require Import Model.Base Model.SortedVector Proofs.SortedVectorProofs.

(* Inserting any elements in any order: sorted, nothing lost or invented,
   equivalent elements stay in insertion order. *)
Theorem C06_sorted_vector_insert_all : forall (A : Type) (lt : A -> A -> bool),
  strict_weak_order lt -> forall es : list A,
  exists l, insert_all lt [] es = Ok l /\ sorted lt l /\ Permutation l es /\
    forall x, filter (equiv lt x) l = filter (equiv lt x) es.
Proof. exact (fun A lt H es => insert_all_spec lt H es [] (sorted_nil lt)). Qed.
Print Assumptions C06_sorted_vector_insert_all.

(* The returned iterator designates the new element; the rest is untouched. *)
Theorem C06_sorted_vector_insert_position : forall (A : Type) (lt : A -> A -> bool),
  strict_weak_order lt -> forall l e, sorted lt l ->
  exists l' i, insert lt l e = Ok (l', i) /\ nth_error l' i = Some e /\
    l' = firstn i l ++ e :: skipn i l /\ sorted lt l'.
Proof. exact @insert_position. Qed.
Print Assumptions C06_sorted_vector_insert_position.

Theorem C06_sorted_vector_erase : forall (A : Type) (lt : A -> A -> bool) l i,
  sorted lt l -> i < length l ->
  exists l', erase l i = Ok l' /\ sorted lt l' /\ (forall x, nth_error l i = Some x -> Permutation l (x :: l')).
Proof. exact @erase_sorted. Qed.
Print Assumptions C06_sorted_vector_erase.

(* pairs ordered by their first component: a weak order with real ties *)
Example C06_nonvacuous :
  let lt := fun a b : nat * nat => fst a <? fst b in
  strict_weak_order lt /\
  insert_all lt [] [(3, 0); (1, 1); (3, 2); (2, 3); (1, 4)] = Ok [(1, 1); (1, 4); (2, 3); (3, 0); (3, 2)].
Proof.
  intros lt; split; [|reflexivity]. split; [|split]; intros *; unfold lt;
    repeat match goal with |- context[?a <? ?b] => destruct (Nat.ltb_spec a b) end; try discriminate; try reflexivity; lia.
Qed.
