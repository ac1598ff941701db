(* Variables that may have no value. *)
From Coq Require Import List Arith.
From Verif Require Import Model.Optional.
Import ListNotations.

(* what variable i holds after a history: the value of its last assignment *)
Inductive Holds {T} : list (opt_op T) -> nat -> option T -> Prop :=
| HStart i : Holds [] i None
| HEmpty ops i : Holds (ops ++ [OpEmpty i]) i None
| HValue ops i v : Holds (ops ++ [OpValue i v]) i (Some v)
| HCopy ops i j v : Holds ops j v -> Holds (ops ++ [OpCopy i j]) i v
| HOther ops o i v : Holds ops i v -> (match o with OpEmpty k | OpValue k _ | OpCopy k _ => k <> i end) -> Holds (ops ++ [o]) i v.
