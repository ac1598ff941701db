(* What a set of flags should hold, from the history of calls (latest first). *)
From Coq Require Import List ZArith.
From Verif Require Import Model.FlagSet.
Import ListNotations.
Local Open Scope Z_scope.

Fixpoint holds (h : list flag_op) (i : Z) : bool :=
  match h with
  | [] | ClearAll :: _ => false
  | SetValue j b :: h' => if Z.eq_dec i j then b else holds h' i
  | SetFlag j :: h' => if Z.eq_dec i j then true else holds h' i
  | ClearFlag j :: h' => if Z.eq_dec i j then false else holds h' i
  | SetList l :: h' => if in_dec Z.eq_dec i l then true else holds h' i
  end.
(* the flags a call names *)
Definition named (o : flag_op) : list Z :=
  match o with SetValue i _ | SetFlag i | ClearFlag i => [i] | SetList l => l | ClearAll => [] end.
