(* A printed tree: one line for each node, in preorder. *)
From Coq Require Import List Ascii.
From Verif Require Import Spec.Strings Model.StdString Model.Strings Model.PropTree Spec.PropNode.
Import ListNotations.

(* a line of the printed tree in which " = " would be at column w *)
Inductive Line (w : nat) : nat * str * pnode -> str -> Prop :=
| Line_group depth k a kc c n : 2 * depth + length k + n = w ->
    Line w (depth, k, PN a [] (kc :: c)) (repeat " "%char (2 * depth) ++ k ++ repeat " "%char n ++ [LF])
| Line_value depth k a v c n : v <> [] \/ c = [] -> 2 * depth + length k + n = w ->
    Line w (depth, k, PN a v c) (repeat " "%char (2 * depth) ++ k ++ repeat " "%char n ++ [" "; "="; " "]%char ++ v ++ [LF]).

(* the least width in which all keys fit *)
Definition Width (nodes : list (nat * str * pnode)) (w : nat) : Prop :=
  (forall d k n, In (d, k, n) nodes -> 2 * d + length k <= w) /\
  (w = 0 \/ exists d k n, In (d, k, n) nodes /\ 2 * d + length k = w).

(* a node without value and children *)
Definition Blank (t : pnode) : Prop := exists a, t = PN a [] [].
(* all nodes of a tree, in the order of flags *)
Fixpoint nodes (t : pnode) : list pnode := let 'PN _ _ cs := t in t :: flat_map (fun kc => nodes (snd kc)) cs.
