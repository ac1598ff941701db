(* Text made of lines, and lines made of fields. *)
From Coq Require Import List Ascii.
From Verif Require Import Model.StdString Model.Strings.
Import ListNotations.

Fixpoint fields (l : list str) : str :=
  match l with
  | [] => []
  | [a] => a
  | a :: l' => a ++ TAB :: fields l'
  end.
Definition lines (l : list (list str)) : str := concat (map (fun r => fields r ++ [LF]) l).
(* what can be a field *)
Definition Plain (s : str) : Prop := ~ In TAB s /\ ~ In LF s.
(* the label of a channel, a row or a column; those without have the empty one *)
Definition named (o : option str) : str := match o with Some l => l | None => [] end.
(* each string once, in the order of first appearance *)
Definition firsts (l : list str) : list str := fold_left (fun a x => if in_dec (list_eq_dec ascii_dec) x a then a else a ++ [x]) l [].
