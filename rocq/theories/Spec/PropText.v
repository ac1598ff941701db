(* Which property trees the text format can carry. *)
From Coq Require Import List Ascii ZArith.
From Verif Require Import Spec.Strings Model.PropTree.
Import ListNotations.
Local Open Scope nat_scope.

Definition white : str := [" "; "009"; "013"; "010"; "012"; "011"]%char.
Definition letter (c : ascii) : Prop := 65 <= nat_of_ascii c <= 90 \/ 97 <= nat_of_ascii c <= 122.
(* characters with a meaning in the format *)
Definition marks : str := [";"; "'"; "="; "{"; "}"; "%"]%char.
(* characters that make the writer put the string in quotes *)
Definition forces_quotes (c : ascii) : Prop := nat_of_ascii c < 33 \/ c = """"%char \/ c = "\"%char.

Definition Safe (s : str) : Prop := Forall plain s /\ (Exists forces_quotes s \/ free marks s).
Definition SafeLabel (s : str) : Prop := Safe s /\ exists c m, IsTrim white s (c :: m) /\ letter c.

Inductive SafeTree : pnode -> Prop :=
| Safe_leaf a v : Safe v -> SafeTree (PN a v [])
| Safe_group a c : c <> [] -> Forall (fun kc => SafeLabel (fst kc) /\ SafeTree (snd kc)) c -> SafeTree (PN a [] c).
Definition SafeChildren (c : list (str * pnode)) : Prop := Forall (fun kc => SafeLabel (fst kc) /\ SafeTree (snd kc)) c.

(* the same tree, every label and value without surrounding white space, no
   access marks *)
Inductive Trimmed : pnode -> pnode -> Prop :=
| Trimmed_node a v c v' c' : IsTrim white v v' ->
    Forall2 (fun kc kc' => IsTrim white (fst kc) (fst kc') /\ Trimmed (snd kc) (snd kc')) c c' ->
    Trimmed (PN a v c) (PN false v' c').

(* the same tree, without access marks *)
Inductive Unmarked : pnode -> pnode -> Prop :=
| Unmarked_node a v c c' :
    Forall2 (fun kc kc' => fst kc = fst kc' /\ Unmarked (snd kc) (snd kc')) c c' ->
    Unmarked (PN a v c) (PN false v c').

(* no surrounding white space anywhere *)
Inductive Neat : pnode -> Prop :=
| Neat_node a v c : IsTrim white v v -> Forall (fun kc => IsTrim white (fst kc) (fst kc) /\ Neat (snd kc)) c -> Neat (PN a v c).
