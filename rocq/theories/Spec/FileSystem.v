(* File systems, plain names in them, and what is meant by making a folder. *)
From Verif Require Import Model.Base Model.StdString Model.Number Model.FileSystem.

(* everything lies in a folder *)
Definition Tree (s : fs) : Prop :=
  s [] = Some Dir /\ forall k c n, s (k ++ [c]) = Some n -> s k = Some Dir.
Definition Same (s t : fs) : Prop := forall k, t k = s k.
(* t has all s has, and besides only folders *)
Definition Only_more_folders (s t : fs) : Prop := forall k, t k = s k \/ s k = None /\ t k = Some Dir.
Definition Prefix (a k : list str) : Prop := exists r, k = a ++ r.
(* t is s with the folder k and the folders above it *)
Definition With_folders (k : list str) (s t : fs) : Prop :=
  forall a, (Prefix a k -> s a = None -> t a = Some Dir) /\ (~ Prefix a k \/ s a <> None -> t a = s a).

(* the name of a file or a folder *)
Definition Clean (c : str) : Prop :=
  c <> [] /\ c <> ["."%char] /\ c <> ["."; "."]%char /\
  ~ In "/"%char c /\ ~ In "\"%char c /\ ~ In NUL c.
(* a path as text, and what it names when the current folder is cwd *)
Inductive Names (cwd : list str) : str -> list str -> Prop :=
| N_here c : Clean c -> Names cwd c (cwd ++ [c])
| N_top c : Clean c -> Names cwd ("/"%char :: c) [c]
| N_in p k c : Names cwd p k -> Clean c -> Names cwd (p ++ "/"%char :: c) (k ++ [c]).
(* no file is in the way of making what is above k *)
Definition Unblocked (s : fs) (k : list str) : Prop := forall a c r, k = a ++ c :: r -> forall f, s a <> Some (File f).

(* "name", "name (1)", "name (2)", ... *)
Definition mark (i : Z) : str := if (i =? 0)%Z then [] else [" "; "("]%char ++ dec i ++ [")"]%char.
Definition Numbered (k : list str) (i : Z) (k' : list str) : Prop :=
  exists a c, k = a ++ [c] /\ k' = a ++ [c ++ mark i].
