(* What a client of prop_node sees. *)
From Coq Require Import List Ascii.
From Verif Require Import Spec.Strings Model.PropTree.
Import ListNotations.
Notation children_t := (list (str * pnode)).

(* c is the first child with key k *)
Definition First (k : str) (c : pnode) (cs : children_t) : Prop :=
  exists l r, cs = l ++ (k, c) :: r /\ ~ In k (map fst l).
(* c is the last child with key k *)
Definition Last (k : str) (c : pnode) (cs : children_t) : Prop :=
  exists l r, cs = l ++ (k, c) :: r /\ ~ In k (map fst r).
Definition Absent (k : str) (cs : children_t) : Prop := ~ In k (map fst cs).

(* equal up to access marks *)
Inductive Same : pnode -> pnode -> Prop :=
| Same_node a b v c d : Forall2 (fun x y => fst x = fst y /\ Same (snd x) (snd y)) c d -> Same (PN a v c) (PN b v d).
Definition SameChildren (c d : children_t) : Prop := Forall2 (fun x y => fst x = fst y /\ Same (snd x) (snd y)) c d.

(* u is the node reached from t by following keys *)
Inductive At : list str -> pnode -> pnode -> Prop :=
| At_here t : At [] t t
| At_step k ks a v cs c u : First k c cs -> At ks c u -> At (k :: ks) (PN a v cs) u.

(* key consists of the components ks, separated by d *)
Inductive Path (d : ascii) : str -> list str -> Prop :=
| Path_one k : ~ In d k -> Path d k [k]
| Path_more k rest ks : ~ In d k -> Path d rest ks -> Path d (k ++ d :: rest) (k :: ks).

(* t' is t with the nodes met while following ks marked as accessed; following
   stops at a missing key *)
Inductive Touched : list str -> pnode -> pnode -> Prop :=
| Touched_end a v cs : Touched [] (PN a v cs) (PN true v cs)
| Touched_missing k ks a v cs : Absent k cs -> Touched (k :: ks) (PN a v cs) (PN true v cs)
| Touched_step k ks a v l c c' r : ~ In k (map fst l) -> Touched ks c c' ->
    Touched (k :: ks) (PN a v (l ++ (k, c) :: r)) (PN true v (l ++ (k, c') :: r)).

(* the access marks of all nodes, in preorder *)
Fixpoint flags (t : pnode) : list bool :=
  let 'PN a _ cs := t in a :: flat_map (fun kc => flags (snd kc)) cs.

(* all nodes below t in preorder, with their depth and key *)
Fixpoint below (depth : nat) (t : pnode) : list (nat * str * pnode) :=
  let 'PN _ _ cs := t in flat_map (fun kc => (depth, fst kc, snd kc) :: below (S depth) (snd kc)) cs.

(* the keys of ks that are not in seen, each once, in order of appearance *)
Fixpoint fresh (seen ks : list str) : list str :=
  match ks with
  | [] => []
  | k :: ks' => if in_dec (list_eq_dec ascii_dec) k seen then fresh seen ks' else k :: fresh (seen ++ [k]) ks'
  end.
