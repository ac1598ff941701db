(* flut::prop_node as a value (flut/prop_node.hpp:27-217) *)
From Verif Require Import Model.Base Model.StdString.

(* accessed_flag, value, children (flut/prop_node.hpp:214-216) *)
Inductive pnode := PN (accessed : bool) (value : str) (children : list (str * pnode)).

Definition pn_accessed (p : pnode) : bool := let 'PN a _ _ := p in a.
Definition pn_value (p : pnode) : str := let 'PN _ v _ := p in v.
Definition pn_children (p : pnode) : list (str * pnode) := let 'PN _ _ c := p in c.

(* prop_node() (flut/prop_node.hpp:38) *)
Definition pn_empty : pnode := PN false [] [].
(* prop_node( const value_t& ) (flut/prop_node.hpp:40-41) *)
Definition pn_of (v : str) : pnode := PN false v [].
(* has_value, size, empty (flut/prop_node.hpp:77, 84, 87) *)
Definition has_value (p : pnode) : bool := match pn_value p with [] => false | _ => true end.
Definition pn_size (p : pnode) : nat := length (pn_children p).
Definition is_empty (p : pnode) : bool := match pn_value p, pn_children p with [], [] => true | _, _ => false end.
(* set_value (flut/prop_node.hpp:96-97) *)
Definition set_value (p : pnode) (v : str) : pnode := PN (pn_accessed p) v (pn_children p).
(* push_back (flut/prop_node.hpp:123-130) *)
Definition pn_push (p : pnode) (k : str) (c : pnode) : pnode := PN (pn_accessed p) (pn_value p) (pn_children p ++ [(k, c)]).

(* the copy constructor copies recursively and clears every access flag
   (flut/prop_node.hpp:42) *)
Fixpoint pn_copy (p : pnode) : pnode :=
  let 'PN _ v c := p in PN false v (map (fun kc => (fst kc, pn_copy (snd kc))) c).

(* induction over trees *)
Fixpoint pnode_rect' (P : pnode -> Prop)
  (H : forall a v c, Forall (fun kc => P (snd kc)) c -> P (PN a v c)) (p : pnode) : P p :=
  let 'PN a v c := p in
  H a v c ((fix go (l : list (str * pnode)) : Forall (fun kc => P (snd kc)) l :=
    match l with
    | [] => Forall_nil _
    | kc :: l' => Forall_cons kc (pnode_rect' P H (snd kc)) (go l')
    end) c).
