(* Operations of flut::prop_node (flut/prop_node.hpp, flut/prop_node.cpp).  A
   const operation still changes the mutable access mark, also when it throws,
   so it returns the node together with its result. *)
From Verif Require Import Model.Base Model.StdString Model.Strings Model.PropTree.

(* access (flut/prop_node.hpp:211-212) *)
Definition pn_access (p : pnode) : pnode := PN true (pn_value p) (pn_children p).

(* find, through begin() (flut/prop_node.hpp:185-191) *)
Fixpoint child_index (cs : list (str * pnode)) (key : str) : option nat :=
  match cs with
  | [] => None
  | (k, _) :: cs' => if str_eqb k key then Some O else option_map S (child_index cs' key)
  end.
Definition pn_find (p : pnode) (key : str) : pnode * option nat := (pn_access p, child_index (pn_children p) key).

(* an operation on the child at an iterator or index *)
Fixpoint at_child {R} (cs : list (str * pnode)) (i : nat) (g : pnode -> pnode * res R) : list (str * pnode) * res R :=
  match cs, i with
  | [], _ => ([], UB)
  | (k, c) :: cs', O => let (c', r) := g c in ((k, c') :: cs', r)
  | kc :: cs', S j => let (cs2, r) := at_child cs' j g in (kc :: cs2, r)
  end.
Definition with_child {R} (p : pnode) (i : nat) (g : pnode -> pnode * res R) : pnode * res R :=
  let (cs, r) := at_child (pn_children p) i g in (PN (pn_accessed p) (pn_value p) cs, r).

Section Get.
(* string_cast<T>::from *)
Context {T : Type} (from : str -> res T).

(* get<T>() with the generic prop_node_cast (flut/prop_node.hpp:59, 240-241) *)
Definition pn_get (p : pnode) : pnode * res T := (pn_access p, from (pn_value p)).
(* get<T>( key ), get_child( key ) (flut/prop_node.hpp:62, 143-146) *)
Definition pn_get_key (p : pnode) (key : str) : pnode * res T :=
  match pn_find p key with
  | (p1, None) => (p1, Throw)
  | (p1, Some i) => with_child (pn_access p1) i pn_get
  end.
(* get<T>( key, def ) (flut/prop_node.hpp:65-66) *)
Definition pn_get_default (p : pnode) (key : str) (def : T) : pnode * res T :=
  match pn_find p key with
  | (p1, None) => (p1, Ok def)
  | (p1, Some i) => with_child p1 i pn_get
  end.
(* get_any<T>( keys, def ) and get_any<T>( keys ) (flut/prop_node.hpp:69-74); the
   last argument is the result when no key is found *)
Fixpoint pn_get_any (p : pnode) (keys : list str) (none : res T) : pnode * res T :=
  match keys with
  | [] => (p, none)
  | key :: keys' =>
    match pn_find p key with
    | (p1, Some i) => with_child p1 i pn_get
    | (p1, None) => pn_get_any p1 keys' none
    end
  end.
(* get_delimited (flut/prop_node.hpp:116-120) *)
Fixpoint pn_get_delimited (fuel : nat) (p : pnode) (key : str) (delim : ascii) : pnode * res T :=
  match fuel with
  | O => (p, OutOfFuel)
  | S fuel' =>
    let pos := find_first_of key [delim] 0 in
    if (pos =? npos)%Z then pn_get_key p key
    else
      match substr key 0 pos, mid_str key (wadd pos 1) npos with
      | Ok head, Ok tail =>
        match pn_find p head with
        | (p1, None) => (p1, Throw)
        | (p1, Some i) => with_child (pn_access p1) i (fun c => pn_get_delimited fuel' c tail delim)
        end
      | _, _ => (p, Throw)
      end
  end.
End Get.

(* has_key, has_value( key ) (flut/prop_node.hpp:77-81) *)
Definition pn_has_key (p : pnode) (key : str) : pnode * bool :=
  let (p1, o) := pn_find p key in (p1, match o with Some _ => true | None => false end).
Definition pn_has_value_key (p : pnode) (key : str) : pnode * bool :=
  let (p1, o) := pn_find p key in
  (p1, match o with
       | Some i => match nth_error (pn_children p1) i with Some kc => has_value (snd kc) | None => false end
       | None => false
       end).

(* push_back (flut/prop_node.hpp:123-130).  When the vector grows its elements
   are copied (the move constructor may throw, so the vector may not use it),
   and copies carry no access marks.  grow tells for which sizes it grows. *)
Definition pn_push_back (grow : nat -> bool) (p : pnode) (key : str) (c : pnode) : pnode :=
  let cs := pn_children p in
  let cs' := if grow (length cs) then map (fun kc => (fst kc, pn_copy (snd kc))) cs else cs in
  PN (pn_accessed p) (pn_value p) (cs' ++ [(key, c)]).

(* set( key, v ) (flut/prop_node.hpp:100-106): assignment keeps the mark
   (flut/prop_node.hpp:50-52); v is the text of the value *)
Definition pn_set (grow : nat -> bool) (p : pnode) (key v : str) : pnode :=
  match pn_find p key with
  | (p1, None) => pn_push_back grow p1 key (pn_of v)
  | (p1, Some i) => fst (with_child p1 i (fun c => (PN (pn_accessed c) v [], Ok tt)))
  end.

(* an operation on the node returned by get_or_add_child (flut/prop_node.hpp:169-170) *)
Definition pn_or_add {R} (grow : nat -> bool) (p : pnode) (key : str) (g : pnode -> pnode * res R) : pnode * res R :=
  match pn_find (pn_access p) key with
  | (p1, Some i) => with_child p1 i (fun c => g (pn_access c))
  | (p1, None) => let p2 := pn_push_back grow p1 key pn_empty in with_child p2 (length (pn_children p1)) g
  end.
(* set_delimited (flut/prop_node.hpp:109-113) *)
Fixpoint pn_set_delimited (grow : nat -> bool) (fuel : nat) (p : pnode) (key v : str) (delim : ascii) : pnode * res unit :=
  match fuel with
  | O => (p, OutOfFuel)
  | S fuel' =>
    let pos := find_first_of key [delim] 0 in
    if (pos =? npos)%Z then (pn_set grow p key v, Ok tt)
    else
      match substr key 0 pos, mid_str key (wadd pos 1) npos with
      | Ok head, Ok tail => pn_or_add grow p head (fun c => pn_set_delimited grow fuel' c tail v delim)
      | _, _ => (p, Throw)
      end
  end.

(* an operation on the node returned by try_get_child (flut/prop_node.hpp:156-159) *)
Definition pn_try {R} (p : pnode) (key : str) (g : pnode -> pnode * res (option R)) : pnode * res (option R) :=
  match pn_find (pn_access p) key with
  | (p1, Some i) => with_child p1 i (fun c => g (pn_access c))
  | (p1, None) => (p1, Ok None)
  end.
(* try_get_child_delimited (flut/prop_node.hpp:160-166), returning the node found *)
Fixpoint pn_try_delimited (fuel : nat) (p : pnode) (key : str) (delim : ascii) : pnode * res (option pnode) :=
  match fuel with
  | O => (p, OutOfFuel)
  | S fuel' =>
    let pos := find_first_of key [delim] 0 in
    if (pos =? npos)%Z then pn_try p key (fun c => (c, Ok (Some c)))
    else
      match substr key 0 pos, mid_str key (wadd pos 1) npos with
      | Ok head, Ok tail => pn_try p head (fun c => pn_try_delimited fuel' c tail delim)
      | _, _ => (p, Throw)
      end
  end.

(* get_child( idx ), get_key( idx ) (flut/prop_node.hpp:149-153) *)
Definition pn_child_at (p : pnode) (i : nat) : pnode * res pnode :=
  match nth_error (pn_children p) i with Some kc => (pn_access p, Ok (snd kc)) | None => (p, Throw) end.
Definition pn_key_at (p : pnode) (i : nat) : pnode * res str :=
  match nth_error (pn_children p) i with Some kc => (pn_access p, Ok (fst kc)) | None => (p, Throw) end.

(* clear (flut/prop_node.hpp:90) *)
Definition pn_clear (p : pnode) : pnode := PN (pn_accessed p) [] [].
(* operator= (flut/prop_node.hpp:50) from a node that is not this one; marks
   inside the copied children are left open by std::vector, here: cleared *)
Definition pn_assign (p q : pnode) : pnode := PN (pn_accessed p) (pn_value q) (pn_children (pn_copy q)).

(* operator== (flut/prop_node.cpp:54-71) *)
Fixpoint pn_eqb (a b : pnode) {struct a} : bool :=
  let 'PN _ va ca := a in
  let 'PN _ vb cb := b in
  if negb (str_eqb va vb) then false
  else if negb (length ca =? length cb) then false
  else
    (fix go (la lb : list (str * pnode)) {struct la} : bool :=
       match la, lb with
       | (ka, xa) :: la', (kb, xb) :: lb' =>
         if negb (str_eqb ka kb) then false else if negb (pn_eqb xa xb) then false else go la' lb'
       | _, _ => true
       end) ca cb.

(* count_unaccessed, clear_accessed_recursively (flut/prop_node.hpp:206-208) *)
Fixpoint count_unaccessed (p : pnode) : nat :=
  let 'PN a _ c := p in
  (if a then 0 else 1) + fold_right (fun kc n => count_unaccessed (snd kc) + n) 0 c.
Fixpoint clear_accessed (p : pnode) : pnode :=
  let 'PN _ v c := p in PN false v (map (fun kc => (fst kc, clear_accessed (snd kc))) c).

(* log_unaccessed (flut/prop_node_tools.cpp:305-322): the lines passed to
   log::message and the tree with the marks it leaves *)
Fixpoint log_unaccessed (p : pnode) (depth : nat) : pnode * list str :=
  let 'PN _ v c := p in
  let r := map (fun kc =>
    let n := snd kc in
    let line := repeat " "%char (depth * 2) ++ fst kc ++
      (if pn_accessed n then []
       else (if has_value n then [" "; "="; " "]%char ++ pn_value n else []) ++ [" "; "*"]%char) in
    let (n', rest) := log_unaccessed n (S depth) in
    ((fst kc, n'), (if 0 <? count_unaccessed n then [line] else []) ++ rest)) c in
  (PN true v (map fst r), concat (map snd r)).

(* merge_prop_nodes (flut/prop_node_tools.cpp:245-255) *)
Fixpoint merge_loop (grow : nat -> bool) (p : pnode) (os : list (str * pnode)) (overwrite : bool) : pnode :=
  match os with
  | [] => p
  | (k, o) :: os' =>
    let p' :=
      match pn_find p k with
      | (p1, None) => pn_push_back grow p1 k (pn_copy o)
      | (p1, Some i) => if overwrite then fst (with_child p1 i (fun c => (pn_assign c o, Ok tt))) else p1
      end in
    merge_loop grow p' os' overwrite
  end.
Definition merge_prop_nodes (grow : nat -> bool) (p other : pnode) (overwrite : bool) : pnode :=
  merge_loop grow p (pn_children other) overwrite.
