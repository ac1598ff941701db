(* Property names derived from identifiers, and short type names.
   flut/system_tools.cpp:56-79, flut/prop_node_tools.hpp:9-16 *)
From Coq Require Import String.
From Verif Require Import Model.Base Model.StdString Model.Strings Model.PropTree Model.PropNode.
Open Scope Z_scope.

(* tidy_identifier (flut/system_tools.cpp:56-64) *)
Definition tidy_identifier (id : str) : res str :=
  let pos := find_last_of id (lit ":") in
  if negb (pos =? npos) then let* s := substr id (wadd pos 1) npos in trim_str s (lit "_")
  else if str_begins_with id (lit "m_") then let* s := substr id 2 npos in trim_right_str s (lit "_")
  else trim_str id (lit "_").

(* clean_type_name (flut/system_tools.cpp:66-79), applied to the name that the
   compiler (lines 69) or the demangler (lines 71-74) gives *)
Definition clean_type_name (name : str) : res str :=
  let pos := find_last_of name (lit ": ") in
  if negb (pos =? npos) then substr name (wadd pos 1) npos else Ok name.

Section Props.
Context {T : Type} (to : T -> str) (from : str -> res T).
(* INIT_PROP (flut/prop_node_tools.hpp:9): the node is marked, the value read *)
Definition init_prop (p : pnode) (var : str) (def : T) : pnode * res T :=
  match tidy_identifier var with
  | Ok k => pn_get_default from p k def
  | e => (p, let* _ := e in Throw)
  end.
(* INIT_PROP_REQUIRED (flut/prop_node_tools.hpp:11) *)
Definition init_prop_required (p : pnode) (var : str) : pnode * res T :=
  match tidy_identifier var with
  | Ok k => pn_get_key from p k
  | e => (p, let* _ := e in Throw)
  end.
(* SET_PROP (flut/prop_node_tools.hpp:14) *)
Definition set_prop (grow : nat -> bool) (p : pnode) (var : str) (x : T) : res pnode :=
  let* k := tidy_identifier var in Ok (pn_set grow p k (to x)).
End Props.
