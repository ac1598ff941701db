(* flut/pattern_matcher.hpp and pattern_match (flut/string_tools.cpp:86-94).
   The pattern language is that of the platform: spec is PathMatchSpecEx, which
   gets two C strings.  (The other branch, line 92, does not compile: it uses an
   undeclared p.  Neither does find_match, flut/pattern_matcher.hpp:26-28.) *)
From Coq Require Import List Ascii.
From Verif Require Import Model.Base Model.StdString Model.Strings Model.PropTree Model.PropNode.
Local Open Scope Z_scope.

Section Match.
Context (spec : str -> str -> bool).

(* pattern_match (flut/string_tools.cpp:86-94) *)
Definition pattern_match (s pattern : str) : res bool :=
  let* _ := assert_ (find_first_of s [";"%char] 0 =? npos) in
  Ok (spec (cstr s) (cstr pattern)).

(* the constructors (flut/pattern_matcher.hpp:11-14); the first has no patterns *)
Definition matcher_default : list str := [].
Definition matcher (pattern delimiters : str) : res (list str) := split_str pattern delimiters.
Definition matcher_of_node (pn : pnode) : pnode * res (list str) := (pn_access pn, split_str (pn_value pn) [";"%char]).

(* operator() (flut/pattern_matcher.hpp:17-21) *)
Fixpoint matches (patterns : list str) (s : str) : res bool :=
  match patterns with
  | [] => Ok false
  | p :: ps => let* b := pattern_match s p in if b then Ok true else matches ps s
  end.

(* what a loop over prop_node::select_pattern visits (flut/prop_node.hpp:200);
   the predicate may throw *)
Fixpoint select_pattern (cs : list (str * pnode)) (pattern : str) : res (list (str * pnode)) :=
  match cs with
  | [] => Ok []
  | (k, c) :: cs' =>
    let* b := pattern_match k pattern in
    let* r := select_pattern cs' pattern in
    Ok (if b then (k, c) :: r else r)
  end.
End Match.
