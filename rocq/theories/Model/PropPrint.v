(* Printing a prop_node (flut/prop_node.cpp:22-52), and the access marks that
   printing and saving leave.  Widths do not overflow an int; the output stream
   has its default fill and no pending width. *)
From Coq Require Import List Ascii Arith.
From Verif Require Import Model.Base Model.StdString Model.Strings Model.PropTree Model.PropNode.
Import ListNotations.

(* get_align_width (flut/prop_node.cpp:22-31) *)
Fixpoint get_align_width (p : pnode) (depth : nat) : nat :=
  let 'PN _ _ c := p in
  fold_left (fun width kc => Nat.max (Nat.max width (depth * 2 + length (fst kc))) (get_align_width (snd kc) (S depth))) c 0.

(* str << std::left << std::setw( n ) << s *)
Definition left_pad (n : nat) (s : str) : str := s ++ repeat " "%char (n - length s).

(* to_stream (flut/prop_node.cpp:33-52) *)
Fixpoint to_stream (p : pnode) (depth align : nat) : str :=
  let 'PN _ _ c := p in
  let align := if align =? 0 then get_align_width p depth else align in
  flat_map (fun kc =>
    left_pad align (repeat " "%char (depth * 2) ++ fst kc) ++
    (if has_value (snd kc) || (pn_size (snd kc) =? 0) then [" "; "="; " "]%char ++ pn_value (snd kc) else []) ++
    [LF] ++ to_stream (snd kc) (S depth) align) c.
(* operator<< (flut/prop_node.hpp:254) *)
Definition print (p : pnode) : str := to_stream p 0 0.
(* the marks afterwards: every loop over a node calls begin() *)
Fixpoint print_marks (p : pnode) : pnode :=
  let 'PN _ v c := p in PN true v (map (fun kc => (fst kc, print_marks (snd kc))) c).

(* the marks after save_prop (flut/prop_node_tools.cpp:214-243): get_value() is
   called for a node with a value (line 222), begin() for one with children
   (line 227) and for the root (line 238) *)
Fixpoint write_marks (p : pnode) : pnode :=
  let 'PN a v c := p in
  PN (a || has_value p || negb (pn_size p =? 0)) v (map (fun kc => (fst kc, write_marks (snd kc))) c).
Definition save_marks (p : pnode) : pnode :=
  let 'PN _ v c := p in PN true v (map (fun kc => (fst kc, write_marks (snd kc))) c).

(* the marks after save_ini (flut/prop_node_tools.cpp:198-212) *)
Definition ini_marks (p : pnode) : pnode :=
  let 'PN _ v c := p in
  PN true v (map (fun kc =>
    let n := snd kc in
    (fst kc,
     match pn_children n with
     | [] => if has_value n then pn_access n else n
     | cs => PN true (pn_value n) (map (fun e => (fst e, pn_access (snd e))) cs)
     end)) c).
