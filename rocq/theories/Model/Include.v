(* load_file_with_include, resolve_include_files
   (flut/prop_node_tools.cpp:257-303).  Access marks are not read here and are
   all cleared at the end, so the growth of vectors is left out. *)
From Verif Require Import Model.Base Model.StdString Model.Strings Model.Number Model.StringCast Model.Path Model.PropTree Model.PropNode.

(* flut/prop_node_tools.cpp:264-265: the file to load, and whether to merge *)
Definition include_target (filename : str) (c : pnode) : res (str * bool) :=
  let* dir := parent_path filename in
  let* file := snd (pn_get_key Ok c ["f"; "i"; "l"; "e"]%char) in
  let* merge := snd (pn_get_default (fun s => Ok (from_bool s)) c ["m"; "e"; "r"; "g"; "e"; "_"; "c"; "h"; "i"; "l"; "d"; "r"; "e"; "n"]%char false) in
  Ok (join_path dir file, merge).

Section Include.
(* load_file (flut/prop_node_tools.cpp:27-32) *)
Context (files : str -> res pnode) (directive : str).

(* The loop of resolve_include_files: pre are the children before iter, post
   those from iter on. *)
Fixpoint resolve (fuel : nat) (pn : pnode) (filename : str) (level : nat) {struct fuel} : res pnode :=
  match fuel with
  | O => OutOfFuel
  | S f => let 'PN a v cs := pn in resolve_loop f a v [] cs filename level
  end
with resolve_loop (fuel : nat) (a : bool) (v : str) (pre post : list (str * pnode)) (filename : str) (level : nat) {struct fuel} : res pnode :=
  match fuel with
  | O => OutOfFuel
  | S f =>
    match post with
    | [] => Ok (PN a v pre)
    | (k, c) :: post' =>
      if str_eqb k directive then
        let* (target, merge) := include_target filename c in
        let* included := load_with_include f target (S level) in
        match pn_children included with
        | [(ik, ic)] =>
          if merge then
            resolve_loop f a v [] (pn_children (merge_prop_nodes (fun _ => false) (PN a v (pre ++ post')) ic false)) filename level
          else resolve_loop f a v pre ((ik, pn_copy ic) :: post') filename level
        | _ => Throw
        end
      else
        let* c' := resolve f c filename level in
        resolve_loop f a v (pre ++ [(k, c')]) post' filename level
    end
  end
with load_with_include (fuel : nat) (filename : str) (level : nat) {struct fuel} : res pnode :=
  match fuel with
  | O => OutOfFuel
  | S f =>
    if 100 <=? level then Throw
    else
      let* pn := files filename in
      let* pn' := resolve f pn filename level in
      Ok (clear_accessed pn')
  end.
End Include.
