(* load_ini, save_ini (flut/prop_node_tools.cpp:165-212) *)
From Verif Require Import Model.Base Model.StdString Model.Strings Model.Number Model.CharStream Model.PropTree Model.PropNode.

(* the loop of load_ini (flut/prop_node_tools.cpp:171-194).  cur_group is the
   root or one of its children; it is always the last child, so that the
   pointer is still valid when it is used. *)
Fixpoint ini_loop (grow : nat -> bool) (fuel : nat) (st : char_stream) (pn : pnode) (cur : option nat) : res pnode :=
  if good st then
    match fuel with
    | O => OutOfFuel
    | S f =>
      let (raw, st1) := get_line st in
      let* line := trim_str raw default_delimiters in
      match line with
      | [] => ini_loop grow f st1 pn cur
      | c :: _ =>
        if Ascii.eqb c "#"%char then ini_loop grow f (snd (get_line st1)) pn cur
        else if (2 <? length line)%nat && Ascii.eqb c "["%char && Ascii.eqb (last line NUL) "]"%char then
          let* name := substr line 1 (wsub (size_ line) 2) in
          ini_loop grow f st1 (pn_push_back grow pn name pn_empty) (Some (length (pn_children pn)))
        else
          let* (k, v) := make_key_value_str line ["="%char] in
          if str_eqb k line then Throw
          else
            match cur with
            | None => ini_loop grow f st1 (pn_set grow pn k v) cur
            | Some i => ini_loop grow f st1 (fst (with_child pn i (fun g => (pn_set grow g k v, Ok tt)))) cur
            end
      end
    end
  else Ok pn.

(* load_ini (flut/prop_node_tools.cpp:165-196) of a file with this content *)
Definition load_ini (grow : nat -> bool) (content : str) : res pnode :=
  ini_loop grow (S (length content)) (cs_of_string content default_delimiters) pn_empty None.

(* save_ini (flut/prop_node_tools.cpp:198-212): the file content written *)
Definition save_ini_pair (e : str * pnode) : str := fst e ++ "="%char :: pn_value (snd e) ++ [LF].
Definition save_ini_entry (e : str * pnode) : str :=
  match pn_children (snd e) with
  | [] => if has_value (snd e) then save_ini_pair e else []
  | cs => "["%char :: fst e ++ ["]"%char; LF] ++ flat_map save_ini_pair cs
  end.
Definition save_ini (pn : pnode) : str := flat_map save_ini_entry (pn_children pn).
