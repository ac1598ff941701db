(* The .prop text format (flut/prop_node_tools.cpp:100-243). *)
From Verif Require Import Model.Base Model.StdString Model.Strings Model.Number Model.CharStream Model.PropTree.

Definition PROP_OPS : str := ["="; "{"; "}"; "%"]%char.
Definition PROP_QUOTS : str := [QUOTE; "'"%char].
(* "\n\r\t\v;" (flut/prop_node_tools.cpp:154) *)
Definition PROP_DELIMS : str := [LF; CR; TAB; VT; ";"%char].

(* is_valid_prop_label (flut/prop_node_tools.cpp:100-103) *)
Definition is_valid_prop_label (s : str) : bool :=
  match s with c :: _ => isalpha c | [] => false end.

(* get_prop_token (flut/prop_node_tools.cpp:105-118).  get_token gets fuel for
   the rest of the text: enough whenever it returns (C31). *)
Fixpoint get_prop_token (fuel : nat) (st : char_stream) : res (str * char_stream) :=
  match fuel with
  | O => OutOfFuel
  | S k =>
    let* (t, st1) := get_token (S (length (cs_rest st))) PROP_OPS PROP_QUOTS st in
    if str_eqb t ["%"%char] then get_prop_token k (snd (get_line st1))
    else let* t' := trim_str t default_delimiters in Ok (t', st1)
  end.

(* read_prop_node (flut/prop_node_tools.cpp:120-138) and its while loop *)
Fixpoint read_prop_node (fuel : nat) (st : char_stream) (parent : pnode) {struct fuel} : res (pnode * char_stream) :=
  match fuel with
  | O => OutOfFuel
  | S k =>
    let* (t, st1) := get_prop_token k st in
    if str_eqb t ["="%char] then
      let* (v, st2) := get_prop_token k st1 in Ok (set_value parent v, st2)
    else if str_eqb t ["{"%char] then read_children k st1 t parent
    else Ok (parent, st1)
  end
with read_children (fuel : nat) (st : char_stream) (t : str) (parent : pnode) {struct fuel} : res (pnode * char_stream) :=
  if good st && negb (str_eqb t ["}"%char]) then
    match fuel with
    | O => OutOfFuel
    | S k =>
      let* (t', st1) := get_prop_token k st in
      if is_valid_prop_label t' then
        let* (child, st2) := read_prop_node k st1 pn_empty in
        read_children k st2 t' (pn_push parent t' child)
      else if str_eqb t' ["}"%char] then read_children k st1 t' parent
      else Throw
    end
  else Ok (parent, st).

(* parse_prop( char_stream& ) (flut/prop_node_tools.cpp:140-150): the while loop
   after the first token *)
Fixpoint parse_loop (fuel : nat) (st : char_stream) (root : pnode) : res pnode :=
  match fuel with
  | O => OutOfFuel
  | S k =>
    let* (t, st1) := get_prop_token k st in
    if is_valid_prop_label t then
      let* (child, st2) := read_prop_node k st1 pn_empty in
      parse_loop k st2 (pn_push root t child)
    else Ok root
  end.

(* parse_prop( const char* ) (flut/prop_node_tools.cpp:152-155) *)
Definition parse_prop_fuel (fuel : nat) (text : str) : res pnode :=
  parse_loop fuel (cs_of_cstr text PROP_DELIMS) pn_empty.
Definition parse_prop (text : str) : res pnode := parse_prop_fuel (2 * length text + 3) text.

(* load_prop (flut/prop_node_tools.cpp:157-163) of a file with this content *)
Definition load_prop (content : str) : res pnode := parse_prop content.

(* write_prop_none (flut/prop_node_tools.cpp:214-231) *)
Fixpoint write_prop_none (label : str) (pn : pnode) (level : nat) (readable : bool) {struct pn} : str :=
  let indent := if readable then repeat TAB level else [] in
  let newline := if readable then [LF] else [" "%char] in
  let assign := if readable then [" "; "="; " "]%char else ["="%char] in
  indent ++ try_quoted label ++
  (if has_value pn || is_empty pn then assign ++ (if is_empty pn then [QUOTE; QUOTE] else try_quoted (pn_value pn)) else []) ++
  newline ++
  (match pn with
   | PN _ _ [] => []
   | PN _ _ children =>
     indent ++ ["{"%char] ++ newline ++
     flat_map (fun node => write_prop_none (fst node) (snd node) (S level) readable) children ++
     indent ++ ["}"%char] ++ newline
   end).

(* save_prop (flut/prop_node_tools.cpp:233-243): the file content written *)
Definition save_prop (pn : pnode) (readable : bool) : str :=
  flat_map (fun node => write_prop_none (fst node) (snd node) 0 readable) (pn_children pn).
