(* contrib/rapidxml-1.13 as flut uses it: the parser with flags 0
   (rapidxml.hpp:1380-2300) and the printer with flags 0 for elements without
   attributes (rapidxml_print.hpp:45-294).

   The parser works inside the zero-terminated text.  It only writes behind its
   position (expanded values and the zeros after names and values), so it is a
   function of the text that is left, which ends where a zero was read; the
   character that a zero may replace after data is passed on by the code, too
   (lines 1983-1990, 2177-2184).  Strings are pairs of a pointer and a size.
   Exhaustion of memory and of the stack is not modelled. *)
From Coq Require Import String.
From Verif Require Import Model.Base Model.StdString Model.Strings.
Local Open Scope Z_scope.
Local Open Scope list_scope.

(* whitespace_pred, node_name_pred, attribute_name_pred, text_pred,
   text_pure_no_ws_pred (tables in rapidxml.hpp:2306-2444) *)
Definition xml_ws : str := [" "%char; LF; CR; TAB].
Definition is_ws (c : ascii) : bool := mem xml_ws c.
Definition node_name_stop : str := xml_ws ++ ["/"; ">"; "?"]%char ++ [NUL].
Definition is_node_name (c : ascii) : bool := negb (mem node_name_stop c).
Definition attr_name_stop : str := xml_ws ++ ["/"; "<"; ">"; "="; "?"; "!"]%char ++ [NUL].
Definition is_attr_name (c : ascii) : bool := negb (mem attr_name_stop c).
Definition is_text (c : ascii) : bool := negb (mem ["<"%char; NUL] c).
Definition is_text_pure (c : ascii) : bool := negb (mem ["<"%char; "&"%char; NUL] c).
(* attribute_value_pred, attribute_value_pure_pred (rapidxml.hpp:1482-1507, 2446-2536) *)
Definition is_attr_value (quote c : ascii) : bool := negb (mem [quote; NUL] c).
Definition is_attr_pure (quote c : ascii) : bool := negb (mem [quote; "&"%char; NUL] c).
(* lookup_digits (rapidxml.hpp:2538-2559); None is 255 *)
Definition digit (c : ascii) : option Z :=
  let n := Z.of_nat (code c) in
  if (48 <=? n) && (n <=? 57) then Some (n - 48)
  else if (65 <=? n) && (n <=? 70) then Some (n - 55)
  else if (97 <=? n) && (n <=? 102) then Some (n - 87)
  else None.

(* skip (rapidxml.hpp:1557-1564): the characters passed and the rest *)
Fixpoint span (p : ascii -> bool) (s : str) : str * str :=
  match s with
  | [] => ([], [])
  | c :: r => if p c then let (a, b) := span p r in (c :: a, b) else ([], s)
  end.
Definition skip (p : ascii -> bool) (s : str) : str := snd (span p s).

(* comparison of the next characters with a text *)
Fixpoint strip (t s : str) : option str :=
  match t, s with
  | [], _ => Some s
  | a :: t', b :: s' => if Ascii.eqb a b then strip t' s' else None
  | _ :: _, [] => None
  end.

Definition byte (z : Z) : ascii := ascii_of_N (Z.to_N (z mod 256)).
(* insert_coded_character (rapidxml.hpp:1510-1553) *)
Definition coded_character (c : Z) : res str :=
  let low c := byte (Z.land (Z.lor c 128) 191) in
  if c <? 128 then Ok [byte c]
  else if c <? 2048 then Ok [byte (Z.lor (Z.shiftr c 6) 192); low c]
  else if c <? 65536 then Ok [byte (Z.lor (Z.shiftr c 12) 224); low (Z.shiftr c 6); low c]
  else if c <? 1114112 then Ok [byte (Z.lor (Z.shiftr c 18) 240); low (Z.shiftr c 12); low (Z.shiftr c 6); low c]
  else Throw.
(* the loops of rapidxml.hpp:1653-1662, 1667-1676; an unsigned long has 32 bits *)
Fixpoint read_code (base acc : Z) (s : str) : Z * str :=
  match s with
  | [] => (acc, [])
  | c :: r => match digit c with
              | Some d => read_code base ((acc * base + d) mod 2 ^ 32) r
              | None => (acc, s)
              end
  end.
Definition named_refs : list (str * ascii) :=
  [(lit "&amp;", "&"%char); (lit "&apos;", "'"%char); (lit "&quot;", QUOTE); (lit "&gt;", ">"%char); (lit "&lt;", "<"%char)].
Fixpoint find_ref (l : list (str * ascii)) (s : str) : option (ascii * str) :=
  match l with
  | [] => None
  | (t, c) :: l' => match strip t s with Some r => Some (c, r) | None => find_ref l' s end
  end.
(* the translation loop of skip_and_expand_character_refs
   (rapidxml.hpp:1583-1716) *)
Fixpoint expand (fuel : nat) (p : ascii -> bool) (s : str) : res (str * str) :=
  match fuel with
  | O => OutOfFuel
  | S fuel' =>
    match s with
    | [] => Ok ([], [])
    | c :: r =>
      if negb (p c) then Ok ([], s)
      else
        match find_ref named_refs s with
        | Some (x, r') => let* (v, rest) := expand fuel' p r' in Ok (x :: v, rest)
        | None =>
          let numeric base r1 :=
            let (n, r2) := read_code base 0 r1 in
            let* x := coded_character n in
            match r2 with
            | d :: r3 => if Ascii.eqb d ";"%char then let* (v, rest) := expand fuel' p r3 in Ok (x ++ v, rest) else Throw
            | [] => Throw
            end in
          match strip (lit "&#x") s with
          | Some r1 => numeric 16 r1
          | None =>
            match strip (lit "&#") s with
            | Some r1 => numeric 10 r1
            | None => let* (v, rest) := expand fuel' p r in Ok (c :: v, rest)
            end
          end
        end
    end
  end.
(* skip_and_expand_character_refs (rapidxml.hpp:1569-1718) *)
Definition skip_and_expand (p pure : ascii -> bool) (s : str) : res (str * str) :=
  let (a, s1) := span pure s in
  let* (b, rest) := expand (S (length s1)) p s1 in Ok (a ++ b, rest).

(* the nodes that are made with flags 0: no declarations, comments, doctypes or
   processing instructions *)
Inductive xnode :=
| XElement (name value : str) (attributes : list (str * str)) (children : list xnode)
| XData (value : str)
| XCdata (value : str).

(* skip behind the first occurrence of a text; a zero is an error
   (in parse_xml_declaration, parse_comment, parse_pi, parse_cdata, parse_node;
   rapidxml.hpp:1737-1751, 1772-1787, 1920-1931, 1997-2031, 2150-2160) *)
Fixpoint skip_behind (t s : str) : option str :=
  match strip t s with
  | Some r => Some r
  | None => match s with [] => None | _ :: s' => skip_behind t s' end
  end.
(* the text before it *)
Fixpoint before (t s : str) : str :=
  match strip t s with
  | Some _ => []
  | None => match s with [] => [] | c :: s' => c :: before t s' end
  end.
(* parse_doctype (rapidxml.hpp:1813-1876), without node; depth is that of the
   brackets *)
Fixpoint skip_doctype (depth : nat) (s : str) : option str :=
  match s with
  | [] => None
  | c :: r =>
    match depth with
    | O => if Ascii.eqb c ">"%char then Some r else skip_doctype (if Ascii.eqb c "["%char then 1 else 0) r
    | S d => skip_doctype (if Ascii.eqb c "["%char then S depth else if Ascii.eqb c "]"%char then d else depth) r
    end
  end.
Definition some_or_throw {A} (o : option A) : res A := match o with Some x => Ok x | None => Throw end.

(* parse_node_attributes (rapidxml.hpp:2236-2300) *)
Fixpoint parse_attributes (fuel : nat) (s : str) : res (list (str * str) * str) :=
  match fuel with
  | O => OutOfFuel
  | S fuel' =>
    match span is_attr_name s with
    | ([], _) => Ok ([], s)
    | (name, s1) =>
      match skip is_ws s1 with
      | e :: s2 =>
        if negb (Ascii.eqb e "="%char) then Throw
        else
          match skip is_ws s2 with
          | quote :: s3 =>
            if negb (Ascii.eqb quote "'"%char || Ascii.eqb quote QUOTE) then Throw
            else
              let* (value, s4) := skip_and_expand (is_attr_value quote) (is_attr_pure quote) s3 in
              match s4 with
              | q :: s5 =>
                if negb (Ascii.eqb q quote) then Throw
                else let* (l, rest) := parse_attributes fuel' (skip is_ws s5) in Ok ((name, value) :: l, rest)
              | [] => Throw
              end
          | [] => Throw
          end
      | [] => Throw
      end
    end
  end.

(* the branches of parse_node for <? and <! (rapidxml.hpp:2080-2163); the text
   starts after the <; CDATA gives a node, everything else is skipped *)
Definition parse_question (s : str) : res str :=
  let declaration :=
    match s with
    | x :: m :: l :: w :: r =>
        (mem (lit "xX") x) && (mem (lit "mM") m) && (mem (lit "lL") l) && is_ws w
    | _ => false
    end in
  some_or_throw (skip_behind (lit "?>") (if declaration then skipn 4 s else s)).
Definition parse_exclamation (s : str) : res (option xnode * str) :=
  match strip (lit "!--") s with
  | Some r => let* r' := some_or_throw (skip_behind (lit "-->") r) in Ok (None, r')
  | None =>
    match strip (lit "![CDATA[") s with
    | Some r => let* r' := some_or_throw (skip_behind (lit "]]>") r) in Ok (Some (XCdata (before (lit "]]>") r)), r')
    | None =>
      let other := let* r' := some_or_throw (skip_behind (lit ">") (skipn 1 s)) in Ok (None, r') in
      match strip (lit "!DOCTYPE") s with
      | Some (w :: r) => if is_ws w then let* r' := some_or_throw (skip_doctype 0 r) in Ok (None, r') else other
      | _ => other
      end
    end
  end.
(* parse_node with parse_element, and parse_node_contents with
   parse_and_append_data (rapidxml.hpp:1939-2233); the text of parse_node starts
   after the < *)
Fixpoint parse_node (fuel : nat) (s : str) : res (option xnode * str) :=
  match fuel with
  | O => OutOfFuel
  | S fuel' =>
    match strip (lit "?") s with
    | Some r => let* rest := parse_question r in Ok (None, rest)
    | None =>
      match strip (lit "!") s with
      | Some _ => parse_exclamation s
      | None =>
        let (name, s1) := span is_node_name s in
        match name with
        | [] => Throw
        | _ =>
          let* (attrs, s2) := parse_attributes (S (length s1)) (skip is_ws s1) in
          match strip (lit ">") s2 with
          | Some s3 => let* (v, cs, rest) := parse_contents fuel' s3 [] [] in Ok (Some (XElement name v attrs cs), rest)
          | None =>
            match strip (lit "/>") s2 with
            | Some rest => Ok (Some (XElement name [] attrs []), rest)
            | None => Throw
            end
          end
        end
      end
    end
  end
with parse_contents (fuel : nat) (s value : str) (children : list xnode) : res (str * list xnode * str) :=
  match fuel with
  | O => OutOfFuel
  | S fuel' =>
    let s1 := skip is_ws s in
    let* (s2, value, children) :=
      match s1 with
      | [] => Ok (s1, value, children)
      | c :: _ =>
        if Ascii.eqb c "<"%char then Ok (s1, value, children)
        else
          let* (v, rest) := skip_and_expand is_text is_text_pure s in
          Ok (rest, if Ascii.eqb (hd NUL value) NUL then v else value, children ++ [XData v])
      end in
    match strip (lit "</") s2 with
    | Some r =>
      match strip (lit ">") (skip is_ws (skip is_node_name r)) with
      | Some rest => Ok (value, children, rest)
      | None => Throw
      end
    | None =>
      match strip (lit "<") s2 with
      | Some r =>
        let* (n, rest) := parse_node fuel' r in
        parse_contents fuel' rest value (children ++ match n with Some x => [x] | None => [] end)
      | None => Throw
      end
    end
  end.

(* xml_document::parse (rapidxml.hpp:1380-1410) *)
Fixpoint parse_document (fuel : nat) (s : str) (nodes : list xnode) : res (list xnode) :=
  match fuel with
  | O => OutOfFuel
  | S fuel' =>
    match skip is_ws s with
    | [] => Ok nodes
    | c :: r =>
      if Ascii.eqb c "<"%char then
        let* (n, rest) := parse_node (S (length r)) r in
        parse_document fuel' rest (nodes ++ match n with Some x => [x] | None => [] end)
      else Throw
    end
  end.
(* parse_bom (rapidxml.hpp:1724-1734) *)
Definition bom : str := [byte 239; byte 187; byte 191].
Definition parse_bom (s : str) : str := match strip bom s with Some r => r | None => s end.
Definition parse (text : str) : res (list xnode) :=
  let s := parse_bom (cstr text) in parse_document (S (length s)) s [].

(* copy_and_expand_chars with noexpand 0 (rapidxml_print.hpp:46-80); the strings
   printed here do not contain a zero *)
Definition expand_char (c : ascii) : str :=
  if Ascii.eqb c "<"%char then lit "&lt;"
  else if Ascii.eqb c ">"%char then lit "&gt;"
  else if Ascii.eqb c "'"%char then lit "&apos;"
  else if Ascii.eqb c QUOTE then lit "&quot;"
  else if Ascii.eqb c "&"%char then lit "&amp;"
  else [c].
Definition expand_chars (s : str) : str := flat_map expand_char s.
(* an element without attributes and data nodes *)
Inductive xelement := XE (name value : str) (children : list xelement).
(* print_node with print_element_node (rapidxml_print.hpp:107-164, 241-294) *)
Fixpoint print_node (indent : nat) (n : xelement) : str :=
  let 'XE name value children := n in
  repeat TAB indent ++ ["<"%char] ++ name ++
  match value, children with
  | [], [] => lit "/>"
  | _, _ =>
    [">"%char] ++
    match children with
    | [] => expand_chars value
    | _ => [LF] ++ flat_map (print_node (S indent)) children ++ repeat TAB indent
    end ++ lit "</" ++ name ++ [">"%char]
  end ++ [LF].
(* a document (rapidxml_print.hpp:113-115, 154-174) *)
Definition print_document (nodes : list xelement) : str := flat_map (print_node 0) nodes ++ [LF].
