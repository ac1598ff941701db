(* flut/string_tools.hpp, flut/string_tools.cpp *)
From Verif Require Import Model.Base Model.StdString.
Local Open Scope Z_scope.

Definition TAB : ascii := "009"%char.
Definition LF : ascii := "010"%char.
Definition VT : ascii := "011"%char.
Definition FF : ascii := "012"%char.
Definition CR : ascii := "013"%char.
Definition QUOTE : ascii := """"%char.
Definition BSLASH : ascii := "\"%char.
Definition QMARK : ascii := "?"%char.

(* " \t\r\n\f\v" (flut/string_tools.hpp:38, flut/char_stream.hpp:17) *)
Definition default_delimiters : str := [" "%char; TAB; CR; LF; FF; VT].

(* left_str (flut/string_tools.hpp:17-18); n is an int *)
Definition left_str (s : str) (n : Z) : res str :=
  if 0 <=? n then substr s 0 n
  else substr s 0 (Z.max 0 (size_ s + n)).

(* mid_str (flut/string_tools.hpp:21) *)
Definition mid_str (s : str) (pos n : Z) : res str := substr s pos n.

(* right_str (flut/string_tools.hpp:24-25); -n overflows for n = -2^31 *)
Definition right_str (s : str) (n : Z) : res str :=
  if 0 <=? n then substr s (wsub (size_ s) n) npos
  else if n =? - 2 ^ 31 then UB else substr s (- n) npos.

(* in_str with p = 0 (flut/string_tools.hpp:28) *)
Definition in_str (s t : str) : Z := find s t.

(* str_begins_with, str_ends_with (flut/string_tools.hpp:31-35) *)
Definition str_begins_with (s t : str) : bool := find s t =? 0.
Definition str_ends_with (s t : str) : bool :=
  (size_ t <=? size_ s) && (find s t =? wsub (size_ s) (size_ t)).

(* trim_str (flut/string_tools.cpp:24-30) *)
Definition trim_str (s space_chars : str) : res str :=
  let left := find_first_not_of s space_chars 0 in
  if left =? npos then Ok []
  else
    let right := find_last_not_of s space_chars in
    substr s left (wsub (wadd 1 right) left).

(* trim_right_str (flut/string_tools.cpp:32-36) *)
Definition trim_right_str (s space_chars : str) : res str :=
  let right := find_last_not_of s space_chars in
  substr s 0 (wadd 1 right).

(* split_str (flut/string_tools.cpp:38-48); the loop runs with fuel *)
Fixpoint split_loop (fuel : nat) (s sep : str) (ofs : Z) : res (list str) :=
  if ofs =? npos then Ok []
  else match fuel with
       | O => OutOfFuel
       | S fuel' =>
         let ofsend := find_first_of s sep ofs in
         let* w := substr s ofs (wsub ofsend ofs) in
         let* ws := split_loop fuel' s sep (find_first_not_of s sep ofsend) in
         Ok (w :: ws)
       end.
Definition split_str (s sep_chars : str) : res (list str) :=
  split_loop (S (length s)) s (cstr sep_chars) (find_first_not_of s (cstr sep_chars) 0).

(* left_of_str, right_of_str (flut/string_tools.cpp:50-59) *)
Definition left_of_str (s sep_chars : str) : res str :=
  substr s 0 (find_first_of s (cstr sep_chars) 0).
Definition right_of_str (s sep_chars : str) : res str :=
  let pos := find_last_of s (cstr sep_chars) in
  if pos =? npos then Ok s else substr s (wadd pos 1) npos.

(* make_key_value_str (flut/string_tools.cpp:61-67) *)
Definition make_key_value_str (s sep_char : str) : res (str * str) :=
  let pos := find_first_of s (cstr sep_char) 0 in
  if pos =? npos then Ok (s, [])
  else
    let* a := substr s 0 pos in
    let* k := trim_str a default_delimiters in
    let* b := mid_str s (wadd pos 1) npos in
    let* v := trim_str b default_delimiters in
    Ok (k, v).

(* printf %03o of an unsigned 32-bit value (used by flut/string_tools.cpp:115) *)
Definition digit (n : Z) : ascii := ascii_of_nat (48 + Z.to_nat n).
Fixpoint oct_digits (fuel : nat) (n : Z) : str :=
  match fuel with
  | O => []
  | S k => (if n <? 8 then [] else oct_digits k (n / 8)) ++ [digit (n mod 8)]
  end.
Definition printf_03o (n : Z) : str :=
  let d := oct_digits 11 (n mod 2 ^ 32) in
  repeat "0"%char (3 - length d) ++ d.

(* encode_char (flut/string_tools.cpp:102-119) *)
Definition encode_char (c : ascii) : str :=
  if Ascii.eqb c QUOTE then [BSLASH; QUOTE]
  else if Ascii.eqb c BSLASH then [BSLASH; BSLASH]
  else if scode c <? 32 then
    if Ascii.eqb c CR then [BSLASH; "r"%char]
    else if Ascii.eqb c LF then [BSLASH; "n"%char]
    else if Ascii.eqb c TAB then [BSLASH; "t"%char]
    else BSLASH :: printf_03o (scode c)
  else [c].

(* the octal loop of decode_char (flut/string_tools.cpp:139-147): digits read
   and value, with at most max_len digits *)
Fixpoint read_oct (buf : str) (max_len : nat) (value : Z) (n : nat) : Z * nat :=
  match max_len, buf with
  | S k, c :: buf' =>
    if (48 <=? code c)%nat && (code c <? 56)%nat
    then read_oct buf' k (value * 8 + Z.of_nat (code c) - 48) (S n)
    else (value, n)
  | _, _ => (value, n)
  end.

(* decode_char (flut/string_tools.cpp:121-153): buf holds the buf_size
   characters starting at the pointer; returns the character and *len *)
Definition decode_char (buf : str) : res (ascii * nat) :=
  match buf with
  | [] => Throw
  | c :: rest =>
    if negb (Ascii.eqb c BSLASH) then Ok (c, 0%nat)
    else match rest with
    | [] => Ok (c, 0%nat)
    | e :: _ =>
      if Ascii.eqb e NUL then Ok (QMARK, 2%nat)
      else if Ascii.eqb e BSLASH then Ok (BSLASH, 2%nat)
      else if Ascii.eqb e QUOTE then Ok (QUOTE, 2%nat)
      else if Ascii.eqb e "r"%char then Ok (CR, 2%nat)
      else if Ascii.eqb e "n"%char then Ok (LF, 2%nat)
      else if Ascii.eqb e "t"%char then Ok (TAB, 2%nat)
      else
        let max_len := Nat.min (length rest) 3 in
        let '(value, len) := read_oct rest max_len 0 1%nat in
        if (1 <? len)%nat && (0 <? value) && (value <? 32)
        then Ok (ascii_of_nat (Z.to_nat value), len)
        else Ok (QMARK, len)
    end
  end.

(* quoted (flut/string_tools.cpp:155-166) *)
Definition quoted (s : str) : str :=
  QUOTE :: flat_map (fun c =>
    if Ascii.eqb c QUOTE || Ascii.eqb c BSLASH || (scode c <? 32) then encode_char c else [c]) s ++ [QUOTE].

(* needs_quotes (flut/string_tools.cpp:168-174) *)
Definition needs_quotes (s : str) : bool :=
  existsb (fun c => (scode c <? 33) || Ascii.eqb c QUOTE || Ascii.eqb c BSLASH) s.

(* try_quoted (flut/string_tools.cpp:176-181) *)
Definition try_quoted (s : str) : str := if needs_quotes s then quoted s else s.

(* the loop of try_unquoted (flut/string_tools.cpp:189-198) over the characters
   from the iterator to end(); dereferencing end() is undefined. The step
   "it += len - 1; ++it" skips len characters. *)
Fixpoint unquote_loop (fuel : nat) (rest : str) : res str :=
  match fuel with
  | O => OutOfFuel
  | S fuel' =>
    match rest with
    | [] => UB
    | c :: rest' =>
      if Ascii.eqb c QUOTE then Ok []
      else if Ascii.eqb c BSLASH then
        let* (d, len) := decode_char rest in
        let* out := unquote_loop fuel' (skipn len rest) in
        Ok (d :: out)
      else
        let* out := unquote_loop fuel' rest' in
        Ok (c :: out)
    end
  end.

(* try_unquoted (flut/string_tools.cpp:183-200) *)
Definition try_unquoted (s : str) : res str :=
  match s with
  | [] => Ok s
  | c :: rest =>
    if negb (Ascii.eqb c QUOTE) || negb (Ascii.eqb (last s NUL) QUOTE) then Ok s
    else unquote_loop (S (length s)) rest
  end.

Definition SEPS : str := ["/"%char; BSLASH].

(* get_filename_ext (flut/string_tools.cpp:202-211) *)
Definition get_filename_ext (s : str) : res str :=
  let n := find_last_of s ["."%char] in
  if n =? npos then Ok []
  else
    let* ext := substr s (wadd n 1) npos in
    if find_last_of ext SEPS =? npos then Ok ext else Ok [].

(* get_filename_without_ext (flut/string_tools.cpp:213-218) *)
Definition get_filename_without_ext (s : str) : res str :=
  let* ext := get_filename_ext s in
  let ext_len := if 0 <? size_ ext then wadd (size_ ext) 1 else size_ ext in
  substr s 0 (wsub (size_ s) ext_len).

(* get_filename_folder (flut/string_tools.cpp:220-225) *)
Definition get_filename_folder (s : str) : res str :=
  let n := find_last_of s SEPS in
  if n =? npos then Ok s else substr s 0 (wadd n 1).

(* get_filename_without_folder (flut/string_tools.cpp:227-232) *)
Definition get_filename_without_folder (s : str) : res str :=
  let n := find_last_of s SEPS in
  if n =? npos then Ok s else substr s (wadd n 1) npos.
