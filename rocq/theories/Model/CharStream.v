(* flut/char_stream.hpp, flut/char_stream.cpp *)
From Verif Require Import Model.Base Model.StdString Model.Strings Model.Number.

(* cs_rest: the characters from cur_pos to buffer_end; the two flags of
   buffer_flags; delimiters_ (flut/char_stream.hpp:64-76) *)
Record char_stream := mkCs { cs_rest : str; cs_fail : bool; cs_eof : bool; cs_delim : str }.

Definition with_rest (st : char_stream) (r : str) : char_stream :=
  mkCs r (cs_fail st) (cs_eof st) (cs_delim st).
Definition set_fail (st : char_stream) : char_stream := mkCs (cs_rest st) true (cs_eof st) (cs_delim st).

(* good, eof, fail (flut/char_stream.hpp:53-55) *)
Definition good (st : char_stream) : bool := negb (cs_fail st) && negb (cs_eof st).

(* test_eof (flut/char_stream.hpp:62): sets the flag *)
Definition test_eof (st : char_stream) : char_stream :=
  match cs_rest st with [] => mkCs [] (cs_fail st) true (cs_delim st) | _ => st end.

(* skip_delimiters (flut/char_stream.hpp:60) *)
Fixpoint drop_delims (d s : str) : str :=
  match s with
  | c :: s' => if strchr d c then drop_delims d s' else s
  | [] => []
  end.
Definition skip_delimiters (st : char_stream) : char_stream :=
  test_eof (with_rest st (drop_delims (cs_delim st) (cs_rest st))).

(* char_stream( const char*, delim ) (flut/char_stream.cpp:9-12, 92-99) *)
Definition cs_of_cstr (s delim : str) : char_stream := skip_delimiters (mkCs (cstr s) false false delim).
(* char_stream( string&&, delim ) (flut/char_stream.cpp:14-17, 92-99) *)
Definition cs_of_string (s delim : str) : char_stream := skip_delimiters (mkCs s false false delim).

(* process_end_pos (flut/char_stream.hpp:63): n characters were read *)
Definition process_end_pos (st : char_stream) (n : nat) : char_stream :=
  if n =? 0 then set_fail st else skip_delimiters (with_rest st (skipn n (cs_rest st))).

(* getc (flut/char_stream.hpp:50): reading past the terminator is undefined *)
Definition getc (st : char_stream) : res (ascii * char_stream) :=
  match cs_rest st with
  | [] => UB
  | c :: r => Ok (c, test_eof (with_rest st r))
  end.
Fixpoint getcs (n : nat) (st : char_stream) : res char_stream :=
  match n with
  | O => Ok st
  | S k => let* (_, st') := getc st in getcs k st'
  end.

(* operator>>( long&, long long& ) (flut/char_stream.hpp:38-39): the text after
   the cursor is zero terminated *)
Definition read_long (st : char_stream) : Z * char_stream :=
  match strtol (cs_rest st) with
  | None => (0%Z, process_end_pos st 0)
  | Some (v, _, r) => (v, process_end_pos st (length (cs_rest st) - length r))
  end.
(* (int) of a long *)
Definition wrap32 (z : Z) : Z := ((z + 2 ^ 31) mod 2 ^ 32 - 2 ^ 31)%Z.
(* operator>>( int& ) (flut/char_stream.hpp:44) *)
Definition read_int (st : char_stream) : Z * char_stream :=
  let '(v, st') := read_long st in (wrap32 v, st').

(* operator>>( string& ) (flut/char_stream.cpp:23-29) *)
Fixpoint word_length (s : str) : nat :=
  match s with
  | c :: s' => if Ascii.eqb c NUL || isspace c then 0 else S (word_length s')
  | [] => 0
  end.
Definition read_string (st : char_stream) : str * char_stream :=
  let n := word_length (cs_rest st) in
  (firstn n (cs_rest st), process_end_pos st n).

(* strcspn( cur_pos, "\r\n" ): stops at the terminator, or at a NUL in the text *)
Fixpoint line_length (s : str) : nat :=
  match s with
  | c :: s' => if Ascii.eqb c NUL || Ascii.eqb c CR || Ascii.eqb c LF then 0 else S (line_length s')
  | [] => 0
  end.
(* get_line (flut/char_stream.cpp:31-38) *)
Definition get_line (st : char_stream) : str * char_stream :=
  let n := line_length (cs_rest st) in
  (firstn n (cs_rest st), process_end_pos st n).

(* the inner loop of get_token (flut/char_stream.cpp:56-71) *)
Fixpoint quote_loop (fuel : nat) (q : ascii) (s : str) (st : char_stream) : res (str * char_stream) :=
  if good st then
    match fuel with
    | O => OutOfFuel
    | S k =>
      match cs_rest st with
      | [] => UB
      | c :: _ =>
        if Ascii.eqb c q then
          let* (_, st') := getc st in Ok (s, st')
        else if Ascii.eqb c BSLASH then
          let* (d, len) := decode_char (cs_rest st) in
          let* st' := getcs len st in
          quote_loop k q (s ++ [d]) st'
        else
          let* (d, st') := getc st in
          quote_loop k q (s ++ [d]) st'
      end
    end
  else Ok (s, st).

(* the loop of get_token (flut/char_stream.cpp:44-86); cur_pos_end is cur_pos + n *)
Fixpoint token_loop (fuel : nat) (ops quots : str) (s : str) (st : char_stream) (n : nat) : res (str * char_stream) :=
  if good st then
    match fuel with
    | O => OutOfFuel
    | S k =>
      let pend := firstn n (cs_rest st) in
      let st1 := with_rest st (skipn n (cs_rest st)) in
      match cs_rest st1 with
      | [] => Ok (s ++ pend, st1)
      | c :: r =>
        if strchr (cs_delim st) c then Ok (s ++ pend, st1)
        else if strchr quots c then
          let* (q, st2) := getc st1 in
          let* (s', st3) := quote_loop k q s st2 in
          token_loop k ops quots s' st3 0
        else if strchr ops c then
          if (n =? 0) && (match s with [] => true | _ => false end)
          then Ok ([c], with_rest st r)
          else Ok (s ++ pend, st1)
        else token_loop k ops quots s st (S n)
      end
    end
  else Ok (s, st).

(* get_token (flut/char_stream.cpp:40-90) *)
Definition get_token (fuel : nat) (ops quots : str) (st : char_stream) : res (str * char_stream) :=
  let* (s, st1) := token_loop fuel ops quots [] st 0 in
  Ok (s, test_eof (skip_delimiters st1)).

(* scan_str (flut/string_tools.hpp:53-59): kinds of targets, the values
   assigned (in order) and the result *)
Inductive target := Tlong | Tint | Tstring.
Inductive value := Vnum (z : Z) | Vstr (s : str).
Definition read_target (t : target) (st : char_stream) : value * char_stream :=
  match t with
  | Tlong => let '(v, st') := read_long st in (Vnum v, st')
  | Tint => let '(v, st') := read_int st in (Vnum v, st')
  | Tstring => let '(v, st') := read_string st in (Vstr v, st')
  end.
Fixpoint scan_str_impl (st : char_stream) (ts : list target) : list value * nat :=
  match ts with
  | [] => ([], 0)
  | t :: ts' =>
    let '(v, st') := read_target t st in
    if good st' then let '(vs, n) := scan_str_impl st' ts' in (v :: vs, n + 1) else ([v], 0)
  end.
Definition scan_str (s : str) (ts : list target) : list value * nat :=
  scan_str_impl (cs_of_cstr s default_delimiters) ts.

(* str_to_vec (flut/string_tools.hpp:78-83); max_values = None for no_index *)
Fixpoint str_to_vec_loop (fuel : nat) (t : target) (maxv : option nat) (st : char_stream) (vec : list value) : res (list value) :=
  if good st && (match maxv with Some m => length vec <? m | None => true end) then
    match fuel with
    | O => OutOfFuel
    | S k =>
      let '(v, st') := read_target t st in
      str_to_vec_loop k t maxv st' (if cs_fail st' then vec else vec ++ [v])
    end
  else Ok vec.
Definition str_to_vec (t : target) (s : str) (maxv : option nat) (delim : str) : res (list value) :=
  str_to_vec_loop (S (length s)) t maxv (cs_of_cstr s delim) [].
