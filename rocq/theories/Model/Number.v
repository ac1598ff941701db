(* Text conversion of integers in the C and C++ libraries ("C" locale), as used
   by flut/system/string_cast.hpp, flut/system/version.hpp and
   flut/char_stream.hpp. *)
From Verif Require Import Model.Base Model.StdString Model.Strings.
Local Open Scope Z_scope.

(* isspace, isdigit, isalpha of the "C" locale *)
Definition isspace (c : ascii) : bool := mem default_delimiters c.
Definition isdigit (c : ascii) : bool := (48 <=? code c)%nat && (code c <=? 57)%nat.
Definition isalpha (c : ascii) : bool :=
  ((65 <=? code c)%nat && (code c <=? 90)%nat) || ((97 <=? code c)%nat && (code c <=? 122)%nat).

(* printf %d, std::to_string, operator<<: decimal digits, most significant first;
   20 digits are enough for 64 bits *)
Fixpoint dec_digits (fuel : nat) (n : Z) : str :=
  match fuel with
  | O => []
  | S k => (if n <? 10 then [] else dec_digits k (n / 10)) ++ [digit (n mod 10)]
  end.
Definition dec (z : Z) : str :=
  if z <? 0 then "-"%char :: dec_digits 20 (- z) else dec_digits 20 z.

Fixpoint skip_ws (s : str) : str :=
  match s with
  | c :: s' => if isspace c then skip_ws s' else s
  | [] => []
  end.

(* optional sign *)
Definition take_sign (s : str) : bool * str :=
  match s with
  | c :: s' => if Ascii.eqb c "-"%char then (true, s') else if Ascii.eqb c "+"%char then (false, s') else (false, s)
  | [] => (false, [])
  end.

Fixpoint take_digits (s : str) : str * str :=
  match s with
  | c :: s' => if isdigit c then let '(ds, r) := take_digits s' in (c :: ds, r) else ([], s)
  | [] => ([], [])
  end.

Definition acc_digits (ds : str) : Z := fold_left (fun a c => a * 10 + (Z.of_nat (code c) - 48)) ds 0.

Definition clamp_Z (lo hi z : Z) : Z := if z <? lo then lo else if hi <? z then hi else z.

(* strtol, strtoll with base 10: value, ERANGE, and the text from *endptr;
   None: no conversion (value 0, *endptr = the start) *)
Definition LONG_MIN : Z := - 2 ^ 63.
Definition LONG_MAX : Z := 2 ^ 63 - 1.
Definition strtol (s : str) : option (Z * bool * str) :=
  let '(neg, s2) := take_sign (skip_ws s) in
  let '(ds, s3) := take_digits s2 in
  match ds with
  | [] => None
  | _ => let v := if neg then - acc_digits ds else acc_digits ds in
         Some (clamp_Z LONG_MIN LONG_MAX v, negb ((LONG_MIN <=? v) && (v <=? LONG_MAX)), s3)
  end.

(* strtoul, strtoull with base 10: a minus sign negates modulo 2^64 *)
Definition strtoul (s : str) : option (Z * bool * str) :=
  let '(neg, s2) := take_sign (skip_ws s) in
  let '(ds, s3) := take_digits s2 in
  match ds with
  | [] => None
  | _ => let v := acc_digits ds in
         if two64 <=? v then Some (two64 - 1, true, s3)
         else Some (if neg then (- v) mod two64 else v, false, s3)
  end.

(* std::stol, std::stoul: std::invalid_argument and std::out_of_range *)
Definition stol (s : str) : res Z :=
  match strtol (cstr s) with
  | Some (v, false, _) => Ok v
  | _ => Throw
  end.
Definition stoul (s : str) : res Z :=
  match strtoul (cstr s) with
  | Some (v, false, _) => Ok v
  | _ => Throw
  end.

(* std::stringstream, input side *)
Record istream := mkIs { is_rest : str; is_eof : bool; is_fail : bool }.
Definition is_good (st : istream) : bool := negb (is_eof st) && negb (is_fail st).
Definition is_make (s : str) : istream := mkIs s false false.

(* the sentry of formatted input: skips whitespace *)
Definition is_sentry (st : istream) : bool * istream :=
  if is_good st then
    match skip_ws (is_rest st) with
    | [] => (false, mkIs [] true true)
    | r => (true, mkIs r false false)
    end
  else (false, mkIs (is_rest st) (is_eof st) true).

(* operator>>( signed integer& ): a failed sentry leaves the variable, missing
   digits store 0, an out of range value stores the nearest limit *)
Definition is_read_int (lo hi : Z) (old : option Z) (st : istream) : option Z * istream :=
  let '(ok, st1) := is_sentry st in
  if ok then
    let '(neg, s2) := take_sign (is_rest st1) in
    let '(ds, s3) := take_digits s2 in
    let eof := match s3 with [] => true | _ => false end in
    match ds with
    | [] => (Some 0, mkIs s3 eof true)
    | _ => let v := if neg then - acc_digits ds else acc_digits ds in
           (Some (clamp_Z lo hi v), mkIs s3 eof (negb ((lo <=? v) && (v <=? hi))))
    end
  else (old, st1).

(* operator>>( unsigned integer& ) of modulus m *)
Definition is_read_uint (m : Z) (old : option Z) (st : istream) : option Z * istream :=
  let '(ok, st1) := is_sentry st in
  if ok then
    let '(neg, s2) := take_sign (is_rest st1) in
    let '(ds, s3) := take_digits s2 in
    let eof := match s3 with [] => true | _ => false end in
    match ds with
    | [] => (Some 0, mkIs s3 eof true)
    | _ => let v := acc_digits ds in
           if m <=? v then (Some (m - 1), mkIs s3 eof true)
           else (Some (if neg then (- v) mod m else v), mkIs s3 eof false)
    end
  else (old, st1).

(* operator>>( bool& ) without boolalpha: reads a long *)
Definition is_read_bool (old : option bool) (st : istream) : option bool * istream :=
  let '(v, st1) := is_read_int LONG_MIN LONG_MAX None st in
  match v with
  | None => (old, st1)
  | Some 0 => (Some false, st1)
  | Some 1 => (Some true, st1)
  | Some _ => (Some true, mkIs (is_rest st1) (is_eof st1) true)
  end.

(* operator>>( char& ) *)
Definition is_read_char (old : option ascii) (st : istream) : option ascii * istream :=
  let '(ok, st1) := is_sentry st in
  if ok then
    match is_rest st1 with
    | c :: r => (Some c, mkIs r false false)
    | [] => (old, st1)
    end
  else (old, st1).

Fixpoint take_word (s : str) : str * str :=
  match s with
  | c :: s' => if isspace c then ([], s) else let '(w, r) := take_word s' in (c :: w, r)
  | [] => ([], [])
  end.

(* operator>>( std::string& ) *)
Definition is_read_word (old : str) (st : istream) : str * istream :=
  let '(ok, st1) := is_sentry st in
  if ok then
    let '(w, r) := take_word (is_rest st1) in
    (w, mkIs r (match r with [] => true | _ => false end) false)
  else (old, st1).
