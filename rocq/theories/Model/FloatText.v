(* Text of floating point numbers: std::to_string, std::stod, std::stof, strtod
   and strtof of the "C" locale, as used by flut/system/string_cast.hpp:14-22
   and flut/char_stream.hpp:34-35. *)
From Coq Require Import String.
From Verif Require Import Model.Base Model.StdString Model.Strings Model.Number Model.CharStream Model.PropTree Model.PropCast.
Local Open Scope list_scope.
Local Open Scope Z_scope.

(* IEEE formats: bits of the significand, the smallest number 2^-low, and the
   smallest power of two 2^top that is too large (double, float:
   flut/system/string_cast.hpp:14, 19) *)
Record fmt := mkFmt { fm_prec : Z; fm_low : Z; fm_top : Z }.
Definition double_fmt : fmt := mkFmt 53 1074 1024.
Definition float_fmt : fmt := mkFmt 24 149 128.

(* a value: FFin neg n is n / 2^low, or its negation; payloads and signs of
   nan are left out *)
Inductive fnum := FNan | FInf (neg : bool) | FFin (neg : bool) (n : Z).

(* a / b to the nearest integer, ties to even: the rounding mode of the
   conversions both ways *)
Definition rhe (a b : Z) : Z :=
  let q := a / b in
  let r := 2 * (a mod b) in
  if r <? b then q else if b <? r then q + 1 else if Z.even q then q else q + 1.

Definition minus (neg : bool) : str := if neg then ["-"%char] else [].
Fixpoint last_digits (k : nat) (n : Z) : str :=
  match k with
  | O => []
  | S k' => last_digits k' (n / 10) ++ [digit (n mod 10)]
  end.
(* std::to_string( float ), std::to_string( double ): "%f" (string_cast< float >::to,
   string_cast< double >::to, flut/system/string_cast.hpp:16, 21); 400 digits
   are enough *)
Definition to_text (f : fmt) (x : fnum) : str :=
  match x with
  | FNan => lit "nan"
  | FInf neg => minus neg ++ lit "inf"
  | FFin neg n =>
      let k := rhe (n * 10 ^ 6) (2 ^ fm_low f) in
      minus neg ++ dec_digits 400 (k / 10 ^ 6) ++ "."%char :: last_digits 6 (k mod 10 ^ 6)
  end.

(* the number num / den, to the nearest value of the format, ties to even; the
   exponent is not bounded above here *)
Definition round_units (f : fmt) (num den : Z) : Z :=
  let x := num * 2 ^ fm_low f in
  let e := Z.max 0 (Z.log2 (x / den) - fm_prec f + 1) in
  rhe x (den * 2 ^ e) * 2 ^ e.

(* the subject sequence of strtod (C11 7.22.1.3) *)
Inductive subject := VNum (num den : Z) | VInf | VNan.

Fixpoint take (p : ascii -> bool) (s : str) : str * str :=
  match s with
  | c :: s' => if p c then let '(ds, r) := take p s' in (c :: ds, r) else ([], s)
  | [] => ([], [])
  end.
Definition lower (c : ascii) : ascii := if ((65 <=? code c) && (code c <=? 90))%nat then ascii_of_nat (code c + 32) else c.
Definition hexval (c : ascii) : Z :=
  if isdigit c then Z.of_nat (code c) - 48 else Z.of_nat (code (lower c)) - 87.
Definition ishex (c : ascii) : bool := isdigit c || ((97 <=? code (lower c)) && (code (lower c) <=? 102))%nat.
(* an optional exponent *)
Definition exponent (letter : ascii) (s : str) : Z * str :=
  match s with
  | c :: r =>
      if Ascii.eqb (lower c) letter then
        let '(neg, r1) := take_sign r in
        let '(ds, r2) := take_digits r1 in
        match ds with
        | [] => (0, s)
        | _ => (if neg then - acc_digits ds else acc_digits ds, r2)
        end
      else (0, s)
  | [] => (0, s)
  end.
(* digits, an optional point and digits, an optional exponent *)
Definition mantissa (isd : ascii -> bool) (letter : ascii) (s : str) : option (str * str * Z * str) :=
  let '(ip, s1) := take isd s in
  let '(fp, s2) := match s1 with c :: r => if Ascii.eqb c "."%char then take isd r else ([], s1) | [] => ([], s1) end in
  match ip ++ fp with
  | [] => None
  | _ => let '(e, s3) := exponent letter s2 in Some (ip, fp, e, s3)
  end.
Definition scaled (base d e : Z) : subject :=
  if 0 <=? e then VNum (d * base ^ e) 1 else VNum d (base ^ (- e)).
Definition acc_hex (ds : str) : Z := fold_left (fun a c => a * 16 + hexval c) ds 0.
Definition decimal (s : str) : option (subject * str) :=
  match mantissa isdigit "e"%char s with
  | Some (ip, fp, e, r) => Some (scaled 10 (acc_digits (ip ++ fp)) (e - Z.of_nat (List.length fp)), r)
  | None => None
  end.
Definition hexadecimal (s : str) : option (subject * str) :=
  match s with
  | c :: x :: r =>
      if Ascii.eqb c "0"%char && Ascii.eqb (lower x) "x"%char then
        match mantissa ishex "p"%char r with
        | Some (ip, fp, e, t) => Some (scaled 2 (acc_hex (ip ++ fp)) (e - 4 * Z.of_nat (List.length fp)), t)
        | None => None
        end
      else None
  | _ => None
  end.
Definition isnchar (c : ascii) : bool := isdigit c || isalpha c || Ascii.eqb c "_"%char.
Definition named (s : str) : option (subject * str) :=
  let l := map lower s in
  if prefixb (lit "infinity") l then Some (VInf, skipn 8 s)
  else if prefixb (lit "inf") l then Some (VInf, skipn 3 s)
  else if prefixb (lit "nan") l then
    match skipn 3 s with
    | c :: r =>
        if Ascii.eqb c "("%char then
          match snd (take isnchar r) with
          | d :: t => if Ascii.eqb d ")"%char then Some (VNan, t) else Some (VNan, skipn 3 s)
          | [] => Some (VNan, skipn 3 s)
          end
        else Some (VNan, skipn 3 s)
    | [] => Some (VNan, [])
    end
  else None.
Definition number (s : str) : option (subject * str) :=
  match hexadecimal s with
  | Some r => Some r
  | None => match decimal s with Some r => Some r | None => named s end
  end.

(* a result below the smallest normal number may be reported as a range error:
   the libraries differ in this, under num den tells *)
Definition erange (f : fmt) (under : Z -> Z -> bool) (v : subject) : bool :=
  match v with
  | VNum num den =>
      (2 ^ (fm_top f + fm_low f) <=? round_units f num den) ||
      ((0 <? num) && (num * 2 ^ fm_low f <? den * 2 ^ (fm_prec f - 1)) && under num den)
  | _ => false
  end.
Definition to_fnum (f : fmt) (neg : bool) (v : subject) : fnum :=
  match v with
  | VNan => FNan
  | VInf => FInf neg
  | VNum num den => if 2 ^ (fm_top f + fm_low f) <=? round_units f num den then FInf neg else FFin neg (round_units f num den)
  end.
(* strtod, strtof: value, ERANGE, and the text from *endptr; None: no conversion *)
Definition strtod (f : fmt) (under : Z -> Z -> bool) (s : str) : option (fnum * bool * str) :=
  let '(neg, s1) := take_sign (skip_ws s) in
  match number s1 with
  | Some (v, r) => Some (to_fnum f neg v, erange f under v, r)
  | None => None
  end.
(* std::stod, std::stof (string_cast< double >::from, string_cast< float >::from,
   flut/system/string_cast.hpp:15, 20): std::invalid_argument and
   std::out_of_range *)
Definition stod (f : fmt) (under : Z -> Z -> bool) (s : str) : res fnum :=
  match strtod f under (cstr s) with
  | Some (v, false, _) => Ok v
  | _ => Throw
  end.
(* string_is< double >, string_is< float > (flut/system/string_cast.hpp:59-62) *)
Definition string_is_real (f : fmt) (under : Z -> Z -> bool) (s : str) : bool :=
  match stod f under s with Ok _ => true | _ => false end.
(* operator>>( float& ), operator>>( double& ) (flut/char_stream.hpp:34-35) *)
Definition read_real (f : fmt) (under : Z -> Z -> bool) (st : char_stream) : fnum * char_stream :=
  match strtod f under (cs_rest st) with
  | None => (FFin false 0, process_end_pos st 0)
  | Some (v, _, r) => (v, process_end_pos st (List.length (cs_rest st) - List.length r))
  end.
(* prop_node_cast< float >, prop_node_cast< double > (flut/prop_node.hpp:240-243) *)
Definition real_cast (f : fmt) (under : Z -> Z -> bool) : cast fnum := text_cast (to_text f) (stod f under).
