(* Floating point numbers in streams: operator<< of std::ostream and operator>>
   of std::istream in the "C" locale, as used by flut/math/vec3.hpp:96-101,
   flut/math/quat.hpp:221-222, flut/math/bounds.hpp:36-38,
   flut/math/angle.hpp:124-128, flut/storage.hpp:150-164, flut/table.hpp:71-86,
   flut/debug_tools.hpp:13 and flut/system/string_cast.hpp:9-12. *)
From Coq Require Import String.
From Verif Require Import Model.Base Model.StdString Model.Strings Model.Number Model.FloatText.
Local Open Scope list_scope.
Local Open Scope Z_scope.

(* 10^e <= num / den, and the greatest such e, from 0 up or down *)
Definition pow10_le (e num den : Z) : bool := den * 10 ^ Z.max 0 e <=? num * 10 ^ Z.max 0 (- e).
Fixpoint exp_up (fuel : nat) (e num den : Z) : Z :=
  match fuel with
  | O => e
  | S k => if pow10_le (e + 1) num den then exp_up k (e + 1) num den else e
  end.
Fixpoint exp_down (fuel : nat) (e num den : Z) : Z :=
  match fuel with
  | O => e
  | S k => if pow10_le e num den then e else exp_down k (e - 1) num den
  end.
Definition dec_exp (num den : Z) : Z := if pow10_le 0 num den then exp_up 400 0 num den else exp_down 400 0 num den.
(* num / den with P significant digits, to nearest, ties to even, as "%e" (C11
   7.21.6.1): the digits and the exponent of the first *)
Definition dec_round (P : nat) (num den : Z) : Z * Z :=
  let e := dec_exp num den in
  let k := Z.of_nat P - 1 - e in
  let d := rhe (num * 10 ^ Z.max 0 k) (den * 10 ^ Z.max 0 (- k)) in
  if 10 ^ Z.of_nat P <=? d then (10 ^ (Z.of_nat P - 1), e + 1) else (d, e).

(* zeros at the end are left out, and the point with them *)
Fixpoint strip_zeros (s : str) : str :=
  match s with
  | [] => []
  | c :: s' => match strip_zeros s' with [] => if Ascii.eqb c "0"%char then [] else [c] | r => c :: r end
  end.
Definition fraction (s : str) : str := match strip_zeros s with [] => [] | r => "."%char :: r end.
(* e+08, e-123 *)
Definition exp_text (X : Z) : str :=
  "e"%char :: (if X <? 0 then "-"%char else "+"%char) :: last_digits (if Z.abs X <? 100 then 2 else 3) (Z.abs X).
(* "%g": P digits, in the form of "%e" if the exponent is less than -4 or at
   least P *)
Definition general (P : nat) (num den : Z) : str :=
  if num =? 0 then lit "0"
  else
    let '(d, X) := dec_round P num den in
    let ds := last_digits P d in
    if (-4 <=? X) && (X <? Z.of_nat P) then
      if 0 <=? X then firstn (Z.to_nat (X + 1)) ds ++ fraction (skipn (Z.to_nat (X + 1)) ds)
      else "0"%char :: fraction (repeat "0"%char (Z.to_nat (- X - 1)) ++ ds)
    else firstn 1 ds ++ fraction (skipn 1 ds) ++ exp_text X.
(* std::ostream << float or double with precision p, which is 6 unless it is set;
   0 counts as 1.  A float is converted to double, which changes nothing; no
   width, showpos or showpoint; the sign of nan is left out *)
Definition put_real (f : fmt) (p : nat) (x : fnum) : str :=
  match x with
  | FNan => lit "nan"
  | FInf neg => minus neg ++ lit "inf"
  | FFin neg n => minus neg ++ general (Nat.max 1 p) n (2 ^ fm_low f)
  end.

(* a std::istream: failbit and what is left *)
Record istream := mkIs { is_fail : bool; is_rest : str }.
Definition is_atom (c : ascii) : bool := isdigit c || existsb (Ascii.eqb c) (lit "abcdefxABCDEFX+-.").
(* std::istream >> float or double (num_get, C++14 22.4.2.1.2): the characters
   that may be part of a number are collected and converted by strtod; nothing
   is stored if the stream has failed or is at its end; 0 is stored if that is no
   number, and what the library gives, bad, if it is out of range *)
Definition is_get (f : fmt) (under : Z -> Z -> bool) (bad : fnum -> fnum) (st : istream) (old : fnum) : fnum * istream :=
  if is_fail st then (old, st)
  else
    match skip_ws (is_rest st) with
    | [] => (old, mkIs true [])
    | s =>
        let '(tok, r) := take is_atom s in
        match strtod f under tok with
        | Some (v, e, []) => (if e then bad v else v, mkIs e r)
        | _ => (FFin false 0, mkIs true r)
        end
    end.

(* operator<< and operator>> of vec3 (flut/math/vec3.hpp:96-101) *)
Definition put_vec3 (f : fmt) (p : nat) (v : fnum * fnum * fnum) : str :=
  let '(x, y, z) := v in put_real f p x ++ " "%char :: put_real f p y ++ " "%char :: put_real f p z.
Definition get_vec3 (f : fmt) (under : Z -> Z -> bool) (bad : fnum -> fnum) (st : istream) (old : fnum * fnum * fnum) : (fnum * fnum * fnum) * istream :=
  let '(ox, oy, oz) := old in
  let '(x, st) := is_get f under bad st ox in
  let '(y, st) := is_get f under bad st oy in
  let '(z, st) := is_get f under bad st oz in
  ((x, y, z), st).
(* operator<< of quat (flut/math/quat.hpp:221-222) and bounds
   (flut/math/bounds.hpp:36-38) *)
Definition put_quat (f : fmt) (p : nat) (w x y z : fnum) : str := put_real f p w ++ " "%char :: put_vec3 f p (x, y, z).
Definition put_bounds (f : fmt) (p : nat) (lower upper : fnum) : str := put_real f p lower ++ " "%char :: put_real f p upper.
(* string_cast< vec3 >::to and from (flut/system/string_cast.hpp:10-11): T() is
   three zeros (flut/math/vec3_type.hpp:15) *)
Definition vec3_to_string (f : fmt) (v : fnum * fnum * fnum) : str := put_vec3 f 6 v.
Definition vec3_from_string (f : fmt) (under : Z -> Z -> bool) (bad : fnum -> fnum) (s : str) : fnum * fnum * fnum :=
  fst (get_vec3 f under bad (mkIs false s) (FFin false 0, FFin false 0, FFin false 0)).
