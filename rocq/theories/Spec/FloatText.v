(* Floating point numbers and their text. *)
From Coq Require Import List Ascii ZArith String.
From Verif Require Import Model.StdString Model.FloatText Spec.Strings Spec.Decimal.
Import ListNotations.
Local Open Scope list_scope.
Local Open Scope Z_scope.

(* the formats of the platform *)
Definition IEEE (f : fmt) : Prop := f = double_fmt \/ f = float_fmt.
(* n / 2^low has at most fm_prec significant bits, the last of weight 2^-low or more *)
Definition Rep (f : fmt) (n : Z) : Prop := exists m e, 0 <= e /\ 0 <= m < 2 ^ fm_prec f /\ n = m * 2 ^ e.
Definition Finite (f : fmt) (n : Z) : Prop := Rep f n /\ n < 2 ^ (fm_top f + fm_low f).
Definition Valid (f : fmt) (x : fnum) : Prop := match x with FFin _ n => Finite f n | _ => True end.

(* n / 2^low is the number of the format closest to num / den, ties to even *)
Definition Closest (f : fmt) (num den n : Z) : Prop :=
  Rep f n /\ forall n', Rep f n' -> n' <> n ->
    Z.abs (n * den - num * 2 ^ fm_low f) < Z.abs (n' * den - num * 2 ^ fm_low f) \/
    Z.abs (n * den - num * 2 ^ fm_low f) = Z.abs (n' * den - num * 2 ^ fm_low f) /\ exists k, n = 2 * k * Z.abs (n - n').
(* k is the integer closest to a / b, ties to even *)
Definition Rounds (a b k : Z) : Prop := 2 * Z.abs (k * b - a) <= b /\ (2 * Z.abs (k * b - a) = b -> Z.Even k).

(* k / 10^6 with six decimals and no superfluous zeros in front *)
Inductive Fixed6 : bool -> Z -> str -> Prop :=
| Fixed6_intro neg ip i fp : Canonical ip i -> 0 <= i -> List.length fp = 6%nat -> Forall IsDigit fp ->
    Fixed6 neg (i * 10 ^ 6 + digits_value fp) ((if neg then lit "-" else []) ++ ip ++ lit "." ++ fp).

(* the language of strtod *)
Definition HexDigit (c : ascii) (v : nat) : Prop := nth_error (lit "0123456789abcdef") v = Some c \/ nth_error (lit "0123456789ABCDEF") v = Some c.
Definition IsHex (c : ascii) : Prop := exists v, HexDigit c v.
Inductive HexValue : str -> Z -> Prop :=
| HV_nil : HexValue [] 0
| HV_snoc ds c z v : HexValue ds z -> HexDigit c v -> HexValue (ds ++ [c]) (z * 16 + Z.of_nat v).
Inductive Mant (D : ascii -> Prop) : str -> str -> str -> Prop :=
| Mant_int ip : Forall D ip -> ip <> [] -> Mant D ip ip []
| Mant_frac ip fp : Forall D ip -> Forall D fp -> ip ++ fp <> [] -> Mant D (ip ++ lit "." ++ fp) ip fp.
Inductive Expo (X : ascii -> Prop) : str -> Z -> Prop :=
| Expo_none : Expo X [] 0
| Expo_some x n z : X x -> Numeral n z -> Expo X (x :: n) z.
(* c is the letter d, of either case *)
Definition Letter (d c : ascii) : Prop := c = d \/ (nat_of_ascii c + 32)%nat = nat_of_ascii d.
Definition Word (w s : str) : Prop := Forall2 Letter w s.
Definition Alnum (c : ascii) : Prop :=
  (48 <= nat_of_ascii c <= 57)%nat \/ (65 <= nat_of_ascii c <= 90)%nat \/ (97 <= nat_of_ascii c <= 122)%nat \/ c = "_"%char.
Definition power (base d e : Z) : subject := VNum (d * base ^ Z.max 0 e) (base ^ Z.max 0 (- e)).
Inductive Form : str -> subject -> Prop :=
| F_dec m ip fp x z : Mant IsDigit m ip fp -> Expo (Letter "e") x z ->
    Form (m ++ x) (power 10 (digits_value (ip ++ fp)) (z - Z.of_nat (List.length fp)))
| F_hex p m ip fp h x z : Letter "x" p -> Mant IsHex m ip fp -> HexValue (ip ++ fp) h -> Expo (Letter "p") x z ->
    Form (lit "0" ++ [p] ++ m ++ x) (power 2 h (z - 4 * Z.of_nat (List.length fp)))
| F_inf w : Word (lit "inf") w -> Form w VInf
| F_infinity w : Word (lit "infinity") w -> Form w VInf
| F_nan w : Word (lit "nan") w -> Form w VNan
| F_nan_seq w t : Word (lit "nan") w -> Forall Alnum t -> Form (w ++ lit "(" ++ t ++ lit ")") VNan.
(* s begins, after whitespace and a sign, with a number, which is the longest
   that begins there; rest comes after it *)
Inductive Sign : bool -> str -> Prop :=
| Sign_none : Sign false []
| Sign_plus : Sign false (lit "+")
| Sign_minus : Sign true (lit "-").
Definition Begins (s : str) (neg : bool) (v : subject) (rest : str) : Prop :=
  exists w g b, s = w ++ g ++ b ++ rest /\ Forall White w /\ Sign neg g /\ Form b v /\
    forall b' v' rest', b' ++ rest' = b ++ rest -> Form b' v' -> (List.length b' <= List.length b)%nat.
(* what the text stands for in a format *)
Inductive Stands (f : fmt) (neg : bool) : subject -> fnum -> Prop :=
| St_nan : Stands f neg VNan FNan
| St_inf : Stands f neg VInf (FInf neg)
| St_num num den n : Closest f num den n -> n < 2 ^ (fm_top f + fm_low f) -> Stands f neg (VNum num den) (FFin neg n)
| St_over num den n : Closest f num den n -> 2 ^ (fm_top f + fm_low f) <= n -> Stands f neg (VNum num den) (FInf neg).
(* a range error: too large, or, if the library says so, less than the smallest
   normal number *)
Definition OutOfRange (f : fmt) (under : Z -> Z -> bool) (v : subject) : Prop :=
  exists num den, v = VNum num den /\
    ((exists n, Closest f num den n /\ 2 ^ (fm_top f + fm_low f) <= n) \/ (0 < num /\ num * 2 ^ fm_low f < den * 2 ^ (fm_prec f - 1) /\ under num den = true)).
(* the order of the values *)
Definition sgn (neg : bool) (n : Z) : Z := if neg then - n else n.
(* the number written with six decimals that is meant by x: x is the number of
   the format closest to a whole number of millionths *)
Definition Six (f : fmt) (x : fnum) : Prop := match x with FFin _ n => Finite f n /\ exists k, 0 <= k /\ Closest f k (10 ^ 6) n | _ => True end.
