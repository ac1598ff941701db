(* Decimal numerals. *)
From Coq Require Import List Ascii ZArith.
From Verif Require Import Spec.Strings.
Import ListNotations.
Local Open Scope Z_scope.

Definition dval (c : ascii) : Z := Z.of_nat (nat_of_ascii c) - 48.
Definition IsDigit (c : ascii) : Prop := 0 <= dval c <= 9.

(* positional value *)
Fixpoint digits_value (ds : str) : Z :=
  match ds with
  | [] => 0
  | d :: ds' => dval d * 10 ^ Z.of_nat (length ds') + digits_value ds'
  end.

Inductive Numeral : str -> Z -> Prop :=
| Num_plain ds : ds <> [] -> Forall IsDigit ds -> Numeral ds (digits_value ds)
| Num_plus ds : ds <> [] -> Forall IsDigit ds -> Numeral ("+"%char :: ds) (digits_value ds)
| Num_minus ds : ds <> [] -> Forall IsDigit ds -> Numeral ("-"%char :: ds) (- digits_value ds).

(* no plus sign, no superfluous leading zero, no minus zero *)
Inductive Canonical : str -> Z -> Prop :=
| Can_zero : Canonical ["0"%char] 0
| Can_pos d ds : IsDigit d -> d <> "0"%char -> Forall IsDigit ds -> Canonical (d :: ds) (digits_value (d :: ds))
| Can_neg d ds : IsDigit d -> d <> "0"%char -> Forall IsDigit ds ->
    Canonical ("-"%char :: d :: ds) (- digits_value (d :: ds)).

(* whitespace of the "C" locale *)
Definition White (c : ascii) : Prop :=
  c = " "%char \/ (9 <= nat_of_ascii c <= 13)%nat.

(* no digit at the front *)
Definition nodigit (t : str) : Prop := match t with [] => True | c :: _ => ~ IsDigit c end.

(* s begins (after whitespace) with a numeral of value z, followed by t *)
Inductive Leads : str -> Z -> str -> Prop :=
| Leads_intro w n z t : Forall White w -> Numeral n z -> nodigit t -> Leads (w ++ n ++ t) z t.

(* the value nearest to z between lo and hi *)
Definition Nearest (lo hi z v : Z) : Prop :=
  lo <= v <= hi /\ forall v', lo <= v' <= hi -> Z.abs (z - v) <= Z.abs (z - v').
