(* The quoted-string notation: what each escape sequence stands for. *)
From Coq Require Import List Ascii ZArith Bool.
Import ListNotations.
Notation str := (list ascii).

Definition octal (c : ascii) : Prop := (48 <= nat_of_ascii c < 56)%nat.
Definition oct_value (ds : str) : Z :=
  fold_left (fun v c => (v * 8 + (Z.of_nat (nat_of_ascii c) - 48))%Z) ds 0%Z.
Definition special (c : ascii) : Prop :=
  In c ["000"; "\"; """"; "r"; "n"; "t"]%char.

(* Escape t c r: after a backslash, the text t starts with an escape sequence
   for character c and continues with r *)
Inductive Escape : str -> ascii -> str -> Prop :=
| Esc_nul r : Escape ("000"%char :: r) "?"%char r
| Esc_bslash r : Escape ("\"%char :: r) "\"%char r
| Esc_quote r : Escape (""""%char :: r) """"%char r
| Esc_cr r : Escape ("r"%char :: r) "013"%char r
| Esc_lf r : Escape ("n"%char :: r) "010"%char r
| Esc_tab r : Escape ("t"%char :: r) "009"%char r
| Esc_octal ds r :
    ds ++ r <> [] -> (forall c t, ds ++ r = c :: t -> ~ special c) ->
    Forall octal ds -> (length ds <= 3)%nat ->
    (length ds = 3%nat \/ r = [] \/ exists c t, r = c :: t /\ ~ octal c) ->
    Escape (ds ++ r)
      (if ((0 <? oct_value ds) && (oct_value ds <? 32))%Z then ascii_of_nat (Z.to_nat (oct_value ds)) else "?"%char) r.

(* Scan t out: the text t after an opening quote reaches a closing quote, and
   stands for out *)
Inductive Scan : str -> str -> Prop :=
| Scan_close r : Scan (""""%char :: r) []
| Scan_char c r out : c <> """"%char -> c <> "\"%char -> Scan r out -> Scan (c :: r) (c :: out)
| Scan_escape t c r out : Escape t c r -> Scan r out -> Scan ("\"%char :: t) (c :: out).
