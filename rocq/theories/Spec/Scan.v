(* What reading values one after the other from a text means. *)
From Coq Require Import List Ascii ZArith.
From Verif Require Import Spec.Strings Spec.Decimal.
Import ListNotations.
Local Open Scope Z_scope.

Inductive kind := Long | Int | Text.
Inductive val := Num (z : Z) | Str (s : str).

(* the element at the front of a text, and what follows it *)
Inductive Element : kind -> str -> val -> str -> Prop :=
| El_long s z t v : Leads s z t -> Nearest (- 2 ^ 63) (2 ^ 63 - 1) z v -> Element Long s (Num v) t
| El_int s z t v i : Leads s z t -> Nearest (- 2 ^ 63) (2 ^ 63 - 1) z v ->
    - 2 ^ 31 <= i < 2 ^ 31 -> (exists k, v = i + k * 2 ^ 32) -> Element Int s (Num i) t
| El_text w t : w <> [] -> Forall (fun c => ~ White c) w ->
    (t = [] \/ exists c t', t = c :: t' /\ White c) -> Element Text (w ++ t) (Str w) t.

(* the longest sequence of elements of one kind at the front of a text without
   leading delimiters *)
Inductive Elements (d : str) (k : kind) : str -> list val -> Prop :=
| Els_none s : (forall v t, ~ Element k s v t) -> Elements d k s []
| Els_some s v t l r vs : Element k s v t -> t = l ++ r -> only d l ->
    (forall c r', r = c :: r' -> ~ In c d) -> Elements d k r vs -> Elements d k s (v :: vs).

(* reading variables of given kinds: the values stored and the number of
   variables after which text remained *)
Inductive Scanned (d : str) : str -> list kind -> list val -> nat -> Prop :=
| Sc_done s : Scanned d s [] [] 0
| Sc_fail s k ks z : (forall v t, ~ Element k s v t) -> z = (match k with Text => Str [] | _ => Num 0 end) ->
    Scanned d s (k :: ks) [z] 0
| Sc_last s k ks v t : Element k s v t -> only d t -> Scanned d s (k :: ks) [v] 0
| Sc_more s k ks v l c r vs n : Element k s v (l ++ c :: r) -> only d l -> ~ In c d ->
    Scanned d (c :: r) ks vs n -> Scanned d s (k :: ks) (v :: vs) (S n).
