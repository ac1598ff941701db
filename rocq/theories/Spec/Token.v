(* The token notation of char_stream, as a grammar. *)
From Coq Require Import List Ascii ZArith.
From Verif Require Import Spec.Strings Spec.Quote.
Import ListNotations.

Section T.
(* delimiters, operators, quotation marks *)
Variables D O Q : str.

Definition Delim (c : ascii) : Prop := In c D \/ c = "000"%char.
Definition Quot (c : ascii) : Prop := In c Q /\ ~ Delim c.
Definition Oper (c : ascii) : Prop := In c O /\ ~ Delim c /\ ~ In c Q.
Definition Raw (c : ascii) : Prop := ~ Delim c /\ ~ In c Q /\ ~ In c O.

(* Quoted q t out r: the text t after an opening q stands for out; r follows
   the closing q (or the text ends) *)
Inductive Quoted (q : ascii) : str -> str -> str -> Prop :=
| Qd_close r : Quoted q (q :: r) [] r
| Qd_end : Quoted q [] [] []
| Qd_char c t out r : c <> q -> c <> "\"%char -> Quoted q t out r -> Quoted q (c :: t) (c :: out) r
| Qd_escape e c t out r : "\"%char <> q -> Escape e c t -> Quoted q t out r -> Quoted q ("\"%char :: e) (c :: out) r.

(* the text ends in a lone backslash before the quotation is closed *)
Inductive Stuck (q : ascii) : str -> Prop :=
| St_here : "\"%char <> q -> Stuck q ["\"%char]
| St_char c t : c <> q -> c <> "\"%char -> Stuck q t -> Stuck q (c :: t)
| St_escape e c t : "\"%char <> q -> Escape e c t -> Stuck q t -> Stuck q ("\"%char :: e).

(* Token s t tok r: after quoted parts that stand for s, the text t completes
   the token tok, and r follows it.  Raw characters directly before a
   quotation are not part of the token. *)
Inductive Token : str -> str -> str -> str -> Prop :=
| Tok_end s w : Forall Raw w -> Token s w (s ++ w) []
| Tok_delim s w c r : Forall Raw w -> Delim c -> Token s (w ++ c :: r) (s ++ w) (c :: r)
| Tok_before_op s w c r : Forall Raw w -> Oper c -> s ++ w <> [] -> Token s (w ++ c :: r) (s ++ w) (c :: r)
| Tok_op c r : Oper c -> Token [] (c :: r) [c] r
| Tok_quote s w q t out t' tok r : Forall Raw w -> Quot q -> Quoted q t out t' ->
    Token (s ++ out) t' tok r -> Token s (w ++ q :: t) tok r.

Inductive Hang : str -> Prop :=
| Hang_here w q t : Forall Raw w -> Quot q -> Stuck q t -> Hang (w ++ q :: t)
| Hang_later w q t out t' : Forall Raw w -> Quot q -> Quoted q t out t' -> Hang t' -> Hang (w ++ q :: t).

(* r is s without its leading delimiters *)
Definition Skipped (s r : str) : Prop :=
  exists l, s = l ++ r /\ Forall Delim l /\ (forall c r', r = c :: r' -> ~ Delim c).
End T.
