(* C19, C20: quoting and unquoting *)
From Coq Require Import String.
From Verif Require Import Model.Base Model.StdString Model.Strings Spec.Strings Spec.Quote Proofs.QuoteProofs.
Local Open Scope list_scope.

(* C19 *)
Theorem C19_quoted_roundtrip : forall s, try_unquoted (quoted s) = Ok s <-> Forall plain s.
Proof. exact quoted_roundtrip. Qed.
Print Assumptions C19_quoted_roundtrip.

Theorem C19_try_quoted_roundtrip : forall s, try_unquoted (try_quoted s) = Ok s <-> Forall plain s.
Proof. exact try_quoted_roundtrip. Qed.
Print Assumptions C19_try_quoted_roundtrip.

(* for every string, not only plain ones *)
Theorem C19_quoted_printable : forall s, Forall (fun x => 32 <= nat_of_ascii x < 128) (quoted s).
Proof. exact quoted_printable. Qed.
Print Assumptions C19_quoted_printable.

Theorem C19_quoted_roundtrip_refuted :
  exists s, try_unquoted (quoted s) <> Ok s /\ try_unquoted (try_quoted s) <> Ok s.
Proof. exists ["200"%char]. split; vm_compute; discriminate. Qed.
Print Assumptions C19_quoted_roundtrip_refuted.

Example C19_nonvacuous :
  Forall plain (lit "a ""b"" \ c") /\ quoted (lit "a ""b"" \ c") = lit """a \""b\"" \\ c""" /\
  quoted ["009"; "001"; "7"]%char = lit """\t\0017""".
Proof. split; [repeat constructor|split; vm_compute; reflexivity]. Qed.

(* C20 *)
Theorem C20_unquoted_text : forall s, ~ (exists b, s = QUOTE :: b /\ exists s', s = s' ++ [QUOTE]) -> try_unquoted s = Ok s.
Proof. exact try_unquoted_other. Qed.
Print Assumptions C20_unquoted_text.

(* the argument starts and ends with a quote: it is decoded up to the first
   unescaped quote, and undefined exactly when there is none *)
Theorem C20_quoted_text : forall b, (exists s', QUOTE :: b = s' ++ [QUOTE]) ->
  (forall out, try_unquoted (QUOTE :: b) = Ok out <-> Scan b out) /\
  (try_unquoted (QUOTE :: b) = UB <-> forall out, ~ Scan b out) /\
  (try_unquoted (QUOTE :: b) <> Throw /\ try_unquoted (QUOTE :: b) <> OutOfFuel).
Proof. exact try_unquoted_quoted. Qed.
Print Assumptions C20_quoted_text.

(* decode_char reads exactly one escape sequence *)
Theorem C20_decode_escape : forall t c r, Escape t c r ->
  exists n, decode_char (BSLASH :: t) = Ok (c, n) /\ skipn n (BSLASH :: t) = r /\ 1 <= n.
Proof. exact escape_decode. Qed.
Print Assumptions C20_decode_escape.

Theorem C20_decode_total : forall t, t <> [] -> exists c r, Escape t c r.
Proof. exact escape_total. Qed.
Print Assumptions C20_decode_total.

(* outside an escape sequence nothing is consumed *)
Theorem C20_decode_nothing :
  (forall c r, c <> BSLASH -> decode_char (c :: r) = Ok (c, 0)) /\ decode_char [BSLASH] = Ok (BSLASH, 0) /\
  decode_char [] = Throw.
Proof.
  split; [|split; reflexivity]. intros c r H. unfold decode_char. apply Ascii.eqb_neq in H. rewrite H. reflexivity.
Qed.
Print Assumptions C20_decode_nothing.

(* "try_unquoted is defined on every string" is false *)
Theorem C20_try_unquoted_refuted :
  try_unquoted [QUOTE] = UB /\ try_unquoted [QUOTE; BSLASH; QUOTE] = UB.
Proof. split; reflexivity. Qed.
Print Assumptions C20_try_unquoted_refuted.

Example C20_nonvacuous :
  try_unquoted (lit """a\tb\\c""") = Ok (lit "a" ++ TAB :: lit "b\c") /\
  try_unquoted (lit """a""b""") = Ok (lit "a") /\ try_unquoted (lit "a""") = Ok (lit "a""").
Proof. split; [vm_compute; reflexivity|split; vm_compute; reflexivity]. Qed.
