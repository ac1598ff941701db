(* XML documents and the trees they stand for: a grammar without positions,
   written down from the XML recommendation, for documents without CDATA
   sections. *)
From Coq Require Import List Ascii String ZArith.
From Verif Require Import Spec.Strings Model.PropTree.
Import ListNotations.
Local Open Scope list_scope.
Local Open Scope char_scope.

Definition blank_chars : str := [" "; "009"; "010"; "013"].
Definition zero : ascii := "000".
Definition Blank (s : str) : Prop := only blank_chars s.
Definition Text (s : string) : str := list_ascii_of_string s.

(* names; XML itself allows fewer *)
Definition ElementName (n : str) : Prop :=
  n <> [] /\ free (zero :: "/" :: ">" :: "?" :: blank_chars) n /\ forall r, n <> "!" :: r.
Definition AttributeName (n : str) : Prop :=
  n <> [] /\ free (zero :: "/" :: "<" :: ">" :: "=" :: "?" :: "!" :: blank_chars) n.

(* the bytes of a character in UTF-8 *)
Definition Byte (b : ascii) (z : Z) : Prop := Z.of_nat (nat_of_ascii b) = z.
Inductive Utf8 : Z -> str -> Prop :=
| Utf8_1 c b : (0 <= c < 128)%Z -> Byte b c -> Utf8 c [b]
| Utf8_2 c b1 b2 : (128 <= c < 2048)%Z -> Byte b1 (192 + c / 64)%Z -> Byte b2 (128 + c mod 64)%Z -> Utf8 c [b1; b2]
| Utf8_3 c b1 b2 b3 : (2048 <= c < 65536)%Z ->
    Byte b1 (224 + c / 4096)%Z -> Byte b2 (128 + c / 64 mod 64)%Z -> Byte b3 (128 + c mod 64)%Z -> Utf8 c [b1; b2; b3]
| Utf8_4 c b1 b2 b3 b4 : (65536 <= c < 1114112)%Z ->
    Byte b1 (240 + c / 262144)%Z -> Byte b2 (128 + c / 4096 mod 64)%Z -> Byte b3 (128 + c / 64 mod 64)%Z -> Byte b4 (128 + c mod 64)%Z ->
    Utf8 c [b1; b2; b3; b4].
(* digits: the number they stand for *)
Inductive Digit (base : Z) : ascii -> Z -> Prop :=
| Digit_dec c d : (Z.of_nat (nat_of_ascii c) = 48 + d)%Z -> (0 <= d < 10)%Z -> (d < base)%Z -> Digit base c d
| Digit_upper c d : (Z.of_nat (nat_of_ascii c) = 55 + d)%Z -> (10 <= d < 16)%Z -> (d < base)%Z -> Digit base c d
| Digit_lower c d : (Z.of_nat (nat_of_ascii c) = 87 + d)%Z -> (10 <= d < 16)%Z -> (d < base)%Z -> Digit base c d.
Inductive Number (base : Z) : str -> Z -> Prop :=
| Number_none : Number base [] 0
| Number_digit l n c d : Number base l n -> Digit base c d -> Number base (l ++ [c]) (n * base + d).

Inductive Reference : str -> str -> Prop :=
| Ref_amp : Reference (Text "&amp;") ["&"]
| Ref_apos : Reference (Text "&apos;") ["'"]
| Ref_quot : Reference (Text "&quot;") [""""]
| Ref_gt : Reference (Text "&gt;") [">"]
| Ref_lt : Reference (Text "&lt;") ["<"]
| Ref_dec ds n v : ds <> [] -> Number 10 ds n -> (0 < n)%Z -> Utf8 n v -> Reference (Text "&#" ++ ds ++ [";"]) v
| Ref_hex ds n v : ds <> [] -> Number 16 ds n -> (0 < n)%Z -> Utf8 n v -> Reference (Text "&#x" ++ ds ++ [";"]) v.
(* text that stands for the characters v, without the characters of stop *)
Inductive Encodes (stop : str) : str -> str -> Prop :=
| Enc_nil : Encodes stop [] []
| Enc_char c t v : c <> "&" -> c <> zero -> ~ In c stop -> Encodes stop t v -> Encodes stop (c :: t) (c :: v)
| Enc_ref r x t v : Reference r x -> Encodes stop t v -> Encodes stop (r ++ t) (x ++ v).

(* the text s does not occur in t ++ s but at its end *)
Definition EndsAt (s t : str) : Prop := forall l r, t ++ s = l ++ s ++ r -> r = [].
(* a document type declaration, with brackets in pairs *)
Inductive Subset : str -> Prop :=
| Subset_none : Subset []
| Subset_char c t : ~ In c [zero; "["; "]"] -> Subset t -> Subset (c :: t)
| Subset_nest t u : Subset t -> Subset u -> Subset ("[" :: t ++ "]" :: u).
Inductive Doctype : str -> Prop :=
| Doctype_none : Doctype []
| Doctype_char c t : ~ In c [zero; "["; "]"; ">"] -> Doctype t -> Doctype (c :: t)
| Doctype_subset t u : Subset t -> Doctype u -> Doctype ("[" :: t ++ "]" :: u).
(* comments, processing instructions, the declaration and the document type *)
Inductive Misc : str -> Prop :=
| Misc_comment t : free [zero] t -> EndsAt (Text "-->") t -> Misc (Text "<!--" ++ t ++ Text "-->")
| Misc_instruction t : free [zero] t -> EndsAt (Text "?>") t -> Misc (Text "<?" ++ t ++ Text "?>")
| Misc_doctype b t : In b blank_chars -> Doctype t -> Misc (Text "<!DOCTYPE" ++ b :: t ++ [">"]).

Inductive Attributes : str -> list (str * str) -> Prop :=
| Attr_none w : Blank w -> Attributes w []
| Attr_more w n w1 w2 q t v rest l : w <> [] -> Blank w -> AttributeName n -> Blank w1 -> Blank w2 -> q = "'" \/ q = """" ->
    Encodes [q] t v -> Attributes rest l ->
    Attributes (w ++ n ++ w1 ++ ["="] ++ w2 ++ [q] ++ t ++ [q] ++ rest) ((n, v) :: l).

Definition of_attributes (l : list (str * str)) : list (str * pnode) := map (fun a => (fst a, PN false (snd a) [])) l.

(* Element t n p: the text t is an element with the name n; its node is p, with
   the attributes and then the elements inside as children, and the first piece
   of text as value.  Content t v cs: the text between tags. *)
Inductive Element : str -> str -> pnode -> Prop :=
| Element_empty n t l : ElementName n -> Attributes t l ->
    Element ("<" :: n ++ t ++ Text "/>") n (PN false [] (of_attributes l))
| Element_full n t l c v cs w : ElementName n -> Attributes t l -> Content c v cs -> Blank w ->
    Element ("<" :: n ++ t ++ ">" :: c ++ Text "</" ++ n ++ w ++ [">"]) n (PN false v (of_attributes l ++ cs))
with Content : str -> str -> list (str * pnode) -> Prop :=
| Content_end w : Blank w -> Content w [] []
| Content_element w t n p rest v cs : Blank w -> Element t n p -> Content rest v cs -> Content (w ++ t ++ rest) v ((n, p) :: cs)
| Content_misc w t rest v cs : Blank w -> Misc t -> Content rest v cs -> Content (w ++ t ++ rest) v cs
| Content_text t v rest v' cs : Encodes ["<"] t v -> ~ Blank t -> (rest = [] \/ exists r, rest = "<" :: r) ->
    Content rest v' cs -> Content (t ++ rest) v cs.

(* what may surround the element of a document *)
Inductive Around : str -> Prop :=
| Around_none w : Blank w -> Around w
| Around_misc w t rest : Blank w -> Misc t -> Around rest -> Around (w ++ t ++ rest).
Definition ByteOrderMark (s : str) : Prop := exists a b c, s = [a; b; c] /\ Byte a 239 /\ Byte b 187 /\ Byte c 191.
Inductive Document : str -> str -> pnode -> Prop :=
| Document_intro m a t n p b : m = [] \/ ByteOrderMark m -> Around a -> Element t n p -> Around b -> Document (m ++ a ++ t ++ b) n p.

(* several elements one after the other *)
Inductive Roots : str -> list (str * pnode) -> Prop :=
| Roots_none a : Around a -> Roots a []
| Roots_more a t n p rest l : Around a -> Element t n p -> Roots rest l -> Roots (a ++ t ++ rest) ((n, p) :: l).

(* what is left of a node after it was saved: values of nodes with children are
   dropped, and so are values without a visible character; no value goes on
   after a zero *)
Inductive Kept : str -> str -> Prop :=
| Kept_blank v w : Blank v -> (w = [] \/ exists r, w = zero :: r) -> Kept (v ++ w) []
| Kept_text v w : free [zero] v -> ~ Blank v -> (w = [] \/ exists r, w = zero :: r) -> Kept (v ++ w) v.
Inductive Saved : pnode -> pnode -> Prop :=
| Saved_leaf a v v' : Kept v v' -> Saved (PN a v []) (PN false v' [])
| Saved_inner a v kc c c' : Forall2 (fun x y => ElementName (fst x) /\ fst x = fst y /\ Saved (snd x) (snd y)) (kc :: c) c' ->
    Saved (PN a v (kc :: c)) (PN false [] c').

(* trees with names as keys, and trees that nothing is dropped from *)
Inductive Named : pnode -> Prop :=
| Named_intro a v cs : Forall (fun c => ElementName (fst c) /\ Named (snd c)) cs -> Named (PN a v cs).
Inductive Lossless : pnode -> Prop :=
| Lossless_leaf a v : v = [] \/ (free [zero] v /\ ~ Blank v) -> Lossless (PN a v [])
| Lossless_inner a kc cs : Forall (fun c => Lossless (snd c)) (kc :: cs) -> Lossless (PN a [] (kc :: cs)).
