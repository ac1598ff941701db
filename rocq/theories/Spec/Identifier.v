(* The name of a member without its qualification and decoration. *)
From Coq Require Import List Ascii String.
From Verif Require Import Spec.Strings Model.StdString.
Import ListNotations.

(* s ends in the component t, which contains none of seps *)
Definition LastPart (seps : str) (s t : str) : Prop :=
  free seps t /\ (s = t \/ exists l c, In c seps /\ s = l ++ c :: t).

(* n is the property name of the identifier id *)
Inductive Tidy : str -> str -> Prop :=
| Tidy_qualified l t n : free [":"%char] t -> IsTrim ["_"%char] t n -> Tidy (l ++ ":"%char :: t) n
| Tidy_member t n : free [":"%char] t -> IsTrimRight ["_"%char] t n -> Tidy ("m"%char :: "_"%char :: t) n
| Tidy_plain t n : free [":"%char] t -> ~ Prefix ["m"%char; "_"%char] t -> IsTrim ["_"%char] t n -> Tidy t n.

(* a name that carries no decoration *)
Definition Bare (n : str) : Prop :=
  n <> [] /\ free [":"%char] n /\ ~ Prefix ["m"%char; "_"%char] n /\
  (forall c r, n = c :: r -> c <> "_"%char) /\ (forall c r, n = r ++ [c] -> c <> "_"%char).
