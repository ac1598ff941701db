(* What it means that values of a type survive in property nodes and files. *)
From Verif Require Import Model.Base Model.PropTree Model.PropCast Spec.PropNode Spec.PropText.

(* values satisfying P are read back from every node that equals the one
   written, up to access marks *)
Definition RoundTrip {T} (c : cast T) (P : T -> Prop) : Prop := forall x t, P x -> Same (cto c x) t -> cfrom c t = Ok x.
(* their nodes are among those the file format carries *)
Definition Carries {T} (c : cast T) (P : T -> Prop) : Prop := forall x, P x -> SafeTree (cto c x) /\ Neat (cto c x).
