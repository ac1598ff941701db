(* Texts of version numbers. *)
From Coq Require Import List Ascii ZArith.
From Verif Require Import Spec.Strings Spec.Decimal.
Import ListNotations.
Local Open Scope Z_scope.

Definition int32 (z : Z) : Prop := - 2 ^ 31 <= z < 2 ^ 31.
(* a word: no whitespace *)
Definition Word (s : str) : Prop := Forall (fun c => ~ White c) s.
