(* Whole units in a span of time, and the time since the last reset. *)
From Coq Require Import ZArith List.
Import ListNotations.
Local Open Scope Z_scope.

(* q is the number of whole units u in the span d, with the sign of d *)
Definition Whole (u d q : Z) : Prop :=
  (0 <= d /\ q * u <= d < (q + 1) * u) \/ (d < 0 /\ (q - 1) * u < d <= q * u).

(* the last reset among resets (latest first), or else the creation *)
Definition last_reset (created : Z) (resets : list Z) : Z := hd created resets.

Definition sum (l : list Z) : Z := fold_right Z.add 0 l.
