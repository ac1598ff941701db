(* Ranges of integers. *)
From Coq Require Import ZArith List.
Local Open Scope Z_scope.

(* the n numbers b, b + s, b + 2 s, ... *)
Definition progression (b s : Z) (n : nat) : list Z := map (fun i => b + Z.of_nat i * s) (seq 0 n).
