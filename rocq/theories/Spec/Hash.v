(* 64-bit FNV-1a over bytes, as published. *)
From Coq Require Import List Ascii ZArith.
Import ListNotations.
Local Open Scope Z_scope.
Definition FNV1a (bytes : list Z) : Z :=
  fold_left (fun h b => (Z.lxor h b * 0x100000001B3) mod 2 ^ 64) bytes 0xCBF29CE484222325.
Definition byte (c : ascii) : Z := Z.of_nat (nat_of_ascii c).
