(* What the counters should say, from the history of calls (latest first). *)
From Coq Require Import List ZArith.
From Verif Require Import Model.TestFramework.
Import ListNotations.
Local Open Scope Z_scope.

(* how many checks had the result b since the last reset / ever *)
Fixpoint count (b : bool) (h : list test_op) : Z :=
  match h with [] | Again :: _ => 0 | Check r :: h' => (if Bool.bool_dec r b then 1 else 0) + count b h' end.
Fixpoint ever (b : bool) (h : list test_op) : Z :=
  match h with [] => 0 | Again :: h' => ever b h' | Check r :: h' => (if Bool.bool_dec r b then 1 else 0) + ever b h' end.
