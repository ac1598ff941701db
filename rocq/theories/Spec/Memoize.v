(* What calling a memoized function should do. *)
From Coq Require Import List.
From Verif Require Import Model.Base Model.Memoize.
Import ListNotations.

(* A run of calls of a function with state, latest call first: a call whose key
   has had a result before gives that result and invokes nothing, any other call
   is an invocation. *)
Inductive Transparent {K R S : Type} (same : K -> K -> Prop) (func : K -> S -> option R * S) (s0 : S) : list (@event K R) -> S -> Prop :=
| Tr_start : Transparent same func s0 [] s0
| Tr_known es s k e r : Transparent same func s0 es s -> In e es -> same (key e) k -> outcome e = Some r ->
    Transparent same func s0 (mkEvent k false (Some r) :: es) s
| Tr_new es s k o s' : Transparent same func s0 es s -> (forall e, In e es -> same (key e) k -> outcome e = None) -> func k s = (o, s') ->
    Transparent same func s0 (mkEvent k true o :: es) s'.
