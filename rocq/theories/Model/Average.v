(* flut/math/average.hpp and flut/math/delta.hpp over exact reals (T = real_t). *)
From Coq Require Import Reals List.
From Verif Require Import Model.Math.
Local Open Scope R_scope.

(* average_ (flut/math/average.hpp:10-24) *)
Record average := mkAverage { tot_v : R; tot_w : R }.
(* flut/math/average.hpp:12 *)
Definition average_new : average := mkAverage 0 0.
(* flut/math/average.hpp:15 *)
Definition average_add (a : average) (value w : R) : average := mkAverage (tot_v a + w * value) (tot_w a + w).
(* T w = T(1) (line 15) *)
Definition average_add1 (a : average) (value : R) : average := average_add a value 1.
(* flut/math/average.hpp:16; the division is by a positive number *)
Definition average_get (a : average) : R := if Rltb 0 (tot_w a) then tot_v a / tot_w a else 0.
(* flut/math/average.hpp:17 *)
Definition average_empty (a : average) : bool := if Req_EM_T (tot_w a) 0 then true else false.
(* flut/math/average.hpp:18 *)
Definition average_reset (a : average) : average := mkAverage 0 0.

(* a client *)
Inductive average_op := OpAdd (value w : R) | OpAdd1 (value : R) | OpClear.
Definition average_step (a : average) (o : average_op) : average :=
  match o with
  | OpAdd v w => average_add a v w
  | OpAdd1 v => average_add1 a v
  | OpClear => average_reset a
  end.
Definition average_run (ops : list average_op) : average := fold_left average_step ops average_new.

(* delta (flut/math/delta.hpp:5-13) *)
Record delta := mkDelta { previous : R }.
Definition delta_new (initial_value : R) : delta := mkDelta initial_value.
(* flut/math/delta.hpp:9 *)
Definition delta_call (d : delta) (new_value : R) : R * delta := (new_value - previous d, mkDelta new_value).
Fixpoint delta_run (d : delta) (l : list R) : list R * delta :=
  match l with
  | nil => (nil, d)
  | v :: l' => let (r, d) := delta_call d v in let (rs, d) := delta_run d l' in (r :: rs, d)
  end.
