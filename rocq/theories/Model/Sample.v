(* output_function (flut/debug_tools.hpp:9-20): the pairs written, for T a
   floating point type (exact reals) and for T = int.  The text of the numbers
   is in Model/TableText.v; failures of the file are not modelled. *)
From Coq Require Import ZArith Reals List.
From Verif Require Import Model.Base Model.Range Model.Regression.

Section Real.
Local Open Scope R_scope.
Fixpoint sample_loop (min max : R) (func : R -> R) (samples : Z) (i : Z) (fuel : nat) : res (list (R * R)) :=
  match fuel with
  | O => Ok []
  | S fuel' =>
    let* q := rdiv (IZR i * (max - min)) (IZR (samples - 1)) in
    let x := min + q in
    let y := func x in
    let* l := sample_loop min max func samples (i + 1) fuel' in
    Ok ((x, y) :: l)
  end.
(* the loop of line 14 runs max( samples, 0 ) times *)
Definition output_function (min max : R) (func : R -> R) (samples : Z) : res (list (R * R)) :=
  sample_loop min max func samples 0 (Z.to_nat samples).
End Real.

Section Int.
Local Open Scope Z_scope.
Definition i32 : int_type := Signed 32.
Fixpoint sample_loop_int (min max : Z) (func : Z -> Z) (samples : Z) (i : Z) (fuel : nat) : res (list (Z * Z)) :=
  match fuel with
  | O => Ok []
  | S fuel' =>
    let* d := arith i32 (max - min) in
    let* p := arith i32 (i * d) in
    let* q := if samples - 1 =? 0 then UB else arith i32 (Z.quot p (samples - 1)) in
    let* x := arith i32 (min + q) in
    let y := func x in
    let* l := sample_loop_int min max func samples (i + 1) fuel' in
    Ok ((x, y) :: l)
  end.
Definition output_function_int (min max : Z) (func : Z -> Z) (samples : Z) : res (list (Z * Z)) :=
  sample_loop_int min max func samples 0 (Z.to_nat samples).
End Int.
