(* flut/filter.hpp: iir_filter< T, N > and the Butterworth design, over exact
   reals.  The arrays have N elements; N = 0 has no slot for the last output. *)
From Coq Require Import Reals ZArith List.
From Verif Require Import Model.Base Model.Math Model.Regression.
Local Open Scope R_scope.

(* iir_filter (flut/filter.hpp:8-35) *)
Record filter := mkFilter { b0_ : R; x_ : list R; b_ : list R; y_ : list R; a_ : list R }.
(* iir_filter() : x_(), y_(), b0_(), b_(), a_() {} (line 11): all zero *)
Definition filter_new (N : nat) : filter := mkFilter 0 (repeat 0 N) (repeat 0 N) (repeat 0 N) (repeat 0 N).

(* the argument of operator() is a reference: it may be to a variable of the
   caller, or to an element of x_ or y_ of the filter itself *)
Inductive operand := Value (x : R) | OwnX (i : nat) | OwnY (i : nat).
Definition fetch (xs ys : list R) (a : operand) : res R :=
  match a with Value x => Ok x | OwnX i => vget xs i | OwnY i => vget ys i end.

(* for ( int i = 0; i < N; ++i ) y += b_[ i ] * x_[ i ] + a_[ i ] * y_[ i ] (lines 14-15) *)
Definition accumulate (N : nat) (f : filter) (y : R) : res R :=
  for_up N (fun i y =>
    let* b := vget (b_ f) i in
    let* x := vget (x_ f) i in
    let* a := vget (a_ f) i in
    let* v := vget (y_ f) i in
    Ok (y + (b * x + a * v))) y.

(* for ( int i = N - 1; i > 0; --i ) { x_[ i ] = x_[ i - 1 ]; y_[ i ] = y_[ i - 1 ]; } (lines 18-21) *)
Definition shift (N : nat) (xs ys : list R) : res (list R * list R) :=
  for_down (N - 1) (fun j s =>
    let* u := vget (fst s) j in
    let* xs := vset (fst s) (S j) u in
    let* v := vget (snd s) j in
    let* ys := vset (snd s) (S j) v in
    Ok (xs, ys)) (xs, ys).

(* const T& operator()( const T& x ) (flut/filter.hpp:12-26) *)
Definition feed_ref (N : nat) (f : filter) (a : operand) : res (filter * R) :=
  let* x := fetch (x_ f) (y_ f) a in
  let* y := accumulate N f (b0_ f * x) in
  let* s := shift N (x_ f) (y_ f) in
  let* x := fetch (fst s) (snd s) a in
  let* xs := vset (fst s) 0 x in
  let* ys := vset (snd s) 0 y in
  Ok (mkFilter (b0_ f) xs (b_ f) ys (a_ f), y).
Definition feed (N : nat) (f : filter) (x : R) : res (filter * R) := feed_ref N f (Value x).
(* a sequence of calls *)
Fixpoint feed_all (N : nat) (f : filter) (l : list R) : res (filter * list R) :=
  match l with
  | nil => Ok (f, nil)
  | x :: l' =>
    let* (f1, y) := feed N f x in
    let* (f2, ys) := feed_all N f1 l' in
    Ok (f2, y :: ys)
  end.
(* const T& operator()() const, T velocity() const (flut/filter.hpp:27-28) *)
Definition last_output (f : filter) : res R := vget (y_ f) 0.
Definition velocity (f : filter) : res R :=
  let* u := vget (y_ f) 0 in
  let* v := vget (y_ f) 1 in
  Ok (u - v).

(* make_lowpass_butterworth_2nd_order (flut/filter.hpp:37-49); UB where the
   coefficients are not finite *)
Definition ctan (x : R) : res R := rdiv (sin x) (cos x).
Definition butterworth (cutoff_ratio : R) : res filter :=
  let* t := ctan (flut_pi * cutoff_ratio) in
  let* ita := rdiv 1 t in
  let q := sqrt 2 in
  let* b0 := rdiv 1 (1 + q * ita + ita * ita) in
  Ok (mkFilter b0 [0; 0] [2 * b0; b0] [0; 0] [2 * (ita * ita - 1) * b0; - (1 - q * ita + ita * ita) * b0]).
