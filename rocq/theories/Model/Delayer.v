(* flut/math/delayer.hpp over exact reals; N >= 2 is asserted at compile time.
   UB stands for results that are not finite. *)
From Coq Require Import Reals ZArith List.
From Verif Require Import Model.Base Model.Math Model.Regression.
Local Open Scope R_scope.

(* data_{ init_value }: the first element; the others are T() *)
Definition init_data (N : nat) (v : R) : list R := v :: repeat 0 (N - 1).

(* delayer (flut/math/delayer.hpp:7-35) *)
Record delayer := mkDelayer { window : R; time : R; idx : nat; data : list R }.
Definition delayer_new (N : nat) (delay init_value : R) : delayer :=
  mkDelayer (delay / (INR N - 1)) 0 0 (init_data N init_value).
(* flut/math/delayer.hpp:14-21 *)
Definition add_sample (N : nat) (d : delayer) (value delta_time : R) : res delayer :=
  let t := time d + delta_time in
  if Rltb (window d) (t + 1 / 2 * delta_time) then
    let i := ((idx d + 1) mod N)%nat in
    let* l := vset (data d) i value in
    Ok (mkDelayer (window d) (t - window d) i l)
  else Ok (mkDelayer (window d) t (idx d) (data d)).
(* flut/math/delayer.hpp:23-26 *)
Definition delayed_value (N : nat) (d : delayer) : res R :=
  let* w := rdiv (time d) (window d) in
  let* a := vget (data d) ((idx d + N + 2) mod N) in
  let* b := vget (data d) ((idx d + N + 1) mod N) in
  Ok (w * a + (1 - w) * b).
(* T operator()( const T& value, float delta_time ) (line 28) *)
Definition delay_step (N : nat) (d : delayer) (value delta_time : R) : res (delayer * R) :=
  let* d := add_sample N d value delta_time in
  let* v := delayed_value N d in
  Ok (d, v).
Fixpoint add_samples (N : nat) (d : delayer) (l : list (R * R)) : res delayer :=
  match l with
  | nil => Ok d
  | (v, dt) :: l' => let* d := add_sample N d v dt in add_samples N d l'
  end.

(* smooth_delayer (flut/math/delayer.hpp:37-69) *)
Record smooth := mkSmooth { swindow : R; stime : R; inter : R; sidx : nat; sdata : list R }.
Definition smooth_new (N : nat) (delay init_value : R) : smooth :=
  mkSmooth (delay / (INR N - 1 / 2)) 0 0 0 (init_data N init_value).
(* flut/math/delayer.hpp:44-54 *)
Definition smooth_sample (N : nat) (d : smooth) (value delta_time : R) : res smooth :=
  let t := stime d + delta_time in
  if Rleb (swindow d) t then
    let it := inter d + (swindow d - t + delta_time) * value in
    let i := ((sidx d + 1) mod N)%nat in
    let* m := rdiv it (swindow d) in
    let* l := vset (sdata d) i m in
    let t := t - swindow d in
    Ok (mkSmooth (swindow d) t (t * value) i l)
  else Ok (mkSmooth (swindow d) t (inter d + value * delta_time) (sidx d) (sdata d)).
(* flut/math/delayer.hpp:56-59 *)
Definition smooth_value (N : nat) (d : smooth) : res R :=
  let* w := rdiv (stime d) (swindow d) in
  let* a := vget (sdata d) ((sidx d + N + 2) mod N) in
  let* b := vget (sdata d) ((sidx d + N + 1) mod N) in
  Ok (w * a + (1 - w) * b).
Fixpoint smooth_samples (N : nat) (d : smooth) (l : list (R * R)) : res smooth :=
  match l with
  | nil => Ok d
  | (v, dt) :: l' => let* d := smooth_sample N d v dt in smooth_samples N d l'
  end.
