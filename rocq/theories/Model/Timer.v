(* flut/timer.hpp, flut/timer.cpp.  The clock is an input: each operation gets
   the value that timer_t::now() returns.  Clock values are 64-bit counts of
   nanoseconds (steady_clock of MSVC, either clock of libstdc++, line 22 of the
   header for the own clock).  Doubles are exact reals. *)
From Coq Require Import ZArith Reals List.
From Verif Require Import Model.Base Model.Range.
Local Open Scope Z_scope.

Definition i64 : int_type := Signed 64.

(* timer(), reset() (flut/timer.hpp:37-38): the state is the epoch (line 49) *)
Definition timer_new (now : Z) : Z := now.
Definition timer_reset (epoch now : Z) : Z := let _ := epoch in now.
(* elapsed (flut/timer.hpp:50) *)
Definition elapsed (epoch now : Z) : res Z := arith i64 (now - epoch).
(* ticks, nanoseconds, microseconds, milliseconds (flut/timer.hpp:43-46):
   duration_cast divides, rounding towards zero *)
Definition ticks (epoch now : Z) : res Z := elapsed epoch now.
Definition nanoseconds (epoch now : Z) : res Z := elapsed epoch now.
Definition microseconds (epoch now : Z) : res Z := let* d := elapsed epoch now in Ok (Z.quot d 1000).
Definition milliseconds (epoch now : Z) : res Z := let* d := elapsed epoch now in Ok (Z.quot d 1000000).
(* seconds, minutes, hours (flut/timer.hpp:40-42) *)
Definition seconds (epoch now : Z) : res R := let* d := elapsed epoch now in Ok (IZR d / 1000000000)%R.
Definition minutes (epoch now : Z) : res R := let* d := elapsed epoch now in Ok (IZR d / 60000000000)%R.
Definition hours (epoch now : Z) : res R := let* d := elapsed epoch now in Ok (IZR d / 3600000000000)%R.

(* windows_performance_counter_clock::now (flut/timer.cpp:29-33); raw is the
   performance counter, g_epoch and g_frequency the globals of lines 26-27, which
   are 0 before their dynamic initialisation *)
Definition windows_now (g_frequency g_epoch raw : Z) : res Z :=
  let* count := arith i64 (raw - g_epoch) in
  let* c := arith i64 (count * 1000000000) in
  if g_frequency =? 0 then UB else arith i64 (Z.quot c g_frequency).

(* a client: each step has the clock reading; a timer is created, then reset
   and read *)
Inductive timer_op := OpReset | OpMillis.
Fixpoint timer_run (epoch : Z) (ops : list (timer_op * Z)) : res (list Z) :=
  match ops with
  | [] => Ok []
  | (OpReset, now) :: ops' => timer_run (timer_reset epoch now) ops'
  | (OpMillis, now) :: ops' =>
    let* m := milliseconds epoch now in
    let* l := timer_run epoch ops' in
    Ok (m :: l)
  end.
