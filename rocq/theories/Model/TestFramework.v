(* flut/system/test_framework.hpp, flut/system/test_framework.cpp.  The log
   messages are modelled in Model/TestLog.v. *)
From Verif Require Import Model.Base.
Local Open Scope Z_scope.

(* flut/system/test_framework.hpp:20-22 *)
Record counters := mkCounters { num_tests : Z; num_failed : Z; num_passed : Z }.
Definition int_max : Z := 2147483647.
(* test_framework (flut/system/test_framework.cpp:8-12) *)
Definition no_tests : counters := mkCounters 0 0 0.
(* ++ on an int (flut/system/test_framework.cpp:16,22,28) *)
Definition incr (x : Z) : res Z := if x <? int_max then Ok (x + 1) else UB.
(* test (flut/system/test_framework.cpp:14-31) *)
Definition test (c : counters) (result : bool) : res (counters * bool) :=
  bind (incr (num_tests c)) (fun n =>
  if result then bind (incr (num_passed c)) (fun p => Ok (mkCounters n (num_failed c) p, true))
  else bind (incr (num_failed c)) (fun f => Ok (mkCounters n f (num_passed c), false))).
(* reset (flut/system/test_framework.cpp:33-36) *)
Definition reset_counters (c : counters) : counters := mkCounters (num_failed c) (num_failed c) (num_failed c).
(* report (flut/system/test_framework.cpp:38-44) *)
Definition report_value (c : counters) : Z := if 0 <? num_failed c then -1 else 0.

Inductive test_op := Check (result : bool) | Again.   (* Again: reset *)
Definition test_step (c : counters) (o : test_op) : res counters :=
  match o with Check b => bind (test c b) (fun r => Ok (fst r)) | Again => Ok (reset_counters c) end.
Fixpoint test_run (c : counters) (ops : list test_op) : res counters :=
  match ops with [] => Ok c | o :: ops' => bind (test_step c o) (fun c' => test_run c' ops') end.
