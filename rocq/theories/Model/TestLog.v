(* The lines that flut/system/test_framework.cpp writes to the log, on the
   counters of Model/TestFramework.v and the sinks of Model/Log.v.  The static
   log level is the default one (flut/system/log.hpp:3-5), so that info and
   error are compiled in.  Names are const char* (what follows a zero is not
   part of them) and not null.  Sinks take every line. *)
From Coq Require Import String.
From Verif Require Import Model.Base Model.StdString Model.Strings Model.Number Model.Log Model.TestFramework.
Local Open Scope list_scope.
Local Open Scope Z_scope.

(* flut/system/log.hpp:15, 17 *)
Definition info_level : Z := 3.
Definition error_level : Z := 5.

(* test_framework (flut/system/test_framework.hpp:20-24) beside the log *)
Record suite := mkSuite { su_tests : counters; su_show : bool; su_log : log_state }.
Definition su_init : suite := mkSuite no_tests false log_init.
(* message, log_stream, log_string (flut/system/log.hpp:56-61,
   flut/system/log.cpp:14-18): the lines that sinks receive *)
Definition say (l : log_state) (level : Z) (parts : list str) : list (nat * str) :=
  map (fun s => (s, List.concat parts)) (message l level).

(* test (flut/system/test_framework.cpp:14-31): the line is written after
   num_tests has been counted *)
Definition su_test (su : suite) (name : str) (result : bool) (text : str) : res (suite * bool * list (nat * str)) :=
  let* n := incr (num_tests (su_tests su)) in
  let lines :=
    if result then
      if su_show su then say (su_log su) info_level [lit "TEST "; dec n; lit " "; cstr name; lit ": passed. "; text] else []
    else say (su_log su) error_level [lit "TEST "; dec n; lit " "; cstr name; lit ": FAILED! "; text] in
  let* r := test (su_tests su) result in
  Ok (mkSuite (fst r) (su_show su) (su_log su), snd r, lines).
(* report (flut/system/test_framework.cpp:38-44) *)
Definition su_report (su : suite) : Z * list (nat * str) :=
  let c := su_tests su in
  let level := if 0 <? num_failed c then error_level else info_level in
  (report_value c,
   say (su_log su) level
     [lit "Test results: "; dec (num_tests c); lit " performed, "; dec (num_failed c); lit " failed, "; dec (num_passed c); lit " passed"]).

(* what a client may do; show_passed is public
   (flut/system/test_framework.hpp:24) *)
Inductive suite_op :=
| Run (name : str) (result : bool) (text : str)
| Renew                        (* reset (flut/system/test_framework.cpp:33-36) *)
| Report
| Show (b : bool)
| LogCall (o : log_op).
Definition su_step (su : suite) (o : suite_op) : res (suite * list (nat * str)) :=
  match o with
  | Run name result text => let* r := su_test su name result text in Ok (fst (fst r), snd r)
  | Renew => Ok (mkSuite (reset_counters (su_tests su)) (su_show su) (su_log su), [])
  | Report => Ok (su, snd (su_report su))
  | Show b => Ok (mkSuite (su_tests su) b (su_log su), [])
  | LogCall o =>
    match log_step (su_log su) o with
    | Ok l => Ok (mkSuite (su_tests su) (su_show su) l, [])
    | Throw => Ok (su, [])
    | UB => UB
    | OutOfFuel => OutOfFuel
    end
  end.
Fixpoint su_run (su : suite) (ops : list suite_op) : res (suite * list (nat * str)) :=
  match ops with
  | [] => Ok (su, [])
  | o :: ops' => let* r := su_step su o in let* q := su_run (fst r) ops' in Ok (fst q, snd r ++ snd q)
  end.
