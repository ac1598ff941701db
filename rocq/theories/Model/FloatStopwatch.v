(* Timers and stopwatches on double: flut/timer.hpp, flut/stopwatch.hpp,
   flut/stopwatch.cpp.  Durations are 64-bit counts of nanoseconds as in
   Model/Timer.v; the format is a parameter. *)
From Coq Require Import ZArith List String.
From Verif Require Import Model.Base Model.StdString Model.PropTree Model.FloatText Model.Ieee Model.FloatInterp Model.Timer.
Import ListNotations.
Local Open Scope list_scope.
Local Open Scope Z_scope.

(* seconds, minutes, hours (flut/timer.hpp:40-42): duration< double > divides
   the count by the number of nanoseconds in a unit *)
Definition f_elapsed (f : fmt) (per epoch now : Z) : res fnum :=
  let* d := elapsed epoch now in Ok (f_div f (f_of_int f d) (f_of_int f per)).
Definition f_seconds (f : fmt) (epoch now : Z) : res fnum := f_elapsed f 1000000000 epoch now.
Definition f_minutes (f : fmt) (epoch now : Z) : res fnum := f_elapsed f 60000000000 epoch now.
Definition f_hours (f : fmt) (epoch now : Z) : res fnum := f_elapsed f 3600000000000 epoch now.

(* flut/stopwatch.hpp:35-38 *)
Record f_stopwatch := mkFsw { fs_epoch : fnum; fs_measures : list (str * fnum); fs_internal : fnum }.
(* stopwatch, start_first_measure (flut/stopwatch.hpp:20,24); x is what
   timer_.seconds() gives *)
Definition fs_new (f : fmt) (x : fnum) : f_stopwatch := mkFsw x [] (f_of_int f 0).
Definition fs_first (w : f_stopwatch) (x : fnum) : f_stopwatch := mkFsw x (fs_measures w) (fs_internal w).
(* the find_if and what follows (flut/stopwatch.cpp:8-11) *)
Fixpoint fs_add_to (f : fmt) (ms : list (str * fnum)) (s : str) (d : fnum) : list (str * fnum) :=
  match ms with
  | [] => [(s, d)]
  | (n, v) :: ms' => if str_eqb n s then (n, f_add f v d) :: ms' else (n, v) :: fs_add_to f ms' s d
  end.
(* add_measure (flut/stopwatch.cpp:5-14); x and y are the two readings *)
Definition fs_measure (f : fmt) (w : f_stopwatch) (s : str) (x y : fnum) : f_stopwatch :=
  mkFsw y (fs_add_to f (fs_measures w) s (f_sub f x (fs_epoch w))) (f_add f (fs_internal w) (f_sub f y x)).
(* get_report (flut/stopwatch.cpp:16-28): the precision set there is that of
   nothing, to_string has six decimals (flut/system/string_cast.hpp:19-22) *)
Definition fs_leaf (f : fmt) (m : str * fnum) : str * pnode := (fst m, PN false (to_text f (snd m)) []).
Definition fs_report (f : fmt) (w : f_stopwatch) : pnode :=
  PN false [] (map (fs_leaf f) (fs_measures w ++ [(lit "internal", fs_internal w)])).

(* calls of a client *)
Inductive fs_op := FFirst (x : fnum) | FMeasure (s : str) (x y : fnum).
Definition fs_step (f : fmt) (w : f_stopwatch) (o : fs_op) : f_stopwatch :=
  match o with FFirst x => fs_first w x | FMeasure s x y => fs_measure f w s x y end.
