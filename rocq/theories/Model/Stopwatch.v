(* flut/stopwatch.hpp, flut/stopwatch.cpp.  Times are exact numbers; for times
   of type double and the text of the report see Model/FloatStopwatch.v. *)
From Verif Require Import Model.Base Model.StdString.
Local Open Scope Z_scope.

(* flut/stopwatch.hpp:35-38 *)
Record stopwatch := mkStopwatch { epoch : Z; measures : list (str * Z); internal_measure : Z }.

(* stopwatch, start_first_measure (flut/stopwatch.hpp:20,24); t is the clock *)
Definition new_stopwatch (t : Z) : stopwatch := mkStopwatch t [] 0.
Definition start_first_measure (w : stopwatch) (t : Z) : stopwatch := mkStopwatch t (measures w) (internal_measure w).

(* the find_if and what follows (flut/stopwatch.cpp:8-11) *)
Fixpoint add_to (ms : list (str * Z)) (s : str) (d : Z) : list (str * Z) :=
  match ms with
  | [] => [(s, d)]
  | (n, v) :: ms' => if str_eqb n s then (n, v + d) :: ms' else (n, v) :: add_to ms' s d
  end.
(* add_measure (flut/stopwatch.cpp:5-14); now and later are the two readings *)
Definition add_measure (w : stopwatch) (s : str) (now later : Z) : stopwatch :=
  mkStopwatch later (add_to (measures w) s (now - epoch w)) (internal_measure w + (later - now)).
(* get_report (flut/stopwatch.cpp:16-28) *)
Definition internal_label : str := ["i"; "n"; "t"; "e"; "r"; "n"; "a"; "l"]%char.
Definition get_report (w : stopwatch) : list (str * Z) := measures w ++ [(internal_label, internal_measure w)].

Inductive sw_op := First (t : Z) | Measure (s : str) (now later : Z).
Definition sw_step (w : stopwatch) (o : sw_op) : stopwatch :=
  match o with First t => start_first_measure w t | Measure s t t' => add_measure w s t t' end.
