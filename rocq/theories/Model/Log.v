(* flut/system/log.cpp, flut/system/log.hpp, flut/system/log_sink.hpp.  A sink
   is known by its address, a level by its number (flut/system/log.hpp:46).
   Sinks are taken not to log or register sinks while they handle a message. *)
From Verif Require Import Model.Base Model.StdString.
Local Open Scope Z_scope.

Definition critical_level : Z := 6.
Definition never_log_level : Z := 7.

(* global_sinks, lowest_log_level (flut/system/log.cpp:11-12), log_level_ of
   each sink (flut/system/log_sink.hpp:23), and which sinks exist *)
Record log_state := mkLog { sinks : list nat; lowest : Z; log_level : nat -> Z; alive : nat -> bool }.
Definition log_init : log_state := mkLog [] never_log_level (fun _ => 0) (fun _ => false).

Definition update {A} (f : nat -> A) (k : nat) (x : A) (j : nat) : A := if Nat.eqb j k then x else f j.

(* get_global_log_level (flut/system/log.cpp:54-60) *)
Fixpoint scan_levels (lv : nat -> Z) (ss : list nat) (low : Z) : Z :=
  match ss with
  | [] => low
  | s :: ss' => scan_levels lv ss' (if lv s <? low then lv s else low)
  end.
Definition get_global (st : log_state) : log_state :=
  mkLog (sinks st) (scan_levels (log_level st) (sinks st) critical_level) (log_level st) (alive st).

(* set_log_level (flut/system/log_sink.hpp:18) *)
Definition sink_set_level (st : log_state) (s : nat) (l : Z) : log_state :=
  get_global (mkLog (sinks st) (lowest st) (update (log_level st) s l) (alive st)).

(* add_sink (flut/system/log.cpp:31-39) *)
Definition add_sink (st : log_state) (s : nat) : log_state :=
  if existsb (Nat.eqb s) (sinks st) then st
  else get_global (mkLog (sinks st ++ [s]) (lowest st) (log_level st) (alive st)).
(* remove_sink (flut/system/log.cpp:41-46): erases the first match *)
Fixpoint erase_first (s : nat) (ss : list nat) : list nat :=
  match ss with
  | [] => []
  | x :: ss' => if Nat.eqb s x then ss' else x :: erase_first s ss'
  end.
Definition remove_sink (st : log_state) (s : nat) : log_state :=
  get_global (mkLog (erase_first s (sinks st)) (lowest st) (log_level st) (alive st)).
(* set_global_log_level (flut/system/log.cpp:48-53) *)
Definition set_global (st : log_state) (l : Z) : log_state :=
  let st1 := fold_left (fun a s => sink_set_level a s l) (sinks st) st in
  mkLog (sinks st1) l (log_level st1) (alive st1).

(* what a client may do.  Addresses of existing sinks are not reused; using a
   sink that does not exist is undefined. *)
Inductive log_op :=
| New (s : nat) (l : Z)        (* sink( l ) (flut/system/log_sink.hpp:14) *)
| Copy (s o : nat)             (* the implicit copy constructor *)
| Delete (s : nat)             (* ~sink (flut/system/log_sink.hpp:15) *)
| Add (s : option nat)         (* add_sink; None is nullptr *)
| Remove (s : nat)
| SetLevel (s : nat) (l : Z)
| SetGlobal (l : Z)
| GetGlobal.
Definition log_step (st : log_state) (o : log_op) : res log_state :=
  match o with
  | New s l =>
    if alive st s then UB
    else Ok (add_sink (mkLog (sinks st) (lowest st) (update (log_level st) s l) (update (alive st) s true)) s)
  | Copy s o =>
    if alive st s then UB
    else if alive st o then Ok (mkLog (sinks st) (lowest st) (update (log_level st) s (log_level st o)) (update (alive st) s true))
    else UB
  | Delete s =>
    if alive st s then
      let st1 := remove_sink st s in Ok (mkLog (sinks st1) (lowest st1) (log_level st1) (update (alive st1) s false))
    else UB
  | Add None => Throw
  | Add (Some s) => if alive st s then Ok (add_sink st s) else UB
  | Remove s => Ok (remove_sink st s)
  | SetLevel s l => if alive st s then Ok (sink_set_level st s l) else UB
  | SetGlobal l => Ok (set_global st l)
  | GetGlobal => Ok (get_global st)
  end.
(* a refused add_sink leaves everything as it was *)
Fixpoint log_run (st : log_state) (ops : list log_op) : res log_state :=
  match ops with
  | [] => Ok st
  | o :: ops' =>
    match log_step st o with
    | Ok st' => log_run st' ops'
    | Throw => log_run st ops'
    | UB => UB
    | OutOfFuel => OutOfFuel
    end
  end.

(* log_string, try_send_log_message (flut/system/log.cpp:14-18,
   flut/system/log_sink.hpp:17-20): the sinks that receive a message *)
Fixpoint log_string (lv : nat -> Z) (ss : list nat) (l : Z) : list nat :=
  match ss with
  | [] => []
  | s :: ss' => if lv s <=? l then s :: log_string lv ss' l else log_string lv ss' l
  end.
(* message (flut/system/log.hpp:68), test_log_level (flut/system/log.cpp:62-65) *)
Definition message (st : log_state) (l : Z) : list nat :=
  if lowest st <=? l then log_string (log_level st) (sinks st) l else [].
(* messagef, log_vstring (flut/system/log.cpp:20-29): text is what the format
   expands to *)
Definition messagef (st : log_state) (l : Z) (text : str) : list (nat * str) :=
  map (fun s => (s, cstr (firstn 1023 text))) (message st l).
