(* flut/system/profiler.hpp, flut/system/profiler.cpp.  A section name is
   compared as a pointer, so a name is an address.  Clock readings are inputs.
   The thread check is taken to hold, ids to stay below 2^64 - 1 (no_index),
   and nanoseconds not to overflow.  The text of the report is in
   Model/Report.v. *)
From Verif Require Import Model.Base.
Local Open Scope Z_scope.

(* section (flut/system/profiler.hpp:17-26); the id is the position in the
   vector, sparent = None is no_index; the epoch is unset until the first
   start *)
Record section := mkSection { sname : nat; sparent : option nat; stotal : Z; soverhead : Z; sepoch : Z }.
Record profiler := mkProfiler { sections : list section; current : nat }.

Definition duration_of_now : Z := 0.   (* flut/system/profiler.cpp:18 *)
Definition root_name : nat := 0%nat.   (* the address of "TOTAL" *)

Fixpoint set_nth {A} (l : list A) (i : nat) (x : A) : list A :=
  match l, i with
  | [], _ => []
  | _ :: l', O => x :: l'
  | y :: l', S i' => y :: set_nth l' i' x
  end.

(* add_section (flut/system/profiler.cpp:57-61) *)
Definition add_section (ss : list section) (name : nat) (parent : option nat) : list section * nat :=
  (ss ++ [mkSection name parent 0 0 0], length ss).
(* profiler, reset (flut/system/profiler.cpp:10-22); t is the clock *)
Definition reset (t : Z) : profiler :=
  let '(ss, i) := add_section [] root_name None in
  match nth_error ss i with
  | Some s => mkProfiler (set_nth ss i (mkSection (sname s) (sparent s) (stotal s) (soverhead s) t)) i
  | None => mkProfiler ss i
  end.
(* find_section( name, parent_id ) (flut/system/profiler.cpp:51-55): the scan
   starts behind the parent *)
Fixpoint scan (ss : list section) (i : nat) (name parent : nat) : option nat :=
  match ss with
  | [] => None
  | s :: ss' => if Nat.eqb (sname s) name && match sparent s with Some p => Nat.eqb p parent | None => false end then Some i else scan ss' (S i) name parent
  end.
Definition find_section (ss : list section) (name parent : nat) : option nat :=
  scan (skipn (S parent) ss) (S parent) name parent.
(* acquire_section (flut/system/profiler.cpp:63-68) *)
Definition acquire_section (ss : list section) (name parent : nat) : list section * nat :=
  match find_section ss name parent with
  | Some i => (ss, i)
  | None => add_section ss name (Some parent)
  end.
(* start_section (flut/system/profiler.cpp:24-33); t and t' are the two clock
   readings *)
Definition start_section (p : profiler) (name : nat) (t t' : Z) : res profiler :=
  let '(ss, i) := acquire_section (sections p) name (current p) in
  match nth_error ss i with
  | Some s => Ok (mkProfiler (set_nth ss i (mkSection (sname s) (sparent s) (stotal s) (soverhead s + (t' - t + 2 * duration_of_now)) t)) i)
  | None => UB
  end.
(* end_section (flut/system/profiler.cpp:35-43); sections_[ no_index ] is
   undefined *)
Definition end_section (p : profiler) (t : Z) : res profiler :=
  match nth_error (sections p) (current p) with
  | Some s =>
    match sparent s with
    | Some i =>
      Ok (mkProfiler (set_nth (sections p) (current p) (mkSection (sname s) (sparent s) (stotal s + (t - sepoch s)) (soverhead s + duration_of_now) (sepoch s))) i)
    | None => UB
    end
  | None => UB
  end.
(* report (flut/system/profiler.cpp:78-85): the time of the root *)
Definition report (p : profiler) (t : Z) : res profiler :=
  match sections p with
  | s :: ss => Ok (mkProfiler (mkSection (sname s) (sparent s) (t - sepoch s) (soverhead s) (sepoch s) :: ss) (current p))
  | [] => UB
  end.
(* exclusive_time (flut/system/profiler.cpp:106-113) *)
Fixpoint minus_children (ss : list section) (i : nat) (t : Z) : Z :=
  match ss with
  | [] => t
  | s :: ss' => minus_children ss' i (match sparent s with Some p => if Nat.eqb p i then t - stotal s else t | None => t end)
  end.
Definition exclusive_time (ss : list section) (i : nat) : res Z :=
  match nth_error ss i with Some s => Ok (minus_children ss i (stotal s)) | None => UB end.
(* total_overhead (flut/system/profiler.cpp:115-122): recursive; fuel bounds
   the depth *)
Fixpoint total_overhead (fuel : nat) (all : list section) (i : nat) : res Z :=
  match fuel with
  | O => OutOfFuel
  | S fuel' =>
    match nth_error all i with
    | None => UB
    | Some s =>
      let fix children (cs : list section) (j : nat) (t : Z) : res Z :=
        match cs with
        | [] => Ok t
        | c :: cs' =>
          match sparent c with
          | Some p =>
            if Nat.eqb p i then match total_overhead fuel' all j with Ok o => children cs' (S j) (t + o) | Throw => Throw | UB => UB | OutOfFuel => OutOfFuel end
            else children cs' (S j) t
          | None => children cs' (S j) t
          end
        end in
      children all 0%nat (soverhead s)
    end
  end.

(* calls of a client, with the readings of the clock *)
Inductive prof_op := OpReset (t : Z) | OpStart (name : nat) (t t' : Z) | OpEnd (t : Z) | OpReport (t : Z).
Definition prof_step (p : profiler) (o : prof_op) : res profiler :=
  match o with
  | OpReset t => Ok (reset t)
  | OpStart n t t' => start_section p n t t'
  | OpEnd t => end_section p t
  | OpReport t => report p t
  end.
Fixpoint prof_run (p : profiler) (ops : list prof_op) : res profiler :=
  match ops with
  | [] => Ok p
  | o :: ops' => match prof_step p o with Ok p' => prof_run p' ops' | Throw => Throw | UB => UB | OutOfFuel => OutOfFuel end
  end.
