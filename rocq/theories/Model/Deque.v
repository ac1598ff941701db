(* circular_deque<T>  (flut/circular_deque.hpp:9-77) *)
From Verif Require Import Model.Base.

Section Deque.
Context {A : Type}.

(* members front_, size_, buffer_ (circular_deque.hpp:74-76) *)
Record deque := mkDeque { front_ : nat; size_ : nat; buffer_ : list A }.

(* circular_deque( init_capacity ) (line 15); the vector is value initialised
   with T(), here d0. *)
Definition create (d0 : A) (c : nat) : deque := mkDeque 0 0 (repeat d0 c).

(* capacity() (line 46) *)
Definition capacity (d : deque) : nat := length (buffer_ d).

(* push_back (lines 18-21): size_ is incremented before the comparison. *)
Definition push_back (d : deque) (x : A) : res deque :=
  let s := S (size_ d) in
  if capacity d <? s then
    let* b := vinsert (buffer_ d) (front_ d + s - 1) x in
    Ok (mkDeque (front_ d) s b)
  else
    let* i := modulo_ (front_ d + s - 1) (capacity d) in
    let* b := vset (buffer_ d) i x in
    Ok (mkDeque (front_ d) s b).

(* push_front (lines 22-25) *)
Definition push_front (d : deque) (x : A) : res deque :=
  let s := S (size_ d) in
  if capacity d <? s then
    let* b := vinsert (buffer_ d) (front_ d) x in
    Ok (mkDeque (front_ d) s b)
  else
    let* f := modulo_ (front_ d + capacity d - 1) (capacity d) in
    let* b := vset (buffer_ d) f x in
    Ok (mkDeque f s b).

(* operator[] (lines 27-28), read and write *)
Definition get (d : deque) (i : nat) : res A :=
  let* j := modulo_ (front_ d + i) (capacity d) in vget (buffer_ d) j.
Definition set (d : deque) (i : nat) (x : A) : res deque :=
  let* j := modulo_ (front_ d + i) (capacity d) in
  let* b := vset (buffer_ d) j x in Ok (mkDeque (front_ d) (size_ d) b).

(* pop_back (line 30) *)
Definition pop_back (d : deque) : res deque :=
  let* _ := assert_ (0 <? size_ d) in
  Ok (mkDeque (front_ d) (size_ d - 1) (buffer_ d)).

(* pop_front (line 31) *)
Definition pop_front (d : deque) : res deque :=
  let* _ := assert_ (0 <? size_ d) in
  let* f := modulo_ (front_ d + 1) (capacity d) in
  Ok (mkDeque f (size_ d - 1) (buffer_ d)).

(* back() (line 33), read and write through the reference *)
Definition back (d : deque) : res A :=
  let* _ := assert_ (0 <? size_ d) in
  let* j := modulo_ (front_ d + size_ d - 1) (capacity d) in vget (buffer_ d) j.
Definition set_back (d : deque) (x : A) : res deque :=
  let* _ := assert_ (0 <? size_ d) in
  let* j := modulo_ (front_ d + size_ d - 1) (capacity d) in
  let* b := vset (buffer_ d) j x in Ok (mkDeque (front_ d) (size_ d) b).

(* back() const (line 34) *)
Definition back_const (d : deque) : res A :=
  let* _ := assert_ (0 <? size_ d) in
  let* j := modulo_ (front_ d + size_ d) (capacity d) in vget (buffer_ d) j.

(* front() (lines 36-37) *)
Definition front (d : deque) : res A :=
  let* _ := assert_ (0 <? size_ d) in vget (buffer_ d) (front_ d).
Definition set_front (d : deque) (x : A) : res deque :=
  let* _ := assert_ (0 <? size_ d) in
  let* b := vset (buffer_ d) (front_ d) x in Ok (mkDeque (front_ d) (size_ d) b).

(* size, empty, full, clear (lines 39-43) *)
Definition size (d : deque) : nat := size_ d.
Definition empty (d : deque) : bool := size_ d =? 0.
Definition full (d : deque) : bool := size d =? capacity d.
Definition clear (d : deque) : deque := mkDeque 0 0 (buffer_ d).

(* reserve (line 45) *)
Definition reserve (d0 : A) (d : deque) (s : nat) : deque :=
  mkDeque (front_ d) (size_ d) (vresize (buffer_ d) s d0).

(* for ( auto& x : d ) (iterator_impl, lines 48-71): index_ runs from front_
   to front_ + size_ and is reduced at each dereference. *)
Fixpoint iterate_from (b : list A) (index n : nat) : res (list A) :=
  match n with
  | 0 => Ok []
  | S n' =>
    let* j := modulo_ index (length b) in
    let* x := vget b j in
    let* r := iterate_from b (S index) n' in
    Ok (x :: r)
  end.
Definition iterate (d : deque) : res (list A) :=
  iterate_from (buffer_ d) (front_ d) (size_ d).

(* A client's calls. *)
Inductive op :=
| PushBack (x : A) | PushFront (x : A) | PopBack | PopFront | Clear
| Get (i : nat) | Set_ (i : nat) (x : A)
| Front | SetFront (x : A) | Back | SetBack (x : A)
| Size | Empty | Full | Capacity | Iterate.

Inductive out :=
| ONone | OThrow | OVal (x : A) | ONat (n : nat) | OBool (b : bool) | OList (l : list A).

(* One call: the new state and what the caller observes; None is undefined
   behaviour.  flut_assert fires before any member changes, so a throwing call
   leaves the state as it was. *)
Definition upd_ (d : deque) (r : res deque) : option (deque * out) :=
  match r with
  | Ok d' => Some (d', ONone)
  | Throw => Some (d, OThrow)
  | UB | OutOfFuel => None
  end.
Definition ret_ (d : deque) (r : res A) : option (deque * out) :=
  match r with
  | Ok x => Some (d, OVal x)
  | Throw => Some (d, OThrow)
  | UB | OutOfFuel => None
  end.

Definition step (d : deque) (o : op) : option (deque * out) :=
  match o with
  | PushBack x => upd_ d (push_back d x)
  | PushFront x => upd_ d (push_front d x)
  | PopBack => upd_ d (pop_back d)
  | PopFront => upd_ d (pop_front d)
  | Clear => Some (clear d, ONone)
  | Get i => ret_ d (get d i)
  | Set_ i x => upd_ d (set d i x)
  | Front => ret_ d (front d)
  | SetFront x => upd_ d (set_front d x)
  | Back => ret_ d (back d)
  | SetBack x => upd_ d (set_back d x)
  | Size => Some (d, ONat (size d))
  | Empty => Some (d, OBool (empty d))
  | Full => Some (d, OBool (full d))
  | Capacity => Some (d, ONat (capacity d))
  | Iterate =>
    match iterate d with
    | Ok l => Some (d, OList l)
    | _ => None
    end
  end.

(* A sequence of calls: all observations, or None if some call is undefined. *)
Fixpoint run (d : deque) (ops : list op) : option (deque * list out) :=
  match ops with
  | [] => Some (d, [])
  | o :: ops' =>
    match step d o with
    | None => None
    | Some (d1, r) =>
      match run d1 ops' with
      | None => None
      | Some (d2, rs) => Some (d2, r :: rs)
      end
    end
  end.
End Deque.
Arguments deque A : clear implicits.
Arguments op A : clear implicits.
Arguments out A : clear implicits.
