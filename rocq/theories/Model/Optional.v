(* flut/math/optional.hpp *)
From Coq Require Import Reals ZArith List.
From Verif Require Import Model.Base Model.StdString Model.CharStream Model.Range.
Local Open Scope Z_scope.

(* What an optional of type T does.  optional( const T& ) and operator=( const
   T& ) store the same; copies are memberwise. *)
Record opt_class := mkOptClass {
  o_type : Type;                       (* T *)
  o_state : Type;                      (* optional< T > *)
  o_default : o_state;                 (* optional() *)
  o_of : o_type -> o_state;            (* optional( const T& v ) *)
  o_assign : o_state -> o_type -> o_state;   (* operator=( const T& v ) *)
  o_bool : o_state -> bool;            (* operator bool *)
  o_star : o_state -> res o_type       (* operator* *)
}.

(* the general case (flut/math/optional.hpp:9-21).  value_ is not initialized by
   optional(): init is what default initialization gives, None for a type such
   as a pointer or an aggregate of numbers, whose value may not be read *)
Record gopt (T : Type) := mkGopt { g_value : option T; g_has : bool }.
Arguments mkGopt {T}. Arguments g_value {T}. Arguments g_has {T}.
Definition general (T : Type) (init : option T) : opt_class :=
  mkOptClass T (gopt T) (mkGopt init false) (fun v => mkGopt (Some v) true) (fun _ v => mkGopt (Some v) true) g_has
    (fun o => match g_value o with Some v => Ok v | None => UB end).
(* optional( optional&& ), implicit: value_ is moved, has_value_ is copied; left
   is what remains of a moved T.  Returns the new and the old object *)
Definition general_move {T} (left : T -> T) (o : gopt T) : gopt T * gopt T := (o, mkGopt (option_map left (g_value o)) (g_has o)).

(* constants<T>::sentinel (flut/math/math.hpp:22) *)
Definition sentinel (t : int_type) : Z := match t with Signed _ => type_min t | Unsigned _ => type_max t end.
(* integral types (flut/math/optional.hpp:23-32); bool is Unsigned 1 *)
Definition integral (t : int_type) : opt_class :=
  mkOptClass Z Z (sentinel t) (fun v => v) (fun _ v => v) (fun o => negb (o =? sentinel t)) (fun o => Ok o).

(* floating point types (flut/math/optional.hpp:34-43) *)
Inductive fp := Number (r : R) | Infinite (negative : bool) | NotANumber.
Definition fp_eqb (a b : fp) : bool :=
  match a, b with
  | Number x, Number y => if Req_EM_T x y then true else false
  | Infinite x, Infinite y => Bool.eqb x y
  | _, _ => false
  end.
Definition floating : opt_class :=
  mkOptClass fp fp NotANumber (fun v => v) (fun _ v => v) (fun o => fp_eqb o o) (fun o => Ok o).

(* a == b and int i = a for optionals: there is only the conversion to bool *)
Definition opt_eq (C : opt_class) (a b : o_state C) : bool := Bool.eqb (o_bool C a) (o_bool C b).
Definition opt_to_int (C : opt_class) (a : o_state C) : Z := if o_bool C a then 1 else 0.

(* operator>>( char_stream&, optional& ) (flut/math/optional.hpp:48-49) *)
Definition read_opt (C : opt_class) (reader : char_stream -> o_type C * char_stream) (st : char_stream) (o : o_state C) : char_stream * o_state C :=
  let (tmp, st) := reader st in
  (st, if cs_fail st then o else o_assign C o tmp).
(* str >> o1 >> o2 >> ... *)
Fixpoint read_opts (C : opt_class) (reader : char_stream -> o_type C * char_stream) (st : char_stream) (os : list (o_state C)) : char_stream * list (o_state C) :=
  match os with
  | nil => (st, nil)
  | o :: os' => let (st, o) := read_opt C reader st o in let (st, os') := read_opts C reader st os' in (st, o :: os')
  end.

(* a client with variables numbered 0, 1, ... *)
Inductive opt_op (T : Type) :=
| OpEmpty (i : nat)              (* x[i] = optional() *)
| OpValue (i : nat) (v : T)      (* x[i] = v *)
| OpCopy (i j : nat).            (* x[i] = x[j] *)
Arguments OpEmpty {T}. Arguments OpValue {T}. Arguments OpCopy {T}.
Definition put {A} (x : nat -> A) (i : nat) (a : A) : nat -> A := fun j => if Nat.eqb j i then a else x j.
Definition opt_step (C : opt_class) (x : nat -> o_state C) (o : opt_op (o_type C)) : nat -> o_state C :=
  match o with
  | OpEmpty i => put x i (o_default C)
  | OpValue i v => put x i (o_assign C (x i) v)
  | OpCopy i j => put x i (x j)
  end.
Definition opt_run (C : opt_class) (ops : list (opt_op (o_type C))) : nat -> o_state C := fold_left (opt_step C) ops (fun _ => o_default C).
