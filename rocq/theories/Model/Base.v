(* Shared vocabulary of the models: outcomes of C++ code and checked
   std::vector primitives.  No proofs here. *)
From Coq Require Export List Arith ZArith Lia Bool.
Export ListNotations.

(* Outcome of running a C++ expression.
   Throw: an exception (flut_assert, flut_error, std::out_of_range, ...).
   UB: undefined behaviour (out-of-range access, division by zero, ...).
   OutOfFuel: the model's fuel did not suffice; theorems exclude it or show
   that no fuel suffices (non-termination). *)
Inductive res (A : Type) : Type :=
| Ok (a : A)
| Throw
| UB
| OutOfFuel.
Arguments Ok {A} a.
Arguments Throw {A}.
Arguments UB {A}.
Arguments OutOfFuel {A}.

Definition bind {A B : Type} (r : res A) (f : A -> res B) : res B :=
  match r with
  | Ok a => f a
  | Throw => Throw
  | UB => UB
  | OutOfFuel => OutOfFuel
  end.

Notation "'let*' x ':=' e 'in' f" := (bind e (fun x => f))
  (at level 200, x pattern, e at level 100, f at level 200, right associativity).

(* flut_assert / flut_error_if (flut/system/assert.hpp:17-34) *)
Definition assert_ (b : bool) : res unit := if b then Ok tt else Throw.

(* std::vector primitives. *)

(* v[i] without bounds check: out of range is undefined. *)
Definition vget {A} (l : list A) (i : nat) : res A :=
  match nth_error l i with Some x => Ok x | None => UB end.

(* v[i] = x *)
Definition vset {A} (l : list A) (i : nat) (x : A) : res (list A) :=
  if i <? length l then Ok (firstn i l ++ x :: skipn (S i) l) else UB.

(* v.resize( n, d ) *)
Definition vresize {A} (l : list A) (n : nat) (d : A) : list A :=
  firstn n l ++ repeat d (n - length l).

(* v.insert( v.begin() + i, x ): an iterator past end() is undefined. *)
Definition vinsert {A} (l : list A) (i : nat) (x : A) : res (list A) :=
  if i <=? length l then Ok (firstn i l ++ x :: skipn i l) else UB.

(* a % b: division by zero is undefined. *)
Definition modulo_ (a b : nat) : res nat :=
  if b =? 0 then UB else Ok (a mod b).

(* for ( i = 0; i < n; ++i ) body( i ) *)
Fixpoint for_up_from {X : Type} (i n : nat) (body : nat -> X -> res X) (s : X) : res X :=
  match n with
  | 0 => Ok s
  | S n' => let* s' := body i s in for_up_from (S i) n' body s'
  end.
Definition for_up {X : Type} (n : nat) (body : nat -> X -> res X) (s : X) : res X :=
  for_up_from 0 n body s.

(* for ( i = n; i-- > 0; ) body( i ) *)
Fixpoint for_down {X : Type} (n : nat) (body : nat -> X -> res X) (s : X) : res X :=
  match n with
  | 0 => Ok s
  | S n' => let* s' := body n' s in for_down n' body s'
  end.

(* A client's sequence of calls on an object: all observations, or None if
   some call is undefined (or outside the contract, for a specification). *)
Fixpoint exec {S O R : Type} (step : S -> O -> option (S * R)) (s : S) (ops : list O)
  : option (S * list R) :=
  match ops with
  | [] => Some (s, [])
  | o :: ops' =>
    match step s o with
    | None => None
    | Some (s1, r) =>
      match exec step s1 ops' with
      | None => None
      | Some (s2, rs) => Some (s2, r :: rs)
      end
    end
  end.
