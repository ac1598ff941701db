(* flut/memoize.hpp.  K stands for the tuple of arguments, lt for the order the
   map compares them with. *)
From Verif Require Import Model.Base.

Section Memoize.
Context {K R : Type} (lt : K -> K -> bool).

(* keys a std::map does not tell apart *)
Definition same_key (a b : K) : bool := negb (lt a b) && negb (lt b a).
(* mem_ (flut/memoize.hpp:28), as a list of entries with different keys *)
Definition memory := list (K * R).
Fixpoint find_key (m : memory) (k : K) : option R :=
  match m with
  | [] => None
  | (k', r) :: m' => if same_key k' k then Some r else find_key m' k
  end.
(* mem_[ tup ] = r *)
Fixpoint assign_key (m : memory) (k : K) (r : R) : memory :=
  match m with
  | [] => [(k, r)]
  | (k', r') :: m' => if same_key k' k then (k', r) :: m' else (k', r') :: assign_key m' k r
  end.

(* operator() (flut/memoize.hpp:15-25), for a function that may read and change
   a state and may throw (None), but does not call the memoized function *)
Context {S : Type} (func : K -> S -> option R * S).
Definition call (m : memory) (s : S) (k : K) : option R * memory * S :=
  match find_key m k with
  | Some r => (Some r, m, s)
  | None =>
    let '(o, s') := func k s in
    match o with
    | Some r => (Some r, assign_key m k r, s')
    | None => (None, m, s')
    end
  end.
(* a sequence of calls: the results, whether the function was invoked *)
Record event := mkEvent { key : K; invoked : bool; outcome : option R }.
Fixpoint calls (m : memory) (s : S) (ks : list K) : list event * memory * S :=
  match ks with
  | [] => ([], m, s)
  | k :: ks' =>
    let '(o, m1, s1) := call m s k in
    let '(es, m2, s2) := calls m1 s1 ks' in
    (mkEvent k (match find_key m k with Some _ => false | None => true end) o :: es, m2, s2)
  end.
End Memoize.
Arguments mkEvent {K R}.
Arguments key {K R}.
Arguments invoked {K R}.
Arguments outcome {K R}.

(* a function that calls itself through the memoized version, as a program that
   gives a result, throws, or asks for the value at another key *)
Inductive prog (K R : Type) := Ret (r : R) | Fail | Ask (k : K) (cont : R -> prog K R).
Arguments Ret {K R}.
Arguments Fail {K R}.
Arguments Ask {K R}.

Section Recursive.
Context {K R : Type} (lt : K -> K -> bool) (body : K -> prog K R).
(* the function without memory; fuel bounds the depth of the calls *)
Fixpoint plain (fuel : nat) (k : K) : res R :=
  match fuel with
  | O => OutOfFuel
  | S n =>
    (fix exec (p : prog K R) : res R :=
       match p with
       | Ret r => Ok r
       | Fail => Throw
       | Ask j c => match plain n j with Ok r => exec (c r) | Throw => Throw | UB => UB | OutOfFuel => OutOfFuel end
       end) (body k)
  end.
(* operator() (flut/memoize.hpp:15-25) on such a function; log holds the keys on
   which func_ was invoked, latest first *)
Fixpoint memoized (fuel : nat) (m : @memory K R) (log : list K) (k : K) : res R * @memory K R * list K :=
  match fuel with
  | O => (OutOfFuel, m, log)
  | S n =>
    match find_key lt m k with
    | Some r => (Ok r, m, log)
    | None =>
      let '(o, m', log') :=
        (fix exec (p : prog K R) (m : @memory K R) (log : list K) : res R * @memory K R * list K :=
           match p with
           | Ret r => (Ok r, m, log)
           | Fail => (Throw, m, log)
           | Ask j c =>
             let '(o, m', log') := memoized n m log j in
             match o with Ok r => exec (c r) m' log' | Throw => (Throw, m', log') | UB => (UB, m', log') | OutOfFuel => (OutOfFuel, m', log') end
           end) (body k) m (k :: log) in
      match o with Ok r => (Ok r, assign_key lt m' k r, log') | _ => (o, m', log') end
    end
  end.
End Recursive.
