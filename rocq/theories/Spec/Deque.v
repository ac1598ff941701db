(* Ideal double-ended queue with a capacity counter. *)
From Verif Require Import Model.Base Model.Deque.

Section Spec.
Context {A : Type}.

Definition queue : Type := (list A * nat)%type.  (* contents, capacity *)

Definition grow (q : queue) : nat :=
  if length (fst q) <? snd q then snd q else S (snd q).

(* None: the caller broke the contract (index out of range). *)
Definition ideal_step (q : queue) (o : op A) : option (queue * out A) :=
  let (l, c) := q in
  match o with
  | PushBack x => Some ((l ++ [x], grow q), ONone)
  | PushFront x => Some ((x :: l, grow q), ONone)
  | PopBack => match l with [] => Some (q, OThrow) | _ => Some ((removelast l, c), ONone) end
  | PopFront => match l with [] => Some (q, OThrow) | _ :: t => Some ((t, c), ONone) end
  | Clear => Some (([], c), ONone)
  | Get i => match nth_error l i with None => None | Some x => Some (q, OVal x) end
  | Set_ i x =>
    match nth_error l i with
    | None => None
    | Some _ => Some ((firstn i l ++ x :: skipn (S i) l, c), ONone)
    end
  | Front => match l with [] => Some (q, OThrow) | x :: _ => Some (q, OVal x) end
  | SetFront y => match l with [] => Some (q, OThrow) | _ :: t => Some ((y :: t, c), ONone) end
  | Back => match l with [] => Some (q, OThrow) | x :: t => Some (q, OVal (last t x)) end
  | SetBack y => match l with [] => Some (q, OThrow) | _ => Some ((removelast l ++ [y], c), ONone) end
  | Size => Some (q, ONat (length l))
  | Empty => Some (q, OBool (match l with [] => true | _ => false end))
  | Full => Some (q, OBool (length l =? c))
  | Capacity => Some (q, ONat c)
  | Iterate => Some (q, OList l)
  end.

Fixpoint ideal_run (q : queue) (ops : list (op A)) : option (queue * list (out A)) :=
  match ops with
  | [] => Some (q, [])
  | o :: ops' =>
    match ideal_step q o with
    | None => None
    | Some (q1, r) =>
      match ideal_run q1 ops' with
      | None => None
      | Some (q2, rs) => Some (q2, r :: rs)
      end
    end
  end.

(* The ideal queue never holds more than c elements while running ops. *)
Fixpoint stays_within (c : nat) (q : queue) (ops : list (op A)) : Prop :=
  length (fst q) <= c /\
  match ops with
  | [] => True
  | o :: ops' =>
    match ideal_step q o with
    | None => True
    | Some (q1, _) => stays_within c q1 ops'
    end
  end.

Definition is_push_back (o : op A) : bool := match o with PushBack _ => true | _ => false end.
Definition moves_front (o : op A) : bool :=
  match o with PushFront _ => true | PopFront => true | _ => false end.
End Spec.
Arguments queue A : clear implicits.
