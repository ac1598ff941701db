(* What a profiler should tell, from the history of calls (latest call first),
   for a profiler created at time t0.  A section is known by the names that
   lead to it, innermost first; the root is []. *)
From Coq Require Import List ZArith.
From Verif Require Import Model.Profiler.
Import ListNotations.
Local Open Scope Z_scope.

Notation path := (list nat).
Definition path_dec : forall p q : path, {p = q} + {p <> q} := list_eq_dec Nat.eq_dec.

(* the open sections with the time they started, innermost first *)
Fixpoint frames (t0 : Z) (h : list prof_op) : list (path * Z) :=
  match h with
  | [] | OpReset _ :: _ => [([], match h with OpReset t :: _ => t | _ => t0 end)]
  | OpStart n t _ :: h' => match frames t0 h' with (p, s) :: fs => (n :: p, t) :: (p, s) :: fs | [] => [] end
  | OpEnd _ :: h' => tl (frames t0 h')
  | OpReport _ :: h' => frames t0 h'
  end.
(* the time spent in p, over the visits that have ended since the last reset *)
Fixpoint spent (t0 : Z) (h : list prof_op) (p : path) : Z :=
  match h with
  | [] | OpReset _ :: _ => 0
  | OpEnd t :: h' => match frames t0 h' with (q, s) :: _ => (if path_dec p q then t - s else 0) + spent t0 h' p | [] => 0 end
  | _ :: h' => spent t0 h' p
  end.
(* the time lost in starting p itself *)
Fixpoint lost (t0 : Z) (h : list prof_op) (p : path) : Z :=
  match h with
  | [] | OpReset _ :: _ => 0
  | OpStart n t t' :: h' => match frames t0 h' with (q, _) :: _ => (if path_dec p (n :: q) then t' - t else 0) + lost t0 h' p | [] => 0 end
  | _ :: h' => lost t0 h' p
  end.
(* p was entered since the last reset *)
Fixpoint visited (t0 : Z) (h : list prof_op) (p : path) : Prop :=
  match h with
  | [] | OpReset _ :: _ => p = []
  | OpStart n _ _ :: h' => match frames t0 h' with (q, _) :: _ => p = n :: q \/ visited t0 h' p | [] => False end
  | _ :: h' => visited t0 h' p
  end.
(* no section is ended that was not started *)
Fixpoint Balanced (t0 : Z) (h : list prof_op) : Prop :=
  match h with
  | [] => True
  | OpEnd _ :: h' => Balanced t0 h' /\ (2 <= length (frames t0 h'))%nat
  | _ :: h' => Balanced t0 h'
  end.
(* the readings of the clock do not decrease; now is the last one *)
Inductive Clock (t0 : Z) : list prof_op -> Z -> Prop :=
| Clock_start : Clock t0 [] t0
| Clock_reset h now t : Clock t0 h now -> now <= t -> Clock t0 (OpReset t :: h) t
| Clock_section h now n t t' : Clock t0 h now -> now <= t -> t <= t' -> Clock t0 (OpStart n t t' :: h) t'
| Clock_end h now t : Clock t0 h now -> now <= t -> Clock t0 (OpEnd t :: h) t
| Clock_report h now t : Clock t0 h now -> now <= t -> Clock t0 (OpReport t :: h) t.
(* when the profiler was last reset *)
Fixpoint since (t0 : Z) (h : list prof_op) : Z :=
  match h with [] => t0 | OpReset t :: _ => t | _ :: h' => since t0 h' end.
(* the root's total is what the last report since the reset made it *)
Fixpoint reported (t0 : Z) (h : list prof_op) : Z :=
  match h with [] | OpReset _ :: _ => 0 | OpReport t :: h' => t - since t0 h' | _ :: h' => reported t0 h' end.
(* q is p or lies within p *)
Fixpoint within (p q : path) : Prop := q = p \/ match q with [] => False | _ :: q' => within p q' end.
Definition within_dec : forall p q : path, {within p q} + {~ within p q}.
Proof.
  intros p q. induction q as [|n q [IH|IH]]; cbn.
  - destruct (path_dec [] p) as [E|E]; [left; auto|right; intros [H|H]; auto].
  - left. auto.
  - destruct (path_dec (n :: q) p) as [E|E]; [left; auto|right; intros [H|H]; auto].
Defined.
(* the time lost in starting sections within p *)
Fixpoint lost_within (t0 : Z) (h : list prof_op) (p : path) : Z :=
  match h with
  | [] | OpReset _ :: _ => 0
  | OpStart n t t' :: h' => match frames t0 h' with (q, _) :: _ => (if within_dec p (n :: q) then t' - t else 0) + lost_within t0 h' p | [] => 0 end
  | _ :: h' => lost_within t0 h' p
  end.
Definition sumz {A} (f : A -> Z) (l : list A) : Z := fold_right (fun x a => f x + a) 0 l.

(* a table of sections agrees with a history: section i stands for the i-th
   path *)
Record Agrees (t0 : Z) (h : list prof_op) (ss : list section) (paths : list path) : Prop := {
  agrees_length : length paths = length ss;
  agrees_root : nth_error paths 0 = Some [];
  agrees_once : NoDup paths;
  agrees_visited : forall q, In q paths <-> visited t0 h q;
  agrees_names : forall i s q, nth_error ss i = Some s -> nth_error paths i = Some q ->
    match sparent s with
    | None => i = 0%nat
    | Some j => (j < i)%nat /\ exists r, nth_error paths j = Some r /\ q = sname s :: r
    end;
  agrees_total : forall i s q, nth_error ss i = Some s -> nth_error paths i = Some q -> stotal s = match i with O => reported t0 h | _ => spent t0 h q end;
  agrees_overhead : forall i s q, nth_error ss i = Some s -> nth_error paths i = Some q -> soverhead s = lost t0 h q }.
