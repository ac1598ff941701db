(* Delayed signals.  A history is a list of values with the time each is held. *)
From Coq Require Import Reals ZArith List.
From Verif Require Import Model.Base.
Local Open Scope R_scope.

(* how long the history is *)
Definition duration (l : list (R * R)) : R := fold_right (fun p s => snd p + s) 0 l.
(* the integral from a to b of the signal with the values of the history, which begins at time t *)
Fixpoint area (t : R) (l : list (R * R)) (a b : R) : R :=
  match l with
  | nil => 0
  | (v, dt) :: l' => v * Rmax 0 (Rmin b (t + dt) - Rmax a t) + area (t + dt) l' a b
  end.
(* the mean of the signal over the k-th stretch of length w (k = 1, 2, ...) *)
Definition stretch_mean (w : R) (l : list (R * R)) (k : nat) : R := area 0 l (INR (k - 1) * w) (INR k * w) / w.
(* what a ring of N slots holds for entry k when entries 1, 2, ... have been written: entry 0 is
   the initial value and the slots of entries before that are zero *)
Definition entry (init : R) (e : nat -> R) (k : Z) : R :=
  if (k <? 0)%Z then 0 else if (k =? 0)%Z then init else e (Z.to_nat k).
