(* Weighted means. *)
From Coq Require Import Reals List.
From Verif Require Import Model.Average.
Import ListNotations.
Local Open Scope R_scope.

Definition total (l : list R) : R := fold_right Rplus 0 l.
(* samples are (value, weight) *)
Definition weight (l : list (R * R)) : R := total (map snd l).
Definition moment (l : list (R * R)) : R := total (map (fun p => snd p * fst p) l).
Definition wmean (l : list (R * R)) : R := moment l / weight l.

(* the samples a client has added since its last reset *)
Inductive Samples : list average_op -> list (R * R) -> Prop :=
| SStart : Samples [] []
| SAdd ops l v w : Samples ops l -> Samples (ops ++ [OpAdd v w]) (l ++ [(v, w)])
| SAdd1 ops l v : Samples ops l -> Samples (ops ++ [OpAdd1 v]) (l ++ [(v, 1)])
| SClear ops l : Samples ops l -> Samples (ops ++ [OpClear]) [].
