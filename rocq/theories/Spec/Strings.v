(* What the string helpers should compute, without positions. *)
From Coq Require Import List Ascii ZArith Bool.
Import ListNotations.

Notation str := (list ascii).

(* Every std::string is far smaller than the address space. *)
Definition fits (s : str) : Prop := (Z.of_nat (length s) < 2 ^ 63)%Z.

Definition only (set : str) (s : str) : Prop := Forall (fun c => In c set) s.
Definition free (set : str) (s : str) : Prop := Forall (fun c => ~ In c set) s.

(* m is s with leading and trailing characters of set removed *)
Definition IsTrim (set s m : str) : Prop :=
  exists l r, s = l ++ m ++ r /\ only set l /\ only set r /\
    (forall c m', m = c :: m' -> ~ In c set) /\ (forall c m', m = m' ++ [c] -> ~ In c set).

Definition IsTrimRight (set s m : str) : Prop :=
  exists r, s = m ++ r /\ only set r /\ (forall c m', m = m' ++ [c] -> ~ In c set).

(* ws are the maximal runs of s free of separators *)
Inductive Split (seps : str) : str -> list str -> Prop :=
| Split_end s : only seps s -> Split seps s []
| Split_word l w r ws :
    only seps l -> w <> [] -> free seps w ->
    (r = [] \/ exists c r', r = c :: r' /\ In c seps) ->
    Split seps r ws -> Split seps (l ++ w ++ r) (w :: ws).

(* words joined with (non-empty) separator strings *)
Fixpoint join (first : str) (rest : list (str * str)) : str :=
  match rest with
  | [] => first
  | (sep, w) :: rest' => first ++ sep ++ join w rest'
  end.

Definition Prefix (t s : str) : Prop := exists r, s = t ++ r.
Definition Suffix (t s : str) : Prop := exists l, s = l ++ t.
(* t occurs in s starting at position n *)
Definition OccursAt (t s : str) (n : nat) : Prop := exists l r, s = l ++ t ++ r /\ length l = n.

(* the seven-bit characters other than NUL *)
Definition plain (c : ascii) : Prop := (1 <= nat_of_ascii c <= 127)%nat.
