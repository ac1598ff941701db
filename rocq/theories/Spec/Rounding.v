(* Sums and products of floating point numbers, computed with a rounding in
   each step and exactly. *)
From Coq Require Import Reals.
From Verif Require Import Model.FloatText Model.Ieee Spec.FloatText Spec.Ieee.
Local Open Scope R_scope.

Inductive expr := Lit (x : fnum) | Add (a b : expr) | Sub (a b : expr) | Mul (a b : expr) | Neg (a : expr).

Definition fin_val (f : fmt) (x : fnum) : R := match x with FFin a n => val f a n | _ => 0 end.
(* the computed value and the exact one *)
Fixpoint computed (f : fmt) (e : expr) : fnum :=
  match e with
  | Lit x => x
  | Add a b => f_add f (computed f a) (computed f b)
  | Sub a b => f_sub f (computed f a) (computed f b)
  | Mul a b => f_mul f (computed f a) (computed f b)
  | Neg a => f_neg (computed f a)
  end.
Fixpoint exact (f : fmt) (e : expr) : R :=
  match e with
  | Lit x => fin_val f x
  | Add a b => exact f a + exact f b
  | Sub a b => exact f a - exact f b
  | Mul a b => exact f a * exact f b
  | Neg a => - exact f a
  end.
(* the sum of the sizes of the terms *)
Fixpoint extent (f : fmt) (e : expr) : R :=
  match e with
  | Lit x => Rabs (fin_val f x)
  | Add a b | Sub a b => extent f a + extent f b
  | Mul a b => extent f a * extent f b
  | Neg a => extent f a
  end.
(* how many roundings a factor goes through *)
Fixpoint roundings (e : expr) : nat :=
  match e with
  | Lit _ => 0
  | Add a b | Sub a b => S (Nat.max (roundings a) (roundings b))
  | Mul a b => S (roundings a + roundings b)
  | Neg a => roundings a
  end.
(* what products below the normal numbers may lose *)
Fixpoint lost (f : fmt) (e : expr) : R :=
  let u := / IZR (2 ^ fm_prec f) in
  match e with
  | Lit _ => 0
  | Add a b | Sub a b => (1 + u) * (lost f a + lost f b)
  | Mul a b => (1 + u) * ((1 + u) ^ roundings a * extent f a * lost f b + (1 + u) ^ roundings b * extent f b * lost f a + lost f a * lost f b) + unit_of f / 2
  | Neg a => lost f a
  end.
Fixpoint Over (P : fnum -> Prop) (e : expr) : Prop :=
  match e with
  | Lit x => P x
  | Add a b | Sub a b | Mul a b => Over P a /\ Over P b
  | Neg a => Over P a
  end.
Fixpoint Inside (x : fnum) (e : expr) : Prop :=
  match e with
  | Lit y => x = y
  | Add a b | Sub a b | Mul a b => Inside x a \/ Inside x b
  | Neg a => Inside x a
  end.
(* no step needs rounding *)
Fixpoint Fits (f : fmt) (e : expr) : Prop :=
  match e with
  | Lit _ => True
  | Add a b | Sub a b | Mul a b => Fits f a /\ Fits f b /\ Grid f (exact f e) /\ Rabs (exact f e) < IZR (2 ^ fm_top f)
  | Neg a => Fits f a
  end.
(* the largest value a step may have, and no step overflows *)
Definition reach (f : fmt) (e : expr) : R := (1 + / IZR (2 ^ fm_prec f)) ^ roundings e * extent f e + lost f e.
Fixpoint Roomy (f : fmt) (e : expr) : Prop :=
  match e with
  | Lit _ => True
  | Add a b | Sub a b | Mul a b => Roomy f a /\ Roomy f b /\ reach f e <= IZR (2 ^ fm_top f) / 2
  | Neg a => Roomy f a
  end.
