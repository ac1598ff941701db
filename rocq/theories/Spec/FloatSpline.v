(* The Catmull-Rom curve between p1 and p2: the cubic that is p1 at 0 and p2 at
   1 and has the slopes of the chords p0 p2 and p1 p3 there, halved; in the
   basis of Hermite. *)
From Coq Require Import Reals.
Local Open Scope R_scope.

Definition hermite (a b da db t : R) : R :=
  (1 + 2 * t) * (1 - t) * (1 - t) * a + t * t * (3 - 2 * t) * b + t * (1 - t) * (1 - t) * da + t * t * (t - 1) * db.
Definition catmull_rom (p0 p1 p2 p3 t : R) : R := hermite p1 p2 ((p2 - p0) / 2) ((p3 - p1) / 2) t.
