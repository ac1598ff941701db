(* Hamilton's product of real quaternions, and the rotation q v q* . *)
From Coq Require Import Reals.
From Verif Require Import Model.Vec3.
Local Open Scope R_scope.

Definition vector_part (q : quat) : vec3 := V3 (qx q) (qy q) (qz q).
Definition with_scalar (s : R) (v : vec3) : quat := Q4 s (vx v) (vy v) (vz v).
Definition hamilton (a b : quat) : quat :=
  with_scalar (qw a * qw b - dot (vector_part a) (vector_part b))
    (vadd (vadd (vscale (qw a) (vector_part b)) (vscale (qw b) (vector_part a))) (cross (vector_part a) (vector_part b))).
Definition star (q : quat) : quat := with_scalar (qw q) (vneg (vector_part q)).
Definition size2 (q : quat) : R := qw q * qw q + dot (vector_part q) (vector_part q).
Definition sandwich (q : quat) (v : vec3) : vec3 := vector_part (hamilton (hamilton q (with_scalar 0 v)) (star q)).
(* no part larger than e *)
Definition Upto (e : R) (v : vec3) : Prop := Rabs (vx v) <= e /\ Rabs (vy v) <= e /\ Rabs (vz v) <= e.
