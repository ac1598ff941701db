(* Curves in space. *)
From Coq Require Import Reals.
From Verif Require Import Model.Base Model.Vec3.
Local Open Scope R_scope.

(* the velocity of the curve f at x is v *)
Definition Velocity (f : R -> vec3) (x : R) (v : vec3) : Prop :=
  derivable_pt_lim (fun t => vx (f t)) x (vx v) /\ derivable_pt_lim (fun t => vy (f t)) x (vy v) /\ derivable_pt_lim (fun t => vz (f t)) x (vz v).
(* w0 p0 + w1 p1 + w2 p2 + w3 p3 *)
Definition weighted (w0 w1 w2 w3 : R) (p0 p1 p2 p3 : vec3) : vec3 :=
  vadd (vadd (vscale w0 p0) (vscale w1 p1)) (vadd (vscale w2 p2) (vscale w3 p3)).
(* a + b t + c t^2 *)
Definition parabola (a b c : vec3) (t : R) : vec3 := vadd a (vadd (vscale t b) (vscale (t * t) c)).
