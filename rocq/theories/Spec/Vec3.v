(* Rotations of space, without quaternions. *)
From Coq Require Import Reals.
From Verif Require Import Model.Base Model.Vec3.
Local Open Scope R_scope.

Definition Unit (v : vec3) : Prop := dot v v = 1.
Definition UnitQ (q : quat) : Prop := qw q * qw q + qx q * qx q + qy q * qy q + qz q * qz q = 1.
(* a linear map that keeps lengths, angles and handedness *)
Definition Rotation (f : vec3 -> vec3) : Prop :=
  (forall a b, f (vadd a b) = vadd (f a) (f b)) /\ (forall s a, f (vscale s a) = vscale s (f a)) /\
  (forall a b, dot (f a) (f b) = dot a b) /\ (forall a b, f (cross a b) = cross (f a) (f b)).
(* turning by theta around a unit axis (Rodrigues) *)
Definition turn (axis : vec3) (theta : R) (v : vec3) : vec3 :=
  vadd (vadd (vscale (cos theta) v) (vscale (sin theta) (cross axis v))) (vscale ((1 - cos theta) * dot axis v) axis).
(* three perpendicular unit vectors, right handed *)
Definition Axes (x y z : vec3) : Prop := Unit x /\ Unit y /\ dot x y = 0 /\ z = cross x y.
