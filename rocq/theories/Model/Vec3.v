(* flut/math/vec3_type.hpp, vec3.hpp, quat_type.hpp, quat.hpp, transform.hpp,
   mat33.hpp, vec4.hpp over exact reals; eps stands for constants<T>::epsilon(),
   the spacing of the floating point type at 1. *)
From Coq Require Import Reals.
From Verif Require Import Model.Base Model.Math.
Local Open Scope R_scope.

Record vec3 := V3 { vx : R; vy : R; vz : R }.
(* zero, unit_x, unit_y, unit_z (flut/math/vec3_type.hpp:47-50) *)
Definition v_zero : vec3 := V3 0 0 0.
Definition unit_x : vec3 := V3 1 0 0.
Definition unit_y : vec3 := V3 0 1 0.
Definition unit_z : vec3 := V3 0 0 1.
(* +, -, negation, scaling, division (flut/math/vec3.hpp:11-44) *)
Definition vadd (a b : vec3) : vec3 := V3 (vx a + vx b) (vy a + vy b) (vz a + vz b).
Definition vsub (a b : vec3) : vec3 := V3 (vx a - vx b) (vy a - vy b) (vz a - vz b).
Definition vneg (a : vec3) : vec3 := V3 (- vx a) (- vy a) (- vz a).
Definition vscale (s : R) (a : vec3) : vec3 := V3 (vx a * s) (vy a * s) (vz a * s).
Definition vdiv (a : vec3) (s : R) : vec3 := let ms := 1 / s in V3 (vx a * ms) (vy a * ms) (vz a * ms).
(* component product (flut/math/vec3.hpp:46-51) *)
Definition vmask (a b : vec3) : vec3 := V3 (vx a * vx b) (vy a * vy b) (vz a * vz b).
(* length, squared_length, is_normalized, distance (flut/math/vec3.hpp:53-67);
   is_normalized uses equals with its default 4 eps *)
Definition squared_length (a : vec3) : R := vx a * vx a + vy a * vy a + vz a * vz a.
Definition length (a : vec3) : R := sqrt (squared_length a).
Definition v_is_normalized (eps : R) (a : vec3) : bool := equals (squared_length a) 1 (4 * eps).
Definition distance (a b : vec3) : R :=
  sqrt ((vx a - vx b) * (vx a - vx b) + (vy a - vy b) * (vy a - vy b) + (vz a - vz b) * (vz a - vz b)).
(* normalize, normalized (flut/math/vec3.hpp:75-81) *)
Definition normalized (eps : R) (a : vec3) : vec3 :=
  let l := length a in
  if Rltb eps l then let s := 1 / l in V3 (vx a * s) (vy a * s) (vz a * s) else a.
(* dot_product, cross_product, vec3_from_polar (flut/math/vec3.hpp:83-93) *)
Definition dot (a b : vec3) : R := vx a * vx b + vy a * vy b + vz a * vz b.
Definition cross (a b : vec3) : vec3 :=
  V3 (vy a * vz b - vz a * vy b) (vz a * vx b - vx a * vz b) (vx a * vy b - vy a * vx b).
(* member normalized (flut/math/vec3_type.hpp:44): no test for
   zero length; UB here: the result is not finite *)
Definition m_normalized (a : vec3) : res vec3 :=
  let l := length a in if Req_EM_T l 0 then UB else let s := 1 / l in Ok (V3 (vx a * s) (vy a * s) (vz a * s)).
Definition vec3_from_polar (radius : R) (inclination azimuth : angle) : vec3 :=
  V3 (radius * angle_sin inclination * angle_sin azimuth) (radius * angle_cos inclination) (radius * angle_sin inclination * angle_cos azimuth).

(* std::atan2 *)
Definition atan2 (y x : R) : R :=
  if Rltb 0 x then atan (y / x)
  else if Rltb x 0 then (if Rltb y 0 then atan (y / x) - PI else atan (y / x) + PI)
  else if Rltb 0 y then PI / 2 else if Rltb y 0 then - (PI / 2) else 0.

(* quat_ (flut/math/quat_type.hpp:11-31) *)
Record quat := Q4 { qw : R; qx : R; qy : R; qz : R }.
Definition q_identity : quat := Q4 1 0 0 0.
(* operator* (flut/math/quat.hpp:19-26) *)
Definition qmul (a b : quat) : quat :=
  Q4 (qw a * qw b - qx a * qx b - qy a * qy b - qz a * qz b)
     (qw a * qx b + qx a * qw b + qy a * qz b - qz a * qy b)
     (qw a * qy b + qy a * qw b + qz a * qx b - qx a * qz b)
     (qw a * qz b + qz a * qw b + qx a * qy b - qy a * qx b).
(* operator* with a vector (flut/math/quat.hpp:29-37) *)
Definition rotate (q : quat) (v : vec3) : vec3 :=
  let qv := V3 (qx q) (qy q) (qz q) in
  let uv := cross qv v in
  let uuv := cross qv uv in
  vadd (vadd v (vscale (2 * qw q) uv)) (vscale 2 uuv).
(* operator- (flut/math/quat.hpp:40-41) *)
Definition qconj (q : quat) : quat := Q4 (qw q) (- qx q) (- qy q) (- qz q).
(* length, is_normalized, normalized (flut/math/quat.hpp:44-67) *)
Definition qnorm2 (q : quat) : R := qw q * qw q + qx q * qx q + qy q * qy q + qz q * qz q.
Definition qlength (q : quat) : R := sqrt (qnorm2 q).
Definition qnormalized (eps : R) (q : quat) : quat :=
  let l := sqrt (qx q * qx q + qy q * qy q + qz q * qz q + qw q * qw q) in
  if Rltb eps l then let i := 1 / l in Q4 (qw q * i) (qx q * i) (qy q * i) (qz q * i) else q.
(* quat_from_axis_angle (flut/math/quat.hpp:70-76) *)
Definition quat_from_axis_angle (eps : R) (axis : vec3) (a : angle) : res quat :=
  let* _ := assert_ (v_is_normalized eps axis) in
  let ha := 1 / 2 * rad_value a in
  let hs := sin ha in
  Ok (Q4 (cos ha) (hs * vx axis) (hs * vy axis) (hs * vz axis)).
(* quat_from_euler (flut/math/quat.hpp:15-16, 79-102) *)
Inductive euler_order := Exyz | Exzy | Eyxz | Eyzx | Ezxy | Ezyx.
Definition quat_from_euler (x y z : angle) (eo : euler_order) : quat :=
  let hxa := 1 / 2 * rad_value x in let hya := 1 / 2 * rad_value y in let hza := 1 / 2 * rad_value z in
  let qx := Q4 (cos hxa) (sin hxa) 0 0 in
  let qy := Q4 (cos hya) 0 (sin hya) 0 in
  let qz := Q4 (cos hza) 0 0 (sin hza) in
  match eo with
  | Exyz => qmul qx (qmul qy qz)
  | Exzy => qmul qx (qmul qz qy)
  | Eyxz => qmul qy (qmul qx qz)
  | Eyzx => qmul qy (qmul qz qx)
  | Ezxy => qmul qz (qmul qx qy)
  | Ezyx => qmul qz (qmul qy qx)
  end.
(* pitch, yaw, roll, euler_from_quat (flut/math/quat.hpp:105-130) *)
Definition pitch (q : quat) : angle :=
  let tx := 2 * qx q in let tz := 2 * qz q in
  let twx := tx * qw q in let txx := tx * qx q in let tyz := tz * qy q in let tzz := tz * qz q in
  mkAngle Radians (atan2 (tyz + twx) (1 - (txx + tzz))).
Definition yaw (q : quat) : angle :=
  let tx := 2 * qx q in let ty := 2 * qy q in let tz := 2 * qz q in
  let twy := ty * qw q in let txx := tx * qx q in let txz := tz * qx q in let tyy := ty * qy q in
  mkAngle Radians (atan2 (txz + twy) (1 - (txx + tyy))).
Definition roll (q : quat) : angle :=
  let ty := 2 * qy q in let tz := 2 * qz q in
  let twz := tz * qw q in let txy := ty * qx q in let tyy := ty * qy q in let tzz := tz * qz q in
  mkAngle Radians (atan2 (txy + twz) (1 - (tyy + tzz))).
Definition euler_from_quat (q : quat) : angle * angle * angle := (pitch q, yaw q, roll q).
(* quat_from_directions (flut/math/quat.hpp:133-152) *)
Definition quat_from_directions (eps : R) (source target : vec3) : quat :=
  let s := normalized eps source in
  let t := normalized eps target in
  let c := cross s t in
  let d := dot s t in
  if equals d 1 (4 * eps) then q_identity
  else
    let clen := length c in
    if equals clen 0 (4 * eps) then Q4 0 1 0 0
    else
      let c := vdiv c clen in
      let a := acos d * (1 / 2) in
      let sa := sin a in
      Q4 (cos a) (vx c * sa) (vy c * sa) (vz c * sa).
(* quat_from_quats (flut/math/quat.hpp:155-156): - binds tighter than * *)
Definition quat_from_quats (source target : quat) : quat := qmul (qconj source) target.
(* rotation_vector_from_quat, axis_angle_from_quat (flut/math/quat.hpp:159-182) *)
Definition rotation_vector_from_quat (eps : R) (q : quat) : vec3 :=
  let l := sqrt (qx q * qx q + qy q * qy q + qz q * qz q) in
  if Rltb eps l then let f := 2 * acos (qw q) / l in V3 (f * qx q) (f * qy q) (f * qz q) else v_zero.
Definition axis_angle_from_quat (eps : R) (q : quat) : vec3 * angle :=
  let l := sqrt (qx q * qx q + qy q * qy q + qz q * qz q) in
  if Rltb eps l then let s := 1 / l in (V3 (s * qx q) (s * qy q) (s * qz q), mkAngle Radians (2 * acos (qw q)))
  else (unit_x, mkAngle Radians 0).
(* quat_from_axes (flut/math/quat.hpp:185-218) with mat33_from_axes
   (flut/math/mat33.hpp:10-12): m[ r ][ c ] is component r of axis c *)
Definition comp (v : vec3) (i : nat) : R := match i with O => vx v | 1%nat => vy v | _ => vz v end.
Definition mat (x y z : vec3) (r c : nat) : R := comp (match c with O => x | 1%nat => y | _ => z end) r.
Definition quat_from_axes (x y z : vec3) : quat :=
  let m := mat x y z in
  let t := m 0%nat 0%nat + m 1%nat 1%nat + m 2%nat 2%nat in
  if Rltb 0 t then
    let root := sqrt (t + 1) in
    let w := 1 / 2 * root in
    let root := 1 / 2 / root in
    Q4 w ((m 2%nat 1%nat - m 1%nat 2%nat) * root) ((m 0%nat 2%nat - m 2%nat 0%nat) * root) ((m 1%nat 0%nat - m 0%nat 1%nat) * root)
  else
    let i := if Rltb (m 0%nat 0%nat) (m 1%nat 1%nat) then 1%nat else 0%nat in
    let i := if Rltb (m i i) (m 2%nat 2%nat) then 2%nat else i in
    let j := Nat.modulo (i + 1) 3 in
    let k := Nat.modulo (j + 1) 3 in
    let root := sqrt (m i i - m j j - m k k + 1) in
    let qi := 1 / 2 * root in
    let root := 1 / 2 / root in
    let w := (m k j - m j k) * root in
    let qj := (m j i + m i j) * root in
    let qk := (m k i + m i k) * root in
    let at_ n := if Nat.eqb n i then qi else if Nat.eqb n j then qj else qk in
    Q4 w (at_ 0%nat) (at_ 1%nat) (at_ 2%nat).

(* transform_ (flut/math/transform.hpp:12-43) *)
Record transform := T3 { tp : vec3; tq : quat }.
Definition t_identity : transform := T3 v_zero q_identity.
Definition t_inverse (t : transform) : transform := let iq := qconj (tq t) in T3 (rotate iq (vneg (tp t))) iq.
Definition t_apply (t : transform) (v : vec3) : vec3 := vadd (tp t) (rotate (tq t) v).
Definition t_inv_apply (t : transform) (v : vec3) : vec3 := rotate (qconj (tq t)) (vsub v (tp t)).
Definition t_mul (t u : transform) : transform := T3 (vadd (tp t) (rotate (tq t) (tp u))) (qmul (tq t) (tq u)).
Definition t_inv_mul (t u : transform) : transform := T3 (rotate (qconj (tq t)) (vsub (tp u) (tp t))) (qmul (qconj (tq t)) (tq u)).

(* vec4_ (flut/math/vec4_type.hpp:11-32, vec4.hpp:11-15) *)
Record vec4 := V4 { x4 : R; y4 : R; z4 : R; w4 : R }.
Definition add4 (a b : vec4) : vec4 := V4 (x4 a + x4 b) (y4 a + y4 b) (z4 a + z4 b) (w4 a + w4 b).
(* -= (flut/math/vec4.hpp:21-22) *)
Definition sub4 (a b : vec4) : vec4 := V4 (x4 a - x4 b) (y4 a - y4 b) (z4 a - z4 b) (w4 a).
(* negation, scaling and division (flut/math/vec4.hpp:25-43) *)
Definition neg4 (a : vec4) : vec4 := V4 (- x4 a) (- y4 a) (- z4 a) (w4 a).
Definition scale4 (s : R) (a : vec4) : vec4 := V4 (x4 a * s) (y4 a * s) (z4 a * s) (w4 a).
Definition div4 (a : vec4) (s : R) : vec4 := let ms := 1 / s in V4 (x4 a * ms) (y4 a * ms) (z4 a * ms) (w4 a).
Definition squared_length4 (a : vec4) : R := x4 a * x4 a + y4 a * y4 a + z4 a * z4 a + w4 a * w4 a.
