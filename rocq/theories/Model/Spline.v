(* flut/math/catmull_rom.hpp:5-59 for points in space, over exact reals; UB
   stands for results that are not finite.  The class catmull_rom (lines 61-86)
   does not compile. *)
From Coq Require Import Reals ZArith.
From Verif Require Import Model.Base Model.Math Model.Vec3 Model.Regression.
Local Open Scope R_scope.

(* catmull_rom_segment (flut/math/catmull_rom.hpp:5-19) *)
Record segment := mkSeg { sa : vec3; sb : vec3; sc : vec3; sd : vec3 }.
Definition seg_make (p0 p1 p2 p3 : vec3) : segment :=
  mkSeg (vscale 2 p1)
        (vadd (vneg p0) p2)
        (vsub (vadd (vsub (vscale 2 p0) (vscale 5 p1)) (vscale 4 p2)) p3)
        (vadd (vsub (vadd (vneg p0) (vscale 3 p1)) (vscale 3 p2)) p3).
Definition seg_eval (s : segment) (t : R) : vec3 :=
  vscale (1 / 2) (vadd (vadd (vadd (sa s) (vscale t (sb s))) (vscale t (vscale t (sc s)))) (vscale t (vscale t (vscale t (sd s))))).

(* std::pow of a distance *)
Definition cpow (d a : R) : res R :=
  if Req_EM_T a 0 then Ok 1
  else if Req_EM_T d 0 then (if Rltb 0 a then Ok 0 else UB)
  else Ok (Rpower d a).

(* catmull_rom_segment_alpha (flut/math/catmull_rom.hpp:21-46) *)
Record asegment := mkASeg { t0 : R; t1 : R; t2 : R; t3 : R; p0_ : vec3; p1_ : vec3; p2_ : vec3; p3_ : vec3 }.
Definition aseg_make (p0 p1 p2 p3 : vec3) (alpha : R) : res asegment :=
  let* d1 := cpow (distance p0 p1) alpha in
  let* d2 := cpow (distance p1 p2) alpha in
  let* d3 := cpow (distance p2 p3) alpha in
  Ok (mkASeg 0 d1 (d1 + d2) (d1 + d2 + d3) p0 p1 p2 p3).
(* ( b - t ) / ( b - a ) * p + ( t - a ) / ( b - a ) * q *)
Definition blend (a b t : R) (p q : vec3) : res vec3 :=
  let* u := rdiv (b - t) (b - a) in
  let* v := rdiv (t - a) (b - a) in
  Ok (vadd (vscale u p) (vscale v q)).
Definition aseg_eval (s : asegment) (x : R) : res vec3 :=
  let t := t1 s + x * (t2 s - t1 s) in
  let* a1 := blend (t0 s) (t1 s) t (p0_ s) (p1_ s) in
  let* a2 := blend (t1 s) (t2 s) t (p1_ s) (p2_ s) in
  let* a3 := blend (t2 s) (t3 s) t (p2_ s) (p3_ s) in
  let* b1 := blend (t0 s) (t2 s) t a1 a2 in
  let* b2 := blend (t1 s) (t3 s) t a2 a3 in
  blend (t1 s) (t2 s) t b1 b2.

(* compute_spline_length (flut/math/catmull_rom.hpp:48-59) *)
Fixpoint length_loop (spline : R -> vec3) (u0 u1 : R) (steps : R) (i : Z) (n : nat) (pos : vec3) (dist : R) : R :=
  match n with
  | 0%nat => dist
  | S n' =>
    let new_pos := spline (u0 + (u1 - u0) * IZR i / steps) in
    length_loop spline u0 u1 steps (i + 1) n' new_pos (dist + distance pos new_pos)
  end.
Definition compute_spline_length (spline : R -> vec3) (u0 u1 : R) (steps : Z) : R :=
  length_loop spline u0 u1 (IZR steps) 1 (Z.to_nat steps) (spline u0) 0.
