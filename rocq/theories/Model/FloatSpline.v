(* catmull_rom_segment (flut/math/catmull_rom.hpp:5-19) for float and double, and
   for vectors of them, with the arithmetic of Model/Ieee.v; t has the type of
   the components. *)
From Verif Require Import Model.Base Model.FloatText Model.Ieee Model.FloatMath Model.FloatInterp Model.FloatFilter Model.FloatVec.
Local Open Scope Z_scope.

(* the constructor (flut/math/catmull_rom.hpp:8-13); the whole factors are
   converted to the type of the components *)
Record f_segment := mkFSeg { fs_a : fnum; fs_b : fnum; fs_c : fnum; fs_d : fnum }.
Definition fseg_make (f : fmt) (p0 p1 p2 p3 : fnum) : f_segment :=
  let k n p := f_mul f (f_of_int f n) p in
  mkFSeg (k 2 p1)
         (f_add f (f_neg p0) p2)
         (f_sub f (f_add f (f_sub f (k 2 p0) (k 5 p1)) (k 4 p2)) p3)
         (f_add f (f_sub f (f_add f (f_neg p0) (k 3 p1)) (k 3 p2)) p3).
(* operator() (flut/math/catmull_rom.hpp:15) *)
Definition fseg_eval (f : fmt) (s : f_segment) (t : fnum) : fnum :=
  f_mul f (f_half f)
    (f_add f (f_add f (f_add f (fs_a s) (f_mul f (fs_b s) t)) (f_mul f (f_mul f (fs_c s) t) t)) (f_mul f (f_mul f (f_mul f (fs_d s) t) t) t)).
Definition f_catmull (f : fmt) (p0 p1 p2 p3 t : fnum) : fnum := fseg_eval f (fseg_make f p0 p1 p2 p3) t.

(* the same for vec3_ (flut/math/vec3.hpp:12-34) *)
Record fv_segment := mkFvSeg { fvs_a : f_vec; fvs_b : f_vec; fvs_c : f_vec; fvs_d : f_vec }.
Definition fvseg_make (f : fmt) (p0 p1 p2 p3 : f_vec) : fv_segment :=
  let k n p := fv_scale f p (f_of_int f n) in
  mkFvSeg (k 2 p1)
          (fv_add f (fv_neg p0) p2)
          (fv_sub f (fv_add f (fv_sub f (k 2 p0) (k 5 p1)) (k 4 p2)) p3)
          (fv_add f (fv_sub f (fv_add f (fv_neg p0) (k 3 p1)) (k 3 p2)) p3).
Definition fvseg_eval (f : fmt) (s : fv_segment) (t : fnum) : f_vec :=
  fv_scale f
    (fv_add f (fv_add f (fv_add f (fvs_a s) (fv_scale f (fvs_b s) t)) (fv_scale f (fv_scale f (fvs_c s) t) t)) (fv_scale f (fv_scale f (fv_scale f (fvs_d s) t) t) t))
    (f_half f).
