(* flut/buffer/data_algorithms.hpp and flut/math/linear_regression.hpp on float
   and double.  The code is the one of Model/StorageReal.v and
   Model/Regression.v; here the arithmetic rounds, and dividing by zero gives nan
   or infinity. *)
From Coq Require Import ZArith List Bool.
From Verif Require Import Model.Base Model.DataHeader Model.Table Model.Storage Model.FloatText Model.Ieee Model.FloatInterp Model.FloatContainers.
Import ListNotations.

Section S.
Context {L : Type} (l0 : L) (f : fmt).
(* compute_channel_means (flut/buffer/data_algorithms.hpp:8-20) *)
Definition f_channel_means (s : storage fnum L) : res (list fnum) :=
  let* sums :=
    for_up (frame_size s) (fun row means =>
      for_up (channel_size s) (fun col means =>
        let* m := vget means col in
        let* x := at_unchecked s row col in
        vset means col (f_add f m x)) means) (repeat f_zero (channel_size s)) in
  Ok (map (fun m => f_div f m (f_of_int f (Z.of_nat (frame_size s)))) sums).
(* compute_covariance (flut/buffer/data_algorithms.hpp:23-42) *)
Definition f_covariance (s : storage fnum L) : res (table fnum L) :=
  let nchannels := channel_size s in
  let nframes := frame_size s in
  let* means := f_channel_means s in
  for_up nchannels (fun row cv =>
    for_up nchannels (fun col cv =>
      let* v := for_up (frame_size s) (fun i v =>
        let* a := at_unchecked s i row in
        let* ma := vget means row in
        let* b := at_unchecked s i col in
        let* mb := vget means col in
        Ok (f_add f v (f_mul f (f_sub f a ma) (f_sub f b mb)))) f_zero in
      Table.at_set cv row col (f_div f v (f_of_int f (Z.of_nat nframes)))) cv) (Table.create l0 f_zero nchannels nchannels).
End S.

(* linear_regression of two ranges (flut/math/linear_regression.hpp:10-29,
   48-50), both of T; the line is its offset and its slope *)
Definition f_regression (f : fmt) (xs ys : list fnum) : res (fnum * fnum) :=
  let* _ := assert_ (length xs =? length ys)%nat in
  let avgx := f_average_of f xs in
  let avgy := f_average_of f ys in
  let '(num, den) := fold_left (fun '(num, den) '(x, y) =>
      (f_add f num (f_mul f (f_sub f x avgx) (f_sub f y avgy)), f_add f den (f_mul f (f_sub f x avgx) (f_sub f x avgx))))
    (combine xs ys) (f_zero, f_zero) in
  let slope := f_div f num den in
  Ok (f_sub f avgy (f_mul f slope avgx), slope).

(* linear_regression with fixed steps (flut/math/linear_regression.hpp:31-46);
   n - 1 is of type size_t *)
Definition f_regression_step (f : fmt) (x_begin x_step : fnum) (ys : list fnum) : fnum * fnum :=
  let n1 := f_of_int f ((Z.of_nat (length ys) - 1) mod 2 ^ 64) in
  let two := f_of_int f 2 in
  let avgx := f_add f x_begin (f_div f (f_mul f n1 x_step) two) in
  let avgy := f_average_of f ys in
  let '(num, _) := fold_left (fun '(num, xval) y =>
      (f_add f num (f_mul f (f_sub f xval avgx) (f_sub f y avgy)), f_add f xval x_step)) ys (f_zero, x_begin) in
  let x_hsiz := f_div f (f_mul f n1 x_step) two in
  let den := f_div f (f_mul f (f_mul f x_hsiz (f_add f x_hsiz x_step)) (f_add f (f_mul f two x_hsiz) x_step)) (f_mul f (f_of_int f 3) x_step) in
  let slope := f_div f num den in
  (f_sub f avgy (f_mul f slope avgx), slope).
