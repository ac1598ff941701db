(* flut/filter.hpp and flut/math/delayer.hpp for float and double, with the
   arithmetic of Model/Ieee.v.  make_lowpass_butterworth_2nd_order calls tan,
   whose rounding is not specified, and is left to Model/Filter.v. *)
From Coq Require Import ZArith List.
From Verif Require Import Model.Base Model.FloatText Model.Math Model.Ieee Model.FloatMath Model.FloatInterp.
Local Open Scope Z_scope.

(* iir_filter, iir_filter() (flut/filter.hpp:8-35): all zero *)
Record f_filter := mkFf { ff_b0 : fnum; ff_x : list fnum; ff_b : list fnum; ff_y : list fnum; ff_a : list fnum }.
Definition ff_new (N : nat) : f_filter := mkFf f_zero (repeat f_zero N) (repeat f_zero N) (repeat f_zero N) (repeat f_zero N).
(* y += b_[ i ] * x_[ i ] + a_[ i ] * y_[ i ] (flut/filter.hpp:14-15) *)
Definition ff_accumulate (f : fmt) (N : nat) (s : f_filter) (y : fnum) : res fnum :=
  for_up N (fun i y =>
    let* b := vget (ff_b s) i in
    let* x := vget (ff_x s) i in
    let* a := vget (ff_a s) i in
    let* v := vget (ff_y s) i in
    Ok (f_add f y (f_add f (f_mul f b x) (f_mul f a v)))) y.
(* x_[ i ] = x_[ i - 1 ]; y_[ i ] = y_[ i - 1 ] (flut/filter.hpp:18-21) *)
Definition ff_shift (N : nat) (xs ys : list fnum) : res (list fnum * list fnum) :=
  for_down (N - 1)%nat (fun j s =>
    let* u := vget (fst s) j in
    let* xs := vset (fst s) (S j) u in
    let* v := vget (snd s) j in
    let* ys := vset (snd s) (S j) v in
    Ok (xs, ys)) (xs, ys).
(* const T& operator()( const T& x ) (flut/filter.hpp:12-26), x outside the filter *)
Definition ff_feed (f : fmt) (N : nat) (s : f_filter) (x : fnum) : res (f_filter * fnum) :=
  let* y := ff_accumulate f N s (f_mul f (ff_b0 s) x) in
  let* r := ff_shift N (ff_x s) (ff_y s) in
  let* xs := vset (fst r) 0 x in
  let* ys := vset (snd r) 0 y in
  Ok (mkFf (ff_b0 s) xs (ff_b s) ys (ff_a s), y).
Fixpoint ff_feed_all (f : fmt) (N : nat) (s : f_filter) (l : list fnum) : res (f_filter * list fnum) :=
  match l with
  | nil => Ok (s, nil)
  | x :: l' =>
    let* (s1, y) := ff_feed f N s x in
    let* (s2, ys) := ff_feed_all f N s1 l' in
    Ok (s2, y :: ys)
  end.
(* const T& operator()() const, T velocity() const (flut/filter.hpp:27-28) *)
Definition ff_last (s : f_filter) : res fnum := vget (ff_y s) 0.
Definition ff_velocity (f : fmt) (s : f_filter) : res fnum :=
  let* u := vget (ff_y s) 0 in
  let* v := vget (ff_y s) 1 in
  Ok (f_sub f u v).

(* delayer< T, N > with T = float (flut/math/delayer.hpp:7-35).  N - 1 is
   converted to float *)
Definition f_half (f : fmt) : fnum := FFin false (2 ^ (fm_low f - 1)).
Record f_delayer := mkFd { fd_window : fnum; fd_time : fnum; fd_idx : nat; fd_data : list fnum }.
Definition fd_new (f : fmt) (N : nat) (delay init : fnum) : f_delayer :=
  mkFd (f_div f delay (f_of_int f (Z.of_nat N - 1))) f_zero 0%nat (init :: repeat f_zero (N - 1)).
(* add_sample (flut/math/delayer.hpp:14-21) *)
Definition fd_add (f : fmt) (N : nat) (d : f_delayer) (value dt : fnum) : res f_delayer :=
  let t := f_add f (fd_time d) dt in
  if f_gt (f_add f t (f_mul f (f_half f) dt)) (fd_window d) then
    let i := ((fd_idx d + 1) mod N)%nat in
    let* l := vset (fd_data d) i value in
    Ok (mkFd (fd_window d) (f_sub f t (fd_window d)) i l)
  else Ok (mkFd (fd_window d) t (fd_idx d) (fd_data d)).
(* delayed_value (flut/math/delayer.hpp:23-26) *)
Definition fd_value (f : fmt) (N : nat) (d : f_delayer) : res fnum :=
  let w := f_div f (fd_time d) (fd_window d) in
  let* a := vget (fd_data d) ((fd_idx d + N + 2) mod N) in
  let* b := vget (fd_data d) ((fd_idx d + N + 1) mod N) in
  Ok (f_add f (f_mul f w a) (f_mul f (f_sub f (f_one f) w) b)).
Fixpoint fd_adds (f : fmt) (N : nat) (d : f_delayer) (l : list (fnum * fnum)) : res f_delayer :=
  match l with
  | nil => Ok d
  | (v, dt) :: l' => let* d := fd_add f N d v dt in fd_adds f N d l'
  end.
