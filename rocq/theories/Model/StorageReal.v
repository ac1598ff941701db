(* Numeric functions over storage<T,L> with T read as the real numbers. *)
From Coq Require Import Reals.
From Verif Require Import Model.Base Model.DataHeader Model.Table Model.Storage.

Section S.
Context {L : Type} (l0 : L).

(* storage::get_interpolated_value (flut/storage.hpp:90-97). floor is
   Int_part; converting a negative value to index_t is undefined; frame0 + 1
   is taken not to wrap. *)
Definition get_interpolated_value (s : storage R L) (frame_idx : R) (channel : nat) : res R :=
  let frame_f := Int_part frame_idx in
  let frame_w := (frame_idx - IZR frame_f)%R in
  if (frame_f <? 0)%Z then UB
  else
    let frame0 := Z.to_nat frame_f in
    let* _ := assert_ (frame0 + 1 <? frame_size s) in
    let ofs := frame0 * channel_size s + channel in
    let* a := vget (data_ s) ofs in
    let* b := vget (data_ s) (ofs + channel_size s) in
    Ok ((1 - frame_w) * a + frame_w * b)%R.

(* compute_channel_means (flut/buffer/data_algorithms.hpp:8-20). A division by
   zero frames (NaN in the code) is reported as UB. *)
Definition compute_channel_means (s : storage R L) : res (list R) :=
  let* sums :=
    for_up (frame_size s) (fun row means =>
      for_up (channel_size s) (fun col means =>
        let* m := vget means col in
        let* x := at_unchecked s row col in
        vset means col (m + x)%R) means) (repeat 0%R (channel_size s)) in
  if (frame_size s =? 0) && negb (channel_size s =? 0) then UB
  else Ok (map (fun m => (m / INR (frame_size s))%R) sums).

(* compute_covariance (flut/buffer/data_algorithms.hpp:23-42) *)
Definition compute_covariance (s : storage R L) : res (table R L) :=
  let nchannels := channel_size s in
  let nframes := frame_size s in
  let* means := compute_channel_means s in
  for_up nchannels (fun row cv =>
    for_up nchannels (fun col cv =>
      let* v := for_up (frame_size s) (fun i v =>
        let* a := at_unchecked s i row in
        let* ma := vget means row in
        let* b := at_unchecked s i col in
        let* mb := vget means col in
        Ok (v + (a - ma) * (b - mb))%R) 0%R in
      Table.at_set cv row col (v / INR nframes)%R) cv) (Table.create l0 0%R nchannels nchannels).
End S.
