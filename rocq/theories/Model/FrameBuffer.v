(* circular_frame_buffer<T,L> (flut/buffer/circular_frame_buffer.hpp:8-82).
   get_interpolated_value (lines 33-38) does not compile and is left out; the
   const operator() (line 42) has no return statement and is left out. *)
From Coq Require Import ZArith.
From Verif Require Import Model.Base Model.DataHeader.

Section Buffer.
Context {T L : Type} (eqb : L -> L -> bool) (l0 : L) (t0 : T).  (* t0 is T() *)

(* lines 77-80 *)
Record buffer := mkB { labels_ : header L; data_ : list T; frame_buf_size_ : nat; frame_size_ : nat }.

(* constructor (line 12) *)
Definition create (channels frames : nat) : buffer :=
  mkB (DataHeader.create l0 channels) (repeat t0 (frames * channels)) frames 0.

Definition channel_size (b : buffer) : nat := size (labels_ b).
Definition frame_size (b : buffer) : nat := frame_size_ b.

(* add_frame (line 22): returns the new frame count; the increment of the
   64-bit counter is taken not to overflow *)
Definition add_frame (b : buffer) : buffer * nat :=
  (mkB (labels_ b) (data_ b) (frame_buf_size_ b) (S (frame_size_ b)), S (frame_size_ b)).

(* size_t subtraction *)
Definition wrap64 (z : Z) : Z := (z mod 2 ^ 64)%Z.
Definition sub64 (a b : nat) : Z := wrap64 (Z.of_nat a - Z.of_nat b).

(* data( frame % frame_buf_size_, channel ) (lines 74-75); frame is a 64-bit value *)
Definition index (b : buffer) (frame : Z) (c : nat) : res nat :=
  if frame_buf_size_ b =? 0 then UB
  else Ok (Z.to_nat (frame mod Z.of_nat (frame_buf_size_ b)) * channel_size b + c).
Definition slot (b : buffer) (frame : Z) (c : nat) : res T :=
  let* i := index b frame c in vget (data_ b) i.
Definition slot_set (b : buffer) (frame : Z) (c : nat) (v : T) : res buffer :=
  let* i := index b frame c in
  let* d := vset (data_ b) i v in
  Ok (mkB (labels_ b) d (frame_buf_size_ b) (frame_size_ b)).

(* operator()( frame, channel ) (line 41) *)
Definition get (b : buffer) (f c : nat) : res T := slot b (Z.of_nat f) c.
Definition set (b : buffer) (f c : nat) (v : T) : res buffer := slot_set b (Z.of_nat f) c v.

(* reverse( frame, channel ) (lines 49-50): ( frame_size_ - frame - 1 ) in size_t;
   operator[] (lines 45-46) is ( frame_size_ - 1 ) *)
Definition back_index (b : buffer) (k : nat) : Z :=
  wrap64 (Z.of_nat (frame_size_ b) - Z.of_nat k - 1).
Definition reverse (b : buffer) (k c : nat) : res T := slot b (back_index b k) c.
Definition reverse_set (b : buffer) (k c : nat) (v : T) : res buffer := slot_set b (back_index b k) c v.
Definition last (b : buffer) (c : nat) : res T := slot b (wrap64 (Z.of_nat (frame_size_ b) - 1)) c.
Definition last_set (b : buffer) (c : nat) (v : T) : res buffer :=
  slot_set b (wrap64 (Z.of_nat (frame_size_ b) - 1)) c v.

(* at (lines 53-60) *)
Definition at_check (b : buffer) (f c : nat) : bool :=
  (sub64 (frame_size b) (frame_buf_size_ b) <=? Z.of_nat f)%Z && (f <? frame_size b) && (c <? channel_size b).
Definition at_ (b : buffer) (f c : nat) : res T :=
  let* _ := assert_ (at_check b f c) in slot b (Z.of_nat f) c.
Definition at_set (b : buffer) (f c : nat) (v : T) : res buffer :=
  let* _ := assert_ (at_check b f c) in slot_set b (Z.of_nat f) c v.

(* resize_buffer( nframes, nchannels, value ) (lines 63-67); state after an
   exception from labels_.resize is the assigned buffer *)
Definition resize_buffer (b : buffer) (nframes nchannels : nat) (v : T) : buffer * res unit :=
  let b1 := mkB (labels_ b) (repeat v (nframes * nchannels)) nframes (frame_size_ b) in
  match DataHeader.resize l0 (labels_ b1) nchannels with
  | Ok h => (mkB h (data_ b1) nframes (frame_size_ b), Ok tt)
  | Throw => (b1, Throw)
  | UB => (b1, UB)
  | OutOfFuel => (b1, OutOfFuel)
  end.

(* resize_buffer( nframes, value ) (lines 69-72) *)
Definition resize_frames (b : buffer) (nframes : nat) (v : T) : buffer :=
  mkB (labels_ b) (repeat v (nframes * channel_size b)) nframes (frame_size_ b).

(* add_channel (line 16) *)
Definition add_channel (b : buffer) (l : L) : buffer * res nat :=
  match resize_buffer b (frame_size b) (channel_size b + 1) t0 with
  | (b1, Ok _) =>
    match DataHeader.set eqb (labels_ b1) (channel_size b1 - 1) l with
    | Ok (h, i) => (mkB h (data_ b1) (frame_buf_size_ b1) (frame_size_ b1), Ok i)
    | Throw => (b1, Throw)
    | UB => (b1, UB)
    | OutOfFuel => (b1, OutOfFuel)
    end
  | (b1, Throw) => (b1, Throw)
  | (b1, UB) => (b1, UB)
  | (b1, OutOfFuel) => (b1, OutOfFuel)
  end.

(* find_channel, find_or_add_channel (lines 19-20) *)
Definition find_channel (b : buffer) (l : L) : option nat := DataHeader.find eqb (labels_ b) l.
Definition find_or_add_channel (b : buffer) (l : L) : buffer * res nat :=
  match find_channel b l with
  | None => add_channel b l
  | Some i => (b, Ok i)
  end.

Inductive op :=
| AddFrame | Get (f c : nat) | Set_ (f c : nat) (v : T) | Last (c : nat) | LastSet (c : nat) (v : T)
| Reverse (k c : nat) | ReverseSet (k c : nat) (v : T) | At (f c : nat) | AtSet (f c : nat) (v : T)
| ResizeFrames (n : nat) (v : T) | AddChannel (l : L) | FindOrAdd (l : L) | FindChannel (l : L)
| FrameSize | ChannelSize.

Inductive out := ONone | OThrow | OVal (x : T) | ONat (n : nat) | OIndex (i : option nat).

Definition rd (b : buffer) (r : res T) : option (buffer * out) :=
  match r with Ok x => Some (b, OVal x) | Throw => Some (b, OThrow) | _ => None end.
Definition wr (b : buffer) (r : res buffer) : option (buffer * out) :=
  match r with Ok b' => Some (b', ONone) | Throw => Some (b, OThrow) | _ => None end.
Definition ix (r : buffer * res nat) : option (buffer * out) :=
  match r with (b, Ok i) => Some (b, ONat i) | (b, Throw) => Some (b, OThrow) | _ => None end.

Definition step (b : buffer) (o : op) : option (buffer * out) :=
  match o with
  | AddFrame => let (b', n) := add_frame b in Some (b', ONat n)
  | Get f c => rd b (get b f c)
  | Set_ f c v => wr b (set b f c v)
  | Last c => rd b (last b c)
  | LastSet c v => wr b (last_set b c v)
  | Reverse k c => rd b (reverse b k c)
  | ReverseSet k c v => wr b (reverse_set b k c v)
  | At f c => rd b (at_ b f c)
  | AtSet f c v => wr b (at_set b f c v)
  | ResizeFrames n v => Some (resize_frames b n v, ONone)
  | AddChannel l => ix (add_channel b l)
  | FindOrAdd l => ix (find_or_add_channel b l)
  | FindChannel l => Some (b, OIndex (find_channel b l))
  | FrameSize => Some (b, ONat (frame_size b))
  | ChannelSize => Some (b, ONat (channel_size b))
  end.
End Buffer.
Arguments buffer T L : clear implicits.
Arguments op T L : clear implicits.
Arguments out T : clear implicits.
