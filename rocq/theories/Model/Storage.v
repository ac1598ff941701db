(* storage<T,L> (flut/storage.hpp:13-129) *)
From Verif Require Import Model.Base Model.DataHeader.

Section Storage.
Context {T L : Type} (eqb : L -> L -> bool) (l0 : L) (t0 : T).  (* t0 is T(), T( 0 ) *)

(* frame_size_, labels_, data_ (lines 126-128) *)
Record storage := mkS { frame_size_ : nat; labels_ : header L; data_ : list T }.

(* storage( frames, channels, value ) (line 16) *)
Definition create (frames channels : nat) (value : T) : storage :=
  mkS frames (DataHeader.create l0 channels) (repeat value (channels * frames)).

Definition channel_size (s : storage) : nat := size (labels_ s).
Definition frame_size (s : storage) : nat := frame_size_ s.
Definition empty (s : storage) : bool := match data_ s with [] => true | _ => false end.

(* resize (lines 99-120) *)
Definition resize (s : storage) (nframes nchannels : nat) (value : T) : res storage :=
  if (nframes <? frame_size s) || (nchannels <? channel_size s) then Throw
  else if channel_size s <? nchannels then
    let* d :=
      if 1 <? frame_size s then
        for_up (frame_size s) (fun fi nd =>
          for_up (channel_size s) (fun ci nd =>
            let* x := vget (data_ s) (channel_size s * fi + ci) in
            vset nd (nchannels * fi + ci) x) nd)
          (repeat value (nchannels * nframes))
      else Ok (vresize (data_ s) (nframes * nchannels) value) in
    let* h := DataHeader.resize l0 (labels_ s) nchannels in
    Ok (mkS nframes h d)
  else Ok (mkS nframes (labels_ s) (vresize (data_ s) (nframes * nchannels) value)).

(* set_label (line 41), via data_header::set *)
Definition set_label (s : storage) (i : nat) (l : L) : res (storage * nat) :=
  let* r := DataHeader.set eqb (labels_ s) i l in
  Ok (mkS (frame_size_ s) (fst r) (data_ s), snd r).

(* add_channel( label, value ) (line 20): the state after an exception is the
   resized storage *)
Definition add_channel (s : storage) (l : L) (value : T) : storage * res nat :=
  match resize s (frame_size s) (channel_size s + 1) value with
  | Ok s1 =>
    match set_label s1 (channel_size s1 - 1) l with
    | Ok (s2, i) => (s2, Ok i)
    | Throw => (s1, Throw)
    | UB => (s1, UB)
    | OutOfFuel => (s1, OutOfFuel)
    end
  | Throw => (s, Throw)
  | UB => (s, UB)
  | OutOfFuel => (s, OutOfFuel)
  end.

(* operator()( frame, channel ) (lines 76-77): no bounds check *)
Definition at_unchecked (s : storage) (f c : nat) : res T :=
  vget (data_ s) (f * channel_size s + c).
Definition set_unchecked (s : storage) (f c : nat) (x : T) : res storage :=
  let* d := vset (data_ s) (f * channel_size s + c) x in
  Ok (mkS (frame_size_ s) (labels_ s) d).

(* add_channel( label, data ) (lines 23-29) *)
Definition add_channel_data (s : storage) (l : L) (data : list T) : storage * res nat :=
  match resize s (Nat.max (frame_size s) (length data)) (channel_size s + 1) t0 with
  | Ok s1 =>
    match set_label s1 (channel_size s1 - 1) l with
    | Ok (s2, _) =>
      let cidx := channel_size s2 - 1 in
      match for_up (length data) (fun fidx st =>
              let* x := vget data fidx in set_unchecked st fidx cidx x) s2 with
      | Ok s3 => (s3, Ok cidx)
      | Throw => (s2, Throw)
      | UB => (s2, UB)
      | OutOfFuel => (s2, OutOfFuel)
      end
    | Throw => (s1, Throw)
    | UB => (s1, UB)
    | OutOfFuel => (s1, OutOfFuel)
    end
  | Throw => (s, Throw)
  | UB => (s, UB)
  | OutOfFuel => (s, OutOfFuel)
  end.

(* find_channel (line 32), find_or_add_channel (lines 35-38) *)
Definition find_channel (s : storage) (l : L) : option nat := DataHeader.find eqb (labels_ s) l.
Definition find_or_add_channel (s : storage) (l : L) (value : T) : storage * res nat :=
  match find_channel s l with
  | None => add_channel s l value
  | Some i => (s, Ok i)
  end.

(* get_label (line 44) *)
Definition get_label (s : storage) (i : nat) : res L := DataHeader.get (labels_ s) i.

(* add_frame( value ) (line 47) *)
Definition add_frame (s : storage) (value : T) : storage :=
  mkS (S (frame_size_ s)) (labels_ s)
      (vresize (data_ s) (length (data_ s) + channel_size s) value).

(* add_frame( data ) (lines 50-55): std::copy to data_.end() - channel_size() *)
Definition add_frame_data (s : storage) (data : list T) : res storage :=
  let* _ := assert_ (length data =? channel_size s) in
  let d := vresize (data_ s) (length (data_ s) + channel_size s) t0 in
  Ok (mkS (S (frame_size_ s)) (labels_ s) (firstn (length d - channel_size s) d ++ data)).

(* clear (line 67) *)
Definition clear (s : storage) : storage := mkS 0 (DataHeader.clear (labels_ s)) [].

(* at (lines 70-73) *)
Definition at_ (s : storage) (f c : nat) : res T :=
  let* _ := assert_ ((f <? frame_size s) && (c <? channel_size s)) in at_unchecked s f c.
Definition at_set (s : storage) (f c : nat) (x : T) : res storage :=
  let* _ := assert_ ((f <? frame_size s) && (c <? channel_size s)) in set_unchecked s f c x.

(* operator[]( channel ) (line 80) *)
Definition last_get (s : storage) (c : nat) : res T :=
  let* _ := assert_ (negb (empty s)) in at_unchecked s (frame_size s - 1) c.
Definition last_set (s : storage) (c : nat) (x : T) : res storage :=
  let* _ := assert_ (negb (empty s)) in set_unchecked s (frame_size s - 1) c x.

(* operator[]( label ) (line 84) *)
Definition label_get (s : storage) (l : L) : storage * res T :=
  match find_or_add_channel s l t0 with
  | (s1, Ok i) => (s1, last_get s1 i)
  | (s1, Throw) => (s1, Throw)
  | (s1, UB) => (s1, UB)
  | (s1, OutOfFuel) => (s1, OutOfFuel)
  end.
Definition label_set (s : storage) (l : L) (x : T) : storage * res unit :=
  match find_or_add_channel s l t0 with
  | (s1, Ok i) =>
    match last_set s1 i x with
    | Ok s2 => (s2, Ok tt)
    | Throw => (s1, Throw)
    | UB => (s1, UB)
    | OutOfFuel => (s1, OutOfFuel)
    end
  | (s1, Throw) => (s1, Throw)
  | (s1, UB) => (s1, UB)
  | (s1, OutOfFuel) => (s1, OutOfFuel)
  end.

Inductive op :=
| AddChannel (l : L) (v : T) | AddChannelData (l : L) (d : list T)
| FindChannel (l : L) | FindOrAdd (l : L) (v : T)
| SetLabel (i : nat) (l : L) | GetLabel (i : nat)
| AddFrame (v : T) | AddFrameData (d : list T)
| At (f c : nat) | AtSet (f c : nat) (v : T)
| Cell (f c : nat) | CellSet (f c : nat) (v : T)          (* operator()( f, c ) *)
| Last (c : nat) | LastSet (c : nat) (v : T)              (* operator[]( c ) *)
| LabelGet (l : L) | LabelSet (l : L) (v : T)             (* operator[]( label ) *)
| Resize (f c : nat) (v : T) | Clear
| FrameSize | ChannelSize | Empty.

Inductive out :=
| ONone | OThrow | OVal (x : T) | ONat (n : nat) | OIndex (i : option nat) | OLabel (l : L) | OBool (b : bool).

Definition fin {X : Type} (o : X -> out) (r : storage * res X) : option (storage * out) :=
  match r with
  | (s, Ok x) => Some (s, o x)
  | (s, Throw) => Some (s, OThrow)
  | (_, UB) | (_, OutOfFuel) => None
  end.
Definition upd_ (s : storage) (r : res storage) : option (storage * out) :=
  match r with
  | Ok s' => Some (s', ONone)
  | Throw => Some (s, OThrow)
  | UB | OutOfFuel => None
  end.

Definition step (s : storage) (o : op) : option (storage * out) :=
  match o with
  | AddChannel l v => fin ONat (add_channel s l v)
  | AddChannelData l d => fin ONat (add_channel_data s l d)
  | FindChannel l => Some (s, OIndex (find_channel s l))
  | FindOrAdd l v => fin ONat (find_or_add_channel s l v)
  | SetLabel i l => match set_label s i l with Ok (s', _) => Some (s', ONone) | Throw => Some (s, OThrow) | _ => None end
  | GetLabel i => fin OLabel (s, get_label s i)
  | AddFrame v => Some (add_frame s v, ONone)
  | AddFrameData d => upd_ s (add_frame_data s d)
  | At f c => fin OVal (s, at_ s f c)
  | AtSet f c v => upd_ s (at_set s f c v)
  | Cell f c => fin OVal (s, at_unchecked s f c)
  | CellSet f c v => upd_ s (set_unchecked s f c v)
  | Last c => fin OVal (s, last_get s c)
  | LastSet c v => upd_ s (last_set s c v)
  | LabelGet l => fin OVal (label_get s l)
  | LabelSet l v => fin (fun _ => ONone) (label_set s l v)
  | Resize f c v => upd_ s (resize s f c v)
  | Clear => Some (clear s, ONone)
  | FrameSize => Some (s, ONat (frame_size s))
  | ChannelSize => Some (s, ONat (channel_size s))
  | Empty => Some (s, OBool (empty s))
  end.
End Storage.
Arguments storage T L : clear implicits.
Arguments op T L : clear implicits.
Arguments out T L : clear implicits.
