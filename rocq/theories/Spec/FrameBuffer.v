(* Ideal frame history: every frame ever added has a value in every channel.
   Only the last `ring` frames may be accessed. A new frame starts with the
   values of the frame whose place it takes (the fill value while the ring is
   not full). *)
From Coq Require Import ZArith.
From Verif Require Import Model.Base Model.FrameBuffer Spec.Storage.

Section Spec.
Context {T L : Type} (eqb : L -> L -> bool) (l0 : L) (t0 : T).

Record history := mkHist { nframes : nat; ring : nat; chans : list (option L); fill : T; val : nat -> nat -> T }.

Definition fits (n : nat) : bool := (Z.of_nat n <? 2 ^ 64)%Z.
Definition live (h : history) (f : nat) : bool := (f <? nframes h) && (nframes h <=? f + ring h).
Definition has_chan (h : history) (c : nat) : bool := c <? length (chans h).

Definition push_frame (h : history) : history :=
  mkHist (S (nframes h)) (ring h) (chans h) (fill h)
    (fun f c => if f =? nframes h
                then (if nframes h <? ring h then fill h else val h (nframes h - ring h) c)
                else val h f c).
Definition put (h : history) (f c : nat) (v : T) : history :=
  mkHist (nframes h) (ring h) (chans h) (fill h)
    (fun i j => if (i =? f) && (j =? c) then v else val h i j).
(* everything erased: n slots, all frames hold v *)
Definition reset (h : history) (n : nat) (cs : list (option L)) (v : T) : history :=
  mkHist (nframes h) n cs v (fun _ _ => v).

Definition rd_i (h : history) (ok : bool) (f c : nat) : option (history * out T) :=
  if ok then Some (h, OVal (val h f c)) else None.
Definition wr_i (h : history) (ok : bool) (f c : nat) (v : T) : option (history * out T) :=
  if ok then Some (put h f c v, ONone) else None.

Definition ideal_step (h : history) (o : op T L) : option (history * out T) :=
  let ok f c := live h f && has_chan h c in
  (* bounds-checked access also demands that the ring has been filled once *)
  let at_ok f c := (ring h <=? nframes h) && ok f c in
  match o with
  | AddFrame => if fits (S (nframes h)) then Some (push_frame h, ONat (S (nframes h))) else None
  | Get f c => rd_i h (ok f c) f c
  | Set_ f c v => wr_i h (ok f c) f c v
  | Last c => rd_i h ((0 <? nframes h) && ok (nframes h - 1) c) (nframes h - 1) c
  | LastSet c v => wr_i h ((0 <? nframes h) && ok (nframes h - 1) c) (nframes h - 1) c v
  | Reverse k c => rd_i h ((k <? nframes h) && ok (nframes h - 1 - k) c) (nframes h - 1 - k) c
  | ReverseSet k c v => wr_i h ((k <? nframes h) && ok (nframes h - 1 - k) c) (nframes h - 1 - k) c v
  | At f c => if at_ok f c then Some (h, OVal (val h f c)) else Some (h, OThrow)
  | AtSet f c v => if at_ok f c then Some (put h f c v, ONone) else Some (h, OThrow)
  | ResizeFrames n v => if fits n then Some (reset h n (chans h) v, ONone) else None
  | AddChannel l =>
    match pos eqb (chans h) l with
    | Some _ => Some (reset h (nframes h) (chans h ++ [None]) t0, OThrow)
    | None => Some (reset h (nframes h) (chans h ++ [Some l]) t0, ONat (length (chans h)))
    end
  | FindOrAdd l =>
    match pos eqb (chans h) l with
    | Some i => Some (h, ONat i)
    | None => Some (reset h (nframes h) (chans h ++ [Some l]) t0, ONat (length (chans h)))
    end
  | FindChannel l => Some (h, OIndex (pos eqb (chans h) l))
  | FrameSize => Some (h, ONat (nframes h))
  | ChannelSize => Some (h, ONat (length (chans h)))
  end.
End Spec.
Arguments history T L : clear implicits.
