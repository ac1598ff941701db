(* Ideal storage: a list of rows (frames) and a list of channel names. *)
From Verif Require Import Model.Base Model.Storage.

Section Spec.
Context {T L : Type} (eqb : L -> L -> bool) (l0 : L) (t0 : T).

Record matrix := mkM { rows : list (list T); names : list (option L) }.  (* None: unnamed *)
Definition nch (m : matrix) : nat := length (names m).
Definition nfr (m : matrix) : nat := length (rows m).

Fixpoint pos (ns : list (option L)) (l : L) : option nat :=
  match ns with
  | [] => None
  | n :: ns' =>
    match n with
    | Some l' => if eqb l' l then Some 0 else option_map S (pos ns' l)
    | None => option_map S (pos ns' l)
    end
  end.

Definition cell (m : matrix) (f c : nat) : option T :=
  match nth_error (rows m) f with Some r => nth_error r c | None => None end.
Definition put (m : matrix) (f c : nat) (v : T) : matrix :=
  match nth_error (rows m) f with
  | Some r => mkM (firstn f (rows m) ++ (firstn c r ++ v :: skipn (S c) r) :: skipn (S f) (rows m)) (names m)
  | None => m
  end.

(* one more column, existing rows get v *)
Definition add_col (m : matrix) (n : option L) (v : T) : matrix :=
  mkM (map (fun r => r ++ [v]) (rows m)) (names m ++ [n]).

(* one more column holding ds, padded with t0 in both directions *)
Fixpoint zip_col (w : nat) (rs : list (list T)) (ds : list T) : list (list T) :=
  match rs with
  | r :: rs' =>
    match ds with
    | d :: ds' => (r ++ [d]) :: zip_col w rs' ds'
    | [] => (r ++ [t0]) :: zip_col w rs' []
    end
  | [] => map (fun d => repeat t0 w ++ [d]) ds
  end.

(* grow to f rows and c columns with fill value v *)
Definition grow (m : matrix) (f c : nat) (v : T) : matrix :=
  mkM (map (fun r => r ++ repeat v (c - nch m)) (rows m) ++ repeat (repeat v c) (f - nfr m))
      (names m ++ repeat None (c - nch m)).

Definition set_name (m : matrix) (i : nat) (l : L) : matrix :=
  mkM (rows m) (firstn i (names m) ++ Some l :: skipn (S i) (names m)).

Definition add_channel_i (m : matrix) (l : L) (v : T) : matrix * out T L :=
  match pos (names m) l with
  | Some _ => (add_col m None v, OThrow)        (* grows, then throws *)
  | None => (add_col m (Some l) v, ONat (nch m))
  end.
Definition find_or_add_i (m : matrix) (l : L) (v : T) : matrix * nat :=
  match pos (names m) l with
  | Some i => (m, i)
  | None => (add_col m (Some l) v, nch m)
  end.

Definition in_range (m : matrix) (f c : nat) : bool := (f <? nfr m) && (c <? nch m).
Definition no_cells (m : matrix) : bool := (nfr m =? 0) || (nch m =? 0).

Definition val_out (o : option T) : option (out T L) := option_map OVal o.

Definition ideal_step (m : matrix) (o : op T L) : option (matrix * out T L) :=
  let read f c := match cell m f c with Some x => Some (m, OVal x) | None => None end in
  match o with
  | AddChannel l v => Some (add_channel_i m l v)
  | AddChannelData l d =>
    match pos (names m) l with
    | Some _ => Some (grow m (Nat.max (nfr m) (length d)) (S (nch m)) t0, OThrow)
    | None => Some (mkM (zip_col (nch m) (rows m) d) (names m ++ [Some l]), ONat (nch m))
    end
  | FindChannel l => Some (m, OIndex (pos (names m) l))
  | FindOrAdd l v => let (m', i) := find_or_add_i m l v in Some (m', ONat i)
  | SetLabel i l =>
    if negb (i <? nch m) then Some (m, OThrow)
    else match pos (names m) l with
         | Some _ => Some (m, OThrow)
         | None =>
           (* contract: only the last channel, and only while unnamed *)
           match nth_error (names m) i with
           | Some None => if S i =? nch m then Some (set_name m i l, ONone) else None
           | _ => None
           end
         end
  | GetLabel i =>
    match nth_error (names m) i with
    | Some (Some l) => Some (m, OLabel l)
    | Some None => Some (m, OLabel l0)
    | None => None
    end
  | AddFrame v => Some (mkM (rows m ++ [repeat v (nch m)]) (names m), ONone)
  | AddFrameData d =>
    if length d =? nch m then Some (mkM (rows m ++ [d]) (names m), ONone) else Some (m, OThrow)
  | At f c => if in_range m f c then read f c else Some (m, OThrow)
  | AtSet f c v => if in_range m f c then Some (put m f c v, ONone) else Some (m, OThrow)
  | Cell f c => if in_range m f c then read f c else None
  | CellSet f c v => if in_range m f c then Some (put m f c v, ONone) else None
  | Last c =>
    if no_cells m then Some (m, OThrow)
    else if c <? nch m then read (nfr m - 1) c else None
  | LastSet c v =>
    if no_cells m then Some (m, OThrow)
    else if c <? nch m then Some (put m (nfr m - 1) c v, ONone) else None
  | LabelGet l =>
    let (m', i) := find_or_add_i m l t0 in
    if nfr m =? 0 then Some (m', OThrow)        (* after adding the channel *)
    else match cell m' (nfr m - 1) i with Some x => Some (m', OVal x) | None => None end
  | LabelSet l v =>
    let (m', i) := find_or_add_i m l t0 in
    if nfr m =? 0 then Some (m', OThrow) else Some (put m' (nfr m - 1) i v, ONone)
  | Resize f c v =>
    if (f <? nfr m) || (c <? nch m) then Some (m, OThrow) else Some (grow m f c v, ONone)
  | Clear => Some (mkM [] [], ONone)
  | FrameSize => Some (m, ONat (nfr m))
  | ChannelSize => Some (m, ONat (nch m))
  | Empty => Some (m, OBool (no_cells m))
  end.
End Spec.
Arguments matrix T L : clear implicits.
