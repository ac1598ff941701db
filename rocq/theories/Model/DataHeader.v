(* data_header<L> (flut/buffer/data_header.hpp:10-49) *)
From Verif Require Import Model.Base.

Section Header.
Context {L : Type} (eqb : L -> L -> bool) (l0 : L).  (* l0 is L() *)

(* labels_ and label_indices_; the unordered_map is a list whose first match
   is the current binding *)
Record header := mkH { labels_ : list L; label_indices_ : list (L * nat) }.

(* data_header( channels ) (line 13) *)
Definition create (channels : nat) : header := mkH (repeat l0 channels) [].
(* data_header( labels ) (lines 14-15): label_indices_ stays empty *)
Definition create_labels (ls : list L) : header := mkH ls [].

Definition size (h : header) : nat := length (labels_ h).

(* find (lines 29-32); None is no_index *)
Fixpoint lookup (m : list (L * nat)) (l : L) : option nat :=
  match m with
  | [] => None
  | (l', i) :: m' => if eqb l' l then Some i else lookup m' l
  end.
Definition find (h : header) (l : L) : option nat := lookup (label_indices_ h) l.

Definition absent (h : header) (l : L) : bool :=
  match find h l with None => true | Some _ => false end.

(* add (lines 18-22) *)
Definition add (h : header) (l : L) : res (header * nat) :=
  let* _ := assert_ (absent h l) in
  let ls := labels_ h ++ [l] in
  let i := length ls - 1 in
  Ok (mkH ls ((l, i) :: label_indices_ h), i).

(* resize (line 24) *)
Definition resize (h : header) (s : nat) : res header :=
  let* _ := assert_ (size h <=? s) in
  Ok (mkH (vresize (labels_ h) s l0) (label_indices_ h)).

(* clear (line 25) *)
Definition clear (h : header) : header := mkH [] [].

(* operator[] (line 34) *)
Definition get (h : header) (i : nat) : res L := vget (labels_ h) i.

(* set (lines 36-41): the index stored is labels_.size() - 1, not idx *)
Definition set (h : header) (i : nat) (l : L) : res (header * nat) :=
  let* _ := assert_ ((i <? size h) && absent h l) in
  let* ls := vset (labels_ h) i l in
  Ok (mkH ls ((l, length ls - 1) :: label_indices_ h), i).

(* client calls *)
Inductive hop := HAdd (l : L) | HResize (n : nat) | HSet (i : nat) (l : L)
| HFind (l : L) | HGet (i : nat) | HSize | HClear.
Inductive hout := HThrow | HNone | HNat (n : nat) | HIdx (i : option nat) | HLabel (l : L).

Definition hstep (h : header) (o : hop) : option (header * hout) :=
  let idx r := match r with Ok (h', i) => Some (h', HNat i) | Throw => Some (h, HThrow) | _ => None end in
  match o with
  | HAdd l => idx (add h l)
  | HResize n => match resize h n with Ok h' => Some (h', HNone) | Throw => Some (h, HThrow) | _ => None end
  | HSet i l => idx (set h i l)
  | HFind l => Some (h, HIdx (find h l))
  | HGet i => match get h i with Ok l => Some (h, HLabel l) | Throw => Some (h, HThrow) | _ => None end
  | HSize => Some (h, HNat (size h))
  | HClear => Some (clear h, HNone)
  end.
End Header.
Arguments header L : clear implicits.
Arguments hop L : clear implicits.
Arguments hout L : clear implicits.
