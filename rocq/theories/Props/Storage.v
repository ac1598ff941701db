(* C07-C10: data_header and storage *)
From Verif Require Import Model.Base Model.DataHeader Model.Storage Spec.Storage Spec.DataHeader
  Proofs.StorageProofs.

(* C07: over any history of add / resize / find / get / size / clear, and set
   of the last channel while it has no name, the header shows the observations
   of the ideal list of names; find is the position of the label. *)
Theorem C07_header_refines : forall (L : Type) (eqb : L -> L -> bool) (l0 : L),
  (forall a b, eqb a b = true <-> a = b) ->
  forall n ops ns rs,
  exec (ideal_hstep eqb l0) (repeat None n) ops = Some (ns, rs) ->
  exists h, exec (hstep eqb l0) (DataHeader.create l0 n) ops = Some (h, rs) /\
    (forall l i, DataHeader.find eqb h l = Some i <-> nth_error ns i = Some (Some l)) /\
    (forall l i, DataHeader.find eqb h l = Some i -> DataHeader.get h i = Ok l).
Proof. exact (fun L eqb l0 => @header_refines nat L eqb l0 0). Qed.
Print Assumptions C07_header_refines.

Example C07_nonvacuous :
  exists ns, exec (ideal_hstep Nat.eqb 0) (repeat None 1)
    [HAdd 7; HAdd 8; HAdd 7; HResize 4; HSet 3 9; HFind 9; HFind 8; HGet 0; HGet 3; HSet 9 1; HResize 2]
    = Some (ns, [HNat 1; HNat 2; HThrow; HNone; HNat 3; HIdx (Some 3); HIdx (Some 2); HLabel 0; HLabel 9; HThrow; HThrow]).
Proof. eexists; reflexivity. Qed.

(* the exact effect of set on any header *)
Theorem C07_set_law : forall (L : Type) (eqb : L -> L -> bool),
  (forall a b, eqb a b = true <-> a = b) ->
  forall h i l, i < size h -> DataHeader.find eqb h l = None ->
  exists h', DataHeader.set eqb h i l = Ok (h', i) /\ DataHeader.get h' i = Ok l /\
    DataHeader.find eqb h' l = Some (size h - 1) /\
    (forall j, j <> i -> DataHeader.get h' j = DataHeader.get h j) /\
    (forall l', l' <> l -> DataHeader.find eqb h' l' = DataHeader.find eqb h l').
Proof. exact @header_set_law. Qed.
Print Assumptions C07_set_law.

Theorem C07_set_throws : forall (L : Type) (eqb : L -> L -> bool),
  (forall a b, eqb a b = true <-> a = b) ->
  forall h i l, DataHeader.set eqb h i l = Throw <->
  (size h <= i \/ DataHeader.find eqb h l <> None).
Proof. exact @header_set_throws. Qed.
Print Assumptions C07_set_throws.

(* "find returns the position of the label" fails after set on another channel,
   and after construction from a list of labels *)
Theorem C07_header_consistent_refuted :
  (exists (h h' : header nat) i, exec (hstep Nat.eqb 0) (DataHeader.create 0 0) [HAdd 5; HAdd 6] = Some (h, [HNat 0; HNat 1]) /\
    DataHeader.set Nat.eqb h i 7 = Ok (h', i) /\
    DataHeader.find Nat.eqb h' 7 = Some 1 /\ DataHeader.get h' 1 = Ok 6 /\
    DataHeader.find Nat.eqb h' 5 = Some 0 /\ DataHeader.get h' 0 = Ok 7).
Proof. do 2 eexists; exists 0. repeat split. Qed.
Print Assumptions C07_header_consistent_refuted.

Theorem C07_labels_constructor_finds_nothing : forall (L : Type) (eqb : L -> L -> bool) (ls : list L) l,
  DataHeader.find eqb (create_labels ls) l = None /\
  (forall i, DataHeader.get (create_labels ls) i = vget ls i).
Proof. split; reflexivity. Qed.
Print Assumptions C07_labels_constructor_finds_nothing.

(* C08 *)
Theorem C08_resize : forall (T L : Type) (eqb : L -> L -> bool) (l0 : L) (s : storage T L) f c v,
  length (data_ s) = frame_size s * channel_size s ->
  (Storage.resize l0 s f c v = Throw <-> f < frame_size s \/ c < channel_size s) /\
  (frame_size s <= f -> channel_size s <= c ->
   exists s', Storage.resize l0 s f c v = Ok s' /\ frame_size s' = f /\ channel_size s' = c /\
     length (data_ s') = f * c /\
     (forall i j, i < f -> j < c ->
        at_unchecked s' i j =
        if (i <? frame_size s) && (j <? channel_size s) then at_unchecked s i j else Ok v) /\
     (forall i, i < channel_size s -> get_label s' i = get_label s i) /\
     (forall l, find_channel eqb s' l = find_channel eqb s l)).
Proof. exact @resize_cells. Qed.
Print Assumptions C08_resize.

Example C08_nonvacuous :
  exists s s', exec (step Nat.eqb 0 0) (Storage.create 0 2 2 3) [CellSet 0 1 7; CellSet 1 0 8] = Some (s, [ONone; ONone]) /\
    length (data_ s) = frame_size s * channel_size s /\
    Storage.resize 0 s 3 3 9 = Ok s' /\ at_ s' 0 1 = Ok 7 /\ at_ s' 1 0 = Ok 8 /\ at_ s' 1 2 = Ok 9 /\ at_ s' 2 0 = Ok 9.
Proof. do 2 eexists. repeat split. Qed.

(* C09: every history within the contract of the ideal matrix *)
Theorem C09_storage_refines : forall (T L : Type) (eqb : L -> L -> bool) (l0 : L) (t0 : T),
  (forall a b, eqb a b = true <-> a = b) ->
  forall nf nc v ops m rs,
  exec (ideal_step eqb l0 t0) (mkM (repeat (repeat v nc) nf) (repeat None nc)) ops = Some (m, rs) ->
  exists s, exec (step eqb l0 t0) (Storage.create l0 nf nc v) ops = Some (s, rs) /\
    frame_size s = nfr m /\ channel_size s = nch m /\
    length (data_ s) = frame_size s * channel_size s /\
    Forall (fun r => length r = nch m) (rows m) /\
    (forall f c, f < nfr m -> c < nch m -> exists x, cell m f c = Some x /\ at_ s f c = Ok x).
Proof. exact @storage_refines'. Qed.
Print Assumptions C09_storage_refines.

Example C09_nonvacuous :
  exists m, exec (ideal_step Nat.eqb 0 0) (mkM (repeat (repeat 1 0) 0) (repeat None 0))
    [AddChannel 10 1; AddFrame 2; AddFrame 3; AddChannelData 11 [5; 6; 7]; AtSet 1 0 4; AddFrameData [8; 9];
     At 1 1; At 2 0; Last 1; FindChannel 11; LabelSet 12 40; LabelGet 12; At 0 2; At 9 9; AddChannel 10 0; ChannelSize]
    = Some (m, [ONat 0; ONone; ONone; ONat 1; ONone; ONone; OVal 6; OVal 0; OVal 9; OIndex (Some 1); ONone; OVal 40;
                OVal 0; OThrow; OThrow; ONat 4]).
Proof. eexists; reflexivity. Qed.

(* C10 *)
Theorem C10_add_channel_duplicate : forall (T L : Type) (eqb : L -> L -> bool) (l0 : L),
  forall (s : storage T L) l v j,
  length (data_ s) = frame_size s * channel_size s -> find_channel eqb s l = Some j ->
  exists s', add_channel eqb l0 s l v = (s', Throw) /\
    length (data_ s') = frame_size s' * channel_size s' /\
    frame_size s' = frame_size s /\ channel_size s' = S (channel_size s) /\
    (forall f c, f < frame_size s -> c < channel_size s -> at_unchecked s' f c = at_unchecked s f c) /\
    (forall f, f < frame_size s -> at_unchecked s' f (channel_size s) = Ok v) /\
    (forall c, c < channel_size s -> get_label s' c = get_label s c) /\
    get_label s' (channel_size s) = Ok l0 /\
    (forall l', find_channel eqb s' l' = find_channel eqb s l').
Proof. exact @add_channel_duplicate. Qed.
Print Assumptions C10_add_channel_duplicate.

Example C10_nonvacuous :
  exists s, exec (step Nat.eqb 0 0) (Storage.create 0 0 0 0) [AddFrame 0; AddChannel 4 2] = Some (s, [ONone; ONat 0]) /\
    length (data_ s) = frame_size s * channel_size s /\ find_channel Nat.eqb s 4 = Some 0.
Proof. eexists. repeat split. Qed.
