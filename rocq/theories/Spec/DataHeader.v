(* Ideal header: the list of channel names, None for a channel without one. *)
From Verif Require Import Model.Base Model.DataHeader Spec.Storage.

Section Spec.
Context {L : Type} (eqb : L -> L -> bool) (l0 : L).

Definition ideal_hstep (ns : list (option L)) (o : hop L) : option (list (option L) * hout L) :=
  match o with
  | HAdd l =>
    match pos eqb ns l with
    | Some _ => Some (ns, HThrow)
    | None => Some (ns ++ [Some l], HNat (length ns))
    end
  | HResize n => if n <? length ns then Some (ns, HThrow) else Some (ns ++ repeat None (n - length ns), HNone)
  | HSet i l =>
    if negb (i <? length ns) then Some (ns, HThrow)
    else match pos eqb ns l with
         | Some _ => Some (ns, HThrow)
         | None =>
           (* contract: only the last channel, and only while unnamed *)
           match nth_error ns i with
           | Some None => if S i =? length ns then Some (firstn i ns ++ Some l :: skipn (S i) ns, HNat i) else None
           | _ => None
           end
         end
  | HFind l => Some (ns, HIdx (pos eqb ns l))
  | HGet i =>
    match nth_error ns i with
    | Some (Some l) => Some (ns, HLabel l)
    | Some None => Some (ns, HLabel l0)
    | None => None
    end
  | HSize => Some (ns, HNat (length ns))
  | HClear => Some ([], HNone)
  end.
End Spec.
