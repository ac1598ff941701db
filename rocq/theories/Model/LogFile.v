(* file_sink (flut/system/log_sink.hpp:34-46) on the file system of
   Model/FileSystem.v.  An ofstream has its own position in the file; flush makes
   what was written visible at once.  A failed write to an open file and the
   conversion of line ends are not modelled.  The constructor binds the reference
   of stream_sink before file_stream_ is constructed (line 37); the model takes
   this to work. *)
From Verif Require Import Model.Base Model.StdString Model.Strings Model.Log Model.FileSystem.

(* file_stream_ (flut/system/log_sink.hpp:45): not open, or a file and a
   position *)
Inductive stream := Closed | At (k : list str) (pos : nat).
(* lf_file is None for a sink that is no file_sink *)
Record lf_state := mkLf { lf_log : log_state; lf_fs : fs; lf_file : nat -> option stream }.
Definition lf_init (s : fs) : lf_state := mkLf log_init s (fun _ => None).

(* writing at a position; a gap is filled with zeros *)
Definition write_at (old : str) (pos : nat) (t : str) : str :=
  firstn pos (old ++ repeat NUL (pos - length old)) ++ t ++ skipn (pos + length t) old.

(* send_log_message (flut/system/log_sink.hpp:30, 39-41); sinks of other classes
   do not write files *)
Definition send (st : lf_state) (s : nat) (text : str) : lf_state :=
  match lf_file st s with
  | Some (At k pos) =>
    let t := text ++ [LF] in
    let old := match lf_fs st k with Some (File c) => c | _ => [] end in
    mkLf (lf_log st) (put (lf_fs st) k (File (write_at old pos t))) (update (lf_file st) s (Some (At k (pos + length t))))
  | _ => st
  end.
(* good (flut/system/log_sink.hpp:42) *)
Definition good (st : lf_state) (s : nat) : bool := match lf_file st s with Some (At _ _) => true | _ => false end.

(* what a client may do: the calls of Model/Log.v, the constructor of file_sink
   (flut/system/log_sink.hpp:37), message and messagef *)
Inductive sink_op :=
| Call (o : log_op)
| NewFile (s : nat) (l : Z) (p : str)
| Message (l : Z) (text : str)
| Messagef (l : Z) (text : str).

Definition lf_step (cwd : list str) (st : lf_state) (o : sink_op) : res lf_state :=
  match o with
  | Call (Copy s t) =>
    (* a file_sink cannot be copied: this would not compile *)
    match lf_file st t with
    | Some _ => UB
    | None => let* g := log_step (lf_log st) (Copy s t) in Ok (mkLf g (lf_fs st) (lf_file st))
    end
  | Call (Delete s) => let* g := log_step (lf_log st) (Delete s) in Ok (mkLf g (lf_fs st) (update (lf_file st) s None))
  | Call o => let* g := log_step (lf_log st) o in Ok (mkLf g (lf_fs st) (lf_file st))
  | NewFile s l p =>
    let* g := log_step (lf_log st) (New s l) in
    let (k, f) := open_write cwd (lf_fs st) p in
    Ok (mkLf g f (update (lf_file st) s (Some match k with Some k => At k 0 | None => Closed end)))
  | Message l text => Ok (fold_left (fun a s => send a s text) (message (lf_log st) l) st)
  | Messagef l text => Ok (fold_left (fun a st => send a (fst st) (snd st)) (messagef (lf_log st) l text) st)
  end.
(* a refused add_sink leaves everything as it was *)
Fixpoint lf_run (cwd : list str) (st : lf_state) (ops : list sink_op) : res lf_state :=
  match ops with
  | [] => Ok st
  | o :: ops' =>
    match lf_step cwd st o with
    | Ok st' => lf_run cwd st' ops'
    | Throw => lf_run cwd st ops'
    | UB => UB
    | OutOfFuel => OutOfFuel
    end
  end.
