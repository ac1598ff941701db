(* What a log file should contain, told from the history (latest first). *)
From Verif Require Import Model.Base Model.StdString Model.Strings Model.Log Model.FileSystem Model.LogFile Spec.Log Spec.FileSystem.
Local Open Scope Z_scope.

(* the history without files and messages *)
Fixpoint calls (h : list sink_op) : list log_op :=
  match h with
  | [] => []
  | Call o :: h' => o :: calls h'
  | NewFile s l _ :: h' => New s l :: calls h'
  | _ :: h' => calls h'
  end.
(* a message of level l is for the sink s *)
Definition Meant (h : list sink_op) (s : nat) (l : Z) : Prop :=
  exists ss lv, Registered (calls h) ss /\ In s ss /\ Level (calls h) s lv /\ lv <= l.
(* what is left of the expansion of a format *)
Definition Shown (t u : str) : Prop :=
  ~ In NUL u /\ (length u <= 1023)%nat /\ exists r, t = u ++ r /\ (r = [] \/ length u = 1023%nat \/ hd_error r = Some NUL).

(* the messages for a file sink since it was made *)
Inductive Inbox : list sink_op -> nat -> list str -> Prop :=
| Inbox_new h s l p : Inbox (NewFile s l p :: h) s []
| Inbox_get h s ts l t : Inbox h s ts -> Meant h s l -> Inbox (Message l t :: h) s (ts ++ [t])
| Inbox_pass h s ts l t : Inbox h s ts -> ~ Meant h s l -> Inbox (Message l t :: h) s ts
| Inbox_getf h s ts l t u : Inbox h s ts -> Meant h s l -> Shown t u -> Inbox (Messagef l t :: h) s (ts ++ [u])
| Inbox_passf h s ts l t : Inbox h s ts -> ~ Meant h s l -> Inbox (Messagef l t :: h) s ts
| Inbox_call h s ts o : Inbox h s ts -> (forall l, o <> New s l) -> (forall t, o <> Copy s t) -> Inbox (Call o :: h) s ts
| Inbox_other h s ts s' l p : Inbox h s ts -> s' <> s -> Inbox (NewFile s' l p :: h) s ts.

(* the sink s exists and was made for the file k *)
Fixpoint Uses (cwd : list str) (h : list sink_op) (s : nat) (k : list str) : Prop :=
  match h with
  | [] => False
  | NewFile s' _ p :: h' => s' = s /\ Names cwd p k \/ s' <> s /\ Uses cwd h' s k
  | Call (Delete s') :: h' => s' <> s /\ Uses cwd h' s k
  | _ :: h' => Uses cwd h' s k
  end.
(* a file can be made or emptied there *)
Definition Writable (s : fs) (k : list str) : Prop := s k <> Some Dir /\ exists a c, k = a ++ [c] /\ s a = Some Dir.
(* the sink made last at the address s has opened the file k, and since then no
   other sink used it *)
Inductive Sole (cwd : list str) (s0 : fs) : list sink_op -> nat -> list str -> Prop :=
| Sole_new h s l p k : Names cwd p k -> Writable s0 k -> (forall s', s' <> s -> ~ Uses cwd h s' k) -> Sole cwd s0 (NewFile s l p :: h) s k
| Sole_keep h s k o : Sole cwd s0 h s k ->
    (forall l, o <> Call (New s l)) -> (forall t, o <> Call (Copy s t)) -> (forall s' l p, o = NewFile s' l p -> s' <> s /\ ~ Names cwd p k) ->
    Sole cwd s0 (o :: h) s k.

(* all files have plain names *)
Definition Plain (cwd : list str) (h : list sink_op) : Prop := forall s l p, In (NewFile s l p) h -> exists k, Names cwd p k.
(* sinks are used while they exist, and file sinks are not copied *)
Definition Lawful (h : list sink_op) : Prop :=
  Fair (calls h) /\ forall a b s t, h = a ++ Call (Copy s t) :: b -> forall ts, ~ Inbox b t ts.
Definition lines (ts : list str) : str := flat_map (fun t => t ++ [LF]) ts.
