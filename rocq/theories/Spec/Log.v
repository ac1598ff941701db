(* Who should receive a log message, told from the history of calls (latest
   call first). *)
From Coq Require Import List ZArith.
From Verif Require Import Model.Log.
Import ListNotations.
Local Open Scope Z_scope.

(* the sinks that exist *)
Fixpoint exists_after (h : list log_op) (s : nat) : Prop :=
  match h with
  | [] => False
  | New s' _ :: h' | Copy s' _ :: h' => s' = s \/ exists_after h' s
  | Delete s' :: h' => s' <> s /\ exists_after h' s
  | _ :: h' => exists_after h' s
  end.
(* the sinks registered, in order of registration *)
Inductive Registered : list log_op -> list nat -> Prop :=
| Reg_start : Registered [] []
| Reg_new h ss s l : Registered h ss -> Registered (New s l :: h) (ss ++ [s])
| Reg_add h ss s : Registered h ss -> ~ In s ss -> Registered (Add (Some s) :: h) (ss ++ [s])
| Reg_again h ss s : Registered h ss -> In s ss -> Registered (Add (Some s) :: h) ss
| Reg_remove h a s b : Registered h (a ++ s :: b) -> Registered (Remove s :: h) (a ++ b)
| Reg_remove_none h ss s : Registered h ss -> ~ In s ss -> Registered (Remove s :: h) ss
| Reg_delete h a s b : Registered h (a ++ s :: b) -> Registered (Delete s :: h) (a ++ b)
| Reg_delete_none h ss s : Registered h ss -> ~ In s ss -> Registered (Delete s :: h) ss
| Reg_other h ss o : Registered h ss -> (exists s t, o = Copy s t) \/ o = Add None \/ (exists s l, o = SetLevel s l) \/ (exists l, o = SetGlobal l) \/ o = GetGlobal -> Registered (o :: h) ss.
(* the level of a sink: what was last asked for it *)
Inductive Level : list log_op -> nat -> Z -> Prop :=
| Lev_new h s l : Level (New s l :: h) s l
| Lev_copy h s t l : Level h t l -> Level (Copy s t :: h) s l
| Lev_set h s l : Level (SetLevel s l :: h) s l
| Lev_global h ss s l : Registered h ss -> In s ss -> Level (SetGlobal l :: h) s l
| Lev_unregistered h ss s l l' : Registered h ss -> ~ In s ss -> Level h s l' -> Level (SetGlobal l :: h) s l'
| Lev_keep h s l o : Level h s l -> (forall l', o <> New s l' /\ o <> SetLevel s l' /\ o <> SetGlobal l') -> (forall t, o <> Copy s t) -> Level (o :: h) s l.
(* histories that use existing sinks only *)
Inductive Fair : list log_op -> Prop :=
| Fair_start : Fair []
| Fair_new h s l : Fair h -> ~ exists_after h s -> Fair (New s l :: h)
| Fair_copy h s t : Fair h -> ~ exists_after h s -> exists_after h t -> Fair (Copy s t :: h)
| Fair_delete h s : Fair h -> exists_after h s -> Fair (Delete s :: h)
| Fair_add h s : Fair h -> (forall x, s = Some x -> exists_after h x) -> Fair (Add s :: h)
| Fair_remove h s : Fair h -> Fair (Remove s :: h)
| Fair_level h s l : Fair h -> exists_after h s -> Fair (SetLevel s l :: h)
| Fair_global h l : Fair h -> Fair (SetGlobal l :: h)
| Fair_get h : Fair h -> Fair (GetGlobal :: h).
