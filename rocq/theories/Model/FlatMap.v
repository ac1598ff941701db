(* flat_map<K,V> (flut/flat_map.hpp:8-63) and factory<T,Args...>
   (flut/factory.hpp:16-45) *)
From Verif Require Import Model.Base.

Section FlatMap.
Context {K V : Type} (eqb : K -> K -> bool) (v0 : V).  (* v0 is V() *)

Definition flat_map_t := list (K * V).   (* the private std::vector base *)

(* find (lines 27-33): index of the first match, None is end() *)
Fixpoint find (m : flat_map_t) (k : K) : option nat :=
  match m with
  | [] => None
  | (k', _) :: m' => if eqb k' k then Some 0 else option_map S (find m' k)
  end.

(* count (lines 35-37) *)
Definition count (m : flat_map_t) (k : K) : nat :=
  length (filter (fun kv => eqb (fst kv) k) m).

(* has_key (line 39) *)
Definition has_key (m : flat_map_t) (k : K) : bool :=
  match find m k with Some _ => true | None => false end.

(* operator[] (lines 41-48): position of the value and the (possibly extended)
   vector *)
Definition index (m : flat_map_t) (k : K) : flat_map_t * nat :=
  match find m k with
  | None => (m ++ [(k, v0)], length m)
  | Some i => (m, i)
  end.

(* write through a reference to the second member of element i *)
Definition write (m : flat_map_t) (i : nat) (v : V) : res flat_map_t :=
  let* kv := vget m i in vset m i (fst kv, v).
Definition read (m : flat_map_t) (i : nat) : res V :=
  let* kv := vget m i in Ok (snd kv).

(* m[k] = v *)
Definition assign (m : flat_map_t) (k : K) (v : V) : res flat_map_t :=
  let (m', i) := index m k in write m' i v.

(* at (lines 52-62), read and write *)
Definition at_ (m : flat_map_t) (k : K) : res V :=
  match find m k with None => Throw | Some i => read m i end.
Definition at_assign (m : flat_map_t) (k : K) (v : V) : res flat_map_t :=
  match find m k with None => Throw | Some i => write m i v end.

(* erase( begin() + i ) (line 25, std::vector::erase); erase( end() ) is
   undefined *)
Definition erase (m : flat_map_t) (i : nat) : res flat_map_t :=
  if i <? length m then Ok (firstn i m ++ skipn (S i) m) else UB.

Inductive op :=
| Assign (k : K) (v : V)      (* m[k] = v *)
| Index (k : K)               (* V x = m[k] *)
| At (k : K)                  (* V x = m.at( k ) *)
| AtAssign (k : K) (v : V)    (* m.at( k ) = v *)
| HasKey (k : K) | Count (k : K)
| EraseKey (k : K)            (* m.erase( m.find( k ) ) *)
| Clear | Size | Empty | Iterate.

Inductive out :=
| ONone | OThrow | OVal (v : V) | OBool (b : bool) | ONat (n : nat) | OList (l : list (K * V)).

Definition upd_ (m : flat_map_t) (r : res flat_map_t) : option (flat_map_t * out) :=
  match r with
  | Ok m' => Some (m', ONone)
  | Throw => Some (m, OThrow)
  | UB | OutOfFuel => None
  end.
Definition ret_ (m : flat_map_t) (r : res V) : option (flat_map_t * out) :=
  match r with
  | Ok v => Some (m, OVal v)
  | Throw => Some (m, OThrow)
  | UB | OutOfFuel => None
  end.

Definition step (m : flat_map_t) (o : op) : option (flat_map_t * out) :=
  match o with
  | Assign k v => upd_ m (assign m k v)
  | Index k => let (m', i) := index m k in ret_ m' (read m' i)
  | At k => ret_ m (at_ m k)
  | AtAssign k v => upd_ m (at_assign m k v)
  | HasKey k => Some (m, OBool (has_key m k))
  | Count k => Some (m, ONat (count m k))
  | EraseKey k => match find m k with Some i => upd_ m (erase m i) | None => upd_ m (erase m (length m)) end
  | Clear => Some ([], ONone)
  | Size => Some (m, ONat (length m))
  | Empty => Some (m, OBool (length m =? 0))
  | Iterate => Some (m, OList m)
  end.
End FlatMap.
Arguments op K V : clear implicits.
Arguments out K V : clear implicits.
Arguments flat_map_t K V : clear implicits.

(* factory: names to creation functions; a creation function is a value F
   applied to arguments with the result U. *)
Section Factory.
Context {K F U : Type} (eqb : K -> K -> bool) (f0 : F) (apply : F -> U).
Definition factory_t := flat_map_t K F.

(* register_class (factory.hpp:23-24) *)
Definition register (m : factory_t) (name : K) (f : F) : res factory_t := assign eqb f0 m name f.

(* operator[], create, operator() (lines 27-31, 38) *)
Definition create (m : factory_t) (name : K) : res U :=
  match find eqb m name with
  | None => Throw
  | Some i => let* f := read m i in Ok (apply f)
  end.

(* try_create (lines 34-35); None is nullptr *)
Definition try_create (m : factory_t) (name : K) : res (option U) :=
  match find eqb m name with
  | None => Ok None
  | Some i => let* f := read m i in Ok (Some (apply f))
  end.

(* has_type (line 41) *)
Definition has_type (m : factory_t) (name : K) : bool :=
  match find eqb m name with Some _ => true | None => false end.

Fixpoint register_all (m : factory_t) (regs : list (K * F)) : res factory_t :=
  match regs with
  | [] => Ok m
  | (k, f) :: regs' => let* m' := register m k f in register_all m' regs'
  end.
End Factory.
