(* std::string as a list of characters; positions are 64-bit size_t values
   held in Z.  Modelled library functions follow the C++ standard. *)
From Coq Require Export Ascii.
From Coq Require String.
From Verif Require Import Model.Base.

Notation str := (list ascii).
Definition lit (s : String.string) : str := String.list_ascii_of_string s.

Local Open Scope Z_scope.

Definition two64 : Z := 2 ^ 64.
Definition npos : Z := two64 - 1.
(* size_t arithmetic *)
Definition wadd (a b : Z) : Z := (a + b) mod two64.
Definition wsub (a b : Z) : Z := (a - b) mod two64.

Definition size_ (s : str) : Z := Z.of_nat (length s).

(* the value of a (signed) char *)
Definition code (c : ascii) : nat := nat_of_ascii c.
Definition scode (c : ascii) : Z :=
  if (code c <? 128)%nat then Z.of_nat (code c) else Z.of_nat (code c) - 256.

Definition NUL : ascii := "000"%char.

(* s.c_str(), read as a zero-terminated string *)
Fixpoint cstr (s : str) : str :=
  match s with
  | [] => []
  | c :: s' => if Ascii.eqb c NUL then [] else c :: cstr s'
  end.

Definition mem (set : str) (c : ascii) : bool := existsb (Ascii.eqb c) set.

(* strchr( set, c ) != 0 for a zero-terminated set: also true for c = 0 *)
Definition strchr (set : str) (c : ascii) : bool := mem set c || Ascii.eqb c NUL.

(* index of the first / last character satisfying p *)
Fixpoint first_pos (p : ascii -> bool) (s : str) : option nat :=
  match s with
  | [] => None
  | c :: s' => if p c then Some 0%nat else option_map S (first_pos p s')
  end.
Fixpoint last_pos (p : ascii -> bool) (s : str) : option nat :=
  match s with
  | [] => None
  | c :: s' => match last_pos p s' with
               | Some n => Some (S n)
               | None => if p c then Some 0%nat else None
               end
  end.

Definition ret_pos (o : option nat) : Z :=
  match o with Some n => Z.of_nat n | None => npos end.

(* s.find_first_of( set, pos ) and relatives *)
Definition find_first (p : ascii -> bool) (s : str) (pos : Z) : Z :=
  if size_ s <=? pos then npos
  else ret_pos (option_map (fun n => (Z.to_nat pos + n)%nat) (first_pos p (skipn (Z.to_nat pos) s))).
Definition find_first_of (s set : str) (pos : Z) : Z := find_first (mem set) s pos.
Definition find_first_not_of (s set : str) (pos : Z) : Z := find_first (fun c => negb (mem set c)) s pos.
Definition find_last_of (s set : str) : Z := ret_pos (last_pos (mem set) s).
Definition find_last_not_of (s set : str) : Z := ret_pos (last_pos (fun c => negb (mem set c)) s).

(* t is a prefix of s *)
Fixpoint prefixb (t s : str) : bool :=
  match t, s with
  | [], _ => true
  | a :: t', b :: s' => Ascii.eqb a b && prefixb t' s'
  | _ :: _, [] => false
  end.

(* s.find( t, 0 ) *)
Fixpoint find_sub (t s : str) : option nat :=
  if prefixb t s then Some 0%nat
  else match s with
       | [] => None
       | _ :: s' => option_map S (find_sub t s')
       end.
Definition find (s t : str) : Z := ret_pos (find_sub t s).

(* s.substr( pos, n ): throws std::out_of_range if pos > size *)
Definition substr (s : str) (pos n : Z) : res str :=
  if size_ s <? pos then Throw
  else Ok (firstn (Z.to_nat (Z.min n (size_ s - pos))) (skipn (Z.to_nat pos) s)).

(* operator== *)
Definition str_eqb (a b : str) : bool := if list_eq_dec ascii_dec a b then true else false.
