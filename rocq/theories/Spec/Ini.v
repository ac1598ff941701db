(* What an ini file means. *)
From Coq Require Import List Ascii.
From Verif Require Import Spec.Strings Spec.PropNode Model.PropTree.
Import ListNotations.

Definition blanks : str := [" "; "009"; "013"; "010"; "012"; "011"]%char.
Definition breaks : str := ["013"; "010"; "000"]%char.

(* the lines of a text: trimmed, without the empty ones *)
Inductive Lines : str -> list str -> Prop :=
| Lines_end s : only ("000"%char :: blanks) s -> Lines s []
| Lines_cons pre l post r ls :
    only ("000"%char :: blanks) pre -> l <> [] -> IsTrim blanks (l ++ post) l -> free breaks (l ++ post) ->
    (r = [] \/ exists c r', r = c :: r' /\ In c breaks) -> Lines r ls ->
    Lines (pre ++ (l ++ post) ++ r) (l :: ls).

(* a comment line hides the line after it *)
Fixpoint effective (ls : list str) : list str :=
  match ls with
  | [] => []
  | ("#"%char :: _) :: [] => []
  | ("#"%char :: _) :: _ :: ls' => effective ls'
  | l :: ls' => l :: effective ls'
  end.

Inductive item := Group (name : str) | Pair (key value : str).
Definition GroupLine (l : str) : Prop := exists g, g <> [] /\ l = "["%char :: g ++ ["]"%char].
Inductive ReadsAs : str -> item -> Prop :=
| Reads_group g : g <> [] -> ReadsAs ("["%char :: g ++ ["]"%char]) (Group g)
| Reads_pair a b k v : ~ GroupLine (a ++ "="%char :: b) -> ~ In "="%char a ->
    IsTrim blanks a k -> IsTrim blanks b v -> ReadsAs (a ++ "="%char :: b) (Pair k v).
Definition BadLine (l : str) : Prop := ~ GroupLine l /\ ~ In "="%char l.

(* values before the first group, and the groups *)
Definition contents : Type := list (str * str) * list (str * list (str * str)).
Fixpoint put (k v : str) (l : list (str * str)) : list (str * str) :=
  match l with
  | [] => [(k, v)]
  | (k', v') :: l' => if list_eq_dec ascii_dec k' k then (k, v) :: l' else (k', v') :: put k v l'
  end.
Fixpoint put_last (k v : str) (gs : list (str * list (str * str))) : list (str * list (str * str)) :=
  match gs with
  | [] => []
  | [(g, l)] => [(g, put k v l)]
  | x :: gs' => x :: put_last k v gs'
  end.
Definition add_item (c : contents) (i : item) : contents :=
  match i with
  | Group g => (fst c, snd c ++ [(g, [])])
  | Pair k v => match snd c with [] => (put k v (fst c), []) | gs => (fst c, put_last k v gs) end
  end.
Definition build (items : list item) : contents := fold_left add_item items ([], []).

Definition leaf (kv : str * str) : str * pnode := (fst kv, PN false (snd kv) []).
Definition group_node (g : str * list (str * str)) : str * pnode := (fst g, PN false [] (map leaf (snd g))).
Definition ini_tree (c : contents) : pnode := PN false [] (map leaf (fst c) ++ map group_node (snd c)).

(* keys and values that survive *)
Definition IniKey (k : str) : Prop :=
  IsTrim blanks k k /\ free breaks k /\ ~ In "="%char k /\ (forall r, k <> "#"%char :: r) /\ (forall r, k <> "["%char :: r).
Definition IniValue (v : str) : Prop := IsTrim blanks v v /\ free breaks v.
Definition IniItems (l : list (str * str)) : Prop :=
  NoDup (map fst l) /\ Forall (fun kv => IniKey (fst kv) /\ IniValue (snd kv)) l.
Definition IniContents (c : contents) : Prop :=
  IniItems (fst c) /\ Forall (fun kv => snd kv <> []) (fst c) /\
  Forall (fun g => fst g <> [] /\ free breaks (fst g) /\ snd g <> [] /\ IniItems (snd g)) (snd c).
