(* Trees without include directives, and the expansion of plain includes. *)
From Coq Require Import List Ascii String.
From Verif Require Import Spec.Strings Spec.PropNode Model.Base Model.PropTree.
Import ListNotations.
Local Open Scope list_scope.

(* no node at any depth below t carries the directive as its key *)
Inductive Included (directive : str) : pnode -> Prop :=
| Included_node a v cs : Forall (fun kc => fst kc <> directive /\ Included directive (snd kc)) cs -> Included directive (PN a v cs).

Section Expand.
Context (files : str -> res pnode) (directive : str).
(* Names filename c target: the directive node c in filename asks for target,
   without merging *)
Context (Names : str -> pnode -> str -> Prop).
(* Loads level f t: file f, with every directive replaced by the root of the
   file it names, is t *)
Inductive Loads : nat -> str -> pnode -> Prop :=
| Loads_file level f a v cs cs' : level < 100 -> files f = Ok (PN a v cs) -> Expands level f cs cs' -> Loads level f (PN false v cs')
with Expands : nat -> str -> list (str * pnode) -> list (str * pnode) -> Prop :=
| Expands_nil level f : Expands level f [] []
| Expands_child level f k a v ds ds' cs cs' : k <> directive -> Expands level f ds ds' -> Expands level f cs cs' ->
    Expands level f ((k, PN a v ds) :: cs) ((k, PN false v ds') :: cs')
| Expands_include level f c target a v k root cs cs' : Names f c target -> Loads (S level) target (PN a v [(k, root)]) -> Expands level f cs cs' ->
    Expands level f ((directive, c) :: cs) ((k, root) :: cs').
End Expand.

Definition separators : str := ["/"; "\"]%char.
(* target is name, taken relative to the folder of file f *)
Inductive Beside : str -> str -> str -> Prop :=
| Beside_bare f name : free separators f -> Beside f name name
| Beside_folder a s b name : In s separators -> free separators b -> a <> [] -> ~ (exists q c, a = q ++ [c] /\ In c separators) -> Beside (a ++ s :: b) name (a ++ "/"%char :: name).

(* a directive node of file f that asks for target, without and with merging *)
Definition Asks (f : str) (c : pnode) (target : str) : Prop :=
  fits f /\ Absent (list_ascii_of_string "merge_children") (pn_children c) /\
  exists n, First (list_ascii_of_string "file") n (pn_children c) /\ Beside f (pn_value n) target.
Definition AsksMerge (f : str) (c : pnode) (target : str) : Prop :=
  fits f /\ (exists m, First (list_ascii_of_string "merge_children") m (pn_children c) /\ pn_value m = ["1"%char]) /\
  exists n, First (list_ascii_of_string "file") n (pn_children c) /\ Beside f (pn_value n) target.

(* the children of os whose key is not taken yet, each key once *)
Inductive Adds : list str -> children_t -> children_t -> Prop :=
| Adds_nil ks : Adds ks [] []
| Adds_taken ks k o os ext : In k ks -> Adds ks os ext -> Adds ks ((k, o) :: os) ext
| Adds_new ks k o os ext : ~ In k ks -> Adds (k :: ks) os ext -> Adds ks ((k, o) :: os) ((k, o) :: ext).
