(* C42: include files *)
From Coq Require Import String.
From Verif Require Import Model.Base Model.StdString Model.Strings Model.Number Model.StringCast Model.Path Model.PropTree Model.PropNode Model.Include
  Spec.Strings Spec.PropNode Spec.Include Proofs.StringFacts Proofs.PropNodeProofs Proofs.IncludeProofs.
Local Open Scope list_scope.

(* files is any file system: each name gives a tree or an exception.  Loading
   ends, whatever the include graph, and a returned tree has no directive left
   at any depth. *)
Theorem C42_terminates : forall files directive fn, (forall p, files p <> OutOfFuel) ->
  exists f0 r, r <> OutOfFuel /\ (forall f, f0 <= f -> load_with_include files directive f fn 0 = r) /\
    (forall t, r = Ok t -> Included directive t).
Proof. intros files directive fn H. apply (load_settles files directive H 100 0 fn). lia. Qed.
Print Assumptions C42_terminates.

(* files that include each other in a circle end in an exception *)
Theorem C42_cycle : forall files directive (ring : str -> Prop) fn,
  (forall f, ring f -> exists a v c rest target, files f = Ok (PN a v ((directive, c) :: rest)) /\ (Asks f c target \/ AsksMerge f c target) /\ ring target) ->
  ring fn -> exists f0, forall f, f0 <= f -> load_with_include files directive f fn 0 = Throw.
Proof.
  intros files directive ring fn H I. apply (cycle_throws files directive ring) with (n := 100); [|lia|exact I]. intros f R. destruct (H f R) as (a & v & c & rest & target & E & A & R2).
  exists a, v, c, rest, target. destruct A as [A|A]; [exists false; rewrite (asks_target _ _ _ A)|exists true; rewrite (asks_merge_target _ _ _ A)]; auto.
Qed.
Print Assumptions C42_cycle.

(* a file without directives is unchanged *)
Theorem C42_no_include : forall files directive fn t, files fn = Ok t -> Included directive t ->
  exists f0, forall f, f0 <= f -> load_with_include files directive f fn 0 = Ok (clear_accessed t).
Proof.
  intros files directive fn t E I. destruct (resolve_free_ok files directive t I fn 0) as [f0 R]. exists (S f0). intros [|f] L; [lia|]. rewrite load_S, E. cbn [bind Nat.leb]. rewrite R by lia. reflexivity.
Qed.
Print Assumptions C42_no_include.

(* an include puts the root of the included file in the place of the directive,
   recursively and relative to the folder of the including file *)
Theorem C42_expand : forall files directive fn t, (forall p, files p <> OutOfFuel) ->
  Loads files directive Asks 0 fn t -> exists f0, forall f, f0 <= f -> load_with_include files directive f fn 0 = Ok t.
Proof. intros files directive fn t H L. destruct (proj1 (loads_spec files directive Asks asks_target H) 0 fn t L) as (_ & _ & X). exact X. Qed.
Print Assumptions C42_expand.

(* a merging include appends the children of the included root whose key is
   not there yet *)
Theorem C42_merge : forall files directive fn a v c rest target b w k b2 w2 os, (forall p, files p <> OutOfFuel) ->
  files fn = Ok (PN a v ((directive, c) :: rest)) -> AsksMerge fn c target ->
  Loads files directive Asks 1 target (PN b w [(k, PN b2 w2 os)]) -> Included directive (PN a v rest) ->
  exists ext f0, Adds (map fst rest) os ext /\
    forall f, f0 <= f -> load_with_include files directive f fn 0 = Ok (PN false v (map (fun kc => (fst kc, clear_accessed (snd kc))) rest ++ ext)).
Proof. intros files directive fn a v c rest target b w k b2 w2 os H E A L I. apply (load_merge files directive Asks asks_target fn 0 a v c rest target b w k b2 w2 os H); try assumption; [lia|apply asks_merge_target; exact A]. Qed.
Print Assumptions C42_merge.

Definition inc_node (file : string) (more : list (str * pnode)) : str * pnode := (lit "INCLUDE", PN false [] ((lit "file", pn_of (lit file)) :: more)).
Definition inc_files (top : list (str * pnode)) (sub : list (str * pnode)) (p : str) : res pnode :=
  if str_eqb p (lit "d/top") then Ok (PN false [] top) else if str_eqb p (lit "d/sub") then Ok (PN false [] sub) else Throw.

(* "merge_children = true asks for merging" is false: the text "true" reads
   as false, and the root is inserted instead *)
Theorem C42_merge_true_refuted :
  let files := inc_files [inc_node "sub" [(lit "merge_children", pn_of (lit "true"))]] [(lit "root", PN false [] [(lit "x", pn_of (lit "1"))])] in
  load_with_include files (lit "INCLUDE") 50 (lit "d/top") 0 = Ok (PN false [] [(lit "root", PN false [] [(lit "x", pn_of (lit "1"))])]).
Proof. vm_compute. reflexivity. Qed.
Print Assumptions C42_merge_true_refuted.

(* "the included file is looked for in the folder of the including file" is
   false for a file in the root folder *)
Theorem C42_root_folder_refuted : exists c fn, pn_children c = [(lit "file", pn_of (lit "sub"))] /\ fn = lit "/top" /\ include_target fn c = Ok (lit "sub", false).
Proof. exists (PN false [] [(lit "file", pn_of (lit "sub"))]), (lit "/top"). split; [reflexivity|]. split; [reflexivity|]. vm_compute. reflexivity. Qed.
Print Assumptions C42_root_folder_refuted.

(* "a chain of includes without cycles loads" is false: 100 levels are too deep *)
Definition tower (p : str) : res pnode := Ok (PN false [] [inc_node (String.string_of_list_ascii ("x"%char :: p)) []]).
Theorem C42_deep_refuted : (forall p q, tower p = Ok q -> forall n, Asks p (snd (inc_node (String.string_of_list_ascii ("x"%char :: p)) [])) n -> length n > length p) /\
  load_with_include tower (lit "INCLUDE") 500 (lit "x") 0 = Throw.
Proof.
  split; [|vm_compute; reflexivity]. intros p q _ n (_ & _ & fc & F & B). destruct F as (l & r & E & _). cbn in E.
  assert (EV : pn_value fc = "x"%char :: p).
  { destruct l as [|x l]; [cbn in E; injection E as E1 _; subst fc; unfold pn_of; cbn [pn_value]; unfold lit; cbn; f_equal; apply list_ascii_of_string_of_list_ascii|destruct l; discriminate]. }
  rewrite EV in B. inversion B; subst; cbn [length]; [lia|]. rewrite !app_length. cbn [length]. rewrite !app_length. cbn [length]. lia.
Qed.
Print Assumptions C42_deep_refuted.

Example C42_nonvacuous :
  let files := inc_files [(lit "a", pn_of (lit "1")); inc_node "sub" []; (lit "b", pn_of (lit "2"))] [(lit "root", PN false [] [(lit "x", pn_of (lit "1"))])] in
  let merging := inc_files [inc_node "sub" [(lit "merge_children", pn_of (lit "1"))]; (lit "x", pn_of (lit "2"))] [(lit "root", PN false [] [(lit "x", pn_of (lit "1")); (lit "y", pn_of (lit "3"))])] in
  let circle := inc_files [inc_node "sub" []] [inc_node "top" []] in
  load_with_include files (lit "INCLUDE") 50 (lit "d/top") 0 = Ok (PN false [] [(lit "a", pn_of (lit "1")); (lit "root", PN false [] [(lit "x", pn_of (lit "1"))]); (lit "b", pn_of (lit "2"))]) /\
  Loads files (lit "INCLUDE") Asks 0 (lit "d/top") (PN false [] [(lit "a", pn_of (lit "1")); (lit "root", PN false [] [(lit "x", pn_of (lit "1"))]); (lit "b", pn_of (lit "2"))]) /\
  load_with_include merging (lit "INCLUDE") 50 (lit "d/top") 0 = Ok (PN false [] [(lit "x", pn_of (lit "2")); (lit "y", pn_of (lit "3"))]) /\
  load_with_include circle (lit "INCLUDE") 500 (lit "d/top") 0 = Throw.
Proof.
  intros files merging circle. split; [vm_compute; reflexivity|]. split; [|split; vm_compute; reflexivity].
  eapply Loads_file; [lia|reflexivity|]. apply Expands_child with (ds := []) (ds' := []); [discriminate|constructor|]. eapply Expands_include with (target := lit "d/sub"); [| |].
  - split; [reflexivity|]. split; [intros [C|[]]; discriminate|]. exists (pn_of (lit "sub")). split; [exists [], []; split; [reflexivity|intros []]|].
    apply (Beside_folder (lit "d") "/"%char (lit "top")); [left; reflexivity|repeat constructor; intros [X|[X|[]]]; discriminate|discriminate|]. intros (q & c & E & I). destruct q as [|x [|y q]]; try discriminate. injection E as <-. destruct I as [I|[I|[]]]; discriminate.
  - eapply Loads_file; [lia|reflexivity|]. apply Expands_child; [discriminate| |constructor]. apply Expands_child with (ds := []) (ds' := []); [discriminate|constructor|constructor].
  - apply Expands_child with (ds := []) (ds' := []); [discriminate|constructor|constructor].
Qed.
