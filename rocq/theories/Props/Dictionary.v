(* C30: dictionary *)
From Coq Require Import String.
From Verif Require Import Model.Base Model.StdString Model.Dictionary Proofs.DictionaryProofs.
Local Open Scope list_scope.

(* the first entry for the element is used; unknown elements throw *)
Theorem C30_name : forall (T : Type) (eqb : T -> T -> bool), (forall a b, eqb a b = true <-> a = b) ->
  forall (d : list (T * str)) e,
  (exists n, name_of eqb d e = Ok n /\
     exists l1 l2, d = l1 ++ (e, n) :: l2 /\ e = e /\ Forall (fun y => fst y <> e) l1) \/
  (name_of eqb d e = Throw /\ forall n, ~ In (e, n) d).
Proof. exact @name_spec. Qed.
Print Assumptions C30_name.

Theorem C30_element : forall (T : Type) (d : list (T * str)) s dflt,
  (exists e, element d s = Ok e /\ element_or d s dflt = e /\
     exists l1 l2, d = l1 ++ (e, s) :: l2 /\ s = s /\ Forall (fun y => snd y <> s) l1) \/
  (element d s = Throw /\ element_or d s dflt = dflt /\ forall e, ~ In (e, s) d).
Proof. exact @element_spec. Qed.
Print Assumptions C30_element.

Theorem C30_inverse : forall (T : Type) (eqb : T -> T -> bool), (forall a b, eqb a b = true <-> a = b) ->
  forall (d : list (T * str)), NoDup (map fst d) -> NoDup (map snd d) ->
  forall e n, name_of eqb d e = Ok n <-> element d n = Ok e.
Proof. exact @dictionary_inverse. Qed.
Print Assumptions C30_inverse.

Theorem C30_lookup : forall (T : Type) s (t : list (str * T)),
  (exists v, lookup s t = Ok v /\
     exists l1 l2, t = l1 ++ (s, v) :: l2 /\ s = s /\ Forall (fun y => fst y <> s) l1) \/
  (lookup s t = Throw /\ forall v, ~ In (s, v) t).
Proof. exact @lookup_spec. Qed.
Print Assumptions C30_lookup.

Example C30_nonvacuous :
  let d := [(1, lit "one"); (2, lit "two")] in
  NoDup (map fst d) /\ NoDup (map snd d) /\ name_of Nat.eqb d 2 = Ok (lit "two") /\ element d (lit "two") = Ok 2 /\
  element d (lit "six") = Throw /\ element_or d (lit "six") 6 = 6.
Proof.
  cbn zeta. split; [repeat constructor; cbn; intuition lia|]. split; [repeat constructor; cbn; intuition discriminate|].
  split; [reflexivity|]. split; [reflexivity|]. split; reflexivity.
Qed.
