(* C37-C41: prop_node *)
From Coq Require Import String.
From Verif Require Import Model.Base Model.StdString Model.Strings Model.Number Model.PropTree Model.PropNode
  Spec.Strings Spec.PropNode Proofs.StringFacts Proofs.PropNodeProofs.
Local Open Scope list_scope.

(* ---------- C37 ---------- *)
(* reading: the first child with the key decides *)
Theorem C37_get : forall (T : Type) (from : str -> res T) p k,
  (forall c, First k c (pn_children p) ->
     snd (pn_get_key from p k) = from (pn_value c) /\
     (forall def, snd (pn_get_default from p k def) = from (pn_value c)) /\
     snd (pn_has_key p k) = true) /\
  (Absent k (pn_children p) ->
     snd (pn_get_key from p k) = Throw /\
     (forall def, snd (pn_get_default from p k def) = Ok def) /\
     snd (pn_has_key p k) = false) /\
  ((exists c, First k c (pn_children p)) \/ Absent k (pn_children p)).
Proof.
  intros T from p k. split; [|split].
  - intros c F. split; [apply get_key_first; exact F|]. split; [intros def; apply get_default_first; exact F|].
    destruct F as (l & r & E & N). unfold pn_has_key, pn_find. rewrite (child_index_first _ l k c r E N). reflexivity.
  - intros A. split; [apply get_key_absent; exact A|]. split; [intros def; apply get_default_absent; exact A|].
    unfold pn_has_key, pn_find. apply child_index_none in A. rewrite A. reflexivity.
  - apply First_or_Absent.
Qed.
Print Assumptions C37_get.

Theorem C37_get_any : forall (T : Type) (from : str -> res T) p keys none,
  (forall keys1 k keys2 c, keys = keys1 ++ k :: keys2 -> Forall (fun k => Absent k (pn_children p)) keys1 -> First k c (pn_children p) ->
     snd (pn_get_any from p keys none) = from (pn_value c)) /\
  (Forall (fun k => Absent k (pn_children p)) keys -> snd (pn_get_any from p keys none) = none).
Proof.
  intros T from p keys none. split; [intros keys1 k keys2 c -> A F; apply get_any_hit; assumption|apply get_any_miss].
Qed.
Print Assumptions C37_get_any.

(* writing, for any conversion whose text reads back *)
Theorem C37_set_get : forall (T : Type) (to : T -> str) (from : str -> res T) grow p k x, from (to x) = Ok x ->
  snd (pn_get_key from (pn_set grow p k (to x)) k) = Ok x /\
  (forall def, snd (pn_get_default from (pn_set grow p k (to x)) k def) = Ok x).
Proof.
  intros T to from grow p k x H.
  assert (F : exists b, First k (PN b (to x) []) (pn_children (pn_set grow p k (to x)))).
  { destruct (First_or_Absent k (pn_children p)) as [(c & l & r & E & N)|A].
    - rewrite (pn_set_old grow p k (to x) l c r E N). exists (pn_accessed c), l, r. auto.
    - destruct (pn_set_new grow p k (to x) A) as (cs & -> & S). exists false. apply First_last. rewrite <- (SameChildren_Absent _ _ k S). exact A. }
  destruct F as [b F]. split; [rewrite (get_key_first from _ _ _ F); exact H|]. intros def. rewrite (get_default_first from _ _ _ def F). exact H.
Qed.
Print Assumptions C37_set_get.

(* what set does to the list of children *)
Theorem C37_set_place : forall grow p k v,
  (forall l c r, pn_children p = l ++ (k, c) :: r -> ~ In k (map fst l) ->
     pn_children (pn_set grow p k v) = l ++ (k, PN (pn_accessed c) v []) :: r) /\
  (Absent k (pn_children p) ->
     exists cs, pn_children (pn_set grow p k v) = cs ++ [(k, PN false v [])] /\ SameChildren (pn_children p) cs) /\
  pn_value (pn_set grow p k v) = pn_value p.
Proof.
  intros grow p k v. split; [|split].
  - intros l c r E N. rewrite (pn_set_old grow p k v l c r E N). reflexivity.
  - intros A. destruct (pn_set_new grow p k v A) as (cs & -> & S). exists cs. split; [reflexivity|exact S].
  - destruct (First_or_Absent k (pn_children p)) as [(c & l & r & E & N)|A].
    + rewrite (pn_set_old grow p k v l c r E N). reflexivity.
    + destruct (pn_set_new grow p k v A) as (cs & -> & S). reflexivity.
Qed.
Print Assumptions C37_set_place.

(* other keys: presence and subtree *)
Theorem C37_set_others : forall grow p k v k2, k2 <> k ->
  (Absent k2 (pn_children (pn_set grow p k v)) <-> Absent k2 (pn_children p)) /\
  (forall c, First k2 c (pn_children p) -> exists c', First k2 c' (pn_children (pn_set grow p k v)) /\ Same c c') /\
  (forall (T : Type) (from : str -> res T), snd (pn_get_key from (pn_set grow p k v) k2) = snd (pn_get_key from p k2)).
Proof.
  intros grow p k v k2 NE.
  assert (A1 : Absent k2 (pn_children (pn_set grow p k v)) <-> Absent k2 (pn_children p)).
  { destruct (First_or_Absent k (pn_children p)) as [(c & l & r & E & N)|A].
    - rewrite (pn_set_old grow p k v l c r E N), E. apply Absent_replace.
    - destruct (pn_set_new grow p k v A) as (cs & -> & S). cbn [pn_children]. rewrite Absent_snoc by exact NE. symmetry. apply SameChildren_Absent. exact S. }
  assert (F1 : forall c, First k2 c (pn_children p) -> exists c', First k2 c' (pn_children (pn_set grow p k v)) /\ Same c c').
  { intros c F. destruct (First_or_Absent k (pn_children p)) as [(x & l & r & E & N)|A].
    - rewrite (pn_set_old grow p k v l x r E N). rewrite E in F. exists c. split; [cbn [pn_children]; rewrite First_replace in F by exact NE; exact F|apply Same_refl].
    - destruct (pn_set_new grow p k v A) as (cs & -> & S). cbn [pn_children]. destruct (SameChildren_First _ _ _ _ S F) as (c' & F' & S'). exists c'. split; [|exact S']. rewrite First_snoc by exact NE. exact F'. }
  split; [exact A1|]. split; [exact F1|]. intros T from. destruct (First_or_Absent k2 (pn_children p)) as [[c F]|A].
  - destruct (F1 c F) as (c' & F' & S). rewrite (get_key_first from _ _ _ F), (get_key_first from _ _ _ F'), (Same_value _ _ S). reflexivity.
  - rewrite (get_key_absent from _ _ A). apply A1 in A. rewrite (get_key_absent from _ _ A). reflexivity.
Qed.
Print Assumptions C37_set_others.

Definition tree1 : pnode :=
  PN false [] [(lit "a", pn_of (lit "1")); (lit "b", PN false (lit "x") [(lit "c", pn_of (lit "2"))]); (lit "a", pn_of (lit "3"))].
Example C37_nonvacuous :
  pn_set (fun _ => true) tree1 (lit "b") (lit "y") =
    PN true [] [(lit "a", pn_of (lit "1")); (lit "b", pn_of (lit "y")); (lit "a", pn_of (lit "3"))] /\
  pn_children (pn_set (fun _ => true) tree1 (lit "d") (lit "y")) = pn_children tree1 ++ [(lit "d", pn_of (lit "y"))] /\
  snd (pn_get_key Ok tree1 (lit "a")) = Ok (lit "1") /\
  snd (pn_get_key (@Ok str) tree1 (lit "c")) = Throw.
Proof. vm_compute. repeat split. Qed.

(* ---------- C38 ---------- *)
Definition get_delimited {T} (from : str -> res T) (p : pnode) (key : str) (d : ascii) := pn_get_delimited from (S (length key)) p key d.
Definition set_delimited grow (p : pnode) (key v : str) (d : ascii) := pn_set_delimited grow (S (length key)) p key v d.
Definition try_delimited (p : pnode) (key : str) (d : ascii) := pn_try_delimited (S (length key)) p key d.

Theorem C38_get : forall (T : Type) (from : str -> res T) d key ks p, fits key -> Path d key ks ->
  (forall u, At ks p u -> snd (get_delimited from p key d) = from (pn_value u) /\ snd (try_delimited p key d) = Ok (Some (pn_access u))) /\
  ((forall u, ~ At ks p u) -> snd (get_delimited from p key d) = Throw /\ snd (try_delimited p key d) = Ok None).
Proof.
  intros T from d key ks p F P. unfold get_delimited, try_delimited.
  destruct (get_delimited_spec from d key ks P (S (length key)) p F (Nat.lt_succ_diag_r _)) as (H1 & H2 & _).
  destruct (try_delimited_spec d key ks P (S (length key)) p F (Nat.lt_succ_diag_r _)) as (H3 & H4 & _).
  split; [intros u H; split; auto|intros H; split; auto].
Qed.
Print Assumptions C38_get.

(* every key is a sequence of components *)
Theorem C38_path : forall d key, exists ks, Path d key ks /\ ks <> [] /\ Forall (fun k => ~ In d k) ks.
Proof.
  intros d key. destruct (Path_exists d key) as [ks P]. exists ks. split; [exact P|]. split; [eapply Path_nonempty; eauto|].
  clear -P. induction P; constructor; auto.
Qed.
Print Assumptions C38_path.

Theorem C38_set_get : forall (T : Type) (to : T -> str) (from : str -> res T) grow d key p x, fits key -> from (to x) = Ok x ->
  snd (set_delimited grow p key (to x) d) = Ok tt /\
  snd (get_delimited from (fst (set_delimited grow p key (to x) d)) key d) = Ok x.
Proof.
  intros T to from grow d key p x F H. destruct (Path_exists d key) as [ks P]. unfold set_delimited, get_delimited.
  destruct (set_delimited_spec grow d (to x) key ks P (S (length key)) p F (Nat.lt_succ_diag_r _)) as (H1 & _ & [b H3] & _). split; [exact H1|].
  destruct (get_delimited_spec from d key ks P (S (length key)) (fst (pn_set_delimited grow (S (length key)) p key (to x) d)) F (Nat.lt_succ_diag_r _)) as (G & _).
  rewrite (G _ H3). exact H.
Qed.
Print Assumptions C38_set_get.

(* paths that are neither a prefix nor an extension keep their subtree, or
   stay absent; proper prefixes keep their value; extensions disappear *)
Theorem C38_set_others : forall grow d key ks p v, fits key -> Path d key ks ->
  let p' := fst (set_delimited grow p key v d) in
  (forall q, (forall r, q <> ks ++ r) -> (forall r, ks <> q ++ r) ->
     (forall u, At q p u -> exists u', At q p' u' /\ Same u u') /\
     (forall u', At q p' u' -> exists u, At q p u /\ Same u u')) /\
  (forall q r u, ks = q ++ r -> r <> [] -> At q p u -> exists u', At q p' u' /\ pn_value u' = pn_value u) /\
  (forall r u, r <> [] -> ~ At (ks ++ r) p' u).
Proof.
  intros grow d key ks p v F P p'.
  destruct (set_delimited_spec grow d v key ks P (S (length key)) p F (Nat.lt_succ_diag_r _)) as (_ & _ & [b H3] & H4 & H5). fold (set_delimited grow p key v d) in *. fold p' in H3, H4, H5.
  split; [|split].
  - intros q Q1 Q2. apply H4; rewrite is_prefix_app; intros [c E]; [apply (Q2 c); exact E|apply (Q1 c); exact E].
  - intros q r u -> NR H. apply (H5 q u); [apply is_prefix_app; eauto| |exact H]. intros E. apply NR. rewrite <- (app_nil_r q) in E at 1. apply app_inv_head in E. auto.
  - intros r u NR H. clearbody p'. clear -H3 NR H. revert p' H3 H. induction ks as [|k ks IH]; intros p' H3 H; cbn [app] in H.
    + inversion H3 as [t E1 E2|]; subst t; subst p'. inversion H as [|? ? ? ? ? c ? Fi _]; subst; [contradiction|]. destruct Fi as (l & r2 & E & _). destruct l; discriminate.
    + inversion H3 as [|? ? ? ? ? c ? Fi H']; subst. inversion H as [|? ? ? ? ? c2 ? Fi2 H2]; subst. rewrite (First_unique _ _ _ _ Fi2 Fi) in H2. eapply IH; eauto.
Qed.
Print Assumptions C38_set_others.

Example C38_nonvacuous :
  Path "."%char (lit "b.c") [lit "b"; lit "c"] /\ At [lit "b"; lit "c"] tree1 (pn_of (lit "2")) /\
  snd (get_delimited Ok tree1 (lit "b.c") "."%char) = Ok (lit "2") /\
  pn_children (fst (set_delimited (fun _ => false) tree1 (lit "n.m") (lit "5") "."%char)) =
    pn_children tree1 ++ [(lit "n", PN true [] [(lit "m", pn_of (lit "5"))])].
Proof.
  split; [|split; [|vm_compute; repeat split]].
  - change (lit "b.c") with (lit "b" ++ "."%char :: lit "c"). apply Path_more; [intros H; vm_compute in H; destruct H as [H|[]]; discriminate|]. apply Path_one. intros H; vm_compute in H; destruct H as [H|[]]; discriminate.
  - econstructor; [exists [(lit "a", pn_of (lit "1"))], [(lit "a", pn_of (lit "3"))]; split; [reflexivity|intros H; vm_compute in H; destruct H as [H|[]]; discriminate]|].
    econstructor; [exists [], []; split; [reflexivity|intros []]|constructor].
Qed.

(* ---------- C39 ---------- *)
Theorem C39_structural : forall t u, pn_eqb t u = true <-> Same t u.
Proof. exact pn_eqb_same. Qed.
Print Assumptions C39_structural.
(* Same is equality of trees that carry no marks *)
Theorem C39_marks_only : forall t u, Same t u <-> clear_accessed t = clear_accessed u.
Proof.
  split.
  - revert u. induction t as [a v cs IH] using pnode_rect'. intros u H. inversion H as [? b ? ? d F]; subst. cbn [clear_accessed]. f_equal. clear H. revert IH.
    induction F as [|x y c d [E S] F IHF]; intros IH; [reflexivity|]. inversion IH; subst. cbn [map]. rewrite E, IHF by assumption. f_equal. f_equal. auto.
  - intros E. eapply Same_trans; [apply clear_same|]. rewrite E. apply Same_sym, clear_same.
Qed.
Print Assumptions C39_marks_only.
Theorem C39_copy : forall t, pn_eqb t (pn_copy t) = true /\ pn_eqb (pn_copy t) t = true.
Proof. intros t. split; apply pn_eqb_same; [apply Same_copy|apply Same_sym, Same_copy]. Qed.
Print Assumptions C39_copy.
Theorem C39_equivalence : forall t u w,
  pn_eqb t t = true /\ pn_eqb t u = pn_eqb u t /\ (pn_eqb t u = true -> pn_eqb u w = true -> pn_eqb t w = true).
Proof.
  intros t u w. split; [apply pn_eqb_same, Same_refl|]. split.
  - apply Bool.eq_iff_eq_true. rewrite !pn_eqb_same. split; apply Same_sym.
  - rewrite !pn_eqb_same. apply Same_trans.
Qed.
Print Assumptions C39_equivalence.
Example C39_nonvacuous :
  pn_eqb tree1 (PN true [] [(lit "a", PN true (lit "1") []); (lit "b", PN false (lit "x") [(lit "c", pn_of (lit "2"))]); (lit "a", pn_of (lit "3"))]) = true /\
  pn_eqb tree1 (PN false [] [(lit "a", pn_of (lit "3")); (lit "b", PN false (lit "x") [(lit "c", pn_of (lit "2"))]); (lit "a", pn_of (lit "1"))]) = false /\
  pn_eqb tree1 (PN false [] [(lit "a", pn_of (lit "1")); (lit "b", PN false (lit "x") [(lit "c", pn_of (lit "9"))]); (lit "a", pn_of (lit "3"))]) = false.
Proof. vm_compute. repeat split. Qed.

(* ---------- C40 ---------- *)
Theorem C40_count : forall t, count_unaccessed t = count_occ Bool.bool_dec (flags t) false.
Proof. exact count_flags. Qed.
Print Assumptions C40_count.
Theorem C40_clear : forall t, Same t (clear_accessed t) /\ (forall b, In b (flags (clear_accessed t)) -> b = false) /\
  count_unaccessed (clear_accessed t) = length (flags t).
Proof.
  intros t. split; [apply clear_same|]. rewrite count_flags, clear_flags. split; [intros b; apply repeat_spec|].
  induction (length (flags t)) as [|n IH]; [reflexivity|]. cbn [repeat count_occ]. destruct (Bool.bool_dec false false); [rewrite IH; reflexivity|congruence].
Qed.
Print Assumptions C40_clear.
(* reading marks the nodes on the path and changes nothing else *)
Theorem C40_get_marks : forall (T : Type) (from : str -> res T) d key ks p, fits key -> Path d key ks ->
  Touched ks p (fst (get_delimited from p key d)) /\ Touched ks p (fst (try_delimited p key d)) /\ Same p (fst (get_delimited from p key d)).
Proof.
  intros T from d key ks p F P. unfold get_delimited, try_delimited.
  destruct (get_delimited_spec from d key ks P (S (length key)) p F (Nat.lt_succ_diag_r _)) as (_ & _ & H3).
  destruct (try_delimited_spec d key ks P (S (length key)) p F (Nat.lt_succ_diag_r _)) as (_ & _ & H4).
  split; [exact H3|]. split; [exact H4|]. eapply Touched_Same; eauto.
Qed.
Print Assumptions C40_get_marks.
(* the report: one line for each node with an unread node in its subtree *)
Theorem C40_log : forall t depth, let t' := fst (log_unaccessed t depth) in
  snd (log_unaccessed t depth) = map report_line (filter (fun n => existsb negb (flags (snd n))) (below depth t)) /\
  Same t t' /\ (forall b, In b (flags t') -> b = true) /\ count_unaccessed t' = 0 /\
  forall depth', snd (log_unaccessed t' depth') = [].
Proof.
  intros t depth t'. destruct (log_spec t depth) as (H1 & H2 & H3). fold t' in H1, H2. split; [exact H3|]. split; [exact H1|].
  assert (H4 : forall b, In b (flags t') -> b = true) by (intros b; rewrite H2; apply repeat_spec).
  split; [exact H4|]. split.
  - rewrite count_flags. apply count_occ_not_In. intros I. apply H4 in I. discriminate.
  - intros depth'. apply all_marked_quiet. rewrite H2 at 1. f_equal. apply flags_length_same. exact H1.
Qed.
Print Assumptions C40_log.
(* a mark does not stay until it is cleared: adding a child may reset the marks
   of all other children *)
Theorem C40_marks_persist_refuted : forall grow p k c, grow (length (pn_children p)) = true ->
  flags (pn_push_back grow p k c) = pn_accessed p :: repeat false (length (flat_map (fun kc => flags (snd kc)) (pn_children p))) ++ flags c.
Proof.
  intros grow [a v cs] k c G. unfold pn_push_back. cbn [pn_children pn_accessed pn_value] in *. rewrite G. cbn [flags]. f_equal. rewrite flat_map_app. cbn [flat_map snd]. rewrite app_nil_r. f_equal.
  clear G. induction cs as [|[k0 x] cs IH]; [reflexivity|]. cbn [map flat_map fst snd]. rewrite IH, app_length, repeat_app. f_equal.
  clear. induction x as [a v cs IH] using pnode_rect'. cbn [pn_copy flags length repeat]. f_equal.
  induction IH as [|kc cs H _ IHc]; [reflexivity|]. cbn [map flat_map snd]. rewrite IHc, app_length, repeat_app, H. reflexivity.
Qed.
Print Assumptions C40_marks_persist_refuted.
Example C40_nonvacuous :
  count_unaccessed tree1 = 5 /\
  flags (fst (get_delimited Ok tree1 (lit "b.c") "."%char)) = [true; false; true; true; false] /\
  snd (log_unaccessed (fst (get_delimited Ok tree1 (lit "b.c") "."%char)) 0) = [lit "a = 1 *"; lit "a = 3 *"] /\
  snd (log_unaccessed tree1 1) = [lit "  a = 1 *"; lit "  b = x *"; lit "    c = 2 *"; lit "  a = 3 *"].
Proof. vm_compute. repeat split. Qed.

(* ---------- C41 ---------- *)
Theorem C41_keep : forall grow p other, let p' := merge_prop_nodes grow p other false in
  map fst (pn_children p') = map fst (pn_children p) ++ fresh (map fst (pn_children p)) (map fst (pn_children other)) /\
  pn_value p' = pn_value p /\
  (forall k c, First k c (pn_children p) -> exists c', First k c' (pn_children p') /\ Same c c') /\
  (forall k o, Absent k (pn_children p) -> First k o (pn_children other) -> exists c', First k c' (pn_children p') /\ Same o c').
Proof.
  intros grow p other. destruct (merge_loop_spec grow false (pn_children other) p) as (V & K & H1 & H2 & _). cbn zeta in *.
  split; [exact K|]. split; [exact V|]. split; [intros k c F; apply H1; auto|intros k o A F; apply (H2 k o eq_refl A F)].
Qed.
Print Assumptions C41_keep.
Theorem C41_overwrite : forall grow p other, let p' := merge_prop_nodes grow p other true in
  map fst (pn_children p') = map fst (pn_children p) ++ fresh (map fst (pn_children p)) (map fst (pn_children other)) /\
  pn_value p' = pn_value p /\
  (forall k c, First k c (pn_children p) -> Absent k (pn_children other) -> exists c', First k c' (pn_children p') /\ Same c c') /\
  (forall k o, Last k o (pn_children other) -> exists c', First k c' (pn_children p') /\ Same o c').
Proof.
  intros grow p other. destruct (merge_loop_spec grow true (pn_children other) p) as (V & K & H1 & _ & H3). cbn zeta in *.
  split; [exact K|]. split; [exact V|]. split; [intros k c F A; apply H1; auto|intros k o L; apply (H3 k o eq_refl L)].
Qed.
Print Assumptions C41_overwrite.
(* the keys of the result are those of both nodes *)
Theorem C41_keys : forall grow p other ow k, let p' := merge_prop_nodes grow p other ow in
  In k (map fst (pn_children p')) <-> In k (map fst (pn_children p)) \/ In k (map fst (pn_children other)).
Proof.
  intros grow p other ow k p'. unfold p', merge_prop_nodes. destruct (merge_loop_spec grow ow (pn_children other) p) as (_ & -> & _). rewrite in_app_iff.
  generalize (map fst (pn_children p)) as seen. induction (map fst (pn_children other)) as [|x ks IH]; intros seen; cbn [fresh In]; [tauto|].
  destruct (in_dec (list_eq_dec ascii_dec) x seen) as [I|NI].
  - rewrite IH. split; [tauto|]. intros [H|[->|H]]; auto.
  - cbn [In]. specialize (IH (seen ++ [x])). rewrite in_app_iff in IH. cbn [In] in IH. clear p' NI. split.
    + intros [H|[H|H]]; [left; exact H|right; left; exact H|]. destruct IH as [IH _]. destruct IH as [[I|[I|[]]]|I]; [right; exact H|left; exact I|right; left; exact I|right; right; exact I].
    + destruct IH as [_ IH]. intros [H|[H|H]]; [left; exact H|right; left; exact H|]. destruct IH as [[I|[I|[]]]|I]; [right; exact H|left; exact I|right; left; exact I|right; right; exact I].
Qed.
Print Assumptions C41_keys.
(* with a repeated key in the other node the lookup in the result need not be
   the lookup in the other node *)
Theorem C41_overwrite_first_refuted : exists grow p other k c c',
  First k c (pn_children other) /\ First k c' (pn_children (merge_prop_nodes grow p other true)) /\ ~ Same c c'.
Proof.
  exists (fun _ => false), pn_empty, tree1, (lit "a"), (pn_of (lit "1")), (pn_of (lit "3")). split; [|split].
  - exists [], (tl (pn_children tree1)). split; [reflexivity|intros []].
  - exists [], [(lit "b", PN false (lit "x") [(lit "c", pn_of (lit "2"))])]. split; [vm_compute; reflexivity|intros []].
  - intros H. inversion H.
Qed.
Print Assumptions C41_overwrite_first_refuted.
Example C41_nonvacuous :
  merge_prop_nodes (fun _ => true) (PN false (lit "v") [(lit "b", pn_of (lit "old"))]) tree1 false =
    PN true (lit "v") [(lit "b", pn_of (lit "old")); (lit "a", pn_of (lit "1"))] /\
  map fst (pn_children (merge_prop_nodes (fun _ => true) (PN false (lit "v") [(lit "b", pn_of (lit "old")); (lit "z", pn_empty)]) tree1 true)) = [lit "b"; lit "z"; lit "a"].
Proof. vm_compute. repeat split. Qed.
