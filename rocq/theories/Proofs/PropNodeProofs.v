From Verif Require Import Model.Base Proofs.BaseFacts Model.StdString Model.Strings Model.PropTree Model.PropNode
  Spec.Strings Spec.PropNode Proofs.StringFacts Proofs.StringsProofs Proofs.DictionaryProofs.
Local Open Scope nat_scope.

(* ---------- lookup ---------- *)
Lemma str_eqb_spec a b : reflect (a = b) (str_eqb a b).
Proof. destruct (str_eqb a b) eqn:E; constructor; [apply str_eqb_eq; exact E|]. intros X. apply str_eqb_eq in X. congruence. Qed.
Lemma child_index_spec cs key :
  match child_index cs key with
  | None => Absent key cs
  | Some i => exists l c r, cs = l ++ (key, c) :: r /\ length l = i /\ ~ In key (map fst l)
  end.
Proof.
  induction cs as [|[k c] cs IH]; cbn [child_index]; [intros []|]. destruct (str_eqb_spec k key) as [->|N].
  - exists [], c, cs. split; [reflexivity|]. split; [reflexivity|]. intros [].
  - destruct (child_index cs key) as [i|]; cbn [option_map].
    + destruct IH as (l & c' & r & -> & L & A). exists ((k, c) :: l), c', r. split; [reflexivity|]. split; [cbn; lia|]. cbn. intros [E|E]; [congruence|contradiction].
    + intros [E|E]; [cbn in E; congruence|contradiction].
Qed.
Lemma child_index_none cs key : child_index cs key = None <-> Absent key cs.
Proof.
  pose proof (child_index_spec cs key) as H. destruct (child_index cs key) as [i|]; split; intros X; try congruence; try exact H.
  destruct H as (l & c & r & -> & _). exfalso. apply X. rewrite map_app. apply in_or_app. right. left. reflexivity.
Qed.
Lemma child_index_first cs l key c r : cs = l ++ (key, c) :: r -> ~ In key (map fst l) -> child_index cs key = Some (length l).
Proof.
  intros -> N. induction l as [|[k x] l IH]; cbn [app child_index length].
  - destruct (str_eqb_spec key key); [reflexivity|congruence].
  - destruct (str_eqb_spec k key) as [->|_]; [exfalso; apply N; left; reflexivity|]. rewrite IH; [reflexivity|]. intros X. apply N. right. exact X.
Qed.
Lemma First_or_Absent key cs : (exists c, First key c cs) \/ Absent key cs.
Proof.
  pose proof (child_index_spec cs key) as H. destruct (child_index cs key) as [i|]; [left|right; exact H].
  destruct H as (l & c & r & -> & _ & N). exists c, l, r. auto.
Qed.
Lemma First_not_Absent key c cs : First key c cs -> ~ Absent key cs.
Proof. intros (l & r & -> & _) H. apply H. rewrite map_app. apply in_or_app. right. left. reflexivity. Qed.
Lemma split_unique (key : str) (l l' : children_t) c c' r r' : l ++ (key, c) :: r = l' ++ (key, c') :: r' -> ~ In key (map fst l) -> ~ In key (map fst l') ->
  l = l' /\ c = c' /\ r = r'.
Proof.
  revert l'. induction l as [|x l IH]; intros [|x' l'] E N N'; cbn [app] in E.
  - inversion E; auto.
  - inversion E; subst. exfalso. apply N'. left. reflexivity.
  - inversion E; subst. exfalso. apply N. left. reflexivity.
  - inversion E; subst. destruct (IH l') as (-> & -> & ->); auto; intros X; [apply N|apply N']; right; exact X.
Qed.
Lemma First_unique key c c' cs : First key c cs -> First key c' cs -> c = c'.
Proof. intros (l & r & -> & N) (l' & r' & E & N'). apply split_unique in E as (_ & -> & _); auto. Qed.

Lemma at_child_split {R} (l : children_t) k c r (g : pnode -> pnode * res R) : at_child (l ++ (k, c) :: r) (length l) g = (l ++ (k, fst (g c)) :: r, snd (g c)).
Proof.
  induction l as [|[k' c'] l IH]; cbn [app length at_child].
  - destruct (g c); reflexivity.
  - rewrite IH. reflexivity.
Qed.
Lemma with_child_split {R} p (l : children_t) k c r (g : pnode -> pnode * res R) : pn_children p = l ++ (k, c) :: r ->
  with_child p (length l) g = (PN (pn_accessed p) (pn_value p) (l ++ (k, fst (g c)) :: r), snd (g c)).
Proof. intros E. unfold with_child. rewrite E, at_child_split. reflexivity. Qed.

(* ---------- marks ---------- *)
Lemma Same_refl : forall t, Same t t.
Proof.
  induction t as [a v c IH] using pnode_rect'. constructor. induction IH as [|[k x] c H _ IHc]; constructor; [split; [reflexivity|exact H]|exact IHc].
Qed.
Lemma SameChildren_refl c : SameChildren c c.
Proof. induction c as [|x c IH]; constructor; [split; [reflexivity|apply Same_refl]|exact IH]. Qed.
Lemma Same_sym : forall t u, Same t u -> Same u t.
Proof.
  induction t as [a v c IH] using pnode_rect'. intros u H. inversion H as [? b ? ? d F]; subst. constructor. clear H. revert IH. induction F as [|[k x] [k' y] c d [E S] F IHF]; intros IH; constructor.
  - inversion IH; subst. cbn in *. split; [congruence|auto].
  - inversion IH; subst. auto.
Qed.
Lemma Same_trans : forall t u w, Same t u -> Same u w -> Same t w.
Proof.
  induction t as [a v c IH] using pnode_rect'. intros u w H1 H2. inversion H1 as [? b ? ? d F]; subst. inversion H2 as [? b' ? ? d' F']; subst. constructor. clear H1 H2.
  revert d' F' IH. induction F as [|[k x] [k' y] c d [E S] F IHF]; intros d' F' IH; inversion F' as [|? [k'' z] ? ? [E' S'] F'']; subst; constructor.
  - inversion IH; subst. cbn in *. split; [congruence|eauto].
  - inversion IH; subst. auto.
Qed.
Lemma SameChildren_sym c d : SameChildren c d -> SameChildren d c.
Proof. induction 1 as [|x y c d [E S] _ IH]; constructor; [split; [congruence|apply Same_sym, S]|exact IH]. Qed.
Lemma SameChildren_trans c d e : SameChildren c d -> SameChildren d e -> SameChildren c e.
Proof.
  intros H. revert e. induction H as [|x y c d [E S] H IH]; intros e X; inversion X as [|? z ? e' [E' S'] X']; subst; constructor; [split; [congruence|eapply Same_trans; eauto]|apply IH, X'].
Qed.
Lemma Same_copy : forall t, Same t (pn_copy t).
Proof.
  induction t as [a v c IH] using pnode_rect'. cbn [pn_copy]. constructor. induction IH as [|[k x] c H _ IHc]; cbn [map]; constructor; [split; [reflexivity|exact H]|exact IHc].
Qed.
Lemma SameChildren_copy c : SameChildren c (map (fun kc => (fst kc, pn_copy (snd kc))) c).
Proof. induction c as [|[k x] c IH]; constructor; [split; [reflexivity|apply Same_copy]|exact IH]. Qed.
Lemma SameChildren_keys c d : SameChildren c d -> map fst c = map fst d.
Proof. induction 1 as [|x y c d [E _] _ IH]; [reflexivity|]. cbn. congruence. Qed.
Lemma SameChildren_app a b c d : SameChildren a b -> SameChildren c d -> SameChildren (a ++ c) (b ++ d).
Proof. apply Forall2_app. Qed.
Lemma SameChildren_First c d k x : SameChildren c d -> First k x c -> exists y, First k y d /\ Same x y.
Proof.
  intros H (l & r & -> & N). apply Forall2_app_inv_l in H as (l' & r' & H1 & H2 & ->). inversion H2 as [|? [k' y] ? r2 [E S] H3]; subst. cbn in E, S. subst k'.
  exists y. split; [|exact S]. exists l', r2. split; [reflexivity|]. rewrite <- (SameChildren_keys _ _ H1). exact N.
Qed.
Lemma SameChildren_Absent c d k : SameChildren c d -> (Absent k c <-> Absent k d).
Proof. intros H. unfold Absent. rewrite (SameChildren_keys _ _ H). tauto. Qed.
Lemma Same_intro a b v c d : SameChildren c d -> Same (PN a v c) (PN b v d).
Proof. intros H. constructor. exact H. Qed.
Lemma Same_inv a b v w c d : Same (PN a v c) (PN b w d) -> v = w /\ SameChildren c d.
Proof. intros H. inversion H; subst. auto. Qed.
Lemma Same_value t u : Same t u -> pn_value t = pn_value u.
Proof. intros H. inversion H; reflexivity. Qed.
Lemma Same_children t u : Same t u -> SameChildren (pn_children t) (pn_children u).
Proof. intros H. inversion H; assumption. Qed.

Lemma Forall2_length {A B} (R : A -> B -> Prop) l m : Forall2 R l m -> length l = length m.
Proof. induction 1; cbn; congruence. Qed.
(* ---------- equality ---------- *)
Lemma pn_eqb_same : forall t u, pn_eqb t u = true <-> Same t u.
Proof.
  induction t as [a v c IH] using pnode_rect'. intros [b w d]. cbn [pn_eqb].
  destruct (str_eqb_spec v w) as [<-|N]; cbn [negb]; [|split; [discriminate|intros H; apply Same_inv in H as [E _]; contradiction]].
  assert (X : forall d, (if negb (length c =? length d) then false else (fix go (la lb : list (str * pnode)) {struct la} : bool :=
       match la, lb with
       | (ka, xa) :: la', (kb, xb) :: lb' => if negb (str_eqb ka kb) then false else if negb (pn_eqb xa xb) then false else go la' lb'
       | _, _ => true
       end) c d) = true <-> SameChildren c d).
  { clear - IH. induction IH as [|[k x] c Hx _ IHc]; intros [|[k' y] d]; cbn [length Nat.eqb negb].
    - split; [constructor|reflexivity].
    - split; [discriminate|intros H; inversion H].
    - split; [discriminate|intros H; inversion H].
    - specialize (IHc d). cbn [snd] in Hx. destruct (length c =? length d) eqn:EL; cbn [negb] in *.
      + destruct (str_eqb_spec k k') as [<-|N]; cbn [negb].
        * destruct (pn_eqb x y) eqn:E; cbn [negb].
          -- rewrite IHc. split; [intros H; constructor; [split; [reflexivity|apply Hx, E]|exact H]|intros H; inversion H; assumption].
          -- split; [discriminate|]. intros H. inversion H as [|? ? ? ? [_ S] _]; subst. cbn in S. apply Hx in S. congruence.
        * split; [discriminate|]. intros H. inversion H as [|? ? ? ? [E _] _]; subst. cbn in E. contradiction.
      + split; [discriminate|]. intros H. apply Forall2_length in H. cbn in H. apply Nat.eqb_neq in EL. lia. }
  rewrite X. split; [apply Same_intro|]. intros H. apply Same_inv in H. apply H.
Qed.

(* ---------- get ---------- *)
Section Get.
Context {T : Type} (from : str -> res T).
Lemma get_key_first p k c : First k c (pn_children p) -> snd (pn_get_key from p k) = from (pn_value c).
Proof.
  intros (l & r & E & N). unfold pn_get_key, pn_find. rewrite (child_index_first _ l k c r E N).
  rewrite (with_child_split (pn_access (pn_access p)) l k c r); [reflexivity|exact E].
Qed.
Lemma get_key_absent p k : Absent k (pn_children p) -> snd (pn_get_key from p k) = Throw.
Proof. intros A. unfold pn_get_key, pn_find. apply child_index_none in A. rewrite A. reflexivity. Qed.
Lemma get_default_first p k c def : First k c (pn_children p) -> snd (pn_get_default from p k def) = from (pn_value c).
Proof.
  intros (l & r & E & N). unfold pn_get_default, pn_find. rewrite (child_index_first _ l k c r E N).
  rewrite (with_child_split (pn_access p) l k c r); [reflexivity|exact E].
Qed.
Lemma get_default_absent p k def : Absent k (pn_children p) -> snd (pn_get_default from p k def) = Ok def.
Proof. intros A. unfold pn_get_default, pn_find. apply child_index_none in A. rewrite A. reflexivity. Qed.
Lemma get_any_hit keys1 : forall p k keys2 c none, Forall (fun k => Absent k (pn_children p)) keys1 -> First k c (pn_children p) ->
  snd (pn_get_any from p (keys1 ++ k :: keys2) none) = from (pn_value c).
Proof.
  induction keys1 as [|k1 keys1 IH]; intros p k keys2 c none A F; cbn [app pn_get_any]; unfold pn_find.
  - destruct F as (l & r & E & N). rewrite (child_index_first _ l k c r E N). rewrite (with_child_split (pn_access p) l k c r); [reflexivity|exact E].
  - inversion A as [|? ? A1 A2]; subst. apply child_index_none in A1. rewrite A1. apply IH; assumption.
Qed.
Lemma get_any_miss keys : forall p none, Forall (fun k => Absent k (pn_children p)) keys -> snd (pn_get_any from p keys none) = none.
Proof.
  induction keys as [|k keys IH]; intros p none A; cbn [pn_get_any]; [reflexivity|]. unfold pn_find. inversion A as [|? ? A1 A2]; subst.
  apply child_index_none in A1. rewrite A1. apply IH. exact A2.
Qed.
End Get.

(* ---------- set ---------- *)
Lemma pn_set_old grow p k v l c r : pn_children p = l ++ (k, c) :: r -> ~ In k (map fst l) ->
  pn_set grow p k v = PN true (pn_value p) (l ++ (k, PN (pn_accessed c) v []) :: r).
Proof.
  intros E N. unfold pn_set, pn_find. rewrite (child_index_first _ l k c r E N). rewrite (with_child_split (pn_access p) l k c r); [reflexivity|exact E].
Qed.
Lemma pn_set_new grow p k v : Absent k (pn_children p) ->
  exists cs, pn_set grow p k v = PN true (pn_value p) (cs ++ [(k, pn_of v)]) /\ SameChildren (pn_children p) cs.
Proof.
  intros A. unfold pn_set, pn_find. apply child_index_none in A. rewrite A. unfold pn_push_back, pn_access. cbn [pn_accessed pn_value pn_children].
  destruct (grow _); eexists; (split; [reflexivity|]); [apply SameChildren_copy|apply SameChildren_refl].
Qed.

Lemma First_replace k k2 (l : children_t) c c' r x : k2 <> k -> (First k2 x (l ++ (k, c) :: r) <-> First k2 x (l ++ (k, c') :: r)).
Proof.
  intros N. assert (H : forall c c', First k2 x (l ++ (k, c) :: r) -> First k2 x (l ++ (k, c') :: r)).
  { clear c c'. intros c c' (l1 & r1 & E & A). revert l1 E A. induction l as [|y l IH]; intros [|z l1] E A; cbn [app] in *.
    - inversion E; subst. contradiction.
    - inversion E; subst. exists ((k, c') :: l1), r1. split; [reflexivity|]. cbn. intros [X|X]; [congruence|]. apply A. right. exact X.
    - inversion E; subst. exists [], (l ++ (k, c') :: r). split; [reflexivity|]. intros [].
    - inversion E; subst. destruct (IH l1) as (l2 & r2 & E2 & A2); [assumption|intros X; apply A; right; exact X|].
      exists (z :: l2), r2. split; [cbn; rewrite E2; reflexivity|]. cbn. intros [X|X]; [apply A; left; exact X|contradiction]. }
  split; apply H.
Qed.
Lemma Absent_replace k k2 (l : children_t) c c' r : Absent k2 (l ++ (k, c) :: r) <-> Absent k2 (l ++ (k, c') :: r).
Proof. unfold Absent. rewrite !map_app. reflexivity. Qed.
Lemma First_snoc k k2 (cs : children_t) c x : k2 <> k -> (First k2 x (cs ++ [(k, c)]) <-> First k2 x cs).
Proof.
  intros N. split; intros (l & r & E & A).
  - destruct r as [|y r] using rev_ind.
    + apply app_inj_tail in E as [_ E]. congruence.
    + rewrite app_comm_cons, app_assoc in E. apply app_inj_tail in E as [-> _]. exists l, r. auto.
  - subst. exists l, (r ++ [(k, c)]). split; [rewrite <- app_assoc; reflexivity|exact A].
Qed.
Lemma Absent_snoc k k2 (cs : children_t) c : k2 <> k -> (Absent k2 (cs ++ [(k, c)]) <-> Absent k2 cs).
Proof. intros N. unfold Absent. rewrite map_app, in_app_iff. cbn. intuition. Qed.
Lemma First_last k (cs : children_t) c : Absent k cs -> First k c (cs ++ [(k, c)]).
Proof. intros A. exists cs, []. auto. Qed.

(* ---------- delimited keys ---------- *)
Lemma not_in_free d (k : str) : ~ In d k <-> free [d] k.
Proof.
  unfold free. split; intros H.
  - apply Forall_forall. intros c I [<-|[]]. contradiction.
  - intros I. rewrite Forall_forall in H. apply (H d I). left. reflexivity.
Qed.
Lemma find_delim_none k d : ~ In d k -> find_first_of k [d] 0 = npos.
Proof.
  intros H. apply not_in_free in H. unfold find_first_of. apply Forall_mem_free in H. pose proof (find_first_miss (mem [d]) [] k H) as E. cbn [app] in E. rewrite size_nil in E. exact E.
Qed.
Lemma find_delim_some k d rest : ~ In d k -> fits (k ++ d :: rest) -> let pos := find_first_of (k ++ d :: rest) [d] 0 in
  (pos =? npos)%Z = false /\ substr (k ++ d :: rest) 0 pos = Ok k /\ mid_str (k ++ d :: rest) (wadd pos 1) npos = Ok rest.
Proof.
  intros H F. apply not_in_free in H. apply Forall_mem_free in H. assert (M : mem [d] d = true) by (apply mem_In; left; reflexivity).
  pose proof (find_first_hit (mem [d]) [] k d rest F H M) as E. cbn [app] in E. rewrite size_nil in E. unfold find_first_of. cbn zeta. rewrite E.
  assert (L := F). apply fits_lt in L. rewrite size_app, size_cons in L. pose proof (size_nonneg k). pose proof (size_nonneg rest). rewrite Z.add_0_l.
  split; [destruct (Z.eqb_spec (size_ k) npos) as [E'|_]; [rewrite npos_val in E'; lia|reflexivity]|].
  split; [apply substr_head; reflexivity|]. unfold mid_str. rewrite wadd_small by lia.
  replace (k ++ d :: rest) with ((k ++ [d]) ++ rest) by (rewrite <- app_assoc; reflexivity).
  replace (size_ k + 1)%Z with (size_ (k ++ [d])) by (rewrite size_app, size_cons, size_nil; lia).
  apply substr_tail. rewrite npos_val. lia.
Qed.
Lemma Path_exists d key : exists ks, Path d key ks.
Proof.
  remember (length key) as n eqn:L. revert key L. induction n as [n IH] using (well_founded_induction lt_wf). intros key L.
  destruct (in_dec ascii_dec d key) as [I|I]; [|exists [key]; constructor; exact I].
  assert (X : exists l r, key = l ++ d :: r /\ ~ In d l);
    [clear - I; induction key as [|c key IHk]; [destruct I|]; destruct (ascii_dec c d) as [->|D];
      [exists [], key; split; [reflexivity|intros []]
      |destruct I as [E|I]; [contradiction|]; destruct (IHk I) as (l & r & -> & N); exists (c :: l), r; split; [reflexivity|intros [E|E]; [contradiction|exact (N E)]]]
    |destruct X as (l & r & -> & N)].
  destruct (IH (length r)) with (key := r) as [ks P]; [rewrite L, app_length; cbn; lia|reflexivity|]. exists (l :: ks). constructor; assumption.
Qed.
Lemma Path_nonempty d key ks : Path d key ks -> ks <> [].
Proof. intros []; discriminate. Qed.

Section GetD.
Context {T : Type} (from : str -> res T) (d : ascii).
Lemma get_delimited_spec key ks : Path d key ks -> forall fuel p, fits key -> length key < fuel ->
  (forall u, At ks p u -> snd (pn_get_delimited from fuel p key d) = from (pn_value u)) /\
  ((forall u, ~ At ks p u) -> snd (pn_get_delimited from fuel p key d) = Throw) /\
  Touched ks p (fst (pn_get_delimited from fuel p key d)).
Proof.
  induction 1 as [k N|k rest ks N P IH]; intros [|fuel] p F L; try (cbn in L; lia); cbn [pn_get_delimited].
  - rewrite find_delim_none by exact N. rewrite Z.eqb_refl. split; [|split].
    + intros u H. inversion H as [|? ? a v cs c ? Fi H']; subst. inversion H'; subst. apply get_key_first. exact Fi.
    + intros H. destruct p as [a v cs]. destruct (First_or_Absent k cs) as [[c Fi]|A]; [exfalso; apply (H c); econstructor; [exact Fi|constructor]|apply get_key_absent; exact A].
    + unfold pn_get_key, pn_find. destruct p as [a v cs]. cbn [pn_children]. pose proof (child_index_spec cs k) as X. destruct (child_index cs k) as [i|].
      * destruct X as (l & c & r & -> & <- & A). rewrite (with_child_split _ l k c r) by reflexivity. cbn. apply Touched_step; [exact A|]. destruct c. apply Touched_end.
      * cbn. apply Touched_missing. exact X.
  - destruct (find_delim_some k d rest N F) as (E1 & E2 & E3). cbn zeta in *. rewrite E1, E2, E3.
    assert (Fr : fits rest) by (unfold fits in *; rewrite app_length in F; cbn in F; lia). rewrite app_length in L. cbn in L.
    unfold pn_find. destruct p as [a v cs]. cbn [pn_children]. pose proof (child_index_spec cs k) as X. destruct (child_index cs k) as [i|].
    + destruct X as (l & c & r & -> & <- & A). rewrite (with_child_split _ l k c r) by reflexivity. cbn [snd fst pn_access pn_accessed pn_value pn_children].
      destruct (IH fuel c Fr ltac:(lia)) as (H1 & H2 & H3). assert (Fi : First k c (l ++ (k, c) :: r)) by (exists l, r; auto). split; [|split].
      * intros u H. inversion H as [|? ? ? ? ? c2 ? Fi2 H']; subst. rewrite (First_unique _ _ _ _ Fi Fi2) in *. apply H1. exact H'.
      * intros H. apply H2. intros u Hu. apply (H u). econstructor; eauto.
      * apply Touched_step; assumption.
    + cbn [snd fst]. split; [|split].
      * intros u H. inversion H as [|? ? ? ? ? c2 ? Fi2 H']; subst. exfalso. eapply First_not_Absent; eauto.
      * reflexivity.
      * apply Touched_missing. exact X.
Qed.
End GetD.

(* ---------- set_delimited ---------- *)
Lemma At_Same : forall ks t u t', Same t t' -> At ks t u -> exists u', At ks t' u' /\ Same u u'.
Proof.
  induction ks as [|k ks IH]; intros t u t' S H; inversion H as [|? ? a v cs c ? Fi H']; subst.
  - exists t'. split; [constructor|exact S].
  - inversion S as [? b ? ? d F]; subst. destruct (SameChildren_First _ _ _ _ F Fi) as (c' & Fi' & S'). destruct (IH c u c' S' H') as (u' & H2 & S2).
    exists u'. split; [econstructor; eauto|exact S2].
Qed.
Fixpoint is_prefix (a b : list str) : Prop :=
  match a, b with [], _ => True | x :: a', y :: b' => x = y /\ is_prefix a' b' | _, [] => False end.
Lemma is_prefix_app a b : is_prefix a b <-> exists c, b = a ++ c.
Proof.
  revert b. induction a as [|x a IH]; intros b; cbn [is_prefix app]; [split; [eauto|auto]|]. destruct b as [|y b]; [split; [tauto|intros [c E]; discriminate]|].
  rewrite IH. split; [intros [-> [c ->]]; exists c; reflexivity|intros [c E]; inversion E; subst; eauto].
Qed.

Definition agree (q : list str) (t t' : pnode) : Prop :=
  (forall u, At q t u -> exists u', At q t' u' /\ Same u u') /\ (forall u', At q t' u' -> exists u, At q t u /\ Same u u').
Lemma agree_Same q t t' : Same t t' -> agree q t t'.
Proof.
  intros S. split; intros u H; [eapply At_Same; eauto|]. destruct (At_Same _ _ _ _ (Same_sym _ _ S) H) as (u' & A & B). exists u'. split; [exact A|apply Same_sym, B].
Qed.

(* one step: the child k of t is replaced by f of it (or of an empty node) *)
Lemma or_add_spec {R} grow p k (g : pnode -> pnode * res R) :
  (exists l c r, pn_children p = l ++ (k, c) :: r /\ ~ In k (map fst l) /\
     pn_or_add grow p k g = (PN true (pn_value p) (l ++ (k, fst (g (pn_access c))) :: r), snd (g (pn_access c)))) \/
  (exists cs, Absent k (pn_children p) /\ SameChildren (pn_children p) cs /\
     pn_or_add grow p k g = (PN true (pn_value p) (cs ++ [(k, fst (g pn_empty))]), snd (g pn_empty))).
Proof.
  unfold pn_or_add, pn_find. cbn [pn_access pn_children]. pose proof (child_index_spec (pn_children p) k) as X. destruct (child_index (pn_children p) k) as [i|].
  - left. destruct X as (l & c & r & E & <- & N). exists l, c, r. split; [exact E|]. split; [exact N|]. rewrite (with_child_split _ l k c r) by exact E. reflexivity.
  - right. unfold pn_push_back. cbn [pn_access pn_children pn_accessed pn_value].
    set (cs := if grow _ then _ else _). assert (S : SameChildren (pn_children p) cs) by (unfold cs; destruct (grow _); [apply SameChildren_copy|apply SameChildren_refl]).
    exists cs. split; [exact X|]. split; [exact S|]. pose proof (Forall2_length _ _ _ S) as L. rewrite L.
    rewrite (with_child_split _ cs k pn_empty []) by reflexivity. reflexivity.
Qed.

Section SetD.
Variables (grow : nat -> bool) (d : ascii) (v : str).
Lemma set_delimited_spec key ks : Path d key ks -> forall fuel p, fits key -> length key < fuel ->
  let p' := fst (pn_set_delimited grow fuel p key v d) in
  snd (pn_set_delimited grow fuel p key v d) = Ok tt /\ pn_value p' = pn_value p /\
  (exists b, At ks p' (PN b v [])) /\
  (forall q, ~ is_prefix q ks -> ~ is_prefix ks q -> agree q p p') /\
  (forall q u, is_prefix q ks -> q <> ks -> At q p u -> exists u', At q p' u' /\ pn_value u' = pn_value u).
Proof.
  induction 1 as [k N|k rest ks N P IH]; intros [|fuel] p F L; try (cbn in L; lia); cbn [pn_set_delimited].
  - rewrite find_delim_none by exact N. rewrite Z.eqb_refl. cbn [fst snd]. split; [reflexivity|]. destruct p as [a w cs].
    destruct (First_or_Absent k cs) as [[c (l & r & -> & A)]|A].
    + rewrite (pn_set_old grow (PN a w (l ++ (k, c) :: r)) k v l c r eq_refl A). cbn [pn_value]. split; [reflexivity|]. split; [|split].
      * eexists. econstructor; [exists l, r; split; [reflexivity|exact A]|constructor].
      * intros q Q1 Q2. destruct q as [|k2 q]; [exfalso; apply Q1; exact I|]. cbn [is_prefix] in *.
        assert (NE : k2 <> k) by (intros ->; apply Q2; auto).
        split; intros u H; inversion H as [|? ? ? ? ? c2 ? Fi H']; subst; exists u; (split; [|apply Same_refl]); (econstructor; [|exact H']); [rewrite First_replace in Fi by assumption|rewrite First_replace by assumption]; exact Fi.
      * intros q u Q1 Q2 H. destruct q as [|k2 q]; [inversion H; subst; eexists; split; [constructor|reflexivity]|]. cbn [is_prefix] in Q1. destruct Q1 as [-> Q1]. destruct q; [contradiction|destruct Q1].
    + destruct (pn_set_new grow (PN a w cs) k v A) as (cs' & -> & S). cbn [pn_value pn_children] in *. split; [reflexivity|]. split; [|split].
      * eexists. econstructor; [apply First_last; rewrite <- (SameChildren_Absent _ _ k S); exact A|constructor].
      * intros q Q1 Q2. destruct q as [|k2 q]; [exfalso; apply Q1; exact I|]. cbn [is_prefix] in *.
        assert (NE : k2 <> k) by (intros ->; apply Q2; auto).
        split; intros u H; inversion H as [|? ? ? ? ? c2 ? Fi H']; subst.
        -- destruct (SameChildren_First _ _ _ _ S Fi) as (c3 & Fi3 & S3). destruct (At_Same _ _ _ _ S3 H') as (u' & A' & B). exists u'. split; [|exact B]. econstructor; [|exact A']. rewrite First_snoc by assumption. exact Fi3.
        -- rewrite First_snoc in Fi by assumption. destruct (SameChildren_First _ _ _ _ (SameChildren_sym _ _ S) Fi) as (c3 & Fi3 & S3). destruct (At_Same _ _ _ _ S3 H') as (u' & A' & B).
           exists u'. split; [econstructor; eauto|apply Same_sym, B].
      * intros q u Q1 Q2 H. destruct q as [|k2 q]; [inversion H; subst; eexists; split; [constructor|reflexivity]|]. cbn [is_prefix] in Q1. destruct Q1 as [-> Q1]. destruct q; [contradiction|destruct Q1].
  - destruct (find_delim_some k d rest N F) as (E1 & E2 & E3). cbn zeta in *. rewrite E1, E2, E3.
    assert (Fr : fits rest) by (unfold fits in *; rewrite app_length in F; cbn in F; lia). rewrite app_length in L. cbn in L. destruct p as [a w cs].
    destruct (or_add_spec grow (PN a w cs) k (fun c => pn_set_delimited grow fuel c rest v d)) as [(l & c & r & E & A & ->)|(cs' & A & S & ->)]; cbn [pn_children pn_value fst snd] in *.
    + subst cs. destruct (IH fuel (pn_access c) Fr ltac:(lia)) as (H1 & H2 & H3 & H4 & H5). set (c' := fst (pn_set_delimited grow fuel (pn_access c) rest v d)) in *.
      assert (SA : Same c (pn_access c)) by (destruct c; apply Same_intro, SameChildren_refl).
      assert (Fi : First k c (l ++ (k, c) :: r)) by (exists l, r; auto). assert (Fi' : First k c' (l ++ (k, c') :: r)) by (exists l, r; auto).
      split; [exact H1|]. split; [reflexivity|]. split; [|split].
      * destruct H3 as [b H3]. exists b. econstructor; eauto.
      * intros q Q1 Q2. destruct q as [|k2 q]; [exfalso; apply Q1; exact I|]. cbn [is_prefix] in *. destruct (list_eq_dec ascii_dec k2 k) as [->|NE].
        -- assert (AG : agree q c c').
           { destruct (H4 q) as [G1 G2]; [tauto|tauto|]. destruct (agree_Same q _ _ SA) as [G3 G4]. split; intros u H.
             - destruct (G3 u H) as (u1 & A1 & S1). destruct (G1 u1 A1) as (u2 & A2 & S2). exists u2. split; [exact A2|eapply Same_trans; eauto].
             - destruct (G2 u H) as (u1 & A1 & S1). destruct (G4 u1 A1) as (u2 & A2 & S2). exists u2. split; [exact A2|eapply Same_trans; eauto]. }
           destruct AG as [G1 G2]. split; intros u H; inversion H as [|? ? ? ? ? c2 ? Fi2 H']; subst.
           ++ rewrite <- (First_unique _ _ _ _ Fi Fi2) in H'. destruct (G1 u H') as (u' & A' & B). exists u'. split; [econstructor; eauto|exact B].
           ++ rewrite <- (First_unique _ _ _ _ Fi' Fi2) in H'. destruct (G2 u H') as (u' & A' & B). exists u'. split; [econstructor; eauto|exact B].
        -- split; intros u H; inversion H as [|? ? ? ? ? c2 ? Fi2 H']; subst; exists u; (split; [|apply Same_refl]); (econstructor; [|exact H']); [rewrite First_replace in Fi2 by assumption|rewrite First_replace by assumption]; exact Fi2.
      * intros q u Q1 Q2 H. destruct q as [|k2 q]; [inversion H; subst; eexists; split; [constructor|reflexivity]|]. cbn [is_prefix] in Q1. destruct Q1 as [-> Q1].
        inversion H as [|? ? ? ? ? c2 ? Fi2 H']; subst. rewrite <- (First_unique _ _ _ _ Fi Fi2) in H'. destruct (At_Same _ _ _ _ SA H') as (u1 & A1 & S1).
        destruct (H5 q u1 Q1) as (u2 & A2 & V2); [congruence|exact A1|]. exists u2. split; [econstructor; eauto|]. rewrite V2. symmetry. apply Same_value, S1.
    + destruct (IH fuel pn_empty Fr ltac:(lia)) as (H1 & H2 & H3 & H4 & H5). set (c' := fst (pn_set_delimited grow fuel pn_empty rest v d)) in *.
      assert (A' : Absent k cs') by (rewrite <- (SameChildren_Absent _ _ k S); exact A). assert (Fi' : First k c' (cs' ++ [(k, c')])) by (apply First_last; exact A').
      split; [exact H1|]. split; [reflexivity|]. split; [|split].
      * destruct H3 as [b H3]. exists b. econstructor; eauto.
      * intros q Q1 Q2. destruct q as [|k2 q]; [exfalso; apply Q1; exact I|]. cbn [is_prefix] in *. destruct (list_eq_dec ascii_dec k2 k) as [->|NE].
        -- split; intros u H; inversion H as [|? ? ? ? ? c2 ? Fi2 H']; subst.
           ++ exfalso. eapply First_not_Absent; eauto.
           ++ rewrite <- (First_unique _ _ _ _ Fi' Fi2) in H'. exfalso. destruct (H4 q) as [_ G2]; [tauto|tauto|]. destruct (G2 u H') as (u' & A2 & _).
              inversion A2 as [|? ? ? ? ? c3 ? Fi3 H3']; subst; [apply Q1; split; [reflexivity|exact I]|]. destruct Fi3 as (l3 & r3 & E3' & _). destruct l3; discriminate.
        -- split; intros u H; inversion H as [|? ? ? ? ? c2 ? Fi2 H']; subst.
           ++ destruct (SameChildren_First _ _ _ _ S Fi2) as (c3 & Fi3 & S3). destruct (At_Same _ _ _ _ S3 H') as (u' & A2 & B). exists u'. split; [|exact B]. econstructor; [|exact A2]. rewrite First_snoc by assumption. exact Fi3.
           ++ rewrite First_snoc in Fi2 by assumption. destruct (SameChildren_First _ _ _ _ (SameChildren_sym _ _ S) Fi2) as (c3 & Fi3 & S3). destruct (At_Same _ _ _ _ S3 H') as (u' & A2 & B).
              exists u'. split; [econstructor; eauto|apply Same_sym, B].
      * intros q u Q1 Q2 H. destruct q as [|k2 q]; [inversion H; subst; eexists; split; [constructor|reflexivity]|]. cbn [is_prefix] in Q1. destruct Q1 as [-> Q1].
        inversion H as [|? ? ? ? ? c2 ? Fi2 H']; subst. exfalso. eapply First_not_Absent; eauto.
Qed.
End SetD.

(* ---------- try_get_child_delimited ---------- *)
Lemma try_delimited_spec d key ks : Path d key ks -> forall fuel p, fits key -> length key < fuel ->
  (forall u, At ks p u -> snd (pn_try_delimited fuel p key d) = Ok (Some (pn_access u))) /\
  ((forall u, ~ At ks p u) -> snd (pn_try_delimited fuel p key d) = Ok None) /\
  Touched ks p (fst (pn_try_delimited fuel p key d)).
Proof.
  assert (TA : forall ks c c', Touched ks (pn_access c) c' -> Touched ks c c').
  { intros ks0 [a v cs] c' H. inversion H; subst; constructor; assumption. }
  induction 1 as [k N|k rest ks N P IH]; intros [|fuel] p F L; try (cbn in L; lia); cbn [pn_try_delimited]; unfold pn_try, pn_find.
  - rewrite find_delim_none by exact N. rewrite Z.eqb_refl. destruct p as [a v cs]. cbn [pn_access pn_children].
    pose proof (child_index_spec cs k) as X. destruct (child_index cs k) as [i|].
    + destruct X as (l & c & r & -> & <- & A). rewrite (with_child_split _ l k c r) by reflexivity. cbn [fst snd pn_accessed pn_value].
      assert (Fi : First k c (l ++ (k, c) :: r)) by (exists l, r; auto). split; [|split].
      * intros u H. inversion H as [|? ? ? ? ? c2 ? Fi2 H']; subst. inversion H'; subst. rewrite (First_unique _ _ _ _ Fi Fi2). reflexivity.
      * intros H. exfalso. apply (H c). econstructor; [exact Fi|constructor].
      * apply Touched_step; [exact A|]. destruct c. apply Touched_end.
    + cbn [fst snd]. split; [|split; [reflexivity|apply Touched_missing; exact X]].
      intros u H. inversion H as [|? ? ? ? ? c2 ? Fi2 H']; subst. exfalso. eapply First_not_Absent; eauto.
  - destruct (find_delim_some k d rest N F) as (E1 & E2 & E3). cbn zeta in *. rewrite E1, E2, E3.
    assert (Fr : fits rest) by (unfold fits in *; rewrite app_length in F; cbn in F; lia). rewrite app_length in L. cbn in L.
    destruct p as [a v cs]. cbn [pn_access pn_children]. pose proof (child_index_spec cs k) as X. destruct (child_index cs k) as [i|].
    + destruct X as (l & c & r & -> & <- & A). rewrite (with_child_split _ l k c r) by reflexivity. cbn [snd fst pn_accessed pn_value].
      destruct (IH fuel (pn_access c) Fr ltac:(lia)) as (H1 & H2 & H3). assert (Fi : First k c (l ++ (k, c) :: r)) by (exists l, r; auto).
      assert (AT : forall u, At ks (pn_access c) u <-> At ks c u \/ (ks = [] /\ u = pn_access c)).
      { clear - P. intros u. pose proof (Path_nonempty _ _ _ P) as NE. destruct c as [b w ds]. split.
        - intros H. left. inversion H; subst; [contradiction|econstructor; eauto].
        - intros [H|[E _]]; [|contradiction]. inversion H; subst; [contradiction|econstructor; eauto]. }
      split; [|split].
      * intros u H. inversion H as [|? ? ? ? ? c2 ? Fi2 H']; subst. rewrite <- (First_unique _ _ _ _ Fi Fi2) in H'. apply H1. apply AT. left. exact H'.
      * intros H. apply H2. intros u Hu. apply AT in Hu as [Hu|[E _]]; [|exact (Path_nonempty _ _ _ P E)]. apply (H u). econstructor; eauto.
      * apply Touched_step; [exact A|]. apply TA. exact H3.
    + cbn [snd fst]. split; [|split; [reflexivity|apply Touched_missing; exact X]].
      intros u H. inversion H as [|? ? ? ? ? c2 ? Fi2 H']; subst. exfalso. eapply First_not_Absent; eauto.
Qed.

(* ---------- access marks ---------- *)
Lemma count_flags : forall t, count_unaccessed t = count_occ Bool.bool_dec (flags t) false.
Proof.
  induction t as [a v cs IH] using pnode_rect'. cbn [count_unaccessed flags count_occ].
  assert (X : fold_right (fun kc n => count_unaccessed (snd kc) + n) 0 cs = count_occ Bool.bool_dec (flat_map (fun kc => flags (snd kc)) cs) false).
  { induction IH as [|kc cs H _ IHc]; [reflexivity|]. cbn [fold_right flat_map]. rewrite count_occ_app, H, IHc. reflexivity. }
  rewrite X. destruct a; reflexivity.
Qed.
Lemma count_zero t : (0 <? count_unaccessed t) = existsb negb (flags t).
Proof.
  rewrite count_flags. induction (flags t) as [|b l IH]; [reflexivity|]. destruct b; cbn [count_occ existsb negb orb]; [|reflexivity].
  destruct (Bool.bool_dec true false); [discriminate|exact IH].
Qed.
Lemma flags_length_same : forall t u, Same t u -> length (flags t) = length (flags u).
Proof.
  induction t as [a v cs IH] using pnode_rect'. intros u H. inversion H as [? b ? ? d F]; subst. cbn [flags length]. f_equal. clear H.
  revert IH. induction F as [|x y c d [_ S] F IHF]; intros IH; [reflexivity|]. inversion IH; subst. cbn [flat_map]. rewrite !app_length. f_equal; auto.
Qed.
Lemma clear_same : forall t, Same t (clear_accessed t).
Proof.
  induction t as [a v cs IH] using pnode_rect'. constructor. induction IH as [|kc cs H _ IHc]; cbn [map]; constructor; [split; [reflexivity|exact H]|exact IHc].
Qed.
Lemma clear_flags : forall t, flags (clear_accessed t) = repeat false (length (flags t)).
Proof.
  induction t as [a v cs IH] using pnode_rect'. cbn [clear_accessed flags length repeat]. f_equal.
  induction IH as [|kc cs H _ IHc]; [reflexivity|]. cbn [map flat_map snd]. rewrite app_length, repeat_app, H, IHc. reflexivity.
Qed.
Definition report_line (n : nat * str * pnode) : str :=
  let '(depth, k, t) := n in repeat " "%char (2 * depth) ++ k ++
    match t with
    | PN true _ _ => []
    | PN false [] _ => [" "; "*"]%char
    | PN false v _ => [" "; "="; " "]%char ++ v ++ [" "; "*"]%char
    end.
Lemma log_spec : forall t depth,
  Same t (fst (log_unaccessed t depth)) /\ flags (fst (log_unaccessed t depth)) = repeat true (length (flags t)) /\
  snd (log_unaccessed t depth) = map report_line (filter (fun n => existsb negb (flags (snd n))) (below depth t)).
Proof.
  induction t as [a v cs IH] using pnode_rect'. intros depth. cbn [log_unaccessed fst snd flags below].
  set (f := fun kc : str * pnode => _). 
  assert (X : SameChildren cs (map fst (map f cs)) /\ flat_map (fun kc => flags (snd kc)) (map fst (map f cs)) = repeat true (length (flat_map (fun kc => flags (snd kc)) cs)) /\
    concat (map snd (map f cs)) = map report_line (filter (fun n => existsb negb (flags (snd n))) (flat_map (fun kc => (depth, fst kc, snd kc) :: below (S depth) (snd kc)) cs))).
  { induction IH as [|[k n] cs H _ (I1 & I2 & I3)]; [split; [constructor|split; reflexivity]|]. destruct (H (S depth)) as (H1 & H2 & H3). cbn [snd] in H1, H2, H3. cbn [map flat_map concat].
    unfold f at 1 3 5. cbn [fst snd]. destruct (log_unaccessed n (S depth)) as [n' rest] eqn:E. cbn [fst snd] in *. split; [|split].
    - constructor; [split; [reflexivity|exact H1]|exact I1].
    - rewrite H2, I2, app_length, repeat_app. reflexivity.
    - rewrite I3, H3. cbn [app filter]. rewrite filter_app. cbn [snd]. rewrite <- count_zero. rewrite <- app_assoc. destruct (0 <? count_unaccessed n); cbn [map app]; rewrite map_app; [|reflexivity].
      f_equal. destruct n as [b w ds]. unfold report_line, has_value. cbn [pn_accessed pn_value]. rewrite (Nat.mul_comm 2).
      destruct b; [reflexivity|]. destruct w; [reflexivity|]. reflexivity. }
  destruct X as (X1 & X2 & X3). split; [constructor; exact X1|]. split; [cbn [length repeat]; f_equal; exact X2|exact X3].
Qed.
Lemma all_marked_quiet : forall t depth, flags t = repeat true (length (flags t)) -> snd (log_unaccessed t depth) = [].
Proof.
  intros t depth H. destruct (log_spec t depth) as (_ & _ & ->). 
  assert (X : forall t depth n, In n (below depth t) -> incl (flags (snd n)) (flags t)).
  { clear. induction t as [a v cs IH] using pnode_rect'. intros depth n I. cbn [below] in I. apply in_flat_map in I as ([k c] & I1 & I2). cbn [fst snd] in I2.
    rewrite Forall_forall in IH. specialize (IH (k, c) I1). cbn [snd] in IH. intros b B. cbn [flags]. right. apply in_flat_map. exists (k, c). split; [exact I1|]. cbn [snd].
    destruct I2 as [<-|I2]; [exact B|]. eapply IH; eauto. }
  replace (filter _ (below depth t)) with (@nil (nat * str * pnode)); [reflexivity|]. symmetry.
  assert (A : forall n, In n (below depth t) -> existsb negb (flags (snd n)) = false).
  { intros n I. apply Bool.not_true_is_false. intros E. apply existsb_exists in E as (b & B1 & B2). apply (X _ _ _ I) in B1. rewrite H in B1. apply repeat_spec in B1. subst. discriminate. }
  induction (below depth t) as [|n ns IH]; [reflexivity|]. cbn [filter]. rewrite (A n) by (left; reflexivity). apply IH. intros m I. apply A. right. exact I.
Qed.

(* Touched: exactly the marks on the way *)
Lemma Touched_Same : forall ks t t', Touched ks t t' -> Same t t'.
Proof.
  induction 1; [apply Same_intro, SameChildren_refl|apply Same_intro, SameChildren_refl|]. apply Same_intro. apply Forall2_app; [apply SameChildren_refl|].
  constructor; [split; [reflexivity|assumption]|apply SameChildren_refl].
Qed.

(* ---------- merging ---------- *)
Lemma First_cons_ne k k2 c (cs : children_t) x : k2 <> k -> (First k2 x ((k, c) :: cs) <-> First k2 x cs).
Proof.
  intros N. split; intros (l & r & E & A).
  - destruct l as [|y l]; inversion E; subst; [contradiction|]. exists l, r. split; [reflexivity|]. intros X. apply A. right. exact X.
  - subst. exists ((k, c) :: l), r. split; [reflexivity|]. intros [X|X]; [cbn in X; congruence|contradiction].
Qed.
Lemma Absent_cons k k2 c (cs : children_t) : Absent k2 ((k, c) :: cs) <-> k2 <> k /\ Absent k2 cs.
Proof. unfold Absent. cbn. intuition. Qed.

Lemma pn_access_Same t : Same t (pn_access t).
Proof. destruct t. apply Same_intro, SameChildren_refl. Qed.

(* one round of the loop *)
Definition merge_step (grow : nat -> bool) (p : pnode) (k : str) (o : pnode) (overwrite : bool) : pnode :=
  match pn_find p k with
  | (p1, None) => pn_push_back grow p1 k (pn_copy o)
  | (p1, Some i) => if overwrite then fst (with_child p1 i (fun c => (pn_assign c o, Ok tt))) else p1
  end.
Lemma pn_assign_Same c o : Same o (pn_assign c o).
Proof. destruct c, o. unfold pn_assign. cbn. apply Same_intro. apply SameChildren_copy. Qed.
Lemma merge_step_spec grow p k o ow : let p' := merge_step grow p k o ow in
  pn_value p' = pn_value p /\
  map fst (pn_children p') = map fst (pn_children p) ++ fresh (map fst (pn_children p)) [k] /\
  (forall k2, k2 <> k -> (forall x, First k2 x (pn_children p) -> exists y, First k2 y (pn_children p') /\ Same x y)) /\
  (Absent k (pn_children p) -> exists y, First k y (pn_children p') /\ Same o y) /\
  (forall x, First k x (pn_children p) -> exists y, First k y (pn_children p') /\ Same (if ow then o else x) y).
Proof.
  unfold merge_step, pn_find. cbn zeta. cbn [fresh]. destruct p as [a v cs]. cbn [pn_children pn_access pn_value].
  pose proof (child_index_spec cs k) as X. destruct (child_index cs k) as [i|].
  - destruct X as (l & c & r & -> & <- & N). assert (Fi : First k c (l ++ (k, c) :: r)) by (exists l, r; auto).
    destruct (in_dec (list_eq_dec ascii_dec) k (map fst (l ++ (k, c) :: r))) as [_|NI]; [|exfalso; apply NI; rewrite map_app; apply in_or_app; right; left; reflexivity].
    rewrite app_nil_r. destruct ow.
    + rewrite (with_child_split _ l k c r) by reflexivity. cbn [fst pn_value pn_children]. split; [reflexivity|]. split; [rewrite !map_app; reflexivity|].
      split; [intros k2 NE x F; exists x; split; [rewrite First_replace in F by exact NE; exact F|apply Same_refl]|].
      split; [intros A; exfalso; eapply First_not_Absent; eauto|]. intros x _. eexists. split; [exists l, r; split; [reflexivity|exact N]|apply pn_assign_Same].
    + cbn [pn_value pn_children]. split; [reflexivity|]. split; [reflexivity|]. split; [intros k2 _ x F; exists x; split; [exact F|apply Same_refl]|].
      split; [intros A; exfalso; eapply First_not_Absent; eauto|]. intros x F. exists x. split; [exact F|apply Same_refl].
  - destruct (in_dec (list_eq_dec ascii_dec) k (map fst cs)) as [I|_]; [contradiction|]. unfold pn_push_back. cbn [pn_children pn_value pn_accessed pn_access].
    set (cs' := if grow _ then _ else _). assert (S : SameChildren cs cs') by (unfold cs'; destruct (grow _); [apply SameChildren_copy|apply SameChildren_refl]).
    split; [reflexivity|]. split; [rewrite map_app, <- (SameChildren_keys _ _ S); reflexivity|].
    split; [|split].
    + intros k2 NE x F. destruct (SameChildren_First _ _ _ _ S F) as (y & F2 & S2). exists y. split; [rewrite First_snoc by exact NE; exact F2|exact S2].
    + intros _. exists (pn_copy o). split; [apply First_last; rewrite <- (SameChildren_Absent _ _ k S); exact X|apply Same_copy].
    + intros x F. exfalso. eapply First_not_Absent; eauto.
Qed.
Lemma fresh_split seen k ks : fresh seen (k :: ks) = fresh seen [k] ++ fresh (seen ++ fresh seen [k]) ks.
Proof. cbn [fresh]. destruct (in_dec _ k seen); cbn [app]; [rewrite app_nil_r|]; reflexivity. Qed.
Lemma Last_cons_inv k k0 c (os : children_t) o : Last k c ((k0, o) :: os) -> (Last k c os) \/ (k = k0 /\ c = o /\ Absent k os).
Proof. intros ([|y l] & r & E & A); inversion E; subst; [right; auto|left; exists l, r; auto]. Qed.
Lemma merge_loop_spec grow ow : forall os p, let p' := merge_loop grow p os ow in
  pn_value p' = pn_value p /\
  map fst (pn_children p') = map fst (pn_children p) ++ fresh (map fst (pn_children p)) (map fst os) /\
  (forall k x, First k x (pn_children p) -> ow = false \/ Absent k os -> exists y, First k y (pn_children p') /\ Same x y) /\
  (forall k o, ow = false -> Absent k (pn_children p) -> First k o os -> exists y, First k y (pn_children p') /\ Same o y) /\
  (forall k o, ow = true -> Last k o os -> exists y, First k y (pn_children p') /\ Same o y).
Proof.
  induction os as [|[k0 o0] os IH]; intros p.
  - cbn [merge_loop map fresh]. cbn zeta. rewrite app_nil_r. split; [reflexivity|]. split; [reflexivity|]. split; [intros k x F _; exists x; split; [exact F|apply Same_refl]|].
    split; intros k o _; [intros _ (l & r & E & _)|intros (l & r & E & _)]; destruct l; discriminate.
  - cbn [merge_loop]. fold (merge_step grow p k0 o0 ow). destruct (merge_step_spec grow p k0 o0 ow) as (V1 & K1 & O1 & N1 & P1). cbn zeta in *.
    set (p1 := merge_step grow p k0 o0 ow) in *. destruct (IH p1) as (V2 & K2 & O2 & N2 & P2). cbn zeta in *. set (p2 := merge_loop grow p1 os ow) in *.
    split; [congruence|]. split; [rewrite K2, K1, <- app_assoc; cbn [map fst]; rewrite (fresh_split _ k0 (map fst os)); reflexivity|].
    split; [|split].
    + intros k x F C. destruct (list_eq_dec ascii_dec k k0) as [->|NE].
      * destruct C as [C|A]; [|exfalso; apply Absent_cons in A; tauto]. destruct (P1 x F) as (y & F1 & S1). rewrite C in S1. destruct (O2 k0 y F1) as (z & F2 & S2); [left; exact C|]. exists z. split; [exact F2|eapply Same_trans; eauto].
      * destruct (O1 k NE x F) as (y & F1 & S1). destruct (O2 k y F1) as (z & F2 & S2); [destruct C as [C|A]; [left; exact C|right; apply Absent_cons in A; apply A]|]. exists z. split; [exact F2|eapply Same_trans; eauto].
    + intros k o E A F. destruct (list_eq_dec ascii_dec k k0) as [->|NE].
      * assert (o = o0) as -> by (apply (First_unique k0 o o0 ((k0, o0) :: os) F); exists [], os; split; [reflexivity|intros []]).
        destruct (N1 A) as (y & F1 & S1). destruct (O2 k0 y F1) as (z & F2 & S2); [left; exact E|]. exists z. split; [exact F2|eapply Same_trans; eauto].
      * apply (N2 k o E); [|rewrite First_cons_ne in F by exact NE; exact F]. unfold Absent in *. rewrite K1, in_app_iff. intros [I|I]; [contradiction|]. cbn [fresh] in I. destruct (in_dec _ k0 _); [destruct I|destruct I as [I|[]]; congruence].
    + intros k o E L. apply Last_cons_inv in L as [L|(-> & -> & A)]; [apply P2; assumption|].
      assert (X : exists y, First k0 y (pn_children p1) /\ Same o0 y).
      { destruct (First_or_Absent k0 (pn_children p)) as [[x F]|A']; [|apply N1; exact A']. destruct (P1 x F) as (y & F1 & S1). rewrite E in S1. eauto. }
      destruct X as (y & F1 & S1). destruct (O2 k0 y F1) as (z & F2 & S2); [right; exact A|]. exists z. split; [exact F2|eapply Same_trans; eauto].
Qed.
