From Coq Require Import String.
From Verif Require Import Model.Base Proofs.BaseFacts Model.StdString Model.Strings Model.Number Model.StringCast Model.Path Model.PropTree Model.PropNode Model.Include
  Spec.Strings Spec.PropNode Spec.Include Proofs.StringFacts Proofs.PathProofs Proofs.DictionaryProofs Proofs.PropNodeProofs.
Local Open Scope list_scope.
Local Open Scope nat_scope.

(* run always ends with the same outcome once it has enough fuel *)
Definition settles {A} (run : nat -> res A) (Q : A -> Prop) : Prop :=
  exists f0 r, r <> OutOfFuel /\ (forall f, f0 <= f -> run f = r) /\ (forall a, r = Ok a -> Q a).
Lemma settles_impl {A} (run : nat -> res A) (P Q : A -> Prop) : (forall a, P a -> Q a) -> settles run P -> settles run Q.
Proof. intros H (f0 & r & N & E & X). exists f0, r. auto. Qed.
Lemma settles_ret {A} (a : A) (Q : A -> Prop) : Q a -> settles (fun _ => Ok a) Q.
Proof. intros H. exists 0, (Ok a). split; [discriminate|]. split; [reflexivity|]. intros b E. injection E as <-. exact H. Qed.
Lemma settles_throw {A} (Q : A -> Prop) : settles (fun _ => @Throw A) Q.
Proof. exists 0, Throw. split; [discriminate|]. split; [reflexivity|]. discriminate. Qed.
Lemma settles_bind {A B} (run : nat -> res A) (k : nat -> A -> res B) P Q : settles run P -> (forall a, P a -> settles (fun f => k f a) Q) -> settles (fun f => bind (run f) (k f)) Q.
Proof.
  intros (f0 & r & N & E & X) H. destruct r as [a| | |]; [|exists f0, Throw|exists f0, UB|contradiction].
  - destruct (H a (X a eq_refl)) as (f1 & r1 & N1 & E1 & X1). exists (max f0 f1), r1. split; [exact N1|]. split; [|exact X1]. intros f L. rewrite E by lia. cbn [bind]. apply E1. lia.
  - split; [discriminate|]. split; [|discriminate]. intros f L. rewrite E by lia. reflexivity.
  - split; [discriminate|]. split; [|discriminate]. intros f L. rewrite E by lia. reflexivity.
Qed.
Lemma settles_const {A} (r : res A) (Q : A -> Prop) : r <> OutOfFuel -> (forall a, r = Ok a -> Q a) -> settles (fun _ => r) Q.
Proof. intros N H. exists 0, r. auto. Qed.
Lemma settles_S {A} (run : nat -> res A) Q : settles (fun f => run (S f)) Q -> settles run Q.
Proof. intros (f0 & r & N & E & X). exists (S f0), r. split; [exact N|]. split; [|exact X]. intros [|f] L; [lia|]. apply E. lia. Qed.
Lemma settles_ext {A} (run run' : nat -> res A) Q : (forall f, run f = run' f) -> settles run Q -> settles run' Q.
Proof. intros H (f0 & r & N & E & X). exists f0, r. split; [exact N|]. split; [|exact X]. intros f L. rewrite <- H. apply E. exact L. Qed.

Lemma include_target_total fn c : include_target fn c <> OutOfFuel.
Proof.
  unfold include_target, parent_path. destruct (last_separator_pos fn =? npos)%Z; cbn [bind]; [|unfold substr; destruct (size_ fn <? 0)%Z; cbn [bind]; [discriminate|]];
  unfold pn_get_key, pn_get_default, pn_find; (destruct (child_index (pn_children c) _) as [i|] eqn:E1; [|cbn; discriminate]);
  (pose proof (child_index_spec (pn_children c) ["f"; "i"; "l"; "e"]%char) as X; rewrite E1 in X; destruct X as (l & d & r & E & <- & _));
  rewrite (with_child_split _ l _ d r) by exact E; cbn [snd pn_get bind];
  (destruct (child_index (pn_children c) ["m"; "e"; "r"; "g"; "e"; "_"; "c"; "h"; "i"; "l"; "d"; "r"; "e"; "n"]%char) as [j|] eqn:E2; [|cbn; discriminate]);
  (pose proof (child_index_spec (pn_children c) ["m"; "e"; "r"; "g"; "e"; "_"; "c"; "h"; "i"; "l"; "d"; "r"; "e"; "n"]%char) as X; rewrite E2 in X; destruct X as (l' & d' & r' & E' & <- & _));
  rewrite (with_child_split _ l' _ d' r') by exact E'; cbn; discriminate.
Qed.

Lemma Adds_perm ks os ext : Adds ks os ext -> forall ks', (forall x, In x ks <-> In x ks') -> Adds ks' os ext.
Proof.
  induction 1 as [ks|ks k o os ext I A IH|ks k o os ext N A IH]; intros ks' H; [constructor|apply Adds_taken; [apply H; exact I|apply IH; exact H]|].
  apply Adds_new; [intros C; apply N, H; exact C|]. apply IH. intros x. cbn. rewrite H. reflexivity.
Qed.
Lemma beside_spec fn name target : fits fn -> Beside fn name target -> exists d, parent_path fn = Ok d /\ join_path d name = target.
Proof.
  intros F B. destruct B as [fn name H|a s b name I H NA NE].
  - exists []. destruct (parent_filename fn F) as [X _]. destruct (X H) as (E & _). split; [exact E|reflexivity].
  - exists a. destruct (parent_filename _ F) as [_ X]. destruct (X a s b eq_refl I H) as (E & _). split; [exact E|]. unfold join_path.
    assert (FA : fits a) by (unfold fits in *; rewrite app_length in F; cbn in F; lia). destruct (has_filename a) eqn:HF; [reflexivity|]. apply has_filename_iff in HF; [|exact FA]. destruct HF as [->|(q & c & -> & Ic)]; [contradiction|]. exfalso. apply NE. exists q, c. auto.
Qed.
Lemma asks_target fn c target : Asks fn c target -> include_target fn c = Ok (target, false).
Proof.
  intros (F & A & n & FN & B). destruct (beside_spec _ _ _ F B) as (d & E1 & E2). unfold include_target. rewrite E1. cbn [bind].
  change ["f"; "i"; "l"; "e"]%char with (list_ascii_of_string "file"). rewrite (get_key_first Ok c _ n FN). cbn [bind].
  change ["m"; "e"; "r"; "g"; "e"; "_"; "c"; "h"; "i"; "l"; "d"; "r"; "e"; "n"]%char with (list_ascii_of_string "merge_children").
  rewrite (get_default_absent _ c _ false A). cbn [bind]. rewrite E2. reflexivity.
Qed.
Lemma asks_merge_target fn c target : AsksMerge fn c target -> include_target fn c = Ok (target, true).
Proof.
  intros (F & (m & FM & VM) & n & FN & B). destruct (beside_spec _ _ _ F B) as (d & E1 & E2). unfold include_target. rewrite E1. cbn [bind].
  change ["f"; "i"; "l"; "e"]%char with (list_ascii_of_string "file"). rewrite (get_key_first Ok c _ n FN). cbn [bind].
  change ["m"; "e"; "r"; "g"; "e"; "_"; "c"; "h"; "i"; "l"; "d"; "r"; "e"; "n"]%char with (list_ascii_of_string "merge_children").
  rewrite (get_default_first _ c _ m false FM). rewrite VM. cbn [bind]. rewrite E2. reflexivity.
Qed.
Lemma merge_adds os : forall a v cs, exists ext a', Adds (map fst cs) os ext /\ merge_loop (fun _ => false) (PN a v cs) os false = PN a' v (cs ++ map (fun kc => (fst kc, pn_copy (snd kc))) ext).
Proof.
  induction os as [|[k o] os IH]; intros a v cs.
  - exists [], a. split; [constructor|]. cbn. rewrite app_nil_r. reflexivity.
  - cbn [merge_loop]. unfold pn_find. cbn [pn_children pn_access]. pose proof (child_index_none cs k) as X. destruct (child_index cs k) eqn:E.
    + destruct (IH true v cs) as (ext & a' & A & R). exists ext, a'. split; [|exact R]. apply Adds_taken; [|exact A]. destruct (in_dec (list_eq_dec ascii_dec) k (map fst cs)) as [I|N]; [exact I|]. apply X in N. discriminate.
    + destruct (IH true v (cs ++ [(k, pn_copy o)])) as (ext & a' & A & R). exists ((k, o) :: ext), a'. assert (N : ~ In k (map fst cs)) by (apply X; reflexivity). split.
      * apply Adds_new; [exact N|]. clear - A. rewrite map_app in A. cbn [map fst] in A. refine (Adds_perm _ _ _ A _ _). intros x. rewrite in_app_iff. cbn. tauto.
      * change (pn_push_back (fun _ => false) (pn_access (PN a v cs)) k (pn_copy o)) with (PN true v (cs ++ [(k, pn_copy o)])). rewrite R. rewrite <- app_assoc. reflexivity.
Qed.

Section Inc.
Context (files : str -> res pnode) (directive : str).
Notation Free := (Included directive).
Notation resolve := (resolve files directive).
Notation resolve_loop := (resolve_loop files directive).
Notation load := (load_with_include files directive).

Lemma resolve_S f a v cs fn level : resolve (S f) (PN a v cs) fn level = resolve_loop f a v [] cs fn level.
Proof. reflexivity. Qed.
Lemma loop_nil f a v pre fn level : resolve_loop (S f) a v pre [] fn level = Ok (PN a v pre).
Proof. reflexivity. Qed.
Lemma loop_plain f a v pre k c post fn level : k <> directive ->
  resolve_loop (S f) a v pre ((k, c) :: post) fn level = let* c' := resolve f c fn level in resolve_loop f a v (pre ++ [(k, c')]) post fn level.
Proof. intros N. cbn [Include.resolve_loop]. destruct (str_eqb_spec k directive); [contradiction|reflexivity]. Qed.
Lemma loop_include f a v pre c post fn level :
  resolve_loop (S f) a v pre ((directive, c) :: post) fn level =
  let* (target, merge) := include_target fn c in
  let* included := load f target (S level) in
  match pn_children included with
  | [(ik, ic)] => if merge then resolve_loop f a v [] (pn_children (merge_prop_nodes (fun _ => false) (PN a v (pre ++ post)) ic false)) fn level
                  else resolve_loop f a v pre ((ik, pn_copy ic) :: post) fn level
  | _ => Throw
  end.
Proof. cbn [Include.resolve_loop]. destruct (str_eqb_spec directive directive); [reflexivity|congruence]. Qed.
Lemma load_S f fn level : load (S f) fn level = if 100 <=? level then Throw else let* pn := files fn in let* pn' := resolve f pn fn level in Ok (clear_accessed pn').
Proof. reflexivity. Qed.

Lemma Free_copy t : Free t -> Free (pn_copy t).
Proof.
  induction t as [a v cs IH] using pnode_rect'. intros H. inversion H as [? ? ? F]; subst. cbn [pn_copy]. constructor. clear H.
  induction IH as [|[k c] cs H _ IHc]; cbn [map]; constructor; inversion F as [|? ? [N X] F']; subst; [split; [exact N|apply H; exact X]|apply IHc; exact F'].
Qed.
Lemma Free_clear t : Free t -> Free (clear_accessed t).
Proof.
  induction t as [a v cs IH] using pnode_rect'. intros H. inversion H as [? ? ? F]; subst. cbn [clear_accessed]. constructor. clear H.
  induction IH as [|[k c] cs H _ IHc]; cbn [map]; constructor; inversion F as [|? ? [N X] F']; subst; [split; [exact N|apply H; exact X]|apply IHc; exact F'].
Qed.

(* a tree without directives is left alone *)
Lemma resolve_free_ok t : Free t -> forall fn level, exists f0, forall f, f0 <= f -> resolve f t fn level = Ok t.
Proof.
  induction t as [a v cs IH] using pnode_rect'. intros H fn level. inversion H as [? ? ? F]; subst.
  assert (X : forall pre, exists f0, forall f, f0 <= f -> resolve_loop f a v pre cs fn level = Ok (PN a v (pre ++ cs))).
  { clear H. induction IH as [|[k c] cs H _ IHc]; intros pre.
    - exists 1. intros [|f] L; [lia|]. rewrite loop_nil, app_nil_r. reflexivity.
    - inversion F as [|? ? [N X] F']; subst. cbn [fst snd] in *. destruct (H X fn level) as [f1 E1]. destruct (IHc F' (pre ++ [(k, c)])) as [f2 E2].
      exists (S (max f1 f2)). intros [|f] L; [lia|]. rewrite loop_plain by exact N. rewrite E1 by lia. cbn [bind]. rewrite E2 by lia. rewrite <- app_assoc. reflexivity. }
  destruct (X []) as [f0 E]. exists (S f0). intros [|f] L; [lia|]. rewrite resolve_S. apply E. lia.
Qed.
Lemma resolve_free t : Free t -> forall fn level, settles (fun f => resolve f t fn level) (fun t' => t' = t).
Proof. intros H fn level. destruct (resolve_free_ok t H fn level) as [f0 E]. exists f0, (Ok t). split; [discriminate|]. split; [exact E|]. congruence. Qed.

Lemma merge_free p ic : exists ext, pn_children (merge_prop_nodes (fun _ => false) p ic false) = pn_children p ++ ext /\
  Forall (fun kc => exists o, In (fst kc, o) (pn_children ic) /\ snd kc = pn_copy o) ext.
Proof.
  unfold merge_prop_nodes. generalize (incl_refl (pn_children ic)). generalize (pn_children ic) at 1 3 as os. intros os. revert p. induction os as [|[k o] os IH]; intros p I.
  - exists []. cbn. rewrite app_nil_r. split; [reflexivity|constructor].
  - cbn [merge_loop]. unfold pn_find. assert (I2 : incl os (pn_children ic)) by (intros x X; apply I; right; exact X). destruct (child_index (pn_children p) k).
    + destruct (IH (pn_access p) I2) as (ext & E & F). exists ext. split; [exact E|exact F].
    + destruct (IH (pn_push_back (fun _ => false) (pn_access p) k (pn_copy o)) I2) as (ext & E & F). exists ((k, pn_copy o) :: ext). split; [rewrite E; unfold pn_push_back; cbn [pn_children pn_access]; rewrite <- app_assoc; reflexivity|].
      constructor; [exists o; split; [apply I; left; reflexivity|reflexivity]|exact F].
Qed.

Fixpoint directives (cs : list (str * pnode)) : nat :=
  match cs with [] => 0 | (k, _) :: cs' => (if str_eqb k directive then 1 else 0) + directives cs' end.
Lemma directives_app a b : directives (a ++ b) = directives a + directives b.
Proof. induction a as [|[k c] a IH]; [reflexivity|]. cbn [app directives]. lia. Qed.
Lemma directives_free cs : Forall (fun kc => fst kc <> directive) cs -> directives cs = 0.
Proof. induction 1 as [|[k c] cs H _ IH]; [reflexivity|]. cbn [directives fst] in *. destruct (str_eqb_spec k directive); [contradiction|]. exact IH. Qed.

Section Level.
Variable level : nat.
Hypothesis IHload : forall fn, settles (fun f => load f fn (S level)) Free.

Lemma loop_settles fn a v : forall n m pre post, directives post <= n -> length post <= m ->
  Forall (fun kc => fst kc <> directive /\ Free (snd kc)) pre ->
  Forall (fun kc => fst kc = directive \/ settles (fun f => resolve f (snd kc) fn level) Free) post ->
  settles (fun f => resolve_loop f a v pre post fn level) Free.
Proof.
  induction n as [n IHn] using (well_founded_induction lt_wf). induction m as [|m IHm]; intros pre post D L PRE POST.
  - destruct post; [|cbn in L; lia]. apply settles_S. eapply settles_ext; [intros f; symmetry; apply loop_nil|]. apply settles_ret. constructor. exact PRE.
  - destruct post as [|[k c] post].
    { apply settles_S. eapply settles_ext; [intros f; symmetry; apply loop_nil|]. apply settles_ret. constructor. exact PRE. }
    cbn [length] in L. inversion POST as [|? ? H1 H2]; subst. cbn [fst snd] in H1. cbn [directives] in D. destruct (str_eqb_spec k directive) as [->|NK].
    + apply settles_S. eapply settles_ext; [intros f; symmetry; apply loop_include|].
      eapply (settles_bind (fun _ => include_target fn c) _ (fun _ => True)); [apply settles_const; [apply include_target_total|auto]|]. intros [target merge] _.
      eapply settles_bind; [apply IHload|]. intros inc FI. destruct inc as [ia iv ics]. cbn [pn_children]. inversion FI as [? ? ? FI2]; subst.
      destruct ics as [|[ik ic] [|y ics]]; [apply settles_throw| |apply settles_throw]. inversion FI2 as [|? ? [NI FIC] _]; subst. cbn [fst snd] in NI, FIC.
      destruct merge.
      * destruct (merge_free (PN a v (pre ++ post)) ic) as (ext & E & EX). rewrite E. cbn [pn_children]. inversion FIC as [? ? ics' FIC2]; subst. cbn [pn_children] in EX.
        assert (EXF : Forall (fun kc => fst kc <> directive /\ Free (snd kc)) ext).
        { eapply Forall_impl; [|exact EX]. intros kc (o & I & ->). rewrite Forall_forall in FIC2. destruct (FIC2 _ I) as [X Y]. split; [exact X|apply Free_copy; exact Y]. }
        assert (FS : forall l, Forall (fun kc => fst kc <> directive /\ Free (snd kc)) l -> Forall (fun kc => fst kc = directive \/ settles (fun f => resolve f (snd kc) fn level) Free) l).
        { intros l H. eapply Forall_impl; [|exact H]. intros kc [_ X]. right. eapply settles_impl; [|apply resolve_free; exact X]. intros t ->. exact X. }
        apply (IHn (n - 1)) with (m := length ((pre ++ post) ++ ext)); [lia| |lia|constructor|].
        -- rewrite !directives_app, (directives_free pre), (directives_free ext); [lia|eapply Forall_impl; [|exact EXF]; tauto|eapply Forall_impl; [|exact PRE]; tauto].
        -- apply Forall_app. split; [apply Forall_app; split; [apply FS; exact PRE|exact H2]|apply FS; exact EXF].
      * apply (IHn (n - 1)) with (m := S (length post)); [lia| |cbn; lia|exact PRE|].
        -- cbn [directives]. destruct (str_eqb_spec ik directive); [contradiction|]. lia.
        -- constructor; [|exact H2]. right. cbn [snd]. eapply settles_impl; [|apply resolve_free; apply Free_copy; exact FIC]. intros t ->. apply Free_copy. exact FIC.
    + destruct H1 as [H1|H1]; [contradiction|]. apply settles_S. eapply settles_ext; [intros f; symmetry; apply loop_plain; exact NK|].
      eapply settles_bind; [exact H1|]. intros c' FC. apply IHm; [lia|lia| |exact H2]. apply Forall_app. split; [exact PRE|]. constructor; [split; assumption|constructor].
Qed.
Lemma resolve_settles fn t : settles (fun f => resolve f t fn level) Free.
Proof.
  induction t as [a v cs IH] using pnode_rect'. apply settles_S. eapply settles_ext; [intros f; symmetry; apply resolve_S|].
  apply (loop_settles fn a v (directives cs) (length cs)); auto. eapply Forall_impl; [|exact IH]. intros kc H. right. exact H.
Qed.
End Level.

Lemma load_settles : (forall p, files p <> OutOfFuel) -> forall n level fn, 100 - level <= n -> settles (fun f => load f fn level) Free.
Proof.
  intros FT. induction n as [|n IH]; intros level fn L; apply settles_S; (eapply settles_ext; [intros f; symmetry; apply load_S|]).
  - destruct (Nat.leb_spec 100 level); [apply settles_throw|lia].
  - destruct (Nat.leb_spec 100 level); [apply settles_throw|]. eapply (settles_bind (fun _ => files fn) _ (fun _ => True)); [apply settles_const; [apply FT|auto]|]. intros pn _.
    eapply settles_bind; [apply resolve_settles; intros fn'; apply IH; lia|]. intros t F. apply settles_ret. apply Free_clear. exact F.
Qed.

(* cycles *)
Lemma cycle_throws (S0 : str -> Prop) :
  (forall fn, S0 fn -> exists a v c rest target merge, files fn = Ok (PN a v ((directive, c) :: rest)) /\ include_target fn c = Ok (target, merge) /\ S0 target) ->
  forall n level fn, 100 - level <= n -> S0 fn -> exists f0, forall f, f0 <= f -> load f fn level = Throw.
Proof.
  intros H. induction n as [|n IH]; intros level fn L I.
  - exists 1. intros [|f] LF; [lia|]. rewrite load_S. destruct (Nat.leb_spec 100 level); [reflexivity|lia].
  - destruct (Nat.leb_spec 100 level) as [G|G]; [exists 1; intros [|f] LF; [lia|]; rewrite load_S; destruct (Nat.leb_spec 100 level); [reflexivity|lia]|].
    destruct (H fn I) as (a & v & c & rest & target & merge & EF & ET & I2). destruct (IH (S level) target ltac:(lia) I2) as [f0 E]. exists (S (S (S f0))). intros [|[|[|f]]] LF; try lia.
    rewrite load_S. destruct (Nat.leb_spec 100 level); [lia|]. rewrite EF. cbn [bind]. rewrite resolve_S, loop_include, ET. cbn [bind]. rewrite E by lia. reflexivity.
Qed.

(* plain includes *)
Context (Names : str -> pnode -> str -> Prop) (Names_target : forall fn c target, Names fn c target -> include_target fn c = Ok (target, false)).
Scheme Loads_ind2 := Induction for Loads Sort Prop
  with Expands_ind2 := Induction for Expands Sort Prop.
Combined Scheme Loads_mutind from Loads_ind2, Expands_ind2.
Definition clearc (cs : list (str * pnode)) := map (fun kc => (fst kc, clear_accessed (snd kc))) cs.
Definition cleared (t : pnode) : Prop := clear_accessed t = t.
Definition clearedc (cs : list (str * pnode)) : Prop := clearc cs = cs.
Lemma copy_cleared : forall t, cleared t -> pn_copy t = t.
Proof.
  induction t as [a v cs IH] using pnode_rect'. unfold cleared. intros H. cbn [clear_accessed pn_copy] in *. injection H as -> H. f_equal.
  induction IH as [|[k c] cs Hc _ IHc]; [reflexivity|]. cbn [map fst snd] in *. injection H as E1 E2. unfold cleared in Hc. rewrite (Hc E1), IHc by exact E2. reflexivity.
Qed.
Lemma clear_idem t : clear_accessed (clear_accessed t) = clear_accessed t.
Proof.
  induction t as [a v cs IH] using pnode_rect'. cbn [clear_accessed]. f_equal. rewrite map_map. induction IH as [|[k c] cs H _ IHc]; [reflexivity|]. cbn [map fst snd] in *. rewrite H, IHc. reflexivity.
Qed.
Lemma loads_spec : (forall p, files p <> OutOfFuel) ->
  (forall level fn t, Loads files directive Names level fn t -> Free t /\ cleared t /\ exists f0, forall f, f0 <= f -> load f fn level = Ok t) /\
  (forall level fn cs cs', Expands files directive Names level fn cs cs' -> level < 100 -> Forall (fun kc => fst kc <> directive /\ Free (snd kc)) cs' /\ clearedc cs' /\
     forall a v pre, exists f0 cs2, clearc cs2 = cs' /\ forall f, f0 <= f -> resolve_loop f a v pre cs fn level = Ok (PN a v (pre ++ cs2))).
Proof.
  intros FT. apply Loads_mutind.
  - intros level fn a v cs cs' L E X IH. destruct (IH L) as (H1 & H2 & H3). destruct (H3 a v []) as (f0 & cs2 & C & R). split; [constructor; exact H1|]. split; [unfold cleared; cbn; f_equal; exact H2|].
    exists (S (S f0)). intros [|[|f]] LF; try lia. rewrite load_S. destruct (Nat.leb_spec 100 level); [lia|]. rewrite E. cbn [bind]. rewrite resolve_S, R by lia. cbn [bind app clear_accessed]. f_equal. f_equal. exact C.
  - intros level fn L. split; [constructor|]. split; [reflexivity|]. intros a v pre. exists 1, []. split; [reflexivity|]. intros [|f] LF; [lia|]. rewrite loop_nil, app_nil_r. reflexivity.
  - intros level fn k a v ds ds' cs cs' NK X1 IH1 X2 IH2 L. destruct (IH1 L) as (A1 & A2 & A3). destruct (IH2 L) as (B1 & B2 & B3). split; [constructor; [split; [exact NK|constructor; exact A1]|exact B1]|].
    split; [unfold clearedc in *; cbn [clearc map fst snd clear_accessed]; unfold clearc in B2; rewrite B2; unfold clearc in A2; rewrite A2; reflexivity|].
    intros a0 v0 pre. destruct (A3 a v []) as (f1 & ds2 & C1 & R1). destruct (B3 a0 v0 (pre ++ [(k, PN a v ds2)])) as (f2 & cs2 & C2 & R2).
    exists (S (S (max f1 f2))), ((k, PN a v ds2) :: cs2). split; [cbn [clearc map fst snd clear_accessed]; unfold clearc in *; rewrite C1, C2; reflexivity|].
    intros [|[|f]] LF; try lia. rewrite loop_plain by exact NK. rewrite resolve_S, R1 by lia. cbn [bind app]. rewrite R2 by lia. rewrite <- app_assoc. reflexivity.
  - intros level fn c target a v k root cs cs' NM X1 IH1 X2 IH2 L. destruct IH1 as (A1 & A2 & f1 & A3). destruct (IH2 L) as (B1 & B2 & B3).
    inversion A1 as [? ? ? F]; subst. inversion F as [|? ? [NK FR] _]; subst. cbn [fst snd] in NK, FR. unfold cleared in A2. cbn [clear_accessed map fst snd] in A2. injection A2 as EA A2.
    split; [constructor; [split; assumption|exact B1]|]. split; [unfold clearedc, clearc in *; cbn [map fst snd]; rewrite B2, A2; reflexivity|].
    intros a0 v0 pre. destruct (B3 a0 v0 (pre ++ [(k, root)])) as (f2 & cs2 & C2 & R2). destruct (resolve_free_ok root FR fn level) as [f3 E3].
    exists (S (S (max (max f1 f2) f3))), ((k, root) :: cs2). split; [unfold clearc in *; cbn [map fst snd]; rewrite C2, A2; reflexivity|].
    intros [|[|f]] LF; try lia. rewrite loop_include, (Names_target _ _ _ NM). cbn [bind]. rewrite A3 by lia. cbn [bind pn_children]. rewrite copy_cleared by exact A2. rewrite loop_plain by exact NK.
    rewrite E3 by lia.
    cbn [bind]. rewrite R2 by lia. rewrite <- app_assoc. reflexivity.
Qed.

Lemma Adds_in ks os ext : Adds ks os ext -> incl ext os.
Proof. induction 1 as [ks|ks k o os ext I A IH|ks k o os ext N A IH]; intros x H; [exact H|right; apply IH; exact H|]. destruct H as [->|H]; [left; reflexivity|right; apply IH; exact H]. Qed.
Lemma load_merge fn level a v c rest target b w k b2 w2 os : (forall p, files p <> OutOfFuel) -> level < 100 -> files fn = Ok (PN a v ((directive, c) :: rest)) ->
  include_target fn c = Ok (target, true) -> Loads files directive Names (S level) target (PN b w [(k, PN b2 w2 os)]) -> Free (PN a v rest) ->
  exists ext f0, Adds (map fst rest) os ext /\ forall f, f0 <= f -> load f fn level = Ok (PN false v (clearc rest ++ ext)).
Proof.
  intros FT LL EF ET LD FR. destruct (proj1 (loads_spec FT) _ _ _ LD) as (H1 & H2 & f1 & H3).
  destruct (merge_adds os a v rest) as (ext & a' & AD & EM).
  assert (CE : map (fun kc => (fst kc, pn_copy (snd kc))) ext = ext /\ clearc ext = ext /\ Forall (fun kc => fst kc <> directive /\ Free (snd kc)) ext).
  { assert (CO : forall kc, In kc ext -> cleared (snd kc) /\ fst kc <> directive /\ Free (snd kc)).
    { intros kc I. apply (Adds_in _ _ _ AD) in I. unfold cleared in H2. cbn [clear_accessed map fst snd] in H2. injection H2 as EA EB EC.
      split; [|inversion H1 as [? ? ? F1]; subst; inversion F1 as [|? ? [_ F2] _]; subst; inversion F2 as [? ? ? F3]; subst; rewrite Forall_forall in F3; apply F3; exact I].
      unfold cleared. clear - EC I. induction os as [|[k0 o] os IH]; [contradiction|]. cbn [map fst snd] in EC. injection EC as E1 E2. destruct I as [<-|I]; [exact E1|apply IH; assumption]. }
    clear - CO. induction ext as [|[k0 o] ext IH]; [repeat split; constructor|]. destruct (CO _ (or_introl eq_refl)) as (C1 & C2 & C3). cbn [fst snd] in *. destruct IH as (I1 & I2 & I3); [intros kc I; apply CO; right; exact I|].
    unfold clearc. cbn [map fst snd]. unfold clearc in I2. rewrite I1, I2, (copy_cleared o C1). unfold cleared in C1. rewrite C1. repeat split; try reflexivity. constructor; [split; assumption|exact I3]. }
  destruct CE as (CE1 & CE2 & CE3). rewrite CE1 in EM.
  assert (FF : Free (PN a v (rest ++ ext))). { constructor. inversion FR as [? ? ? F]; subst. apply Forall_app. split; assumption. }
  destruct (resolve_free_ok _ FF fn level) as [f2 E2]. exists ext, (S (S (S (max f1 f2)))). split; [exact AD|]. intros [|[|[|f]]] L; try lia.
  rewrite load_S. destruct (Nat.leb_spec 100 level); [lia|]. rewrite EF. cbn [bind]. rewrite resolve_S, loop_include, ET. cbn [bind]. rewrite H3 by lia. cbn [bind pn_children app].
  unfold merge_prop_nodes. cbn [pn_children]. rewrite EM. cbn [pn_children]. specialize (E2 (S f) ltac:(lia)). rewrite resolve_S in E2. rewrite E2. cbn [bind clear_accessed]. rewrite map_app. fold (clearc rest). fold (clearc ext). rewrite CE2. reflexivity.
Qed.
End Inc.
