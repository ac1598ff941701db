(* C36: ini files *)
From Coq Require Import String.
From Verif Require Import Model.Base Model.StdString Model.Strings Model.Number Model.CharStream Model.PropTree Model.PropNode Model.Ini
  Spec.Strings Spec.PropNode Spec.Ini Proofs.StringFacts Proofs.StringsProofs Proofs.PropNodeProofs Proofs.IniProofs.
Local Open Scope list_scope.

(* Every text is a sequence of lines and loading it always ends: with an
   exception exactly when some effective line is neither a group nor a pair,
   otherwise with the tree that the lines describe. *)
Theorem C36_load : forall grow text, fits text -> exists ls, Lines text ls /\
  ((Exists BadLine (effective ls) /\ load_ini grow text = Throw) \/
   (exists items t, Forall2 ReadsAs (effective ls) items /\ load_ini grow text = Ok t /\ Same t (ini_tree (build items)))).
Proof.
  intros grow text F. destruct (Lines_exists text) as [ls L]. exists ls. split; [exact L|]. destruct (load_ini_lines grow text ls F L) as [H1 H2].
  assert (C : forall ls, Exists BadLine ls \/ exists items, Forall2 ReadsAs ls items).
  { clear. induction ls as [|l ls [IH|[items IH]]]; [right; exists []; constructor|left; right; exact IH|].
    assert (X : GroupLine l \/ ~ GroupLine l).
    { destruct l as [|c l]; [right; intros (g & _ & E); discriminate|]. pose proof (group_test (c :: l) c l eq_refl) as GT.
      destruct ((2 <? length (c :: l))%nat && Ascii.eqb c "["%char && Ascii.eqb (last (c :: l) NUL) "]"%char); [left; apply GT; reflexivity|right; intros X; apply GT in X; discriminate]. }
    destruct X as [(g & N & ->)|N]; [right; exists (Group g :: items); constructor; [constructor; exact N|exact IH]|].
    destruct (in_dec ascii_dec "="%char l) as [I|I]; [|left; left; split; assumption].
    assert (X : exists a b, l = a ++ "="%char :: b /\ ~ In "="%char a).
    { clear - I. induction l as [|d s IHs]; [destruct I|]. destruct (ascii_dec d "="%char) as [->|D]; [exists [], s; split; [reflexivity|intros []]|].
      destruct I as [X|I]; [congruence|]. destruct (IHs I) as (a & b & -> & Na). exists (d :: a), b. split; [reflexivity|]. intros [X|X]; [congruence|contradiction]. }
    destruct X as (a & b & -> & Na).
    assert (TR : forall s, exists m, IsTrim blanks s m).
    { clear. intros s. destruct (split_tail s) as (l & post & -> & P & L). assert (Y : exists l1 m, l = l1 ++ m /\ only blanks l1 /\ forall c m', m = c :: m' -> ~ In c blanks).
      { clear - L. clear L. induction l as [|c l (l1 & m & -> & O & H)]; [exists [], []; split; [reflexivity|]; split; [constructor|intros c m' E; discriminate]|].
        destruct (in_dec ascii_dec c blanks) as [I|I]; [exists (c :: l1), m; split; [reflexivity|]; split; [constructor; assumption|exact H]|].
        exists [], (c :: l1 ++ m). split; [reflexivity|]. split; [constructor|]. intros c' m' E. injection E as <- _. exact I. }
      destruct Y as (l1 & m & -> & O & H). exists m, l1, post. split; [rewrite app_assoc; reflexivity|]. split; [exact O|]. split; [exact P|]. split; [exact H|].
      intros c m' ->. apply (L c (l1 ++ m')). rewrite app_assoc. reflexivity. }
    destruct (TR a) as [k Tk]. destruct (TR b) as [v Tv]. right. exists (Pair k v :: items). constructor; [constructor; assumption|exact IH]. }
  destruct (C (effective ls)) as [B|[items R]]; [left; auto|right]. destruct (H1 items R) as (t & E & S). exists items, t. auto.
Qed.
Print Assumptions C36_load.

(* the same for a given list of lines *)
Theorem C36_load_lines : forall grow text ls, fits text -> Lines text ls ->
  (forall items, Forall2 ReadsAs (effective ls) items -> exists t, load_ini grow text = Ok t /\ Same t (ini_tree (build items))) /\
  (Exists BadLine (effective ls) -> load_ini grow text = Throw).
Proof. exact load_ini_lines. Qed.
Print Assumptions C36_load_lines.

Theorem C36_roundtrip : forall grow c, IniContents c -> fits (save_ini (ini_tree c)) ->
  exists t, load_ini grow (save_ini (ini_tree c)) = Ok t /\ Same t (ini_tree c).
Proof.
  intros grow c H F. destruct (ini_lines_good c H) as (G & R & E). destruct H as ([M1 M2] & M3 & GS).
  assert (SL : save_ini (ini_tree c) = unlines (ini_lines c)) by (apply save_lines; [exact M3|eapply Forall_impl; [|exact GS]; intros g Hg; apply Hg]).
  rewrite SL in *. destruct (load_ini_lines grow _ _ F (Lines_unlines _ G)) as [H1 _]. rewrite (effective_id _ E) in H1. destruct (H1 _ R) as (t & ET & S). exists t. split; [exact ET|].
  rewrite build_items in S; [exact S|exact M1|]. eapply Forall_impl; [|exact GS]. intros g Hg. apply Hg.
Qed.
Print Assumptions C36_roundtrip.

(* a value that follows a group is read back as a member of that group *)
Theorem C36_value_after_group_refuted : forall grow ms gs g l k v, IniContents (ms, gs ++ [(g, l)]) -> IniKey k -> IniValue v -> v <> [] ->
  let t := PN false [] (map leaf ms ++ map group_node (gs ++ [(g, l)]) ++ [leaf (k, v)]) in fits (save_ini t) ->
  exists t', load_ini grow (save_ini t) = Ok t' /\ Same t' (ini_tree (ms, gs ++ [(g, put k v l)])).
Proof.
  intros grow ms gs g l k v H Hk Hv NV t F. destruct (ini_lines_good _ H) as (G & R & E). destruct H as ([M1 M2] & M3 & GS). cbn [fst snd] in M1, M2, M3, GS.
  destruct (good_pair k v Hk Hv) as (P1 & P2 & P3).
  assert (SL : save_ini t = unlines (ini_lines (ms, gs ++ [(g, l)]) ++ [pair_line (k, v)])).
  { unfold unlines. rewrite flat_map_app. fold (unlines (ini_lines (ms, gs ++ [(g, l)]))). rewrite <- save_lines; [|exact M3|eapply Forall_impl; [|exact GS]; intros x Hx; apply Hx].
    unfold save_ini, t, ini_tree. cbn [pn_children fst snd]. rewrite app_assoc, flat_map_app. f_equal. cbn [flat_map]. rewrite !app_nil_r. unfold save_ini_entry, leaf. cbn [fst snd pn_children].
    destruct v; [contradiction|]. unfold save_ini_pair, pair_line. cbn [has_value pn_value fst snd]. rewrite <- app_assoc. reflexivity. }
  rewrite SL in *. assert (G2 : Forall GoodLine (ini_lines (ms, gs ++ [(g, l)]) ++ [pair_line (k, v)])) by (apply Forall_app; split; [exact G|constructor; [exact P1|constructor]]).
  destruct (load_ini_lines grow _ _ F (Lines_unlines _ G2)) as [H1 _]. rewrite effective_id in H1; [|apply Forall_app; split; [exact E|constructor; [split; [apply P1|exact P3]|constructor]]].
  destruct (H1 (ini_items (ms, gs ++ [(g, l)]) ++ [Pair k v])) as (t' & ET & S); [apply Forall2_app; [exact R|constructor; [exact P2|constructor]]|].
  exists t'. split; [exact ET|]. unfold build in S. rewrite fold_left_app in S. fold (build (ini_items (ms, gs ++ [(g, l)]))) in S.
  rewrite build_items in S; [|exact M1|eapply Forall_impl; [|exact GS]; intros x Hx; apply Hx]. cbn [fold_left add_item fst snd] in S. rewrite <- put_last_snoc.
  destruct (gs ++ [(g, l)]) eqn:EG; [destruct gs; discriminate|]. exact S.
Qed.
Print Assumptions C36_value_after_group_refuted.

(* a comment also removes the line after it *)
Theorem C36_comment_refuted : forall grow c l ls items, Forall GoodLine (("#"%char :: c) :: l :: ls) ->
  (forall l, In l ls -> forall r, l <> "#"%char :: r) -> Forall2 ReadsAs ls items -> fits (unlines (("#"%char :: c) :: l :: ls)) ->
  exists t, load_ini grow (unlines (("#"%char :: c) :: l :: ls)) = Ok t /\ Same t (ini_tree (build items)).
Proof.
  intros grow c l ls items G NC R F. destruct (load_ini_lines grow _ _ F (Lines_unlines _ G)) as [H1 _]. rewrite effective_comment in H1. apply H1.
  rewrite effective_id; [exact R|]. inversion G as [|? ? _ G2]; subst. inversion G2 as [|? ? _ G3]; subst. rewrite Forall_forall in *. intros x I. split; [apply (G3 x I)|apply (NC x I)].
Qed.
Print Assumptions C36_comment_refuted.

Example C36_nonvacuous :
  let c := ([(lit "a", lit "1"); (lit "b", lit "x = y")], [(lit "g", [(lit "a", lit "2"); (lit "k", [])]); (lit "g", [(lit "z", lit "3")])]) in
  IniContents c /\
  (match load_ini (fun _ => true) (save_ini (ini_tree c)) with Ok t => pn_eqb t (ini_tree c) | _ => false end) = true /\
  (match load_ini (fun _ => false) (lit "
 # comment
 a = 1
 b = 2
[ g ]
c = 3") with Ok t => pn_eqb t (ini_tree ([(lit "b", lit "2")], [(lit " g ", [(lit "c", lit "3")])])) | _ => false end) = true /\
  load_ini (fun _ => true) (lit "a") = Throw.
Proof.
  cbn zeta. split; [|vm_compute; repeat split].
  assert (K : forall c, (c =? "#")%char = false -> (c =? "[")%char = false -> (c =? "=")%char = false -> mem breaks c = false -> mem blanks c = false -> IniKey [c]).
  { intros c E1 E2 E3 E4 E5. apply mem_false in E4. apply mem_false in E5. split; [|split; [constructor; [exact E4|constructor]|split; [|split]]].
    - exists [], []. split; [reflexivity|]. split; [constructor|]. split; [constructor|]. split; intros x m E; [injection E as <- _; exact E5|]. change [c] with ([] ++ [c]) in E. apply app_inj_tail in E as [_ <-]. exact E5.
    - intros [X|[]]. rewrite X in E3. discriminate.
    - intros r X. injection X as -> _. discriminate.
    - intros r X. injection X as -> _. discriminate. }
  assert (V : forall a m b, mem blanks a = false -> mem blanks b = false -> forallb (fun c => negb (mem breaks c)) (a :: m ++ [b]) = true -> IniValue (a :: m ++ [b])).
  { intros a m b A B F. split.
    - exists [], []. split; [rewrite app_nil_r; reflexivity|]. split; [constructor|]. split; [constructor|]. split; intros x m2 E; [injection E as <- _; apply mem_false; exact A|].
      rewrite app_comm_cons in E. apply app_inj_tail in E as [_ <-]. apply mem_false. exact B.
    - apply Forall_forall. intros x I. rewrite forallb_forall in F. specialize (F x I). apply nmem_true in F. exact F. }
  assert (V1 : forall a, mem blanks a = false -> mem breaks a = false -> IniValue [a]).
  { intros a A B. apply mem_false in A. apply mem_false in B. split; [|constructor; [exact B|constructor]].
    exists [], []. split; [reflexivity|]. split; [constructor|]. split; [constructor|]. split; intros x m E; [injection E as <- _; exact A|]. change [a] with ([] ++ [a]) in E. apply app_inj_tail in E as [_ <-]. exact A. }
  assert (V0 : IniValue []).
  { split; [|constructor]. exists [], []. split; [reflexivity|]. split; [constructor|]. split; [constructor|]. split; intros x m E; [discriminate|destruct m; discriminate]. }
  split; [|split].
  - split; [cbn; constructor; [intros [X|[]]; discriminate|constructor; [intros []|apply NoDup_nil]]|]. constructor; [split; [apply K; reflexivity|apply V1; reflexivity]|]. constructor; [split; [apply K; reflexivity|apply (V "x"%char (lit " = ") "y"%char); reflexivity]|constructor].
  - repeat constructor; discriminate.
  - constructor; [split; [discriminate|]; split; [repeat constructor; cbn; intuition discriminate|]; split; [discriminate|]|constructor; [|constructor]; split; [discriminate|]; split; [repeat constructor; cbn; intuition discriminate|]; split; [discriminate|]].
    + split; [cbn; constructor; [intros [X|[]]; discriminate|constructor; [intros []|apply NoDup_nil]]|]. constructor; [split; [apply K; reflexivity|apply V1; reflexivity]|]. constructor; [split; [apply K; reflexivity|apply V0]|constructor].
    + split; [cbn; constructor; [intros []|apply NoDup_nil]|]. constructor; [split; [apply K; reflexivity|apply V1; reflexivity]|constructor].
Qed.
