(* C83: printing a prop_node; what printing and saving do to the access marks *)
From Coq Require Import String.
From Verif Require Import Model.Base Model.StdString Model.Strings Model.PropTree Model.PropNode Model.PropPrint
  Spec.Strings Spec.PropNode Spec.PropPrint Proofs.PropNodeProofs Proofs.PropPrintProofs.
Local Open Scope list_scope.
Local Open Scope nat_scope.

(* C83: one line for each node, in preorder, indented by its depth, all values
   in one column, which is as far left as possible *)
Theorem C83_text : forall t, exists w ls, Width (below 0 t) w /\ Forall2 (Line w) (below 0 t) ls /\ print t = concat ls.
Proof.
  intros t. exists (get_align_width t 0), (map (line (get_align_width t 0)) (below 0 t)).
  assert (L : forall d k n, In (d, k, n) (below 0 t) -> 2 * d + length k <= get_align_width t 0) by (intros d k n; apply width_le).
  split; [split; [exact L|apply width_attained]|]. split.
  - induction (below 0 t) as [|[[d k] n] l IH]; [constructor|]. cbn [map]. constructor.
    + apply line_Line. apply (L d k n). left. reflexivity.
    + apply IH. intros d' k' n' I. apply (L d' k' n'). right. exact I.
  - unfold print. rewrite print_lines. rewrite flat_map_concat_map. reflexivity.
Qed.
Print Assumptions C83_text.
Theorem C83_text_unique : forall w w' nodes ls ls', Width nodes w -> Width nodes w' -> Forall2 (Line w) nodes ls -> Forall2 (Line w') nodes ls' -> w = w' /\ ls = ls'.
Proof.
  intros w w' nodes ls ls' [A1 A2] [B1 B2] F F'.
  assert (E : w = w').
  { apply Nat.le_antisymm.
    - destruct A2 as [->|(d & k & n & I & <-)]; [lia|apply (B1 d k n I)].
    - destruct B2 as [->|(d & k & n & I & <-)]; [lia|apply (A1 d k n I)]. }
  subst w'. split; [reflexivity|]. clear A1 A2 B1 B2. revert ls' F'. induction F as [|x l xs ls H F IH]; intros ls' F'; inversion F' as [|? l' ? ls2 H' F2]; subst; [reflexivity|].
  f_equal; [|apply IH; exact F2]. clear - H H'.
  destruct H as [d k a kc c n E|d k a v c n E X]; inversion H' as [d2 k2 a2 kc2 c2 n2 E2|d2 k2 a2 v2 c2 n2 E2 X2]; subst; try (exfalso; intuition congruence).
  - replace n2 with n by lia. reflexivity.
  - replace n2 with n by lia. reflexivity.
Qed.
Print Assumptions C83_text_unique.
(* C83: printing counts as reading every node *)
Theorem C83_print_marks : forall t, Same t (print_marks t) /\ count_unaccessed (print_marks t) = 0 /\
  forall depth, snd (log_unaccessed (print_marks t) depth) = [].
Proof.
  intros t. destruct (print_marks_spec t) as [S F]. split; [exact S|]. split.
  - rewrite count_flags, F. apply count_occ_not_In. intros I. apply repeat_spec in I. discriminate.
  - intros depth. apply all_marked_quiet. rewrite F at 1. f_equal. apply flags_length_same. exact S.
Qed.
Print Assumptions C83_print_marks.
(* C83: saving to a prop file counts as reading every node but those without
   value and children *)
Theorem C83_save_marks : forall t, Same t (save_marks t) /\ pn_accessed (save_marks t) = true /\
  Forall2 (fun n b => b = true <-> pn_accessed n = true \/ ~ Blank n) (tl (nodes t)) (tl (flags (save_marks t))).
Proof.
  intros t. destruct (save_marks_spec t) as [S F]. split; [exact S|]. split; [destruct t; reflexivity|]. rewrite F. cbn [tl]. clear F S.
  induction (tl (nodes t)) as [|n l IH]; cbn [map]; [constructor|]. constructor; [|exact IH].
  destruct n as [[|] v c]; cbn [pn_accessed orb]; [split; auto|]. destruct v as [|x v], c as [|kc c]; cbn [blank negb]; split; try discriminate; try reflexivity.
  - intros [X|X]; [discriminate|]. exfalso. apply X. exists false. reflexivity.
  - intros _. right. intros [a E]. discriminate.
  - intros _. right. intros [a E]. discriminate.
  - intros _. right. intros [a E]. discriminate.
Qed.
Print Assumptions C83_save_marks.
(* so unread settings are not found after the settings were saved *)
Theorem C83_unread_refuted : forall t, Forall (fun n => ~ Blank n) (tl (nodes t)) ->
  count_unaccessed (save_marks t) = 0 /\ forall depth, snd (log_unaccessed (save_marks t) depth) = [].
Proof.
  intros t H. destruct (save_marks_spec t) as [S F].
  assert (E : flags (save_marks t) = repeat true (length (flags (save_marks t)))).
  { rewrite F. cbn [length repeat]. f_equal. clear - H. induction H as [|n l X H IH]; [reflexivity|]. cbn [map length repeat]. f_equal; [|exact IH].
    destruct n as [a [|x v] [|kc c]]; cbn [blank negb]; try apply Bool.orb_true_r. exfalso. apply X. exists a. reflexivity. }
  split.
  - rewrite count_flags, E. apply count_occ_not_In. intros I. apply repeat_spec in I. discriminate.
  - intros depth. apply all_marked_quiet. exact E.
Qed.
Print Assumptions C83_unread_refuted.
Lemma access_same l : SameChildren l (map (fun e => (fst e, pn_access (snd e))) l).
Proof.
  induction l as [|[k x] l IH]; constructor; [split; [reflexivity|]|exact IH]. destruct x as [b w c]. apply Same_intro. apply SameChildren_refl.
Qed.
Lemma access_marked (l : list (str * pnode)) :
  Forall2 (fun e e' => pn_accessed (snd e') = true /\ pn_children (snd e') = pn_children (snd e)) l (map (fun e => (fst e, pn_access (snd e))) l).
Proof. induction l as [|[k x] l IH]; constructor; [split; reflexivity|exact IH]. Qed.
(* C83: saving to an ini file counts as reading what is written *)
Theorem C83_ini_marks : forall t, Same t (ini_marks t) /\ pn_accessed (ini_marks t) = true /\
  Forall2 (fun x y => fst x = fst y /\ (pn_accessed (snd y) = true <-> pn_accessed (snd x) = true \/ ~ Blank (snd x)) /\
             Forall2 (fun e e' => pn_accessed (snd e') = true /\ pn_children (snd e') = pn_children (snd e)) (pn_children (snd x)) (pn_children (snd y)))
    (pn_children t) (pn_children (ini_marks t)).
Proof.
  intros [a v cs]. cbn [ini_marks pn_accessed pn_children]. split; [apply Same_intro|split; [reflexivity|]].
  - induction cs as [|[k x] cs IH]; [constructor|]. cbn [map fst snd]. constructor; [split; [reflexivity|]|exact IH]. cbn [snd].
    destruct x as [b w [|e es]]; cbn [pn_children].
    + destruct (has_value (PN b w [])); [apply Same_intro; constructor|apply Same_refl].
    + apply Same_intro. apply (access_same (e :: es)).
  - induction cs as [|[k x] cs IH]; [constructor|]. cbn [map]. constructor; [|exact IH]. cbn [fst snd]. split; [reflexivity|].
    destruct x as [b w [|e es]]; cbn [pn_children pn_value].
    + unfold has_value. cbn [pn_value]. destruct w as [|c w]; cbn [pn_access pn_accessed pn_children]; split; try constructor.
      * auto.
      * intros [X|X]; [exact X|]. exfalso. apply X. exists b. reflexivity.
      * intros _. right. intros [a' E]. discriminate.
      * intros _. reflexivity.
    + split; [split; [intros _; right; intros [a' E]; discriminate|reflexivity]|]. apply (access_marked (e :: es)).
Qed.
Print Assumptions C83_ini_marks.
(* C83: different trees may look the same *)
Theorem C83_text_distinct_refuted : forall a b k v w,
  print (PN false [] [(k, PN a (v ++ LF :: k ++ [" "; "="; " "]%char ++ w) [])]) = print (PN false [] [(k, PN a v []); (k, PN b w [])]).
Proof.
  intros a b k v w. unfold print. rewrite !print_lines. cbn [below flat_map fst snd app get_align_width fold_left Nat.mul Nat.add].
  rewrite !Nat.max_0_r. rewrite Nat.max_id. rewrite Nat.max_0_l. unfold line, left_pad, has_value, pn_size. cbn [pn_value pn_children length Nat.eqb Nat.mul Nat.add repeat app].
  rewrite !Bool.orb_true_r. rewrite Nat.sub_diag. cbn [repeat]. rewrite !app_nil_r. repeat (rewrite <- !app_assoc; cbn [app]). reflexivity.
Qed.
Print Assumptions C83_text_distinct_refuted.

Definition small_tree : pnode := PN false [] [(lit "a", PN false (lit "1") []); (lit "group", PN false [] [(lit "xyz", PN true (lit "2") []); (lit "n", pn_empty)])].
Example C83_nonvacuous :
  print small_tree = lit "a     = 1" ++ [LF] ++ lit "group" ++ [LF] ++ lit "  xyz = 2" ++ [LF] ++ lit "  n   = " ++ [LF] /\
  count_unaccessed small_tree = 4 /\ count_unaccessed (print_marks small_tree) = 0 /\ count_unaccessed (save_marks small_tree) = 1.
Proof. repeat split. Qed.
