From Coq Require Import String.
From Verif Require Import Model.Base Model.StdString Model.Strings Model.PropTree Model.PropNode Model.PropPrint
  Spec.Strings Spec.PropNode Spec.PropPrint Proofs.PropNodeProofs.
Local Open Scope list_scope.
Local Open Scope nat_scope.

Lemma width_le : forall t depth d k n, In (d, k, n) (below depth t) -> 2 * d + length k <= get_align_width t depth.
Proof.
  induction t as [a v cs IH] using pnode_rect'. intros depth d k n I. cbn [get_align_width below] in *.
  assert (G : forall (l : list (str * pnode)) w w', w <= w' -> w <= fold_left (fun width kc => Nat.max (Nat.max width (depth * 2 + length (fst kc))) (get_align_width (snd kc) (S depth))) l w').
  { clear. induction l as [|x l IH]; intros w w' H; [exact H|]. cbn [fold_left]. apply IH. lia. }
  assert (K : forall w, 2 * d + length k <= fold_left (fun width kc => Nat.max (Nat.max width (depth * 2 + length (fst kc))) (get_align_width (snd kc) (S depth))) cs w); [|apply K].
  induction IH as [|[k0 x] cs H _ IHc]; [destruct I|]. intros w. cbn [fold_left fst snd flat_map] in *.
  apply in_app_or in I. destruct I as [[E|I]|I].
  - inversion E; subst. apply G. lia.
  - apply G. specialize (H (S depth) d k n I). lia.
  - apply IHc. exact I.
Qed.
Lemma width_attained : forall t depth, get_align_width t depth = 0 \/ exists d k n, In (d, k, n) (below depth t) /\ 2 * d + length k = get_align_width t depth.
Proof.
  induction t as [a v cs IH] using pnode_rect'. intros depth. cbn [get_align_width below].
  assert (K : forall w, let r := fold_left (fun width kc => Nat.max (Nat.max width (depth * 2 + length (fst kc))) (get_align_width (snd kc) (S depth))) cs w in
    r = w \/ exists d k n, In (d, k, n) (flat_map (fun kc => (depth, fst kc, snd kc) :: below (S depth) (snd kc)) cs) /\ 2 * d + length k = r); [|apply K].
  induction IH as [|[k0 x] cs H _ IHc]; intros w; [left; reflexivity|]. cbn [fold_left fst snd flat_map] in *. cbv zeta.
  set (w1 := Nat.max (Nat.max w (depth * 2 + length k0)) (get_align_width x (S depth))). destruct (IHc w1) as [E|(d & k & n & I & E)].
  - cbv zeta in E. rewrite E. unfold w1.
    destruct (Nat.le_gt_cases (get_align_width x (S depth)) (Nat.max w (depth * 2 + length k0))) as [A|A].
    + rewrite Nat.max_l by exact A. destruct (Nat.le_gt_cases (depth * 2 + length k0) w) as [B|B]; [left; lia|].
      right. exists depth, k0, x. split; [left; reflexivity|]. lia.
    + right. destruct (H (S depth)) as [Z|(d & k & n & I & Z)]; [lia|]. exists d, k, n. split; [right; apply in_or_app; left; exact I|]. lia.
  - right. exists d, k, n. split; [right; apply in_or_app; right; exact I|exact E].
Qed.

Definition line (w : nat) (n : nat * str * pnode) : str :=
  let '(depth, k, t) := n in
  left_pad w (repeat " "%char (2 * depth) ++ k) ++
  (if has_value t || (pn_size t =? 0) then [" "; "="; " "]%char ++ pn_value t else []) ++ [LF].
Lemma stream_lines w : w <> 0 -> forall t depth, to_stream t depth w = flat_map (line w) (below depth t).
Proof.
  intros W. induction t as [a v cs IH] using pnode_rect'. intros depth. cbn [to_stream below]. apply Nat.eqb_neq in W. rewrite W.
  induction IH as [|[k x] cs H _ IHc]; [reflexivity|]. cbn [flat_map fst snd]. rewrite flat_map_app, <- IHc.
  replace (flat_map (line w) ((depth, k, x) :: below (S depth) x)) with (line w (depth, k, x) ++ flat_map (line w) (below (S depth) x)) by reflexivity.
  rewrite <- H. unfold line. replace (2 * depth) with (depth * 2) by lia. rewrite <- !app_assoc. reflexivity.
Qed.
(* a width of 0: all keys are empty and there are no grandchildren *)
Lemma width_zero : forall t depth, get_align_width t depth = 0 -> to_stream t depth 0 = flat_map (line 0) (below depth t).
Proof.
  intros [a v cs] depth H. pose proof (width_le (PN a v cs) depth) as L. cbn [to_stream]. rewrite H. cbn [Nat.eqb]. rewrite H in L. clear H.
  cbn [below] in *. induction cs as [|[k x] cs IH]; [reflexivity|]. cbn [flat_map fst snd] in *.
  rewrite flat_map_app, <- IH by (intros d k1 n I; apply (L d k1 n); right; apply in_or_app; right; exact I).
  assert (X : below (S depth) x = []).
  { destruct (below (S depth) x) as [|[[d k1] n] l] eqn:E; [reflexivity|]. exfalso.
    assert (D : d = S depth) by (destruct x as [? ? [|[k2 y] xs]]; cbn in E; [discriminate|inversion E; reflexivity]).
    assert (I : In (d, k1, n) ((depth, k, x) :: ((d, k1, n) :: l) ++ flat_map (fun kc => (depth, fst kc, snd kc) :: below (S depth) (snd kc)) cs)) by (right; left; reflexivity).
    specialize (L d k1 n I). lia. }
  assert (Y : to_stream x (S depth) 0 = []). { destruct x as [b w [|[k2 y] xs]]; [reflexivity|discriminate]. }
  rewrite X, Y. cbn [flat_map]. rewrite app_nil_r. unfold line. replace (2 * depth) with (depth * 2) by lia. rewrite <- !app_assoc. reflexivity.
Qed.
Lemma print_lines t depth : to_stream t depth 0 = flat_map (line (get_align_width t depth)) (below depth t).
Proof.
  destruct (Nat.eq_dec (get_align_width t depth) 0) as [E|E]; [rewrite E; apply width_zero; exact E|].
  rewrite <- stream_lines by exact E. destruct t as [a v c]. cbn [to_stream]. rewrite Nat.eqb_refl. rewrite (proj2 (Nat.eqb_neq _ _) E). reflexivity.
Qed.
Lemma line_Line w n : (let '(d, k, _) := n in 2 * d + length k <= w) -> Line w n (line w n).
Proof.
  destruct n as [[d k] [a v c]]. intros H. unfold line, left_pad, has_value, pn_size. cbn [pn_value pn_children]. rewrite app_length, repeat_length.
  assert (G : v <> [] \/ c = [] -> Line w (d, k, PN a v c) (((repeat " "%char (2 * d) ++ k) ++ repeat " "%char (w - (2 * d + length k))) ++ ([" "; "="; " "]%char ++ v) ++ [LF])).
  { intros X. rewrite <- !app_assoc. apply Line_value; [exact X|lia]. }
  destruct v as [|x v].
  - destruct c as [|kc c].
    + apply G. right. reflexivity.
    + cbn [Nat.eqb orb length app]. rewrite <- !app_assoc. apply Line_group. lia.
  - apply G. left. discriminate.
Qed.

(* marks *)
Lemma print_marks_spec : forall t, Same t (print_marks t) /\ flags (print_marks t) = repeat true (length (flags t)).
Proof.
  induction t as [a v cs IH] using pnode_rect'. cbn [print_marks flags length repeat].
  assert (X : SameChildren cs (map (fun kc => (fst kc, print_marks (snd kc))) cs) /\
    flat_map (fun kc => flags (snd kc)) (map (fun kc => (fst kc, print_marks (snd kc))) cs) = repeat true (length (flat_map (fun kc => flags (snd kc)) cs))).
  { induction IH as [|[k x] cs [H1 H2] _ [I1 I2]]; [split; [constructor|reflexivity]|]. cbn [map flat_map fst snd] in *. split.
    - constructor; [split; [reflexivity|exact H1]|exact I1].
    - rewrite app_length, repeat_app, H2, I2. reflexivity. }
  destruct X as [X1 X2]. split; [apply Same_intro; exact X1|rewrite X2; reflexivity].
Qed.
Lemma flags_nodes : forall t, flags t = map pn_accessed (nodes t).
Proof.
  induction t as [a v cs IH] using pnode_rect'. cbn [flags nodes map pn_accessed]. f_equal.
  induction IH as [|[k x] cs H _ IHc]; [reflexivity|]. cbn [flat_map snd] in *. rewrite map_app, H, IHc. reflexivity.
Qed.
Definition blank (t : pnode) : bool := match t with PN _ [] [] => true | _ => false end.
Lemma write_marks_spec : forall t, Same t (write_marks t) /\
  flags (write_marks t) = map (fun n => pn_accessed n || negb (blank n)) (nodes t).
Proof.
  induction t as [a v cs IH] using pnode_rect'.
  assert (X : SameChildren cs (map (fun kc => (fst kc, write_marks (snd kc))) cs) /\
    flat_map (fun kc => flags (snd kc)) (map (fun kc => (fst kc, write_marks (snd kc))) cs) = map (fun n => pn_accessed n || negb (blank n)) (flat_map (fun kc => nodes (snd kc)) cs)).
  { induction IH as [|[k x] cs [H1 H2] _ [I1 I2]]; [split; [constructor|reflexivity]|]. cbn [map flat_map fst snd] in *. split.
    - constructor; [split; [reflexivity|exact H1]|exact I1].
    - rewrite map_app, H2, I2. reflexivity. }
  destruct X as [X1 X2]. cbn [write_marks flags nodes map]. split; [apply Same_intro; exact X1|]. rewrite X2. f_equal.
  cbn [pn_accessed blank]. unfold has_value, pn_size. cbn [pn_value pn_children]. destruct v, cs, a; reflexivity.
Qed.
Lemma save_marks_spec t : Same t (save_marks t) /\
  flags (save_marks t) = true :: map (fun n => pn_accessed n || negb (blank n)) (tl (nodes t)).
Proof.
  destruct (write_marks_spec t) as [S F]. destruct t as [a v cs]. cbn [write_marks save_marks] in *. split.
  - apply Same_inv in S. apply Same_intro. apply S.
  - cbn [flags nodes map tl] in *. inversion F as [[F1 F2]]. rewrite F2. reflexivity.
Qed.
