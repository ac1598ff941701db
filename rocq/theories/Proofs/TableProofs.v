From Verif Require Import Model.Base Proofs.BaseFacts Proofs.MatrixFacts.
From Verif Require Import Model.DataHeader Model.Table Spec.Storage Spec.Table Proofs.StorageProofs.

Section P.
Context {T L : Type} (eqb : L -> L -> bool) (l0 : L) (t0 : T).
Implicit Types (t : table T L).

Definition rect_t t : Prop := length (data_ t) = row_size t * column_size t.

(* the descending in-place move *)
Lemma resize_loop R C c0 (d : list T) : length d = R * c0 -> c0 <= C ->
  exists nd,
    for_down R (fun ri d => for_down C (fun ci d =>
        let* x := if (ri <? R) && (ci <? c0) then vget d (c0 * ri + ci) else Ok t0 in
        vset d (C * ri + ci) x) d) (vresize d (R * C) t0) = Ok nd /\
    length nd = R * C /\
    forall f c, f < R -> c < C ->
      nth_error nd (f * C + c) = if c <? c0 then nth_error d (f * c0 + c) else Some t0.
Proof.
  intros Hd Hc.
  set (d1 := vresize d (R * C) t0).
  assert (Hd1 : forall k, k < R * c0 -> nth_error d1 k = nth_error d k).
  { intros k Hk. unfold d1. rewrite nth_error_vresize.
    destruct (Nat.ltb_spec k (R * C)); [|nia]. destruct (Nat.ltb_spec k (length d)); [reflexivity|lia]. }
  set (I := fun p (nd : list T) => length nd = R * C /\
     (forall k, k < p -> nth_error nd k = nth_error d1 k) /\
     (forall f c, f < R -> c < C -> p <= f * C + c ->
        nth_error nd (f * C + c) = if c <? c0 then nth_error d (f * c0 + c) else Some t0)).
  destruct (for_down_inv (fun ri d => for_down C (fun ci d =>
        let* x := if (ri <? R) && (ci <? c0) then vget d (c0 * ri + ci) else Ok t0 in
        vset d (C * ri + ci) x) d) (fun ri nd => I (C * ri) nd) R d1) as (nd & E & HI).
  - split; [apply vresize_length|]. split; [reflexivity|]. intros f c Hf Hcc Hle. nia.
  - intros ri nd Hri HI.
    destruct (for_down_inv (fun ci d =>
        let* x := if (ri <? R) && (ci <? c0) then vget d (c0 * ri + ci) else Ok t0 in
        vset d (C * ri + ci) x) (fun ci nd => I (C * ri + ci) nd) C nd) as (nd' & E' & HI').
    + replace (C * ri + C) with (C * S ri) by lia. exact HI.
    + intros ci nd0 Hci (Hlen & Horig & Hfin).
      assert (Hlt : C * ri + ci < length nd0) by (rewrite Hlen; nia).
      assert (Hx : exists x, (if (ri <? R) && (ci <? c0) then vget nd0 (c0 * ri + ci) else Ok t0) = Ok x /\
                  Some x = if ci <? c0 then nth_error d (ri * c0 + ci) else Some t0).
      { destruct (Nat.ltb_spec ri R); [|lia]. cbn [andb].
        destruct (Nat.ltb_spec ci c0); [|eauto].
        destruct (nth_error_ex d (ri * c0 + ci)) as [x Hx]; [nia|].
        exists x. split; [|symmetry; exact Hx]. unfold vget. rewrite Horig by nia.
        rewrite Hd1 by nia. replace (c0 * ri + ci) with (ri * c0 + ci) by lia. rewrite Hx. reflexivity. }
      destruct Hx as (x & Ex & Hx). rewrite Ex; cbn [bind]. rewrite vset_ok by assumption.
      eexists; split; [reflexivity|]. split; [rewrite upd_length; assumption|]. split.
      * intros k Hk. rewrite nth_error_upd by assumption. destruct (Nat.eqb_spec k (C * ri + ci)); [lia|]. apply Horig; lia.
      * intros f c Hf Hcc Hle. rewrite nth_error_upd by assumption.
        destruct (Nat.eqb_spec (f * C + c) (C * ri + ci)) as [Ei|Ni].
        { replace (C * ri + ci) with (ri * C + ci) in Ei by lia. apply idx_inj in Ei; [|assumption..].
          destruct Ei as [-> ->]. exact Hx. }
        apply Hfin; [assumption..|lia].
    + exists nd'; split; [exact E'|]. replace (C * ri) with (C * ri + 0) by lia. exact HI'.
  - exists nd; split; [exact E|]. destruct HI as (Hlen & _ & Hfin). split; [exact Hlen|].
    intros f c Hf Hcc. apply Hfin; [assumption..|lia].
Qed.

(* more rows than present: the first store is past the end *)
Lemma resize_rows_ub t r c : rect_t t -> row_size t < r -> column_size t <= c -> 0 < c ->
  resize l0 t0 t r c = UB.
Proof.
  intros Hr H1 H2 H3. unfold resize.
  destruct (Nat.ltb_spec r (row_size t)); [lia|]. destruct (Nat.ltb_spec c (column_size t)); [lia|]. cbn [orb].
  destruct r as [|r]; [lia|]. destruct c as [|c]; [lia|]. cbn [for_down].
  destruct (Nat.ltb_spec r (row_size t)); [lia|]. cbn [andb bind].
  rewrite vset_ub; [reflexivity|]. rewrite vresize_length. nia.
Qed.

Lemma resize_ok t r c : rect_t t -> column_size t <= c ->
  (r = row_size t \/ (row_size t <= r /\ c = 0)) ->
  exists t', resize l0 t0 t r c = Ok t' /\ rect_t t' /\ row_size t' = r /\ column_size t' = c /\
    DataHeader.resize l0 (row_labels_ t) r = Ok (row_labels_ t') /\
    DataHeader.resize l0 (col_labels_ t) c = Ok (col_labels_ t') /\
    forall f j, f < r -> j < c ->
      nth_error (data_ t') (f * c + j) =
      if j <? column_size t then nth_error (data_ t) (f * column_size t + j) else Some t0.
Proof.
  intros Hr Hc Hor. unfold resize.
  destruct (Nat.ltb_spec r (row_size t)); [lia|]. destruct (Nat.ltb_spec c (column_size t)); [lia|]. cbn [orb].
  assert (HL : exists nd,
    for_down r (fun ri d => for_down c (fun ci d =>
        let* x := if (ri <? row_size t) && (ci <? column_size t) then vget d (column_size t * ri + ci) else Ok t0 in
        vset d (c * ri + ci) x) d) (vresize (data_ t) (row_size t * c) t0) = Ok nd /\
    length nd = r * c /\ forall f j, f < r -> j < c ->
      nth_error nd (f * c + j) =
      if j <? column_size t then nth_error (data_ t) (f * column_size t + j) else Some t0).
  { destruct Hor as [->|[Hle ->]].
    - exact (resize_loop (row_size t) c (column_size t) (data_ t) Hr Hc).
    - exists (vresize (data_ t) (row_size t * 0) t0). split; [|split; [rewrite vresize_length; lia|intros; lia]].
      generalize (vresize (data_ t) (row_size t * 0) t0). clear. induction r as [|r IH]; intros d0; [reflexivity|].
      cbn [for_down bind]. apply IH. }
  destruct HL as (nd & E & Hlen & Hcell). rewrite E; cbn [bind].
  unfold DataHeader.resize, assert_. fold (column_size t) (row_size t).
  destruct (Nat.leb_spec (column_size t) c); [|lia]. destruct (Nat.leb_spec (row_size t) r); [|lia]. cbn [bind].
  eexists; split; [reflexivity|]. unfold rect_t, row_size, column_size, size; cbn [data_ row_labels_ col_labels_ DataHeader.labels_].
  rewrite !vresize_length. repeat split; assumption.
Qed.

Lemma resize_exact t r c : rect_t t ->
  (resize l0 t0 t r c = Throw <-> r < row_size t \/ c < column_size t) /\
  (resize l0 t0 t r c = UB <-> row_size t < r /\ column_size t <= c /\ 0 < c).
Proof.
  intros Hr.
  destruct (Nat.lt_ge_cases r (row_size t)) as [H1|H1].
  { assert (E : resize l0 t0 t r c = Throw).
    { unfold resize. apply Nat.ltb_lt in H1. rewrite H1. reflexivity. }
    rewrite E. split; split; intros; try discriminate; auto; lia. }
  destruct (Nat.lt_ge_cases c (column_size t)) as [H2|H2].
  { assert (E : resize l0 t0 t r c = Throw).
    { unfold resize. apply Nat.ltb_lt in H2. rewrite H2, orb_true_r. reflexivity. }
    rewrite E. split; split; intros; try discriminate; auto; lia. }
  destruct (Nat.eq_dec r (row_size t)) as [H3|H3]; [|destruct (Nat.eq_dec c 0) as [H4|H4]].
  - destruct (resize_ok t r c Hr H2 (or_introl H3)) as (t' & E & _). rewrite E.
    split; split; intros; try discriminate; lia.
  - destruct (resize_ok t r c Hr H2 (or_intror (conj H1 H4))) as (t' & E & _). rewrite E.
    split; split; intros; try discriminate; lia.
  - rewrite (resize_rows_ub t r c) by (try assumption; lia).
    split; split; intros; try discriminate; try reflexivity; lia.
Qed.

Context (eqb_eq : forall a b, eqb a b = true <-> a = b).
Implicit Types (s : sheet T L).

Definition Rel t s : Prop :=
  HRel eqb l0 (row_labels_ t) (rn s) /\ HRel eqb l0 (col_labels_ t) (cn s) /\
  length (data_ t) = length (rn s) * length (cn s) /\
  forall i j, i < length (rn s) -> j < length (cn s) ->
    nth_error (data_ t) (i * length (cn s) + j) = Some (val s i j).

Lemma rel_rows t s : Rel t s -> row_size t = length (rn s).
Proof. intros ((H & _) & _). exact H. Qed.
Lemma rel_cols t s : Rel t s -> column_size t = length (cn s).
Proof. intros (_ & (H & _) & _). exact H. Qed.
Lemma rel_rect t s : Rel t s -> rect_t t.
Proof. intros HR. unfold rect_t. rewrite (rel_rows _ _ HR), (rel_cols _ _ HR). apply HR. Qed.

Lemma add_row_sim t s l v : Rel t s ->
  match pos eqb (rn s) l with
  | Some _ => add_row eqb t l v = (t, Throw)
  | None => exists t', add_row eqb t l v = (t', Ok (length (rn s))) /\ Rel t' (new_row s (Some l) v)
  end.
Proof.
  intros HR. pose proof HR as (H1 & H2 & Hl & Hc). unfold add_row.
  pose proof (HRel_add eqb l0 eqb_eq (row_labels_ t) (rn s) l H1) as Ha.
  destruct (pos eqb (rn s) l) as [i|]; [rewrite Ha; reflexivity|].
  destruct Ha as (h' & E & Hh). rewrite E.
  pose proof (rel_cols _ _ HR) as Hcs. pose proof Hh as (Hhl & _). rewrite app_length in Hhl; cbn [length] in Hhl.
  assert (Hrs : row_size (mkT h' (col_labels_ t) (data_ t)) = length (rn s) + 1) by exact Hhl.
  assert (Hcs' : column_size (mkT h' (col_labels_ t) (data_ t)) = length (cn s)) by exact Hcs.
  rewrite Hrs, Hcs'.
  eexists; split; [f_equal; f_equal|].
  - unfold row_size, size in *; cbn [row_labels_ data_] in *. lia.
  - unfold Rel, new_row; cbn [row_labels_ col_labels_ data_ rn cn val].
    split; [exact Hh|]. split; [exact H2|]. rewrite vresize_length, app_length; cbn [length].
    split; [reflexivity|]. intros i j Hi Hj.
    rewrite nth_error_vresize, Hl.
    destruct (Nat.ltb_spec (i * length (cn s) + j) ((length (rn s) + 1) * length (cn s))); [|nia].
    destruct (Nat.eqb_spec i (length (rn s))) as [->|Hne].
    + destruct (Nat.ltb_spec (length (rn s) * length (cn s) + j) (length (rn s) * length (cn s))); [lia|reflexivity].
    + destruct (Nat.ltb_spec (i * length (cn s) + j) (length (rn s) * length (cn s))); [|nia]. apply Hc; lia.
Qed.

Lemma resize_sim t s r c : Rel t s -> length (cn s) <= c ->
  (r = length (rn s) \/ (length (rn s) <= r /\ c = 0)) ->
  exists t', resize l0 t0 t r c = Ok t' /\
    Rel t' (mkSh (rn s ++ repeat None (r - length (rn s))) (cn s ++ repeat None (c - length (cn s)))
              (fun i j => if j <? length (cn s) then val s i j else t0)).
Proof.
  intros HR H1 H2. pose proof HR as (Hr1 & Hr2 & Hl & Hc).
  destruct (resize_ok t r c (rel_rect _ _ HR)) as (t' & E & Hrect & Hrs & Hcs & Er & Ec & Hcell).
  - rewrite (rel_cols _ _ HR); assumption.
  - rewrite (rel_rows _ _ HR); assumption.
  - exists t'; split; [exact E|].
    destruct (HRel_resize eqb l0 _ _ r Hr1) as (h1 & E1 & HH1); [lia|].
    destruct (HRel_resize eqb l0 _ _ c Hr2) as (h2 & E2 & HH2); [lia|].
    assert (h1 = row_labels_ t') by congruence. assert (h2 = col_labels_ t') by congruence. subst h1 h2.
    unfold Rel; cbn [rn cn val]. split; [exact HH1|]. split; [exact HH2|].
    assert (Lr : length (rn s ++ repeat None (r - length (rn s))) = r) by (rewrite app_length, repeat_length; lia).
    assert (Lc : length (cn s ++ repeat None (c - length (cn s))) = c) by (rewrite app_length, repeat_length; lia).
    rewrite Lr, Lc. split; [rewrite Hrect, Hrs, Hcs; reflexivity|].
    intros i j Hi Hj. rewrite Hcell by assumption. rewrite (rel_cols _ _ HR).
    destruct (Nat.ltb_spec j (length (cn s))); [|reflexivity]. apply Hc; lia.
Qed.

Lemma Rel_ext t s s' : rn s = rn s' -> cn s = cn s' ->
  (forall i j, i < length (rn s) -> j < length (cn s) -> val s i j = val s' i j) -> Rel t s -> Rel t s'.
Proof.
  intros E1 E2 E3 (H1 & H2 & H3 & H4). unfold Rel. rewrite <- E1, <- E2. repeat (split; [assumption|]).
  intros i j Hi Hj. rewrite H4 by assumption. f_equal. apply E3; assumption.
Qed.

Lemma add_column_sim t s l v : Rel t s ->
  match pos eqb (cn s) l with
  | Some _ => exists t', add_column eqb l0 t0 t l v = (t', Throw) /\ Rel t' (new_col t0 s None)
  | None => exists t', add_column eqb l0 t0 t l v = (t', Ok (length (cn s))) /\ Rel t' (new_col t0 s (Some l))
  end.
Proof.
  intros HR. unfold add_column. rewrite (rel_rows _ _ HR), (rel_cols _ _ HR).
  destruct (resize_sim t s (length (rn s)) (length (cn s) + 1) HR) as (t1 & E1 & HR1); [lia|auto|].
  rewrite Nat.sub_diag in HR1. replace (length (cn s) + 1 - length (cn s)) with 1 in HR1 by lia.
  cbn [repeat] in HR1. rewrite app_nil_r in HR1. rewrite E1.
  assert (HR1' : Rel t1 (new_col t0 s None)).
  { eapply Rel_ext; [..|exact HR1]; try reflexivity. cbn [rn cn val new_col]. rewrite app_length; cbn [length].
    intros i j Hi Hj. destruct (Nat.ltb_spec j (length (cn s))), (Nat.eqb_spec j (length (cn s))); try lia; reflexivity. }
  pose proof (rel_cols _ _ HR1) as Hcs; cbn [cn] in Hcs. rewrite app_length in Hcs; cbn [length] in Hcs.
  rewrite Hcs. replace (length (cn s) + 1 - 1) with (length (cn s)) by lia.
  destruct HR1 as (Hr1 & Hr2 & Hl & Hc); cbn [rn cn val] in *.
  destruct (pos eqb (cn s) l) as [i|] eqn:Ep.
  - rewrite (set_present eqb l0 eqb_eq _ _ l _ Hr2); [eauto|].
    intros Hn. apply (pos_None eqb eqb_eq) in Hn. apply Hn. rewrite in_app_iff. left.
    apply (pos_Some eqb eqb_eq) in Ep. eapply nth_error_In; eassumption.
  - destruct (HRel_set_last eqb l0 eqb_eq _ _ l (length (cn s)) Hr2) as (h' & E & Hh).
    + rewrite app_length; cbn; lia.
    + rewrite nth_error_app2, Nat.sub_diag by lia. reflexivity.
    + apply (pos_None eqb eqb_eq). apply (pos_None eqb eqb_eq) in Ep. rewrite in_app_iff; cbn. intros [H|[H|[]]]; [tauto|discriminate].
    + rewrite E. eexists; split; [reflexivity|].
      rewrite firstn_app, Nat.sub_diag, firstn_all in Hh; cbn [firstn] in Hh.
      rewrite skipn_all2 in Hh by (rewrite app_length; cbn; lia). rewrite app_nil_r in Hh.
      destruct HR1' as (Hr1' & _ & Hl' & Hc'). unfold Rel, new_col in *; cbn [row_labels_ col_labels_ data_ rn cn val] in *.
      rewrite !app_length in *; cbn [length] in *. split; [assumption|]. split; [assumption|]. split; assumption.
Qed.

Lemma goa_row_sim t s l v s' i : Rel t s -> goa_row eqb s l v = (s', i) ->
  exists t', get_or_add_row eqb t l v = (t', Ok i) /\ Rel t' s' /\ i < length (rn s').
Proof.
  intros HR H. unfold goa_row in H. unfold get_or_add_row. pose proof HR as (H1 & _).
  rewrite (HRel_find eqb l0 eqb_eq _ _ l H1). pose proof (add_row_sim t s l v HR) as Ha.
  destruct (pos eqb (rn s) l) as [j|] eqn:Ep; inversion H; subst.
  - exists t; split; [reflexivity|]. split; [assumption|]. apply (pos_Some eqb eqb_eq) in Ep. eapply nth_error_Some_lt; eassumption.
  - destruct Ha as (t' & E & HR'). exists t'; split; [exact E|]. split; [exact HR'|]. cbn. rewrite app_length; cbn; lia.
Qed.

Lemma goa_col_sim t s l v s' i : Rel t s -> goa_col eqb t0 s l = (s', i) ->
  exists t', get_or_add_column eqb l0 t0 t l v = (t', Ok i) /\ Rel t' s' /\ i < length (cn s').
Proof.
  intros HR H. unfold goa_col in H. unfold get_or_add_column. pose proof HR as (_ & H1 & _).
  rewrite (HRel_find eqb l0 eqb_eq _ _ l H1). pose proof (add_column_sim t s l v HR) as Ha.
  destruct (pos eqb (cn s) l) as [j|] eqn:Ep; inversion H; subst.
  - exists t; split; [reflexivity|]. split; [assumption|]. apply (pos_Some eqb eqb_eq) in Ep. eapply nth_error_Some_lt; eassumption.
  - destruct Ha as (t' & E & HR'). exists t'; split; [exact E|]. split; [exact HR'|]. cbn. rewrite app_length; cbn; lia.
Qed.

(* the two orders give the same ideal sheet *)
Lemma goa_commute s r c s1 i s2 j s1' i' s2' j' :
  goa_row eqb s r t0 = (s1, i) -> goa_col eqb t0 s1 c = (s2, j) ->
  goa_col eqb t0 s c = (s1', j') -> goa_row eqb s1' r t0 = (s2', i') ->
  i = i' /\ j = j' /\ rn s2' = rn s2 /\ cn s2' = cn s2 /\ (forall a b, val s2' a b = val s2 a b) /\
  i < length (rn s2) /\ j < length (cn s2).
Proof.
  unfold goa_row, goa_col. intros A B C D.
  destruct (pos eqb (rn s) r) as [p|] eqn:Er; destruct (pos eqb (cn s) c) as [q|] eqn:Ec;
    inversion A; inversion C; subst; clear A C;
    cbn [rn cn val new_row new_col] in *; rewrite ?Er, ?Ec in *; inversion B; inversion D; subst; cbn [rn cn val new_row new_col];
    try (apply (pos_Some eqb eqb_eq), nth_error_Some_lt in Er); try (apply (pos_Some eqb eqb_eq), nth_error_Some_lt in Ec);
    rewrite ?app_length; cbn [length];
    (split; [reflexivity|split; [reflexivity|split; [reflexivity|split; [reflexivity|split; [|split; try assumption; try lia]]]]]);
    try reflexivity.
  all: intros a b; repeat match goal with |- context [?x =? ?y] => destruct (x =? y) end; reflexivity.
Qed.

Lemma locate_sim b t s r c s1 i s2 j : Rel t s ->
  goa_row eqb s r t0 = (s1, i) -> goa_col eqb t0 s1 c = (s2, j) ->
  exists t', locate eqb l0 t0 b t r c = (t', Ok (i, j)) /\ Rel t' s2 /\ i < length (rn s2) /\ j < length (cn s2).
Proof.
  intros HR A B. destruct (goa_col eqb t0 s c) as [s1' j'] eqn:C. destruct (goa_row eqb s1' r t0) as [s2' i'] eqn:D.
  destruct (goa_commute _ _ _ _ _ _ _ _ _ _ _ A B C D) as (-> & -> & Hrn & Hcn & Hv & Hi & Hj).
  unfold locate. destruct b.
  - destruct (goa_row_sim _ _ _ _ _ _ HR A) as (t1 & E1 & HR1 & _). rewrite E1.
    destruct (goa_col_sim _ _ _ t0 _ _ HR1 B) as (t2 & E2 & HR2 & _). rewrite E2. eauto 6.
  - destruct (goa_col_sim _ _ _ t0 _ _ HR C) as (t1 & E1 & HR1 & _). rewrite E1.
    destruct (goa_row_sim _ _ _ _ _ _ HR1 D) as (t2 & E2 & HR2 & _). rewrite E2.
    exists t2. split; [reflexivity|]. split; [|auto]. eapply Rel_ext; [..|exact HR2]; auto.
Qed.

Lemma at_sim t s i j : Rel t s ->
  at_ t i j = if in_range s i j then Ok (val s i j) else Throw.
Proof.
  intros HR. pose proof HR as (_ & _ & _ & Hc). unfold at_, in_range.
  rewrite (rel_rows _ _ HR), (rel_cols _ _ HR).
  destruct ((i <? length (rn s)) && (j <? length (cn s))) eqn:E; [|reflexivity].
  apply andb_true_iff in E as [E1 E2]. apply Nat.ltb_lt in E1, E2. cbn [assert_ bind].
  unfold vget. rewrite Hc by assumption. reflexivity.
Qed.

Lemma at_set_sim t s i j v : Rel t s ->
  if in_range s i j then exists t', at_set t i j v = Ok t' /\ Rel t' (put_at s i j v) else at_set t i j v = Throw.
Proof.
  intros HR. pose proof HR as (H1 & H2 & Hl & Hc). unfold at_set, in_range.
  rewrite (rel_rows _ _ HR), (rel_cols _ _ HR).
  destruct ((i <? length (rn s)) && (j <? length (cn s))) eqn:E; [|reflexivity].
  apply andb_true_iff in E as [E1 E2]. apply Nat.ltb_lt in E1, E2. cbn [assert_ bind].
  assert (Hlt : i * length (cn s) + j < length (data_ t)) by (rewrite Hl; apply idx_bound; assumption).
  rewrite vset_ok by assumption. cbn [bind]. eexists; split; [reflexivity|].
  unfold Rel, put_at; cbn [row_labels_ col_labels_ data_ rn cn val]. split; [assumption|]. split; [assumption|].
  split; [rewrite upd_length; assumption|]. intros a b Ha Hb. rewrite nth_error_upd by assumption.
  destruct (Nat.eqb_spec (a * length (cn s) + b) (i * length (cn s) + j)) as [Ei|Ni].
  - apply idx_inj in Ei; [|assumption..]. destruct Ei as [-> ->]. rewrite !Nat.eqb_refl. reflexivity.
  - rewrite Hc by assumption. destruct (Nat.eqb_spec a i) as [->|]; [|reflexivity].
    destruct (Nat.eqb_spec b j) as [->|]; [contradiction|reflexivity].
Qed.

Lemma label_sim h ns i : HRel eqb l0 h ns ->
  match label_of l0 ns i with Some l => DataHeader.get h i = Ok l | None => True end.
Proof.
  intros (Hl & H1 & H2 & _). unfold label_of, DataHeader.get, vget.
  destruct (nth_error ns i) as [[l|]|] eqn:E; [| |exact I].
  - rewrite (H1 _ _ E). reflexivity.
  - rewrite (H2 _ E). reflexivity.
Qed.

Lemma step_sim t s (bo : bool * op T L) s' r : Rel t s -> ideal_step eqb l0 t0 s (snd bo) = Some (s', r) ->
  exists t', step_any eqb l0 t0 t bo = Some (t', r) /\ Rel t' s'.
Proof.
  destruct bo as [b o]. unfold step_any; cbn [fst snd].
  intros HR H. pose proof HR as (H1 & H2 & Hl & Hc).
  destruct o; cbn [ideal_step step] in *.
  - pose proof (add_row_sim t s l v HR) as Ha. destruct (pos eqb (rn s) l).
    + inversion H; subst. rewrite Ha. cbn [fin]. eauto.
    + destruct Ha as (t' & E & HR'). inversion H; subst. rewrite E. cbn [fin]. eauto.
  - pose proof (add_column_sim t s l v HR) as Ha. destruct (pos eqb (cn s) l);
      destruct Ha as (t' & E & HR'); inversion H; subst; rewrite E; cbn [fin]; eauto.
  - destruct (goa_row eqb s l v) as [s1 i] eqn:E. inversion H; subst.
    destruct (goa_row_sim _ _ _ _ _ _ HR E) as (t' & Et & HR' & _). rewrite Et. cbn [fin]. eauto.
  - destruct (goa_col eqb t0 s l) as [s1 i] eqn:E. inversion H; subst.
    destruct (goa_col_sim _ _ _ v _ _ HR E) as (t' & Et & HR' & _). rewrite Et. cbn [fin]. eauto.
  - destruct (Nat.ltb_spec r0 (length (rn s))) as [G1|G1]; cbn [orb] in H.
    { inversion H; subst. destruct (resize_exact t r0 c (rel_rect _ _ HR)) as [X _].
      rewrite (proj2 X) by (rewrite (rel_rows _ _ HR); auto). cbn. eauto. }
    destruct (Nat.ltb_spec c (length (cn s))) as [G2|G2]; cbn [orb] in H.
    { inversion H; subst. destruct (resize_exact t r0 c (rel_rect _ _ HR)) as [X _].
      rewrite (proj2 X) by (rewrite (rel_cols _ _ HR); auto). cbn. eauto. }
    destruct ((length (rn s) <? r0) && (0 <? c)) eqn:G3; [discriminate|]. inversion H; subst.
    destruct (resize_sim t s r0 c HR G2) as (t' & E & HR').
    { apply andb_false_iff in G3. destruct G3 as [G3|G3]; apply Nat.ltb_ge in G3; lia. }
    rewrite E. cbn. eauto.
  - inversion H; subst. rewrite (rel_rows _ _ HR). eauto.
  - inversion H; subst. rewrite (rel_cols _ _ HR). eauto.
  - inversion H; subst. rewrite (HRel_find eqb l0 eqb_eq _ _ l H1). eauto.
  - inversion H; subst. rewrite (HRel_find eqb l0 eqb_eq _ _ l H2). eauto.
  - pose proof (label_sim _ _ i H1) as Ha. destruct (label_of l0 (rn s) i); [|discriminate].
    cbn [option_map] in H. inversion H; subst. rewrite Ha. cbn. eauto.
  - pose proof (label_sim _ _ i H2) as Ha. destruct (label_of l0 (cn s) i); [|discriminate].
    cbn [option_map] in H. inversion H; subst. rewrite Ha. cbn. eauto.
  - rewrite (at_sim _ _ _ _ HR). inversion H; subst. destruct (in_range s' r0 c); cbn; eauto.
  - pose proof (at_set_sim t s r0 c v HR) as Ha. destruct (in_range s r0 c).
    + destruct Ha as (t' & E & HR'). inversion H; subst. rewrite E; cbn; eauto.
    + inversion H; subst. rewrite Ha; cbn; eauto.
  - destruct (goa_row eqb s r0 t0) as [s1 i] eqn:A. destruct (goa_col eqb t0 s1 c) as [s2 j] eqn:B.
    inversion H; subst. destruct (locate_sim b t s r0 c _ _ _ _ HR A B) as (t' & E & HR' & Hi & Hj). rewrite E.
    rewrite (at_sim _ _ i j HR'). unfold in_range. apply Nat.ltb_lt in Hi, Hj. rewrite Hi, Hj. cbn. eauto.
  - destruct (goa_row eqb s r0 t0) as [s1 i] eqn:A. destruct (goa_col eqb t0 s1 c) as [s2 j] eqn:B.
    inversion H; subst. destruct (locate_sim b t s r0 c _ _ _ _ HR A B) as (t' & E & HR' & Hi & Hj). rewrite E.
    pose proof (at_set_sim t' s2 i j v HR') as Ha. unfold in_range in Ha. apply Nat.ltb_lt in Hi, Hj. rewrite Hi, Hj in Ha.
    cbn [andb] in Ha. destruct Ha as (t'' & E' & HR''). rewrite E'; cbn. eauto.
Qed.

Lemma create_rel nr nc : Rel (create l0 t0 nr nc) (mkSh (repeat None nr) (repeat None nc) (fun _ _ => t0)).
Proof.
  unfold Rel, create; cbn [row_labels_ col_labels_ data_ rn cn val]. rewrite !repeat_length.
  split; [apply (StorageProofs.create_rel eqb l0 0 nr t0)|].
  split; [apply (StorageProofs.create_rel eqb l0 0 nc t0)|].
  split; [reflexivity|]. intros i j Hi Hj. apply nth_error_repeat_lt. apply idx_bound; assumption.
Qed.

Lemma exec_snd {X O R : Type} (st : X -> O -> option (X * R)) (x0 : X) (bops : list (bool * O)) :
  exec (fun x bo => st x (snd bo)) x0 bops = exec st x0 (map snd bops).
Proof.
  revert x0; induction bops as [|bo bops IH]; intros x0; [reflexivity|]. cbn [exec map].
  destruct (st x0 (snd bo)) as [[s1 r]|]; [|reflexivity]. rewrite IH. reflexivity.
Qed.

Lemma table_refines nr nc (bops : list (bool * op T L)) s rs :
  exec (ideal_step eqb l0 t0) (mkSh (repeat None nr) (repeat None nc) (fun _ _ => t0)) (map snd bops) = Some (s, rs) ->
  exists t, exec (step_any eqb l0 t0) (create l0 t0 nr nc) bops = Some (t, rs) /\
    row_size t = length (rn s) /\ column_size t = length (cn s) /\
    length (data_ t) = row_size t * column_size t /\
    (forall i j, at_ t i j = if in_range s i j then Ok (val s i j) else Throw).
Proof.
  intros H. rewrite <- exec_snd in H.
  destruct (exec_sim (step_any eqb l0 t0) (fun x bo => ideal_step eqb l0 t0 x (snd bo)) Rel) with (ops := bops)
    (s := create l0 t0 nr nc) (t := @mkSh T L (repeat None nr) (repeat None nc) (fun _ _ : nat => t0)) (t' := s) (rs := rs)
    as (t & E & HR).
  - intros t1 s1 bo s1' r HR E. eapply step_sim; eassumption.
  - apply create_rel.
  - exact H.
  - exists t; split; [exact E|]. split; [apply rel_rows; assumption|]. split; [apply rel_cols; assumption|].
    split; [apply (rel_rect _ _ HR)|]. intros i j. apply at_sim; assumption.
Qed.
End P.

Lemma resize_columns {T L : Type} (l0 : L) (t0 : T) (t : table T L) c :
  rect_t t -> column_size t <= c ->
  exists t', resize l0 t0 t (row_size t) c = Ok t' /\ rect_t t' /\
    row_size t' = row_size t /\ column_size t' = c /\
    forall i j, i < row_size t -> j < c ->
      at_ t' i j = if j <? column_size t then at_ t i j else Ok t0.
Proof.
  intros Hr Hc. destruct (resize_ok l0 t0 t (row_size t) c Hr Hc (or_introl eq_refl))
    as (t' & E & Hr' & Hrs & Hcs & _ & _ & Hcell).
  exists t'. repeat (split; [assumption|]). intros i j Hi Hj.
  unfold at_. rewrite Hrs, Hcs. apply Nat.ltb_lt in Hi as Hi'. apply Nat.ltb_lt in Hj as Hj'. rewrite Hi', Hj'.
  cbn [andb assert_ bind]. unfold vget at 1. rewrite Hcell by assumption.
  destruct (Nat.ltb_spec j (column_size t)); cbn [assert_ bind]; reflexivity.
Qed.
