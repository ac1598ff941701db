From Verif Require Import Model.Base Proofs.BaseFacts Model.StdString Model.Strings Model.Number Model.StringCast Model.CharStream Model.PropTree Model.PropNode Model.PropCast
  Spec.Strings Spec.Decimal Spec.PropNode Spec.PropText Spec.PropCast Proofs.StringFacts Proofs.DictionaryProofs Proofs.NumberProofs Proofs.ScanProofs Proofs.PropNodeProofs.
Local Open Scope nat_scope.

Lemma child_of_First p k c : First k c (pn_children p) -> child_of p k = Some c.
Proof.
  intros (l & r & E & N). unfold child_of. rewrite (child_index_first _ l k c r E N), E, nth_error_app2, Nat.sub_diag by lia. reflexivity.
Qed.
Lemma child_of_Absent p k : Absent k (pn_children p) -> child_of p k = None.
Proof. intros A. unfold child_of. apply child_index_none in A. rewrite A. reflexivity. Qed.

Lemma text_roundtrip {T} (to : T -> str) (from : str -> res T) (P : T -> Prop) : (forall x, P x -> from (to x) = Ok x) -> RoundTrip (text_cast to from) P.
Proof. intros H x t Px S. cbn [text_cast cfrom cto] in *. apply Same_value in S. cbn in S. rewrite <- S. apply H. exact Px. Qed.
Lemma same_copy_eq : forall t u, Same t u -> pn_copy t = pn_copy u.
Proof.
  induction t as [a v c IH] using pnode_rect'. intros u H. inversion H as [? b ? ? d F]; subst. cbn [pn_copy]. f_equal. clear H. revert IH. induction F as [|[k x] [k' y] c d [E S] F IHF]; intros IH; [reflexivity|].
  inversion IH as [|? ? H1 H2]; subst. cbn [map fst snd] in *. rewrite (H1 y S), (IHF H2), E. reflexivity.
Qed.
Lemma node_roundtrip : RoundTrip node_cast (fun p => pn_copy p = p).
Proof. intros x t Px S. cbn [node_cast cfrom cto] in *. rewrite Px in S. rewrite <- (same_copy_eq _ _ S). congruence. Qed.

(* ---------- vectors ---------- *)
Fixpoint items {T} (c : cast T) (i : nat) (xs : list T) : children_t :=
  match xs with [] => [] | x :: xs' => (item_key i, cto c x) :: items c (S i) xs' end.
Lemma push_children grow p k n : pn_value (pn_push_back grow p k n) = pn_value p /\ SameChildren (pn_children p ++ [(k, n)]) (pn_children (pn_push_back grow p k n)).
Proof.
  split; [reflexivity|]. unfold pn_push_back. cbn [pn_children]. apply SameChildren_app; [|apply SameChildren_refl]. destruct (grow _); [apply SameChildren_copy|apply SameChildren_refl].
Qed.
Lemma put_items_spec {T} (c : cast T) grow xs : forall p i, pn_value (put_items c grow p i xs) = pn_value p /\ SameChildren (pn_children p ++ items c i xs) (pn_children (put_items c grow p i xs)).
Proof.
  induction xs as [|x xs IH]; intros p i; cbn [put_items items].
  - rewrite app_nil_r. split; [reflexivity|apply SameChildren_refl].
  - destruct (IH (pn_push_back grow p (item_key i) (cto c x)) (S i)) as [V S]. destruct (push_children grow p (item_key i) (cto c x)) as [V2 S2]. split; [congruence|].
    eapply SameChildren_trans; [|exact S]. replace (pn_children p ++ (item_key i, cto c x) :: items c (Datatypes.S i) xs) with ((pn_children p ++ [(item_key i, cto c x)]) ++ items c (Datatypes.S i) xs) by (rewrite <- app_assoc; reflexivity).
    apply SameChildren_app; [exact S2|apply SameChildren_refl].
Qed.
Lemma read_items_spec {T} (c : cast T) P : RoundTrip c P -> forall xs i cs, Forall P xs -> SameChildren (items c i xs) cs -> read_items c cs = Ok xs.
Proof.
  intros R xs. induction xs as [|x xs IH]; intros i cs F S; cbn [items] in S; inversion S as [|? [k n] ? cs' [E S1] S2]; subst; [reflexivity|]. inversion F as [|? ? PX F']; subst. cbn [read_items].
  cbn [snd] in S1. rewrite (R x n PX S1). cbn [bind]. rewrite (IH (Datatypes.S i) cs' F' S2). reflexivity.
Qed.
Lemma vector_roundtrip {T} grow (c : cast T) P : RoundTrip c P -> RoundTrip (vector_cast grow c) (Forall P).
Proof.
  intros R xs t F S. cbn [vector_cast cto cfrom] in *. destruct (put_items_spec c grow xs pn_empty 0) as [V S2]. apply Same_children in S. apply (read_items_spec c P R xs 0); [exact F|]. eapply SameChildren_trans; [exact S2|exact S].
Qed.

(* ---------- nodes with named parts ---------- *)
Definition Built (p : pnode) (kvs : children_t) : Prop := pn_value p = [] /\ SameChildren kvs (pn_children p).
Lemma Built_empty : Built pn_empty [].
Proof. split; [reflexivity|constructor]. Qed.
Lemma Built_cset {T} (c : cast T) grow p kvs k x : Built p kvs -> Absent k kvs -> Built (cset c grow p k x) (kvs ++ [(k, cto c x)]).
Proof.
  intros [V S] A. unfold cset, pn_find. apply (SameChildren_Absent _ _ k S) in A. apply child_index_none in A. rewrite A.
  destruct (push_children grow (pn_access p) k (cto c x)) as [V2 S2]. split; [exact V|]. eapply SameChildren_trans; [|exact S2]. cbn [pn_access pn_children]. apply SameChildren_app; [exact S|apply SameChildren_refl].
Qed.
Lemma Built_same p kvs q : Built p kvs -> Same p q -> Built q kvs.
Proof. intros [V S] H. split; [rewrite <- (Same_value _ _ H); exact V|]. eapply SameChildren_trans; [exact S|apply Same_children; exact H]. Qed.
Lemma Built_get {T} (c : cast T) P p kvs k x : RoundTrip c P -> P x -> Built p kvs -> First k (cto c x) kvs -> cget c p k = Ok x /\ (forall d, cget_or c p k d = Ok x).
Proof.
  intros R PX [V S] F. destruct (SameChildren_First _ _ _ _ S F) as (y & FY & SY). unfold cget, cget_or. rewrite (child_of_First _ _ _ FY). split; [|intros _]; apply R; assumption.
Qed.
Ltac absent := unfold Absent; cbn; intuition discriminate.
Ltac first_ := first [exists []; eexists; split; [reflexivity|cbn; tauto] | eexists [_]; eexists; split; [reflexivity|cbn; intuition discriminate]
  | eexists [_; _]; eexists; split; [reflexivity|cbn; intuition discriminate] | eexists [_; _; _]; eexists; split; [reflexivity|cbn; intuition discriminate]].

Lemma vec3_built {T} grow (c : cast T) zero rd x y z : Built (cto (vec3_cast grow c zero rd) (x, y, z)) [(["x"%char], cto c x); (["y"%char], cto c y); (["z"%char], cto c z)].
Proof.
  eapply Built_same; [|apply Same_copy]. eapply (Built_cset _ _ _ [(["x"%char], cto c x); (["y"%char], cto c y)]); [|absent].
  eapply (Built_cset _ _ _ [(["x"%char], cto c x)]); [|absent]. eapply (Built_cset _ _ _ []); [apply Built_empty|absent].
Qed.
Lemma vec3_roundtrip {T} grow (c : cast T) zero rd P : RoundTrip c P -> RoundTrip (vec3_cast grow c zero rd) (fun '(x, y, z) => P x /\ P y /\ P z).
Proof.
  intros R [[x y] z] t (PX & PY & PZ) S. pose proof (Built_same _ _ _ (vec3_built grow c zero rd x y z) S) as B. cbn [vec3_cast cfrom].
  rewrite (proj2 (Built_get c P t _ ["x"%char] x R PX B ltac:(first_))). cbn [bind]. rewrite (proj2 (Built_get c P t _ ["y"%char] y R PY B ltac:(first_))). cbn [bind].
  rewrite (proj2 (Built_get c P t _ ["z"%char] z R PZ B ltac:(first_))). cbn [bind]. destruct B as [V _]. unfold has_value. rewrite V. reflexivity.
Qed.
Lemma quat_built {T} grow (c : cast T) w x y z : Built (cto (quat_cast grow c) (w, x, y, z)) [(["w"%char], cto c w); (["x"%char], cto c x); (["y"%char], cto c y); (["z"%char], cto c z)].
Proof.
  eapply Built_same; [|apply Same_copy]. eapply (Built_cset _ _ _ [(["w"%char], cto c w); (["x"%char], cto c x); (["y"%char], cto c y)]); [|absent]. eapply (Built_cset _ _ _ [(["w"%char], cto c w); (["x"%char], cto c x)]); [|absent].
  eapply (Built_cset _ _ _ [(["w"%char], cto c w)]); [|absent]. eapply (Built_cset _ _ _ []); [apply Built_empty|absent].
Qed.
Lemma quat_roundtrip {T} grow (c : cast T) P : RoundTrip c P -> RoundTrip (quat_cast grow c) (fun '(w, x, y, z) => P w /\ P x /\ P y /\ P z).
Proof.
  intros R [[[w x] y] z] t (PW & PX & PY & PZ) S. pose proof (Built_same _ _ _ (quat_built grow c w x y z) S) as B. cbn [quat_cast cfrom].
  rewrite (proj1 (Built_get c P t _ ["w"%char] w R PW B ltac:(first_))). cbn [bind].
  rewrite (proj1 (Built_get c P t _ ["x"%char] x R PX B ltac:(first_))). cbn [bind]. rewrite (proj1 (Built_get c P t _ ["y"%char] y R PY B ltac:(first_))). cbn [bind].
  rewrite (proj1 (Built_get c P t _ ["z"%char] z R PZ B ltac:(first_))). reflexivity.
Qed.
Lemma transform_roundtrip {T} grow (c : cast T) zero rd P : RoundTrip c P ->
  RoundTrip (transform_cast grow c zero rd) (fun '((x, y, z), (w, x', y', z')) => (P x /\ P y /\ P z) /\ (P w /\ P x' /\ P y' /\ P z')).
Proof.
  intros R [p q] t PP S. set (cv := vec3_cast grow c zero rd) in *. set (cq := quat_cast grow c) in *.
  assert (B : Built t [(["p"%char], cto cv p); (["q"%char], cto cq q)]).
  { eapply Built_same; [|exact S]. cbn [transform_cast cto]. eapply Built_same; [|apply Same_copy]. eapply (Built_cset _ _ _ [(["p"%char], cto cv p)]); [|absent]. eapply (Built_cset _ _ _ []); [apply Built_empty|absent]. }
  cbn [transform_cast cfrom]. fold cv cq. destruct p as [[x y] z], q as [[[w x'] y'] z']. destruct PP as [PP PQ].
  rewrite (proj1 (Built_get cv _ t _ ["p"%char] (x, y, z) (vec3_roundtrip grow c zero rd P R) PP B ltac:(first_))). cbn [bind].
  rewrite (proj1 (Built_get cq _ t _ ["q"%char] (w, x', y', z') (quat_roundtrip grow c P R) PQ B ltac:(first_))). reflexivity.
Qed.

(* storing under a key *)
Lemma cset_spec {T} (c : cast T) grow p k x :
  (exists n, First k n (pn_children (cset c grow p k x)) /\ Same (cto c x) n) /\
  (forall k2, k2 <> k -> (Absent k2 (pn_children p) -> Absent k2 (pn_children (cset c grow p k x))) /\
     (forall n, First k2 n (pn_children p) -> exists n', First k2 n' (pn_children (cset c grow p k x)) /\ Same n n')).
Proof.
  unfold cset, pn_find. pose proof (child_index_spec (pn_children p) k) as H. destruct (child_index (pn_children p) k) as [i|].
  - destruct H as (l & n & r & E & <- & N). rewrite (with_child_split _ l k n r) by exact E. cbn [fst pn_access pn_children]. split.
    + exists (pn_assign n (cto c x)). split; [exists l, r; auto|]. eapply Same_trans; [apply Same_copy|]. destruct (cto c x). unfold pn_assign. cbn. apply Same_intro. apply SameChildren_refl.
    + intros k2 NK. split.
      * unfold Absent. rewrite E, !map_app. cbn [map fst]. auto.
      * intros m F. rewrite E in F. exists m. split; [|apply Same_refl]. eapply First_replace; eassumption.
  - destruct (push_children grow (pn_access p) k (cto c x)) as [_ S]. cbn [pn_access pn_children] in S. split.
    + apply (SameChildren_First _ _ k (cto c x)) in S; [|apply First_last; exact H]. exact S.
    + intros k2 NK. split.
      * intros A. eapply SameChildren_Absent; [apply SameChildren_sym; exact S|]. unfold Absent in *. rewrite map_app, in_app_iff. cbn. intuition.
      * intros m F. apply (SameChildren_First _ _ k2 m) in S; [exact S|]. apply First_snoc; assumption.
Qed.

(* keys of vector items *)
Lemma items_keys {T} (c : cast T) xs : forall i, map fst (items c i xs) = map item_key (seq i (length xs)).
Proof. induction xs as [|x xs IH]; intros i; [reflexivity|]. cbn [items map fst length seq]. rewrite IH. reflexivity. Qed.

(* ---------- bounds ---------- *)
Local Open Scope Z_scope.
Lemma read_bounds_single {T} (from : str -> res T) lo hi p : pn_value p <> [] -> (forall n, ~ OccursAt dots (pn_value p) n) ->
  read_bounds from lo hi p = let* x := from (pn_value p) in Ok (x, x).
Proof.
  intros V N. unfold read_bounds, has_value. destruct (pn_value p) as [|c v] eqn:E; [congruence|]. unfold find. apply find_sub_None in N. rewrite N. reflexivity.
Qed.
Lemma read_bounds_pair {T} (from : str -> res T) lo hi p l r : fits (pn_value p) -> pn_value p = l ++ dots ++ r -> (forall n, OccursAt dots (pn_value p) n -> (length l <= n)%nat) ->
  read_bounds from lo hi p = let* x := from (pn_value p) in let* y := from r in Ok (x, y).
Proof.
  intros F E N. unfold read_bounds, has_value. destruct (pn_value p) as [|c v] eqn:EV; [destruct l; discriminate|].
  assert (ES : find_sub dots (c :: v) = Some (length l)).
  { apply find_sub_Some. split; [exists l, r; auto|]. exact N. }
  unfold find. rewrite ES. cbn [ret_pos]. assert (LL : (length l + 2 <= length (c :: v))%nat) by (rewrite E, !app_length; cbn; lia). unfold fits in F.
  destruct (from (c :: v)) as [x| | |]; cbn [bind]; try reflexivity. destruct (Z.eqb_spec (Z.of_nat (length l)) npos) as [X|X]; [change npos with (2 ^ 64 - 1) in X; lia|].
  replace (wadd (Z.of_nat (length l)) 2) with (size_ (l ++ dots)) by (unfold size_; rewrite app_length; cbn [length dots]; unfold wadd, two64; rewrite Z.mod_small; lia).
  rewrite E, app_assoc, substr_tail; [reflexivity|]. rewrite E, !app_length in F. unfold size_. change npos with (2 ^ 64 - 1). lia.
Qed.
Lemma read_bounds_children {T} (from : str -> res T) lo hi p : pn_value p = [] -> pn_children p <> [] ->
  exists lower upper, read_bounds from lo hi p = (let* x := lower in let* y := upper in Ok (x, y)) /\
  (forall n, First ["m"; "i"; "n"]%char n (pn_children p) -> lower = from (pn_value n)) /\
  (Absent ["m"; "i"; "n"]%char (pn_children p) -> forall n, First ["l"; "o"; "w"; "e"; "r"]%char n (pn_children p) -> lower = from (pn_value n)) /\
  (Absent ["m"; "i"; "n"]%char (pn_children p) -> Absent ["l"; "o"; "w"; "e"; "r"]%char (pn_children p) -> lower = Ok lo) /\
  (forall n, First ["m"; "a"; "x"]%char n (pn_children p) -> upper = from (pn_value n)) /\
  (Absent ["m"; "a"; "x"]%char (pn_children p) -> forall n, First ["u"; "p"; "p"; "e"; "r"]%char n (pn_children p) -> upper = from (pn_value n)) /\
  (Absent ["m"; "a"; "x"]%char (pn_children p) -> Absent ["u"; "p"; "p"; "e"; "r"]%char (pn_children p) -> upper = Ok hi).
Proof.
  intros V C. unfold read_bounds, has_value, pn_size. rewrite V. destruct (pn_children p) as [|kc cs] eqn:E; [congruence|]. cbn [length Nat.eqb negb].
  eexists _, _. split; [reflexivity|]. rewrite <- E in *. cbn [cget_any].
  repeat match goal with |- _ /\ _ => split end; intros; repeat match goal with H : First _ _ _ |- _ => apply child_of_First in H; rewrite H | H : Absent _ _ |- _ => apply child_of_Absent in H; rewrite H end; reflexivity.
Qed.

(* ---------- text in a property file ---------- *)
Lemma SafeTree_Same : forall t u, Same t u -> SafeTree t -> SafeTree u.
Proof.
  induction t as [a v c IH] using pnode_rect'. intros u H S. inversion H as [? b ? ? d F]; subst. inversion S as [? ? V|? ? N C]; subst.
  - inversion F; subst. apply Safe_leaf. exact V.
  - apply Safe_group; [destruct F; congruence|]. clear H S N. revert IH C. induction F as [|[k x] [k' y] c d [E S] F IHF]; intros IH C; [constructor|].
    inversion IH; subst. inversion C as [|? ? [C1 C2] C3]; subst. cbn [fst snd] in *. subst k'. constructor; [split; [exact C1|auto]|apply IHF; assumption].
Qed.
Lemma Neat_Same : forall t u, Same t u -> Neat t -> Neat u.
Proof.
  induction t as [a v c IH] using pnode_rect'. intros u H S. inversion H as [? b ? ? d F]; subst. inversion S as [? ? ? V C]; subst. constructor; [exact V|].
  clear H S V. revert IH C. induction F as [|[k x] [k' y] c d [E S] F IHF]; intros IH C; [constructor|].
  inversion IH; subst. inversion C as [|? ? [C1 C2] C3]; subst. cbn [fst snd] in *. subst k'. constructor; [split; [exact C1|auto]|apply IHF; assumption].
Qed.
Lemma text_carries {T} (to : T -> str) from (P : T -> Prop) : (forall x, P x -> Safe (to x) /\ IsTrim white (to x) (to x)) -> Carries (text_cast to from) P.
Proof. intros H x PX. destruct (H x PX). cbn. split; [apply Safe_leaf; assumption|constructor; [assumption|constructor]]. Qed.

Lemma word_char c : IsDigit c \/ c = "-"%char \/ In c ["i"; "t"; "e"; "m"]%char -> plain c /\ ~ In c marks /\ ~ In c white.
Proof.
  intros H. assert (X : (nat_of_ascii c = 45 \/ 48 <= nat_of_ascii c <= 57 \/ 97 <= nat_of_ascii c <= 122)%nat).
  { destruct H as [H|[->|H]]; [unfold IsDigit, dval in H; lia|left; reflexivity|]. cbn in H. destruct H as [<-|[<-|[<-|[<-|[]]]]]; vm_compute; lia. }
  split; [unfold plain; lia|]. split; cbn; intros C; repeat (destruct C as [<-|C]; [vm_compute in X; lia|]); exact C.
Qed.
Lemma word_safe s : Forall (fun c => IsDigit c \/ c = "-"%char \/ In c ["i"; "t"; "e"; "m"]%char) s -> Safe s /\ IsTrim white s s.
Proof.
  intros F. assert (G : Forall (fun c => plain c /\ ~ In c marks /\ ~ In c white) s) by (eapply Forall_impl; [|exact F]; intros c; apply word_char). split.
  - split; [eapply Forall_impl; [|exact G]; intros ? [H _]; exact H|right; eapply Forall_impl; [|exact G]; intros ? (_ & H & _); exact H].
  - exists [], []. rewrite app_nil_r. split; [reflexivity|]. split; [constructor|]. split; [constructor|]. rewrite Forall_forall in G. split; intros x m E I; rewrite E in G.
    + apply (G x); [left; reflexivity|exact I].
    + apply (G x); [apply in_or_app; right; left; reflexivity|exact I].
Qed.
Lemma dec_word z : printable z -> Forall (fun c => IsDigit c \/ c = "-"%char \/ In c ["i"; "t"; "e"; "m"]%char) (dec z).
Proof.
  intros P. pose proof (dec_canonical z P) as C. inversion C as [E1 E2|d ds D1 D2 D3 E1 E2|d ds D1 D2 D3 E1 E2].
  - constructor; [left; unfold IsDigit; vm_compute; split; discriminate|constructor].
  - constructor; [left; exact D1|]. eapply Forall_impl; [|exact D3]. intros; left; assumption.
  - constructor; [right; left; reflexivity|]. constructor; [left; exact D1|]. eapply Forall_impl; [|exact D3]. intros; left; assumption.
Qed.
Lemma item_key_safe i : SafeLabel (item_key i) /\ IsTrim white (item_key i) (item_key i).
Proof.
  assert (W : Safe (item_key i) /\ IsTrim white (item_key i) (item_key i)).
  { apply word_safe. unfold item_key. apply Forall_app. split; [repeat constructor; right; right; cbn; tauto|]. apply dec_word. destruct (wrap32_ex (Z.of_nat i)) as [H _]. unfold printable. lia. }
  destruct W as [W1 W2]. split; [|exact W2]. split; [exact W1|]. exists "i"%char, (["t"; "e"; "m"]%char ++ dec (wrap32 (Z.of_nat i))). split; [exact W2|]. right. vm_compute. lia.
Qed.
Lemma built_tree p kvs : Built p kvs -> kvs <> [] -> Forall (fun kc => (SafeLabel (fst kc) /\ IsTrim white (fst kc) (fst kc)) /\ SafeTree (snd kc) /\ Neat (snd kc)) kvs -> SafeTree p /\ Neat p.
Proof.
  intros [V S] N F. destruct p as [a v cs]. cbn [pn_value pn_children] in *. subst v. assert (S' : Same (PN a [] kvs) (PN a [] cs)) by (apply Same_intro; exact S).
  split; [apply (SafeTree_Same _ _ S')|apply (Neat_Same _ _ S')].
  - apply Safe_group; [exact N|]. eapply Forall_impl; [|exact F]. intros ? [[H _] [H2 _]]; split; assumption.
  - constructor; [|eapply Forall_impl; [|exact F]; intros ? [[_ H] [_ H2]]; split; assumption]. exists [], []. split; [reflexivity|]. split; [constructor|]. split; [constructor|]. split; [discriminate|]. intros ? [|? ?]; discriminate.
Qed.
Lemma empty_tree p : Built p [] -> SafeTree p /\ Neat p.
Proof.
  intros [V S]. inversion S as [E|]. destruct p as [a v cs]. cbn in *. subst. split; [apply Safe_leaf; split; [constructor|right; constructor]|].
  constructor; [|constructor]. exists [], []. split; [reflexivity|]. split; [constructor|]. split; [constructor|]. split; [discriminate|]. intros ? [|? ?]; discriminate.
Qed.
Lemma vector_carries {T} grow (c : cast T) P : Carries c P -> Carries (vector_cast grow c) (Forall P).
Proof.
  intros C xs F. destruct (put_items_spec c grow xs pn_empty 0) as [V S]. cbn [pn_empty pn_children app pn_value] in V, S. assert (B : Built (cto (vector_cast grow c) xs) (items c 0 xs)) by (split; assumption).
  destruct xs as [|x xs]; [apply empty_tree; exact B|]. apply (built_tree _ _ B); [discriminate|]. clear B V S. generalize 0%nat as i. induction F as [|y ys PY F IH]; intros i; [constructor|].
  cbn [items]. constructor; [split; [apply item_key_safe|apply C; exact PY]|apply IH].
Qed.
Lemma letter_key c : letter c -> In c ["p"; "q"; "w"; "x"; "y"; "z"]%char -> SafeLabel [c] /\ IsTrim white [c] [c].
Proof.
  intros L I. assert (X : plain c /\ ~ In c marks /\ ~ In c white).
  { unfold letter in L. split; [unfold plain; lia|]. split; cbn; intros C; repeat (destruct C as [<-|C]; [vm_compute in L; lia|]); exact C. }
  assert (W : IsTrim white [c] [c]).
  { exists [], []. split; [reflexivity|]. split; [constructor|]. split; [constructor|]. split; intros x m E J; [injection E as <- _; destruct X as (_ & _ & X); exact (X J)|]. destruct m as [|? [|? ?]]; try discriminate. injection E as <-. destruct X as (_ & _ & X); exact (X J). }
  split; [|exact W]. split; [split; [constructor; [apply X|constructor]|right; constructor; [apply X|constructor]]|]. exists c, []. split; [exact W|exact L].
Qed.
Ltac key_safe := apply letter_key; [vm_compute; lia|cbn; tauto].
Lemma vec3_carries {T} grow (c : cast T) zero rd P : Carries c P -> Carries (vec3_cast grow c zero rd) (fun '(x, y, z) => P x /\ P y /\ P z).
Proof.
  intros C [[x y] z] (PX & PY & PZ). apply (built_tree _ _ (vec3_built grow c zero rd x y z)); [discriminate|].
  repeat (apply Forall_cons; [split; [key_safe|apply C; assumption]|]). constructor.
Qed.
Lemma quat_carries {T} grow (c : cast T) P : Carries c P -> Carries (quat_cast grow c) (fun '(w, x, y, z) => P w /\ P x /\ P y /\ P z).
Proof.
  intros C [[[w x] y] z] (PW & PX & PY & PZ). apply (built_tree _ _ (quat_built grow c w x y z)); [discriminate|].
  repeat (apply Forall_cons; [split; [key_safe|apply C; assumption]|]). constructor.
Qed.
Lemma transform_carries {T} grow (c : cast T) zero rd P : Carries c P ->
  Carries (transform_cast grow c zero rd) (fun '((x, y, z), (w, x', y', z')) => (P x /\ P y /\ P z) /\ (P w /\ P x' /\ P y' /\ P z')).
Proof.
  intros C [p q] PP. set (cv := vec3_cast grow c zero rd) in *. set (cq := quat_cast grow c) in *.
  assert (B : Built (cto (transform_cast grow c zero rd) (p, q)) [(["p"%char], cto cv p); (["q"%char], cto cq q)]).
  { cbn [transform_cast cto]. eapply Built_same; [|apply Same_copy]. eapply (Built_cset _ _ _ [(["p"%char], cto cv p)]); [|absent]. eapply (Built_cset _ _ _ []); [apply Built_empty|absent]. }
  apply (built_tree _ _ B); [discriminate|]. destruct p as [[x y] z], q as [[[w x'] y'] z']. destruct PP as [PP PQ].
  apply Forall_cons; [split; [key_safe|apply (vec3_carries grow c zero rd P C (x, y, z)); exact PP]|]. apply Forall_cons; [split; [key_safe|apply (quat_carries grow c P C (w, x', y', z')); exact PQ]|]. constructor.
Qed.
