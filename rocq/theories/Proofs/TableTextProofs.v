From Coq Require Import String.
From Verif Require Import Model.Base Model.StdString Model.Strings Model.DataHeader Model.Storage Model.Table Model.TableText
  Model.DebugStorage Spec.Storage Spec.Table Spec.TableText Proofs.DictionaryProofs Proofs.BaseFacts Proofs.MatrixFacts Proofs.StorageProofs Proofs.TableProofs.
Local Open Scope list_scope.

(* loops that write *)
Lemma for_up_append {A} n (body : nat -> list A -> res (list A)) g s : (forall i s', i < n -> body i s' = Ok (s' ++ g i)) -> for_up n body s = Ok (s ++ concat (map g (seq 0 n))).
Proof.
  intros H. destruct (for_up_inv body (fun i s' => s' = s ++ concat (map g (seq 0 i))) n s) as (s' & E & ->); [cbn; rewrite app_nil_r; reflexivity| |exact E].
  intros i s' L ->. rewrite (H i _ L). eexists. split; [reflexivity|]. rewrite seq_S, map_app, concat_app, app_assoc. cbn. rewrite app_nil_r. reflexivity.
Qed.
Lemma map_nth_seq {A B} (l : list A) (h : nat -> B) (g : A -> B) : (forall i x, nth_error l i = Some x -> h i = g x) -> map h (seq 0 (List.length l)) = map g l.
Proof.
  revert h. induction l as [|a l IH]; intros h H; [reflexivity|]. cbn [List.length seq map]. f_equal; [apply (H 0 a); reflexivity|]. rewrite <- seq_shift, map_map. apply IH. intros i x E. apply (H (S i) x E).
Qed.
Lemma cells_line (h : nat -> str) n : 0 < n -> concat (map (fun i => h i ++ [if i =? n - 1 then LF else TAB]) (seq 0 n)) = fields (map h (seq 0 n)) ++ [LF].
Proof.
  assert (K : forall m a, concat (map (fun i => h i ++ [if i =? a + S m - 1 then LF else TAB]) (seq a (S m))) = fields (map h (seq a (S m))) ++ [LF]).
  { induction m as [|m IH]; intros a.
    - cbn [seq map concat fields]. rewrite app_nil_r. replace (a =? a + 1 - 1) with true by (symmetry; apply Nat.eqb_eq; lia). reflexivity.
    - change (seq a (S (S m))) with (a :: seq (S a) (S m)). cbn [map concat]. replace (a =? a + S (S m) - 1) with false by (symmetry; apply Nat.eqb_neq; lia). replace (a + S (S m)) with (S a + S m) by lia. rewrite IH. remember (map h (seq (S a) (S m))) as t eqn:E. destruct t as [|b t]; [discriminate|]. change (fields (h a :: b :: t)) with (h a ++ TAB :: fields (b :: t)). rewrite <- !app_assoc. reflexivity. }
  intros N. destruct n as [|m]; [lia|]. exact (K m 0).
Qed.
Lemma fields_cons a (l : list str) : fields (a :: l) = a ++ concat (map (fun b => TAB :: b) l).
Proof. revert a. induction l as [|b l IH]; intros a; [cbn; rewrite app_nil_r; reflexivity|]. change (fields (a :: b :: l)) with (a ++ TAB :: fields (b :: l)). rewrite IH. reflexivity. Qed.

Section P.
Context {T : Type} (cell : T -> str).

Lemma storage_text (s : storage T str) rs : uniform (channel_size s) rs -> List.length rs = frame_size s -> Storage.data_ s = concat rs ->
  put_storage cell s = Ok (if channel_size s =? 0 then [] else lines (DataHeader.labels_ (Storage.labels_ s) :: map (map cell) rs)).
Proof.
  intros U L D. unfold put_storage. destruct (Nat.eqb_spec (channel_size s) 0) as [Z|Z].
  - rewrite Z. cbn [for_up for_up_from bind]. rewrite (for_up_append _ _ (fun _ => [])) by (intros i s' _; cbn; rewrite app_nil_r; reflexivity). f_equal. cbn. induction (seq 0 (frame_size s)) as [|a l IH]; [reflexivity|exact IH].
  - set (n := channel_size s) in *. set (ls := DataHeader.labels_ (Storage.labels_ s)). assert (NL : List.length ls = n) by reflexivity.
    rewrite (for_up_append n _ (fun ci => nth ci ls [] ++ [if ci =? n - 1 then LF else TAB]))
      by (intros i s' I; unfold get_label, DataHeader.get, vget; fold ls; rewrite (nth_error_nth' ls (n:=i) [] ltac:(lia)); reflexivity).
    cbn [bind app]. rewrite cells_line by lia. rewrite <- NL at 1. rewrite (map_nth_seq ls (fun i => nth i ls []) (fun x => x)) by (intros i x E; apply nth_error_nth; exact E). rewrite map_id.
    rewrite (for_up_append _ _ (fun fi => fields (map cell (nth fi rs [])) ++ [LF])).
    + f_equal. unfold lines. cbn [map concat]. f_equal. rewrite <- L. f_equal. rewrite map_map. apply map_nth_seq. intros i r E. rewrite (nth_error_nth rs i [] E). reflexivity.
    + intros fi s' I. assert (R : exists r, nth_error rs fi = Some r) by (destruct (nth_error rs fi) as [r|] eqn:E; [eauto|apply nth_error_None in E; lia]). destruct R as [r R].
      pose proof (uniform_nth _ _ _ _ U R) as LR. rewrite (nth_error_nth rs fi [] R). rewrite (for_up_append n _ (fun ci => nth ci (map cell r) [] ++ [if ci =? n - 1 then LF else TAB])).
      * rewrite cells_line by lia. rewrite <- LR, <- (map_length cell r). rewrite (map_nth_seq (map cell r) (fun i => nth i (map cell r) []) (fun x => x)) by (intros i x E; apply nth_error_nth; exact E). rewrite map_id. reflexivity.
      * intros ci s'' C. unfold at_unchecked, vget. fold n. rewrite D, (nth_concat n) by assumption. unfold cellr. rewrite R. assert (X : exists x, nth_error r ci = Some x) by (destruct (nth_error r ci) as [x|] eqn:E; [eauto|apply nth_error_None in E; lia]). destruct X as [x X]. rewrite X. cbn [bind].
        rewrite (nth_error_nth (map cell r) ci [] (map_nth_error cell ci r X)). reflexivity.
Qed.
Lemma table_text (t : table T str) ls (val : nat -> nat -> T) : List.length ls = row_size t -> DataHeader.labels_ (row_labels_ t) = ls ->
  (forall i j, i < row_size t -> j < column_size t -> Table.at_ t i j = Ok (val i j)) ->
  put_table cell t = Ok (lines ((lit "Row" :: DataHeader.labels_ (col_labels_ t)) :: map (fun i => nth i ls [] :: map (fun j => cell (val i j)) (seq 0 (column_size t))) (seq 0 (row_size t)))).
Proof.
  intros L E V. unfold put_table. rewrite (for_up_append _ _ (fun row => fields (nth row ls [] :: map (fun j => cell (val row j)) (seq 0 (column_size t))) ++ [LF])).
  - f_equal. unfold lines. cbn [map concat]. rewrite fields_cons, map_map. rewrite <- !app_assoc. reflexivity.
  - intros i s I. unfold DataHeader.get, vget. rewrite E, (nth_error_nth' ls (n:=i) [] ltac:(lia)). cbn [bind]. rewrite (for_up_append _ _ (fun j => TAB :: cell (val i j))) by (intros j s' J; rewrite (V i j I J); reflexivity).
    cbn [bind]. f_equal. rewrite fields_cons, map_map, <- !app_assoc. reflexivity.
Qed.
Lemma vector_text (v : list T) : put_vector cell v = lines [map cell v].
Proof.
  unfold put_vector, lines. cbn [map concat]. rewrite app_nil_r. destruct v as [|x v]; [reflexivity|]. cbn [map]. rewrite fields_cons, map_map. reflexivity.
Qed.
End P.

(* labels of a header *)
Lemma header_labels (eqb : str -> str -> bool) h ns : HRel eqb [] h ns -> DataHeader.labels_ h = map named ns.
Proof.
  intros (L & A & B & _). rewrite <- (map_id (DataHeader.labels_ h)). rewrite <- (map_nth_seq (DataHeader.labels_ h) (fun i => nth i (DataHeader.labels_ h) []) (fun x => x)) by (intros i x E; apply nth_error_nth; exact E). rewrite L. apply map_nth_seq. intros i [l|] E; cbn [named]; apply nth_error_nth; [apply A|apply B]; exact E.
Qed.

(* the fields of a text *)
Lemma cut_fun (c : ascii) a a' r r' : ~ In c a -> ~ In c a' -> a ++ c :: r = a' ++ c :: r' -> a = a' /\ r = r'.
Proof.
  revert a'. induction a as [|x a IH]; intros [|x' a'] N N' E; cbn [app] in E.
  - injection E. auto.
  - injection E as E _. exfalso. apply N'. left. auto.
  - injection E as E _. exfalso. apply N. left. auto.
  - injection E as E1 E. destruct (IH a') as [-> ->]; [intros Q; apply N; right; exact Q|intros Q; apply N'; right; exact Q|exact E|]. subst. auto.
Qed.
Lemma fields_plain l : Forall Plain l -> ~ In LF (fields l).
Proof.
  intros F. destruct l as [|a l]; [intros []|]. rewrite fields_cons. inversion F as [|? ? [_ A] F']; subst. intros Q. apply in_app_or in Q as [Q|Q]; [contradiction|]. clear - F' Q. induction F' as [|b l [_ B] F' IH]; cbn in Q; [contradiction|]. destruct Q as [Q|Q]; [discriminate|]. apply in_app_or in Q as [Q|Q]; auto.
Qed.
Lemma fields_fun a : forall b, a <> [] -> b <> [] -> Forall Plain a -> Forall Plain b -> fields a = fields b -> a = b.
Proof.
  assert (K : forall x (l : list str), Plain x -> fields (x :: l) = x /\ l = [] \/ exists y l', l = y :: l' /\ fields (x :: l) = x ++ TAB :: fields l) by (intros x [|y l] P; [left; auto|right; exists y, l; auto]).
  induction a as [|x a IH]; intros [|y b] NA NB FA FB E; try congruence. inversion FA as [|? ? PX FA']; inversion FB as [|? ? PY FB']; subst. destruct (K x a PX) as [[E1 ->]|(x1 & a1 & E0 & E1)]; destruct (K y b PY) as [[E2 ->]|(y1 & b1 & E3 & E2)]; rewrite E1, E2 in E.
  - congruence.
  - exfalso. apply (proj1 PX). rewrite E. apply in_or_app. right. left. reflexivity.
  - exfalso. apply (proj1 PY). rewrite <- E. apply in_or_app. right. left. reflexivity.
  - destruct (cut_fun TAB x y _ _ (proj1 PX) (proj1 PY) E) as [-> Q]. f_equal. apply IH; try assumption; congruence.
Qed.
Lemma lines_fun a : forall b, Forall (fun r => r <> [] /\ Forall Plain r) a -> Forall (fun r => r <> [] /\ Forall Plain r) b -> lines a = lines b -> a = b.
Proof.
  unfold lines. induction a as [|x a IH]; intros [|y b] FA FB E; cbn [map concat] in E; [reflexivity|destruct (fields y); discriminate|destruct (fields x); discriminate|]. inversion FA as [|? ? [NX PX] FA']; inversion FB as [|? ? [NY PY] FB']; subst. rewrite <- !app_assoc in E. cbn [app] in E. destruct (cut_fun LF _ _ _ _ (fields_plain x PX) (fields_plain y PY) E) as [Q R]. f_equal; [apply fields_fun; assumption|apply IH; assumption].
Qed.

(* the debug writer: channels in the order of their first values *)
Section W.
Context {T : Type} (t0 : T) (sen : T) (t1 t2 : T -> T -> bool) (good : T -> Prop).
Context (good_sen : good sen) (agree : forall x, good x -> t1 x sen = t2 x sen).
Notation eqb_eq := DictionaryProofs.str_eqb_eq.

Definition add_name (ns : list (option str)) (l : str) : list (option str) := if in_dec (list_eq_dec ascii_dec) l (map named ns) then ns else ns ++ [Some l].
Lemma put_good (m : matrix T str) f c v : Forall (Forall good) (rows m) -> good v -> Forall (Forall good) (rows (Spec.Storage.put m f c v)).
Proof.
  intros F G. rewrite put_putr. cbn [rows]. unfold putr. destruct (nth_error (rows m) f) as [r|] eqn:E; [|exact F]. pose proof (nth_error_In _ _ E) as R. rewrite Forall_forall in F. pose proof (F r R) as GR. apply Forall_app. split; [|constructor]; [rewrite <- (firstn_skipn f (rows m)) in F|apply Forall_app; split; [|constructor; [exact G|]]|]; apply Forall_forall; intros x X.
  - apply F, in_or_app. left. exact X.
  - rewrite <- (firstn_skipn c r) in GR. rewrite Forall_forall in GR. apply GR, in_or_app. left. exact X.
  - rewrite <- (firstn_skipn (S c) r) in GR. rewrite Forall_forall in GR. apply GR, in_or_app. right. exact X.
  - apply F. rewrite <- (firstn_skipn (S f) (rows m)). apply in_or_app. right. exact X.
Qed.
Lemma write_step (s : storage T str) m l v : StorageProofs.Rel str_eqb [] s m -> Forall (Forall good) (rows m) -> Forall (fun o => o <> None) (names m) -> good v ->
  exists s' m', write str_eqb [] t1 sen s l v = Ok s' /\ write str_eqb [] t2 sen s l v = Ok s' /\ StorageProofs.Rel str_eqb [] s' m' /\ Forall (Forall good) (rows m') /\ Forall (fun o => o <> None) (names m') /\ names m' = add_name (names m) l.
Proof.
  intros HR HG HN GV. unfold write. destruct (find_or_add_i str_eqb m l sen) as [m1 i] eqn:E. destruct (find_or_add_sim str_eqb [] eqb_eq s m l sen m1 i HR E) as (s1 & -> & HR1 & Hi & Hn).
  assert (K : Forall (Forall good) (rows m1) /\ Forall (fun o => o <> None) (names m1) /\ names m1 = add_name (names m) l).
  { unfold find_or_add_i in E. unfold add_name. destruct (pos str_eqb (names m) l) as [j|] eqn:P; injection E as <- <-.
    - split; [exact HG|]. split; [exact HN|]. destruct (in_dec _ l _) as [Y|Y]; [reflexivity|]. exfalso. apply Y. apply (pos_Some str_eqb eqb_eq) in P. apply nth_error_In in P. apply (in_map named) in P. exact P.
    - unfold add_col. cbn [rows names]. split; [apply Forall_map; eapply Forall_impl; [|exact HG]; intros r R; apply Forall_app; auto|]. split; [apply Forall_app; split; [exact HN|constructor; [discriminate|constructor]]|]. destruct (in_dec _ l _) as [Y|Y]; [|reflexivity]. exfalso. apply (pos_None str_eqb eqb_eq) in P. apply P. apply in_map_iff in Y as (o & O & Y). rewrite Forall_forall in HN. destruct o as [k|]; [cbn in O; subst; exact Y|]. destruct (HN None Y eq_refl). }
  clear E. destruct K as (HG1 & HN1 & EN). rewrite (empty_sim str_eqb [] _ _ HR1). pose proof (last_get_sim str_eqb [] s1 m1 i HR1) as LG.
  assert (ADD : exists s' m', last_set (add_frame s1 sen) i v = Ok s' /\ StorageProofs.Rel str_eqb [] s' m' /\ Forall (Forall good) (rows m') /\ Forall (fun o => o <> None) (names m') /\ names m' = add_name (names m) l).
  { pose proof (add_frame_sim str_eqb [] s1 m1 sen HR1) as HR2. set (m2 := mkM (rows m1 ++ [repeat sen (nch m1)]) (names m1)) in *. pose proof (last_set_sim str_eqb [] _ m2 i v HR2) as LS. assert (NC : no_cells m2 = false) by (unfold no_cells, m2, nfr, nch; cbn [rows names]; rewrite app_length; cbn [List.length]; unfold nch in Hi; destruct (Nat.eqb_spec (List.length (rows m1) + 1) 0); [lia|]; destruct (Nat.eqb_spec (List.length (names m1)) 0); [lia|reflexivity]). rewrite NC in LS.
    destruct (LS Hi) as (s' & E & HR3). eexists. eexists. split; [exact E|]. split; [exact HR3|]. split; [apply put_good; [|exact GV]; unfold m2; cbn [rows]; apply Forall_app; split; [exact HG1|constructor; [|constructor]]; apply Forall_forall; intros x X; apply repeat_spec in X; subst; exact good_sen|]. rewrite put_putr. auto. }
  destruct (no_cells m1) eqn:NC; cbn [bind].
  - destruct ADD as (s' & m' & E & R). exists s', m'. auto.
  - destruct (LG Hi) as (x & X & ->). cbn [bind]. assert (GX : good x). { unfold cell in X. destruct (nth_error (rows m1) (nfr m1 - 1)) as [r|] eqn:R; [|discriminate]. apply nth_error_In in R, X. rewrite Forall_forall in HG1. specialize (HG1 r R). rewrite Forall_forall in HG1. apply HG1, X. }
    rewrite (agree x GX). destruct (t2 x sen); cbn [negb].
    + pose proof (last_set_sim str_eqb [] _ m1 i v HR1) as LS. rewrite NC in LS. destruct (LS Hi) as (s' & E & HR3). exists s'. eexists. split; [exact E|]. split; [exact E|]. split; [exact HR3|]. split; [apply put_good; assumption|]. rewrite put_putr. auto.
    + destruct ADD as (s' & m' & E & R). exists s', m'. auto.
Qed.
Lemma write_all_step ws : forall (s : storage T str) m, StorageProofs.Rel str_eqb [] s m -> Forall (Forall good) (rows m) -> Forall (fun o => o <> None) (names m) -> Forall (fun w => good (snd w)) ws ->
  exists s' m', write_all str_eqb [] t1 sen s ws = Ok s' /\ write_all str_eqb [] t2 sen s ws = Ok s' /\ StorageProofs.Rel str_eqb [] s' m' /\ Forall (Forall good) (rows m') /\ Forall (fun o => o <> None) (names m') /\ names m' = fold_left add_name (map fst ws) (names m).
Proof.
  induction ws as [|[l v] ws IH]; intros s m HR HG HN F; cbn [write_all map fold_left fst]; [exists s, m; auto 6|]. inversion F as [|? ? G F']; subst. cbn [snd] in G. destruct (write_step s m l v HR HG HN G) as (s1 & m1 & E1 & E2 & HR1 & HG1 & HN1 & EN). rewrite E1, E2. cbn [bind]. rewrite <- EN. apply (IH s1 m1); assumption.
Qed.
Lemma names_firsts l : forall ns, map named (fold_left add_name l ns) = fold_left (fun a x => if in_dec (list_eq_dec ascii_dec) x a then a else a ++ [x]) l (map named ns).
Proof. induction l as [|x l IH]; intros ns; [reflexivity|]. cbn [fold_left]. rewrite IH. f_equal. unfold add_name. destruct (in_dec _ x (map named ns)); [reflexivity|]. rewrite map_app. reflexivity. Qed.
(* names are determined by the header *)
Lemma names_fun h ns ns' : HRel str_eqb [] h ns -> HRel str_eqb [] h ns' -> ns = ns'.
Proof.
  intros (L & A & B & C) (L' & A' & B' & C'). apply list_ext. intros i. destruct (nth_error ns i) as [[l|]|] eqn:E.
  - apply C in E. apply C' in E. auto.
  - destruct (nth_error ns' i) as [[l|]|] eqn:E'; [|reflexivity|].
    + apply C' in E'. apply C in E'. congruence.
    + apply nth_error_None in E'. apply nth_error_Some_lt in E. lia.
  - symmetry. apply nth_error_None. apply nth_error_None in E. lia.
Qed.
End W.
