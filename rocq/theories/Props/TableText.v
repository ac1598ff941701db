(* C103: storages, tables, vectors and samples of functions as text *)
From Coq Require Import String Reals Lra.
From Verif Require Import Model.Base Model.StdString Model.Strings Model.DataHeader Model.Storage Model.Table Model.DebugStorage Model.FloatText Model.Math Model.Ieee Model.FloatMath Model.FloatInterp Model.FloatStream Model.TableText
  Spec.Strings Spec.Storage Spec.Table Spec.FloatText Spec.Ieee Spec.Interp Spec.FloatStream Spec.TableText
  Proofs.DictionaryProofs Proofs.BaseFacts Proofs.MatrixFacts Proofs.StorageProofs Proofs.TableProofs Proofs.DebugStorageProofs Proofs.FloatTextProofs Proofs.IeeeProofs Proofs.IeeeErrorProofs Proofs.FloatStreamProofs Proofs.FloatOpsProofs Proofs.FloatTableProofs Proofs.TableTextProofs
  Props.FloatAverage Props.FloatInterp Props.FloatStream.
Local Open Scope list_scope.

(* After any sequence of calls the text of a storage is a line of labels and a
   line for each frame; nothing is written without channels. *)
Theorem C103_storage : forall (T : Type) (cell : T -> str) (t0 : T) nf nc v ops m rs,
  exec (Spec.Storage.ideal_step str_eqb [] t0) (mkM (repeat (repeat v nc) nf) (repeat None nc)) ops = Some (m, rs) ->
  exists s, exec (Storage.step str_eqb [] t0) (Storage.create [] nf nc v) ops = Some (s, rs) /\
    put_storage cell s = Ok (if nch m =? 0 then [] else lines (map named (names m) :: map (map cell) (rows m))) /\ Forall (fun r => List.length r = nch m) (rows m).
Proof.
  intros T cell t0 nf nc v ops m rs H. destruct (storage_refines str_eqb [] t0 str_eqb_eq nf nc v ops m rs H) as (s & E & HR). exists s. split; [exact E|]. pose proof HR as (Hf & HH & HU & Hd). pose proof (Rel_nch _ _ _ _ HR) as Hc. split; [|exact HU].
  rewrite (storage_text cell s (rows m)) by (rewrite ?Hc; assumption || (symmetry; exact Hf)). rewrite Hc, (header_labels str_eqb _ _ HH). reflexivity.
Qed.
Print Assumptions C103_storage.
(* The text of a table is a line of column labels and a line for each row, with
   its label. *)
Theorem C103_table : forall (T : Type) (cell : T -> str) (t0 : T) nr nc (bops : list (bool * Table.op T str)) s rs,
  exec (Spec.Table.ideal_step str_eqb [] t0) (mkSh (repeat None nr) (repeat None nc) (fun _ _ => t0)) (map snd bops) = Some (s, rs) ->
  exists t, exec (step_any str_eqb [] t0) (Table.create [] t0 nr nc) bops = Some (t, rs) /\
    put_table cell t = Ok (lines ((lit "Row" :: map named (cn s)) :: map (fun i => named (nth i (rn s) None) :: map (fun j => cell (Spec.Table.val s i j)) (seq 0 (List.length (cn s)))) (seq 0 (List.length (rn s))))).
Proof.
  intros T cell t0 nr nc bops s rs H. rewrite <- exec_snd in H.
  destruct (exec_sim (step_any str_eqb [] t0) (fun x bo => Spec.Table.ideal_step str_eqb [] t0 x (snd bo)) (TableProofs.Rel str_eqb [])) with (ops := bops)
    (s := Table.create ([] : str) t0 nr nc) (t := @mkSh T str (repeat None nr) (repeat None nc) (fun _ _ : nat => t0)) (t' := s) (rs := rs) as (t & E & HR).
  - intros t1 s1 bo s1' r HR E. eapply TableProofs.step_sim; try eassumption. exact str_eqb_eq.
  - apply TableProofs.create_rel.
  - exact H.
  - exists t. split; [exact E|]. pose proof HR as (HH1 & HH2 & _). pose proof (rel_rows _ _ _ _ HR) as R. pose proof (rel_cols _ _ _ _ HR) as C.
    rewrite (table_text cell t (map named (rn s)) (Spec.Table.val s)); [|rewrite map_length; lia|apply (header_labels str_eqb); exact HH1|].
    + rewrite (header_labels str_eqb _ _ HH2), R, C. do 3 f_equal. apply map_ext. intros i. f_equal. change ([] : str) with (named None). apply map_nth.
    + intros i j I J. rewrite (TableProofs.at_sim str_eqb [] t s i j HR). unfold Spec.Table.in_range. rewrite R in I. rewrite C in J. apply Nat.ltb_lt in I, J. rewrite I, J. reflexivity.
Qed.
Print Assumptions C103_table.
Theorem C103_vector : forall (T : Type) (cell : T -> str) (v : list T), put_vector cell v = lines [map cell v].
Proof. exact @vector_text. Qed.
Print Assumptions C103_vector.
(* Such a text can be taken apart in one way only, if labels have no tabs and
   newlines. *)
Theorem C103_unique : forall a b, Forall (fun r => r <> [] /\ Forall Plain r) a -> Forall (fun r => r <> [] /\ Forall Plain r) b -> lines a = lines b -> a = b.
Proof. exact lines_fun. Qed.
Print Assumptions C103_unique.
Example C103_example :
  exists s m, exec (Storage.step str_eqb [] (FFin false 0)) (Storage.create [] 0 0 (FFin false 0)) [Storage.AddChannel (lit "time") (FFin false 0); AddFrame (FFin false (2 ^ 149)); AddChannel (lit "x") (FFin true (2 ^ 148)); AddFrameData [FFin false (2 ^ 150); FNan]] = Some (s, [Storage.ONat 0; Storage.ONone; Storage.ONat 1; Storage.ONone]) /\
  put_storage (put_real float_fmt 6) s = Ok m /\ m = lit "time" ++ TAB :: lit "x" ++ LF :: lit "1" ++ TAB :: lit "-0.5" ++ LF :: lit "2" ++ TAB :: lit "nan" ++ [LF] /\
  exists t, exec (step_any str_eqb [] (FFin false 0)) (Table.create [] (FFin false 0) 0 0) [(true, Put (lit "a") (lit "b") (FFin false (2 ^ 149))); (false, Put (lit "c") (lit "d") (FInf true))] = Some (t, [Table.ONone; Table.ONone]) /\
  put_table (put_real float_fmt 6) t = Ok (lit "Row" ++ TAB :: lit "b" ++ TAB :: lit "d" ++ LF :: lit "a" ++ TAB :: lit "1" ++ TAB :: lit "0" ++ LF :: lit "c" ++ TAB :: lit "0" ++ TAB :: lit "-inf" ++ [LF]).
Proof. do 2 eexists. split; [vm_compute; reflexivity|]. split; [vm_compute; reflexivity|]. split; [vm_compute; reflexivity|]. eexists. split; [vm_compute; reflexivity|vm_compute; reflexivity]. Qed.

(* Numbers have neither; *)
Lemma atom_plain s : Forall (fun c => is_atom c = true) s -> Plain s.
Proof. intros F. rewrite Forall_forall in F. split; intros Q; specialize (F _ Q); discriminate. Qed.
Theorem C103_plain : forall f p x, IEEE f -> Valid f x -> Plain (put_real f p x).
Proof.
  intros f p [|neg|neg n] I V.
  - split; intros Q; cbn in Q; repeat destruct Q as [Q|Q]; try discriminate; contradiction.
  - destruct neg; split; intros Q; cbn in Q; repeat destruct Q as [Q|Q]; try discriminate; contradiction.
  - apply atom_plain, (put_chars f p neg n I V).
Qed.
Print Assumptions C103_plain.
(* with enough digits different numbers have different texts, *)
Theorem C103_distinct : forall f p x y, IEEE f -> (2 ^ fm_prec f < 10 ^ (Z.of_nat (Nat.max 1 p) - 1))%Z -> Valid f x -> Valid f y -> put_real f p x = put_real f p y -> x = y.
Proof.
  intros f p x y I PB VX VY E.
  assert (K : forall a n z, Finite f n -> put_real f p (FFin a n) = put_real f p z -> match z with FFin _ _ => True | _ => False end).
  { intros a n z F Q. pose proof (proj1 (put_chars f p a n I F)) as C. rewrite Q in C. rewrite Forall_forall in C. destruct z as [|b|b m]; [specialize (C "n"%char (or_introl eq_refl)); discriminate|assert (B : In "i"%char (put_real f p (FInf b))) by (destruct b; cbn; auto); specialize (C _ B); discriminate|exact Logic.I]. }
  destruct x as [|a|a n]; [| |pose proof (K a n y VX E)]; (destruct y as [|b|b m]; [| |try pose proof (K b m _ VY (eq_sym E))]); try contradiction; try reflexivity.
  - destruct b; discriminate.
  - destruct a; discriminate.
  - destruct a, b; (reflexivity || discriminate).
  - destruct (put_read f (fun _ _ => false) p a n [] I VX Logic.I) as (x' & e & R & W & _). destruct (put_read f (fun _ _ => false) p b m [] I VY Logic.I) as (y' & e' & R' & W' & _). rewrite E, R' in R. injection R as <- <-. rewrite <- (rewritten_exact f p a n y' I PB VX W), <- (rewritten_exact f p b m y' I PB VY W'). reflexivity.
Qed.
Print Assumptions C103_distinct.
Lemma map_injective {A B} (g : A -> B) (P : A -> Prop) (G : forall x y, P x -> P y -> g x = g y -> x = y) : forall l l', Forall P l -> Forall P l' -> map g l = map g l' -> l = l'.
Proof. induction l as [|x l IH]; intros [|y l'] F F' E; cbn in E; try discriminate; [reflexivity|]. inversion F; inversion F'; subst. injection E as E1 E2. f_equal; auto. Qed.
(* so the text determines the labels and all numbers. *)
Theorem C103_determined : forall f p ls ls' rs rs', IEEE f -> (2 ^ fm_prec f < 10 ^ (Z.of_nat (Nat.max 1 p) - 1))%Z -> ls <> [] -> ls' <> [] -> Forall Plain ls -> Forall Plain ls' ->
  Forall (fun r => List.length r = List.length ls /\ Forall (Valid f) r) rs -> Forall (fun r => List.length r = List.length ls' /\ Forall (Valid f) r) rs' ->
  lines (ls :: map (map (put_real f p)) rs) = lines (ls' :: map (map (put_real f p)) rs') -> ls = ls' /\ rs = rs'.
Proof.
  intros f p ls ls' rs rs' I PB N N' L L' F F' E.
  assert (K : forall l r, l <> [] -> Forall (fun r => List.length r = List.length (l : list str) /\ Forall (Valid f) r) r -> Forall (fun r => r <> [] /\ Forall Plain r) (map (map (put_real f p)) r)).
  { intros l r NL FR. apply Forall_map. eapply Forall_impl; [|exact FR]. intros x [LX VX]. split; [destruct x; [destruct l; [congruence|discriminate]|discriminate]|]. apply Forall_map. eapply Forall_impl; [|exact VX]. intros y. apply C103_plain. exact I. }
  apply C103_unique in E; [|constructor; eauto|constructor; eauto]. injection E as -> E. split; [reflexivity|]. revert E. apply (map_injective _ (Forall (Valid f))).
  - intros x y. apply map_injective. intros a b. apply C103_distinct; assumption.
  - eapply Forall_impl; [|exact F]. intros x []. assumption.
  - eapply Forall_impl; [|exact F']. intros x []. assumption.
Qed.
Print Assumptions C103_determined.
(* A field can be read by from_str. *)
Theorem C103_field : forall f under p x, IEEE f -> Regular f under x -> Nat.max 1 p = 6%nat \/ (2 ^ fm_prec f < 10 ^ (Z.of_nat (Nat.max 1 p) - 1))%Z ->
  exists x', stod f under (put_real f p x) = Ok x' /\ Rewritten f (Nat.max 1 p) x x'.
Proof.
  intros f under p x I R PB. destruct x as [|neg|neg n]; try contradiction. destruct R as [F NB]. destruct (put_read f under p neg n [] I F Logic.I) as (x' & e & G & RW & E1 & E2). rewrite app_nil_r in G. exists x'. split; [|exact RW]. unfold stod.
  rewrite cstr_id by (eapply Forall_impl; [|exact (proj1 (put_chars f p neg n I F))]; intros c C; apply (atom_start c C)).
  destruct (Z.eq_dec n 0) as [->|NZ].
  - cbn [put_real]. change (general (Nat.max 1 p) 0 (2 ^ fm_low f)) with (lit "0"). pose proof (zero_read f under neg [] I Logic.I) as ZR. rewrite app_nil_r in ZR. rewrite ZR. destruct RW as [[_ ->]|[? _]]; [reflexivity|lia].
  - rewrite G. destruct e; [exfalso|reflexivity]. destruct (E1 eq_refl) as [Q|[Q (a & b & U)]].
    + destruct PB as [PB|PB]; [rewrite PB in RW; apply (rewritten_finite f neg n x' I F RW Q)|rewrite (rewritten_exact f p neg n x' I PB F RW) in Q; discriminate].
    + destruct NB as [->|[NB|[_ NB]]]; [lia|lia|rewrite NB in U; discriminate].
Qed.
Print Assumptions C103_field.

(* The debug file: a column for each label in the order of the first values,
   with all its values in order, and the lowest number where there is none. *)
Definition fnum_eqb (x y : fnum) : bool :=
  match x, y with
  | FNan, FNan => true
  | FInf a, FInf b => Bool.eqb a b
  | FFin a n, FFin b m => Bool.eqb a b && Z.eqb n m
  | _, _ => false
  end.
Lemma fnum_eqb_eq x y : fnum_eqb x y = true <-> x = y.
Proof.
  destruct x as [|a|a n], y as [|b|b m]; cbn; split; intros E; try discriminate; try reflexivity.
  - apply Bool.eqb_prop in E. congruence.
  - injection E as ->. apply Bool.eqb_reflx.
  - apply andb_prop in E as [E1 E2]. apply Bool.eqb_prop in E1. apply Z.eqb_eq in E2. congruence.
  - injection E as -> ->. rewrite Bool.eqb_reflx, Z.eqb_refl. reflexivity.
Qed.
Lemma lowest_parts f : IEEE f -> (2 <= fm_prec f /\ fm_prec f <= fm_top f /\ 0 <= fm_low f)%Z.
Proof. intros [->| ->]; cbn [fm_prec fm_top fm_low float_fmt double_fmt]; lia. Qed.
Lemma lowest_valid f : IEEE f -> exists b, f_lowest f = FFin true b /\ Finite f b /\ (0 < b)%Z.
Proof.
  intros I. destruct (lowest_parts f I) as (P1 & P2 & P3). unfold f_lowest. eexists. split; [reflexivity|]. assert (P : (0 < 2 ^ (fm_top f - fm_prec f + fm_low f))%Z) by (apply Z.pow_pos_nonneg; lia). assert (Q : (2 ^ 1 <= 2 ^ fm_prec f)%Z) by (apply Z.pow_le_mono_r; lia). change (2 ^ 1)%Z with 2%Z in Q. split; [split|nia].
  - exists (2 ^ fm_prec f - 1)%Z, (fm_top f - fm_prec f + fm_low f)%Z. repeat split; lia.
  - replace (fm_top f + fm_low f)%Z with (fm_prec f + (fm_top f - fm_prec f + fm_low f))%Z by lia. rewrite (Z.pow_add_r 2 (fm_prec f)) by lia. apply Z.mul_lt_mono_pos_r; lia.
Qed.
Theorem C103_debug : forall ws, Forall (fun w => Valid float_fmt (snd w) /\ snd w <> f_lowest float_fmt) ws ->
  exists s, write_all str_eqb [] f_eq (f_lowest float_fmt) (Storage.create [] 0 0 (FFin false 0)) ws = Ok s /\
  (ws = [] -> debug_file s = Ok None) /\
  (ws <> [] -> let ls := firsts (map fst ws) in exists rs, debug_file s = Ok (Some (lines (ls :: map (map (put_real float_fmt 6)) rs))) /\ Forall (fun r => List.length r = List.length ls) rs /\
    forall i l, nth_error ls i = Some l -> filter (fun x => negb (fnum_eqb x (f_lowest float_fmt))) (map (fun r => nth i r FNan) rs) = map snd (filter (fun w => str_eqb (fst w) l) ws)).
Proof.
  intros ws F. destruct (lowest_valid float_fmt (or_intror eq_refl)) as (b & EB & FB & BP). assert (F' : Forall (fun w => Valid float_fmt (snd w) /\ snd w <> FFin true b) ws) by (rewrite <- EB; exact F). clear F. rename F' into F. rewrite !EB. clear EB. set (sen := FFin true b) in *. assert (GS : Valid float_fmt sen) by exact FB.
  assert (AG : forall x, Valid float_fmt x -> f_eq x sen = fnum_eqb x sen).
  { intros [|a|a n] V; try reflexivity. pose proof (rep_nonneg _ _ (proj1 V)) as N0. unfold sen. cbn [f_eq fnum_eqb]. unfold signed. destruct a; cbn [Bool.eqb andb].
    - destruct (Z.eqb_spec (- n) (- b)), (Z.eqb_spec n b); try reflexivity; lia.
    - apply Z.eqb_neq. lia. }
  pose proof (StorageProofs.create_rel str_eqb [] 0 0 (FFin false 0)) as R0. cbn [repeat] in R0.
  destruct (write_all_step sen f_eq fnum_eqb (Valid float_fmt) GS AG ws _ _ R0 (Forall_nil _) (Forall_nil _)) as (s & m & E1 & E2 & HR & HG & HN & EN); [eapply Forall_impl; [|exact F]; intros w []; assumption|].
  assert (I0 : Inv str_eqb [] FNan fnum_eqb sen [] (Storage.create [] 0 0 (FFin false 0)) (mkM [] []) []) by (split; [exact R0|]; split; [intros l []|intros l; reflexivity]).
  destruct (write_all_inv str_eqb [] FNan str_eqb_eq fnum_eqb sen fnum_eqb_eq ws [] _ _ [] I0) as (s' & m' & E3 & HR' & _ & HW); [eapply Forall_impl; [|exact F]; intros w []; assumption|].
  rewrite E2 in E3. injection E3 as <-. cbn [app] in HW. exists s. split; [exact E1|]. pose proof HR' as (Hf & HH' & HU & Hd). pose proof HR as (_ & HH & _). assert (NM : names m' = names m) by exact (names_fun _ _ _ HH' HH). pose proof (Rel_nch _ _ _ _ HR') as Hc. cbn [names] in EN.
  assert (LS : map named (names m') = firsts (map fst ws)) by (rewrite NM, EN; apply names_firsts). assert (ALL : forall i l, nth_error (firsts (map fst ws)) i = Some l -> pos str_eqb (names m') l = Some i).
  { intros i l Q. rewrite <- LS, nth_error_map in Q. destruct (nth_error (names m') i) as [o|] eqn:O; [|discriminate]. injection Q as Q. assert (ON : o <> None) by (rewrite NM in O; rewrite Forall_forall in HN; apply HN, (nth_error_In _ _ O)). destruct o as [k|]; [|congruence]. cbn in Q. subst k. rewrite <- (HRel_find str_eqb [] str_eqb_eq _ _ l HH'). apply HH'. exact O. }
  unfold debug_file. rewrite (empty_sim _ _ _ _ HR'). split.
  - intros ->. cbn in E1. injection E1 as <-. assert (Q : nch m' = 0%nat) by (rewrite <- Hc; reflexivity). unfold no_cells. rewrite Q, orb_true_r. reflexivity.
  - intros NE. set (ls := firsts (map fst ws)). assert (HLS : ls <> []).
    { destruct ws as [|[l v] ws]; [congruence|]. unfold ls, firsts. cbn [map fold_left fst]. destruct (in_dec _ l []) as [[]|_]. cbn [app]. assert (G : forall q a, a <> [] -> fold_left (fun a x => if in_dec (list_eq_dec ascii_dec) x a then a else a ++ [x]) q a <> []) by (induction q as [|x q IH]; intros a A; [exact A|]; cbn [fold_left]; apply IH; destruct (in_dec _ x a); [exact A|destruct a; discriminate]). apply G. discriminate. }
    assert (NC : nch m' = List.length ls) by (unfold nch, ls; rewrite <- LS, map_length; reflexivity). exists (rows m').
    assert (COL : forall i l, nth_error ls i = Some l -> filter (fun x => negb (fnum_eqb x sen)) (map (fun r => nth i r FNan) (rows m')) = map snd (filter (fun w => str_eqb (fst w) l) ws)) by (intros i l Q; specialize (HW l); rewrite (ALL i l Q) in HW; exact HW).
    assert (NF : nfr m' <> 0%nat).
    { destruct ws as [|[l v] ws']; [congruence|]. destruct ls as [|l1 ls1] eqn:EL; [congruence|]. assert (l1 = l) by (unfold ls, firsts in EL; cbn [map fold_left fst] in EL; destruct (in_dec _ l []) as [[]|_]; cbn [app] in EL; assert (G : forall q a (h : str), exists t, fold_left (fun a x => if in_dec (list_eq_dec ascii_dec) x a then a else a ++ [x]) q (h :: a) = h :: t) by (induction q as [|x q IH]; intros a h; [eexists; reflexivity|]; cbn [fold_left]; destruct (in_dec _ x (h :: a)); [apply IH|apply (IH (a ++ [x]))]); destruct (G (map fst ws') [] l) as [t G']; rewrite G' in EL; injection EL; auto). subst l1.
      specialize (COL 0%nat l eq_refl). intros Z. unfold nfr in Z. destruct (rows m'); [|discriminate]. cbn [map filter fst] in COL. rewrite (proj2 (str_eqb_eq l l) eq_refl) in COL. discriminate. }
    assert (NO : no_cells m' = false). { unfold no_cells. destruct (Nat.eqb_spec (nfr m') 0); [contradiction|]. destruct (Nat.eqb_spec (nch m') 0) as [Q|]; [|reflexivity]. rewrite NC in Q. destruct ls; [congruence|discriminate]. }
    rewrite NO. rewrite (storage_text _ s (rows m')) by (rewrite ?Hc; assumption || (symmetry; exact Hf)). rewrite Hc, NC, (header_labels str_eqb _ _ HH'), LS. fold ls. destruct (Nat.eqb_spec (List.length ls) 0) as [Q|_]; [destruct ls; [congruence|discriminate]|]. cbn [bind]. split; [reflexivity|]. split; [|exact COL]. unfold uniform in HU. rewrite NC in HU. exact HU.
Qed.
Print Assumptions C103_debug.
Example C103_debug_example : exists s, write_all str_eqb [] f_eq (f_lowest float_fmt) (Storage.create [] 0 0 (FFin false 0)) [(lit "a", FFin false (2 ^ 149)); (lit "a", FFin false (2 ^ 150)); (lit "b", FNan)] = Ok s /\
  debug_file s = Ok (Some (lit "a" ++ TAB :: lit "b" ++ LF :: lit "1" ++ TAB :: lit "-3.40282e+38" ++ LF :: lit "2" ++ TAB :: lit "nan" ++ [LF])).
Proof. eexists. split; [vm_compute; reflexivity|vm_compute; reflexivity]. Qed.

Local Open Scope R_scope.
(* output_function writes a line for each sample. *)
Theorem C103_samples : forall f a b func n, f_output_function f a b func n = lines (map (fun i => let x := f_sample f a b n (Z.of_nat i) in [put_real f 6 x; put_real f 6 (func x)]) (seq 0 (Z.to_nat n))).
Proof. intros f a b func n. unfold f_output_function, lines. rewrite map_map. f_equal. apply map_ext. intros i. cbn [fields]. rewrite <- app_assoc. reflexivity. Qed.
(* The points lie where they should up to the rounding, *)
Lemma sample_parts f a b n i X : IEEE f -> Fin f a -> Fin f b -> number f a <= number f b -> (2 <= n)%Z -> (n - 1 <= 2 ^ fm_prec f)%Z -> (0 <= i <= n - 1)%Z -> Rabs (number f a) <= X -> Rabs (number f b) <= X -> 8 * (IZR n * X) <= IZR (2 ^ fm_top f) ->
  let d := number f (f_sub f b a) in let m := number f (f_mul f (f_of_int f i) (f_sub f b a)) in let q := number f (f_div f (f_mul f (f_of_int f i) (f_sub f b a)) (f_of_int f (n - 1))) in let x := number f (f_sample f a b n i) in
  Fin f (f_sample f a b n i) /\ 0 <= d /\ Near f (IZR i * d) m /\ Near f (m / IZR (n - 1)) q /\ Near f (number f a + q) x /\
  Rabs (x - node (number f a) (number f b) (n - 1) i) <= 8 / IZR (2 ^ fm_prec f) * X + 2 * unit_of f.
Proof.
  intros I FA FB AB N2 NP IB BA BB XT d m q x. pose proof (ieee_sane f I) as W. destruct (ulp_small f I) as [U US]. pose proof (unit_pos f W) as UP. pose proof (room_large f I) as RL. assert (P60 : 1000 <= IZR (2 ^ 60)) by (apply IZR_le; vm_compute; discriminate).
  set (N := IZR (n - 1)) in *. assert (NN : 1 <= N) by (apply IZR_le; lia). assert (EN : IZR n = N + 1) by (unfold N; rewrite minus_IZR; ring). assert (I0 : 0 <= IZR i <= N) by (split; apply IZR_le; lia). assert (X0 : 0 <= X) by (pose proof (Rabs_pos (number f a)); lra). assert (RM : 4 * (N * X) + 4 * X <= room f) by (rewrite EN in XT; unfold room; lra). assert (XN : X <= N * X) by nra.
  set (D := number f b - number f a) in *. assert (D0 : 0 <= D <= 2 * X). { unfold D. apply abs_le_inv in BA, BB. lra. }
  destruct (sub_fin f b a I FB FA) as (FD & ND & ED); [fold D; rewrite Rabs_right; lra|]. fold D in ND, ED. rewrite (Rabs_right D) in ED by lra. fold d in ND, ED. destruct (int_fin f (n - 1) I ltac:(lia)) as [FN VN]. destruct (int_fin f i I ltac:(lia)) as [FI VI]. fold N in VN.
  assert (d0 : 0 <= d) by (apply (near_mono f 0 0 D d (near_zero f W) ND); lra). apply abs_le_inv in ED. set (u := ulp f) in *. set (h := unit_of f / 2) in *.
  assert (uD : 0 <= u * D <= D / 1000) by nra. assert (d1 : d <= 2002 / 1000 * X) by lra. assert (id : 0 <= IZR i * d <= 2002 / 1000 * (N * X)) by (split; [nra|]; apply Rle_trans with (N * (2002 / 1000 * X)); [apply Rmult_le_compat; lra|lra]).
  destruct (mul_fin f (f_of_int f i) (f_sub f b a) I FI FD) as (FM & NM & EM); [rewrite VI; fold d; rewrite Rabs_right; lra|]. rewrite VI in NM, EM. fold d m u h in NM, EM. rewrite (Rabs_right (IZR i * d)) in EM by lra.
  assert (m0 : 0 <= m) by (apply (near_mono f 0 0 _ _ (near_zero f W) NM); lra). apply abs_le_inv in EM. assert (uid : 0 <= u * (IZR i * d) <= IZR i * d / 1000) by nra. assert (hs : 0 < h <= / 1000) by (unfold h, u in *; lra).
  assert (mB : m <= 201 / 100 * (N * X) + h) by lra. set (r := / N) in *. assert (r0 : 0 < r <= 1) by (unfold r; split; [apply Rinv_0_lt_compat; lra|rewrite <- Rinv_1; apply Rinv_le_contravar; lra]). assert (rN : r * N = 1) by (unfold r; field; lra).
  assert (mr : m / N = m * r) by reflexivity. assert (mr0 : 0 <= m * r <= m) by nra.
  destruct (div_fin f (f_mul f (f_of_int f i) (f_sub f b a)) (f_of_int f (n - 1)) I FM FN) as (FQ & NQ & EQ); [rewrite VN; lra|rewrite VN; fold m; rewrite mr, Rabs_right; lra|]. rewrite VN in NQ, EQ. fold m q u h in NQ, EQ. rewrite mr in EQ. rewrite (Rabs_right (m * r)) in EQ by lra. apply abs_le_inv in EQ.
  set (T := IZR i * (D * r)). assert (T0 : 0 <= T <= D). { unfold T. assert (0 <= D * r) by nra. split; [nra|]. apply Rle_trans with (N * (D * r)); [apply Rmult_le_compat_r; lra|]. replace (N * (D * r)) with (D * (r * N)) by ring. rewrite rN. lra. }
  set (t := IZR i * (d * r)). assert (ET : Rabs (t - T) <= u * T). { unfold t, T. replace (IZR i * (d * r) - IZR i * (D * r)) with (IZR i * r * (d - D)) by ring. replace (u * (IZR i * (D * r))) with (IZR i * r * (u * D)) by ring. rewrite Rabs_mult, (Rabs_right (IZR i * r)) by (apply Rle_ge, Rmult_le_pos; lra). apply Rmult_le_compat_l; [apply Rmult_le_pos; lra|]. apply Rabs_le. lra. }
  assert (EMT : Rabs (m * r - t) <= u * t + h). { unfold t. replace (m * r - IZR i * (d * r)) with (r * (m - IZR i * d)) by ring. rewrite Rabs_mult, (Rabs_right r) by lra. apply Rle_trans with (r * (u * (IZR i * d) + h)); [apply Rmult_le_compat_l; [lra|]; apply Rabs_le; lra|]. replace (u * (IZR i * (d * r))) with (r * (u * (IZR i * d))) by ring. nra. }
  apply abs_le_inv in ET, EMT. assert (uT : 0 <= u * T <= T / 1000) by nra. assert (uuT : u * (u * T) <= / 1000 * (u * T)) by (apply Rmult_le_compat_r; lra). assert (ut : u * t <= u * T + u * (u * T)) by (rewrite <- Rmult_plus_distr_l; apply Rmult_le_compat_l; lra).
  assert (umr : u * (m * r) <= u * (T + (u * T + (u * T + u * (u * T) + h)))) by (apply Rmult_le_compat_l; lra). assert (uu0 : 0 <= u * (u * T)) by (apply Rmult_le_pos; lra). assert (u3 : u * (u * (u * T)) <= / 1000 * (u * (u * T))) by (apply Rmult_le_compat_r; lra). assert (uh : u * h <= / 1000 * h) by (apply Rmult_le_compat_r; lra). assert (EQT : Rabs (q - T) <= 301 / 100 * (u * T) + 201 / 100 * h) by (apply Rabs_le; lra).
  assert (AT : number f a + T = node (number f a) (number f b) (n - 1) i) by (unfold node, T, D; fold N; unfold Rdiv; fold r; ring). assert (BT : Rabs (number f a + T) <= X). { apply abs_le_inv in BA, BB. apply Rabs_le. unfold D in *. lra. }
  assert (BQ : Rabs (number f a + q) <= X + (301 / 100 * (u * T) + 201 / 100 * h)) by (replace (number f a + q) with ((number f a + T) + (q - T)) by ring; eapply Rle_trans; [apply Rabs_triang|]; lra).
  destruct (add_fin f a (f_div f (f_mul f (f_of_int f i) (f_sub f b a)) (f_of_int f (n - 1))) I FA FQ) as (FX & NX & EX); [fold q; lra|]. fold q u in NX, EX. change (f_add f a (f_div f (f_mul f (f_of_int f i) (f_sub f b a)) (f_of_int f (n - 1)))) with (f_sample f a b n i) in FX, NX, EX. fold x in NX, EX.
  split; [exact FX|]. split; [exact d0|]. split; [exact NM|]. split; [exact NQ|]. split; [exact NX|]. rewrite <- AT. replace (x - (number f a + T)) with ((x - (number f a + q)) + (q - T)) by ring. eapply Rle_trans; [apply Rabs_triang|].
  assert (uX : 0 <= u * X) by (apply Rmult_le_pos; lra). assert (uTX : u * T <= u * (2 * X)) by (apply Rmult_le_compat_l; lra). assert (UB : u * Rabs (number f a + q) <= u * (X + (301 / 100 * (u * T) + 201 / 100 * h))) by (apply Rmult_le_compat_l; lra). change (8 / IZR (2 ^ fm_prec f)) with (8 * u). unfold h in *. lra.
Qed.
Theorem C103_sample_error : forall f a b n i X, IEEE f -> Fin f a -> Fin f b -> number f a <= number f b -> (2 <= n)%Z -> (n - 1 <= 2 ^ fm_prec f)%Z -> (0 <= i <= n - 1)%Z -> Rabs (number f a) <= X -> Rabs (number f b) <= X -> 8 * (IZR n * X) <= IZR (2 ^ fm_top f) ->
  Fin f (f_sample f a b n i) /\ Rabs (number f (f_sample f a b n i) - node (number f a) (number f b) (n - 1) i) <= 8 / IZR (2 ^ fm_prec f) * X + 2 * unit_of f.
Proof. intros f a b n i X I FA FB AB N2 NP IB BA BB XT. destruct (sample_parts f a b n i X I FA FB AB N2 NP IB BA BB XT) as (F & _ & _ & _ & _ & E). auto. Qed.
Print Assumptions C103_sample_error.
(* in order, *)
Theorem C103_sample_order : forall f a b n i j X, IEEE f -> Fin f a -> Fin f b -> number f a <= number f b -> (2 <= n)%Z -> (n - 1 <= 2 ^ fm_prec f)%Z -> (0 <= i <= j)%Z -> (j <= n - 1)%Z -> Rabs (number f a) <= X -> Rabs (number f b) <= X -> 8 * (IZR n * X) <= IZR (2 ^ fm_top f) ->
  LessEq f (f_sample f a b n i) (f_sample f a b n j).
Proof.
  intros f a b n i j X I FA FB AB N2 NP IJ JN BA BB XT. destruct (sample_parts f a b n i X I FA FB AB N2 NP ltac:(lia) BA BB XT) as (F & D0 & M & Q & S1 & _). destruct (sample_parts f a b n j X I FA FB AB N2 NP ltac:(lia) BA BB XT) as (F' & _ & M' & Q' & S1' & _).
  apply fin_lesseq; [exact F|exact F'|]. refine (near_mono f _ _ _ _ S1 S1' _). apply Rplus_le_compat_l. refine (near_mono f _ _ _ _ Q Q' _). apply Rmult_le_compat_r; [left; apply Rinv_0_lt_compat, IZR_lt; lia|]. refine (near_mono f _ _ _ _ M M' _). apply Rmult_le_compat_r; [exact D0|apply IZR_le; lia].
Qed.
Print Assumptions C103_sample_order.
(* and begin with the lower end. *)
Theorem C103_sample_first : forall f a b n X, IEEE f -> Fin f a -> Fin f b -> number f a <= number f b -> (2 <= n)%Z -> (n - 1 <= 2 ^ fm_prec f)%Z -> Rabs (number f a) <= X -> Rabs (number f b) <= X -> 8 * (IZR n * X) <= IZR (2 ^ fm_top f) ->
  Same f (f_sample f a b n 0) a.
Proof.
  intros f a b n X I FA FB AB N2 NP BA BB XT. pose proof (ieee_sane f I) as W. destruct (sample_parts f a b n 0 X I FA FB AB N2 NP ltac:(lia) BA BB XT) as (F & D0 & M & Q & S1 & _). rewrite Rmult_0_l in M. pose proof (near_fun f _ _ _ M (near_zero f W)) as Z1. rewrite Z1 in Q. unfold Rdiv in Q. rewrite Rmult_0_l in Q. pose proof (near_fun f _ _ _ Q (near_zero f W)) as Z2. rewrite Z2, Rplus_0_r in S1.
  pose proof (near_exact f _ _ S1 (fin_grid f a FA)) as E. assert (L : LessEq f (f_sample f a b n 0) a) by (apply fin_lesseq; [exact F|exact FA|lra]). destruct L as [L|L]; [|exact L]. apply fin_less in L; [lra|exact F|exact FA].
Qed.
Print Assumptions C103_sample_first.
(* A single point is not a number; *)
Lemma units_zero f d : (0 < d)%Z -> round_units f 0 d = 0%Z.
Proof.
  intros D. unfold round_units. cbn [Z.mul]. set (e := Z.max 0 _). assert (P : (0 < d * 2 ^ e)%Z) by (apply Z.mul_pos_pos; [exact D|apply Z.pow_pos_nonneg; lia]). assert (R : rhe 0 (d * 2 ^ e) = 0%Z); [|rewrite R; reflexivity].
  unfold rhe. rewrite Z.div_0_l, Z.mod_0_l by lia. destruct (Z.ltb_spec (2 * 0) (d * 2 ^ e)); [reflexivity|lia].
Qed.
Theorem C103_one_sample_refuted : forall f a b, IEEE f -> f_sample f a b 1 0 = FNan.
Proof.
  intros f a b I. pose proof (ieee_sane f I) as W. unfold f_sample. change (1 - 1)%Z with 0%Z. assert (T0 : forall s d, (0 < d)%Z -> to_fnum f s (VNum 0 d) = FFin s 0). { intros s d D. unfold to_fnum. rewrite (units_zero f d D). destruct (Z.leb_spec (2 ^ (fm_top f + fm_low f)) 0) as [L|]; [|reflexivity]. assert (0 < 2 ^ (fm_top f + fm_low f))%Z by (destruct (lowest_parts f I); apply Z.pow_pos_nonneg; lia). lia. }
  assert (E : f_of_int f 0 = FFin false 0) by (apply (T0 false 1%Z); lia). rewrite E. assert (D : f_div f (f_mul f (FFin false 0) (f_sub f b a)) (FFin false 0) = FNan). { destruct (f_sub f b a) as [|c|c n]; [reflexivity|reflexivity|]. cbn [f_mul]. rewrite Z.mul_0_l, T0; [reflexivity|]. destruct (lowest_parts f I) as (_ & _ & L). apply Z.mul_pos_pos; apply Z.pow_pos_nonneg; lia. }
  rewrite D. destruct a; reflexivity.
Qed.
Print Assumptions C103_one_sample_refuted.
(* the last point may lie above the upper end, *)
Theorem C103_last_refuted : let f := float_fmt in let b := FFin false (12387522 * 2 ^ 149) in Fin f b /\ f_sample f f_zero b 4 3 = FFin false (12387523 * 2 ^ 149) /\ f_gt (f_sample f f_zero b 4 3) b = true.
Proof. split; [eexists _, _; split; [reflexivity|]; split; [exists 12387522%Z, 149%Z; repeat split; vm_compute; congruence|vm_compute; reflexivity]|]. split; vm_compute; reflexivity. Qed.
Print Assumptions C103_last_refuted.
(* and be infinite when the ends are far apart. *)
Theorem C103_overflow_refuted : let f := float_fmt in let b := FFin false ((2 ^ 24 - 1) * 2 ^ 253) in Fin f b /\ f_sample f f_zero b 3 2 = FInf false.
Proof. split; [eexists _, _; split; [reflexivity|]; split; [exists (2 ^ 24 - 1)%Z, 253%Z; repeat split; vm_compute; congruence|vm_compute; reflexivity]|]. vm_compute; reflexivity. Qed.
Print Assumptions C103_overflow_refuted.
Example C103_sample_example : let f := float_fmt in let g := fun m => FFin (m <? 0)%Z (Z.abs m * 2 ^ 147) in
  map (f_sample f (g (-4)%Z) (g 8%Z) 4) [0; 1; 2; 3]%Z = map g [-4; 0; 4; 8]%Z /\
  f_output_function f (g (-4)%Z) (g 8%Z) (fun x => f_mul f x x) 3 = lit "-1" ++ TAB :: lit "1" ++ LF :: lit "0.5" ++ TAB :: lit "0.25" ++ LF :: lit "2" ++ TAB :: lit "4" ++ [LF].
Proof. split; vm_compute; reflexivity. Qed.

(* A label with a tab gives the text of two labels, and the frames of a storage
   without channels are not written. *)
Theorem C103_tab_refuted : exists s1 s2 r1 r2, exec (Storage.step str_eqb [] FNan) (Storage.create [] 0 0 FNan) [Storage.AddChannel (lit "a" ++ TAB :: lit "b") FNan] = Some (s1, r1) /\
  exec (Storage.step str_eqb [] FNan) (Storage.create [] 0 0 FNan) [Storage.AddChannel (lit "a") FNan; Storage.AddChannel (lit "b") FNan] = Some (s2, r2) /\
  channel_size s1 <> channel_size s2 /\ put_storage (put_real float_fmt 6) s1 = put_storage (put_real float_fmt 6) s2.
Proof. do 4 eexists. split; [vm_compute; reflexivity|]. split; [vm_compute; reflexivity|]. split; [vm_compute; discriminate|vm_compute; reflexivity]. Qed.
Print Assumptions C103_tab_refuted.
Theorem C103_empty_refuted : forall n, exists s r, exec (Storage.step str_eqb [] FNan) (Storage.create [] 0 0 FNan) (repeat (AddFrame FNan) n) = Some (s, r) /\ frame_size s = n /\ put_storage (put_real float_fmt 6) s = Ok [].
Proof.
  intros n. assert (G : forall n (s : storage fnum str), Storage.labels_ s = DataHeader.mkH [] [] -> Storage.data_ s = [] -> exists s' r, exec (Storage.step str_eqb [] FNan) s (repeat (AddFrame FNan) n) = Some (s', r) /\ frame_size s' = (frame_size s + n)%nat /\ Storage.labels_ s' = DataHeader.mkH [] []).
  { clear n. induction n as [|n IH]; intros s HL HD; [do 2 eexists; split; [reflexivity|]; split; [lia|exact HL]|]. cbn [repeat exec]. cbn [Storage.step]. destruct (IH (Storage.add_frame s FNan)) as (s' & r & E & F & L'); [exact HL| |]. - unfold Storage.add_frame, channel_size. cbn. rewrite HL, HD. reflexivity. - rewrite E. do 2 eexists. split; [reflexivity|]. split; [|exact L']. rewrite F. unfold Storage.add_frame, frame_size. cbn. lia. }
  destruct (G n (Storage.create [] 0 0 FNan) eq_refl eq_refl) as (s & r & E & F & L'). exists s, r. split; [exact E|]. split; [exact F|]. unfold put_storage. unfold channel_size. rewrite L'. cbn. unfold for_up. generalize 0%nat. clear F. induction (frame_size s) as [|k IH]; intros i; [reflexivity|]. cbn. apply IH.
Qed.
Print Assumptions C103_empty_refuted.
