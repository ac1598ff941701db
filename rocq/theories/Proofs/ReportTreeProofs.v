From Coq Require Import String Sorted Permutation.
From Verif Require Import Model.Base Model.StdString Model.PropTree Model.PropNode Model.FloatText Model.Profiler Model.Report.
From Verif Require Import Spec.Strings Spec.FloatText Spec.PropNode Spec.Profiler Proofs.BaseFacts Proofs.PropNodeProofs Proofs.ProfilerProofs Proofs.ReportProofs Spec.Report.
Local Open Scope list_scope.
Local Open Scope Z_scope.

(* ---------- bounds ---------- *)
Lemma chain_since e fs : Chain e fs -> exists q s, In (q, s) fs.
Proof. intros C. destruct (chain_top _ _ C) as (q & s & fs' & ->). exists q, s. left. reflexivity. Qed.
Lemma spent_bound t0 h : forall now, Clock t0 h now -> Balanced t0 h -> since t0 h <= now /\
  (forall q s, In (q, s) (frames t0 h) -> since t0 h <= s <= now /\ spent t0 h q <= s - since t0 h) /\ forall q, 0 <= spent t0 h q <= now - since t0 h.
Proof.
  induction h as [|o h IH]; intros now C B.
  - inversion C; subst. cbn. split; [lia|]. split; [intros q s [E|[]]; injection E as <- <-; lia|intros; lia].
  - destruct o as [t|n t t'|t|t]; cbn [Balanced frames since] in B |- *.
    + inversion C; subst. cbn. split; [lia|]. split; [intros q s [E|[]]; injection E as <- <-; lia|intros; lia].
    + inversion C as [| |h' now' n' u u' C' LE LE'| |]; subst. destruct (IH _ C' B) as (S & FR & Q). cbn [spent]. split; [lia|]. split; [|intros q; specialize (Q q); lia].
      destruct (frames t0 h) as [|[p s] fs]; [intros q s []|]. intros q u [E|I]; [injection E as <- <-; specialize (Q (n :: p)); lia|]. specialize (FR q u I). lia.
    + destruct B as [B LEN]. inversion C as [| | |h' now' u C' LE|]; subst. destruct (IH _ C' B) as (S & FR & Q). cbn [spent]. split; [lia|]. pose proof (frames_chain t0 h B) as CH. destruct (frames t0 h) as [|[p s] fs] eqn:F; [cbn in LEN; lia|]. cbn [tl].
      destruct (FR p s (or_introl eq_refl)) as [S1 S2]. destruct (chain_length _ _ CH p s fs eq_refl) as [_ LT]. split.
      * intros q v I. specialize (FR q v (or_intror I)). destruct (path_dec q p) as [->|]; [apply LT in I; lia|]. lia.
      * intros q. specialize (Q q). destruct (path_dec q p) as [->|]; lia.
    + inversion C as [| | | |h' now' u C' LE]; subst. destruct (IH _ C' B) as (S & FR & Q). cbn [spent]. split; [lia|]. split; [intros q s I; specialize (FR q s I); lia|intros q; specialize (Q q); lia].
Qed.
Lemma room_in t0 h fs : forall up p s, Room t0 h up fs -> In (p, s) fs -> exists u, u <= up /\ inner t0 h p <= spent t0 h p + (u - s).
Proof.
  induction fs as [|[q v] fs IH]; intros up p s R I; [destruct I|]. cbn in R. destruct R as (A & B & R). destruct I as [E|I]; [injection E as <- <-; exists up; split; [lia|exact B]|]. destruct (IH v p s R I) as (u & U & H). exists u. split; [lia|exact H].
Qed.
Lemma inner_nonneg t0 h : forall now, Clock t0 h now -> Balanced t0 h -> forall q, 0 <= inner t0 h q.
Proof.
  induction h as [|o h IH]; intros now C B q; [cbn; lia|]. destruct o as [t|n t t'|t|t]; cbn [Balanced inner] in *; [lia| | |].
  - inversion C; subst. eauto.
  - destruct B as [B LEN]. inversion C as [| | |h' now' u C' LE|]; subst. specialize (IH _ C' B q). destruct (spent_bound t0 h _ C' B) as (_ & FR & _). destruct (frames t0 h) as [|[p s] fs]; [lia|]. specialize (FR p s (or_introl eq_refl)). destruct (below q p); lia.
  - inversion C; subst. eauto.
Qed.
Lemma inner_bound t0 h now q : Clock t0 h now -> Balanced t0 h -> 0 <= inner t0 h q <= now - since t0 h.
Proof.
  intros C B. split; [exact (inner_nonneg t0 h now C B q)|]. destruct (monotone t0 h now C B) as [R O]. destruct (spent_bound t0 h now C B) as (_ & FR & Q).
  destruct (in_dec path_dec q (map fst (frames t0 h))) as [I|N].
  - apply in_map_iff in I as ([p s] & E & I). cbn in E. subst p. destruct (room_in t0 h _ _ _ _ R I) as (u & U & H). specialize (FR q s I). lia.
  - specialize (O q N). specialize (Q q). lia.
Qed.
Lemma lost_bound t0 h : forall now, Clock t0 h now -> Balanced t0 h -> forall q, 0 <= lost_within t0 h q <= now - since t0 h.
Proof.
  induction h as [|o h IH]; intros now C B q; [inversion C; subst; cbn; lia|]. destruct o as [t|n t t'|t|t]; cbn [Balanced lost_within since] in *.
  - inversion C; subst. lia.
  - inversion C as [| |h' now' n' u u' C' LE LE'| |]; subst. specialize (IH _ C' B q). destruct (frames t0 h) as [|[p s] fs]; [destruct (spent_bound t0 h _ C' B); lia|]. destruct (within_dec q (n :: p)); lia.
  - destruct B as [B _]. inversion C as [| | |h' now' u C' LE|]; subst. specialize (IH _ C' B q). lia.
  - inversion C as [| | | |h' now' u C' LE]; subst. specialize (IH _ C' B q). lia.
Qed.

(* ---------- nodes ---------- *)
Definition Put (k : str) (c : pnode) (cs cs' : children_t) : Prop :=
  (exists l x r, cs = l ++ (k, x) :: r /\ ~ In k (map fst l) /\ cs' = l ++ (k, c) :: r) \/
  (Absent k cs /\ exists ds, SameChildren cs ds /\ cs' = ds ++ [(k, c)]).
Lemma or_add_first {R} grow p key (g : pnode -> pnode * res R) l c r : pn_children p = l ++ (key, c) :: r -> ~ In key (map fst l) ->
  pn_or_add grow p key g = (PN true (pn_value p) (l ++ (key, fst (g (pn_access c))) :: r), snd (g (pn_access c))).
Proof.
  intros E N. unfold pn_or_add, pn_find. cbn [pn_access pn_children]. rewrite (child_index_first _ l key c r E N). rewrite (with_child_split _ l key c r); [reflexivity|exact E].
Qed.
Lemma or_add_absent {R} grow p key (g : pnode -> pnode * res R) : Absent key (pn_children p) ->
  exists ds, SameChildren (pn_children p) ds /\ pn_or_add grow p key g = (PN true (pn_value p) (ds ++ [(key, fst (g pn_empty))]), snd (g pn_empty)).
Proof.
  intros A. unfold pn_or_add, pn_find. cbn [pn_access pn_children]. apply child_index_none in A. rewrite A. unfold pn_push_back. cbn [pn_access pn_accessed pn_value pn_children].
  set (ds := if grow _ then _ else _). assert (S : SameChildren (pn_children p) ds) by (unfold ds; destruct (grow _); [apply SameChildren_copy|apply SameChildren_refl]). exists ds. split; [exact S|].
  rewrite (with_child_split _ ds key pn_empty []); [reflexivity|reflexivity] || idtac.
  assert (L : length (pn_children p) = length ds) by (eapply Forall2_length; exact S). rewrite L. rewrite (with_child_split _ ds key pn_empty []); reflexivity.
Qed.

Section Tree.
Context (nan : str) (f : fmt) (text : nat -> str) (srt : (nat -> Z) -> list nat -> list nat) (grow : nat -> bool) (t0 : Z) (h : list prof_op) (t : Z).
Notation shows := (Shows nan f text t0 h t).
Lemma shows_same : forall c q, shows q c -> forall c', Same c c' -> shows q c'.
Proof.
  induction c as [m v cs IH] using pnode_rect'. intros q H c' S. inversion H as [q' m' v' cs' ns W SO TO K E]; subst. inversion S as [? b ? ? ds F]; subst.
  apply (Shows_node nan f text t0 h t q b v ds ns W SO TO); [rewrite <- K; symmetry; apply SameChildren_keys, F|].
  intros k d I. assert (X : exists c, In (k, c) cs /\ Same c d).
  { clear - F I. induction F as [|[k1 x] [k2 y] cs ds [E S] F IHF]; [destruct I|]. destruct I as [X|I]; [injection X as -> ->; cbn in E, S; subst k1; exists x; split; [left; reflexivity|exact S]|]. destruct (IHF I) as (c & A & B). exists c. split; [right; exact A|exact B]. }
  destruct X as (c & IC & SC). destruct (E k c IC) as (l & n & r & E1 & E2 & E3 & E4). exists l, n, r. repeat (split; [assumption|]). rewrite Forall_forall in IH. exact (IH (k, c) IC _ E4 d SC).
Qed.
(* the children, after the sections named by ns *)
Inductive Puts (q : path) : list nat -> children_t -> Prop :=
| Puts_nil : Puts q [] []
| Puts_snoc ns n c cs cs' : Puts q ns cs -> shows (n :: q) c -> Put (text n) c cs cs' -> Puts q (ns ++ [n]) cs'.
Definition Latest (q : path) (ns : list nat) (k : str) (c : pnode) : Prop := exists l n r, ns = l ++ n :: r /\ text n = k /\ ~ In k (map text r) /\ shows (n :: q) c.
Lemma latest_old q ns n k c : k <> text n -> Latest q ns k c -> Latest q (ns ++ [n]) k c.
Proof.
  intros N (l & m & r & -> & E & A & S). exists l, m, (r ++ [n]). split; [rewrite <- app_assoc; reflexivity|]. split; [exact E|]. split; [|exact S]. rewrite map_app. intros I. apply in_app_or in I as [I|[I|[]]]; [auto|congruence].
Qed.
Lemma puts_shows q ns cs : Puts q ns cs -> map fst cs = rev (nodup str_dec (rev (map text ns))) /\ forall k c, In (k, c) cs -> Latest q ns k c.
Proof.
  induction 1 as [|ns n c cs cs' P [K IH] S PU]; [split; [reflexivity|intros k c []]|]. rewrite map_app, rev_app_distr. cbn [map rev app nodup].
  assert (ND : NoDup (map fst cs)) by (rewrite K; apply NoDup_rev, NoDup_nodup). assert (IN : forall k, In k (map fst cs) <-> In k (map text ns)) by (intros k; rewrite K, <- in_rev, nodup_In, <- in_rev; tauto).
  assert (NEW : Latest q (ns ++ [n]) (text n) c) by (exists ns, n, []; repeat split; auto).
  destruct PU as [(l & x & r & -> & N & ->)|(A & ds & SD & ->)].
  - destruct (in_dec str_dec (text n) (rev (map text ns))) as [I|I]; [|exfalso; apply I; rewrite <- in_rev; apply IN; rewrite map_app; apply in_or_app; right; left; reflexivity].
    split; [rewrite <- K, !map_app; reflexivity|]. rewrite map_app in ND. cbn [map fst] in ND. apply NoDup_remove_2 in ND. intros k d ID. apply in_app_or in ID as [ID|[ID|ID]].
    + apply latest_old; [|apply IH; apply in_or_app; left; exact ID]. intros ->. apply N. change (text n) with (fst (text n, d)). apply in_map, ID.
    + injection ID as <- <-. exact NEW.
    + apply latest_old; [|apply IH; apply in_or_app; right; right; exact ID]. intros ->. apply ND. apply in_or_app. right. change (text n) with (fst (text n, d)). apply in_map, ID.
  - destruct (in_dec str_dec (text n) (rev (map text ns))) as [I|I]; [exfalso; apply A, IN; rewrite in_rev; exact I|].
    cbn [rev]. rewrite <- K, map_app, (SameChildren_keys _ _ SD). split; [reflexivity|]. intros k d ID. apply in_app_or in ID as [ID|[ID|[]]]; [|injection ID as <- <-; exact NEW].
    assert (X : exists c', In (k, c') cs /\ Same c' d).
    { clear - SD ID. induction SD as [|[k1 x] [k2 y] cs ds [E S] F IHF]; [destruct ID|]. destruct ID as [X|ID]; [injection X as -> ->; cbn in E, S; subst k1; exists x; split; [left; reflexivity|exact S]|]. destruct (IHF ID) as (c' & A & B). exists c'. split; [right; exact A|exact B]. }
    destruct X as (c' & IC & SC). assert (NK : k <> text n) by (intros ->; apply A; change (text n) with (fst (text n, c')); apply in_map, IC).
    destruct (latest_old q ns n k c' NK (IH _ _ IC)) as (l & m & r & E1 & E2 & E3 & E4). exists l, m, r. repeat (split; [assumption|]). exact (shows_same _ _ E4 _ SC).
Qed.

(* ---------- sections ---------- *)
Context (ss : list section) (paths : list path).
Hypothesis (BAL : Balanced t0 h) (AG : Agrees t0 (OpReport t :: h) ss paths) (SO : Sorts srt).
Lemma children_from_spec l : forall k i j, In j (children_from l k i) <-> (k <= j)%nat /\ exists s, nth_error l (j - k) = Some s /\ sparent s = Some i.
Proof.
  induction l as [|s l IH]; intros k i j; cbn [children_from].
  - split; [intros []|]. intros (_ & s & E & _). destruct (j - k)%nat; discriminate.
  - assert (X : In j (children_from l (S k) i) <-> (S k <= j)%nat /\ exists s', nth_error (s :: l) (j - k) = Some s' /\ sparent s' = Some i).
    { rewrite IH. split; intros (L & s' & E & P); (split; [exact L|]; exists s'; split; [|exact P]); replace (j - k)%nat with (S (j - S k)) in * by lia; exact E. }
    set (b := match sparent s with Some p => Nat.eqb p i | None => false end). assert (BB : b = true <-> sparent s = Some i) by (unfold b; destruct (sparent s) as [p|]; [|split; discriminate]; rewrite Nat.eqb_eq; split; congruence).
    destruct b; cbn [In]; rewrite X; split.
    + intros [<-|(L & H)]; [split; [lia|]; exists s; rewrite Nat.sub_diag; split; [reflexivity|apply BB; reflexivity]|split; [lia|exact H]].
    + intros (L & H). destruct (Nat.eq_dec k j) as [->|N]; [left; reflexivity|right; split; [lia|exact H]].
    + intros (L & H). split; [lia|exact H].
    + intros (L & s' & E & P). destruct (Nat.eq_dec k j) as [->|N]; [|split; [lia|eauto]]. rewrite Nat.sub_diag in E. injection E as <-. apply BB in P. discriminate.
Qed.
Lemma children_from_nodup l : forall k i, NoDup (children_from l k i).
Proof.
  induction l as [|s l IH]; intros k i; cbn [children_from]; [constructor|]. destruct (match sparent s with Some p => Nat.eqb p i | None => false end); [|apply IH]. constructor; [|apply IH]. intros I. apply children_from_spec in I. lia.
Qed.
Definition name_of (j : nat) : nat := match nth_error ss j with Some s => sname s | None => 0%nat end.
Lemma child_path i q j : nth_error paths i = Some q -> (In j (get_children ss i) <-> exists n, nth_error paths j = Some (n :: q)).
Proof.
  intros Q. unfold get_children. rewrite children_from_spec, Nat.sub_0_r. pose proof (agrees_length _ _ _ _ AG) as L. split.
  - intros (_ & s & E & P). destruct (nth_error paths j) as [p|] eqn:PJ; [|apply nth_error_None in PJ; apply nth_error_Some_lt in E; lia]. pose proof (agrees_names _ _ _ _ AG _ _ _ E PJ) as N. rewrite P in N. destruct N as (_ & r & R & ->). rewrite Q in R. injection R as <-. eauto.
  - intros (n & PJ). split; [lia|]. destruct (nth_error ss j) as [s|] eqn:E; [|apply nth_error_None in E; apply nth_error_Some_lt in PJ; lia]. exists s. split; [reflexivity|]. pose proof (agrees_names _ _ _ _ AG _ _ _ E PJ) as N.
    destruct (sparent s) as [k|]; [|subst j; rewrite (agrees_root _ _ _ _ AG) in PJ; discriminate]. destruct N as (_ & r & R & X). injection X as _ X. subst r. f_equal. eapply unique_index; [apply AG|exact R|exact Q].
Qed.
Lemma child_named i q j : nth_error paths i = Some q -> In j (get_children ss i) -> nth_error paths j = Some (name_of j :: q) /\ (i < j)%nat.
Proof.
  intros Q I. pose proof I as I'. apply (child_path i q j Q) in I as (n & PJ). unfold name_of. apply children_from_spec in I' as (_ & s & E & P). rewrite Nat.sub_0_r in E. rewrite E. pose proof (agrees_names _ _ _ _ AG _ _ _ E PJ) as N. rewrite P in N. destruct N as (L & r & R & X). injection X as <- <-. auto.
Qed.
Lemma total_of i q : nth_error paths i = Some q -> total_time ss i = time t0 h t q.
Proof.
  intros Q. unfold total_time. pose proof (agrees_length _ _ _ _ AG) as L. destruct (nth_error ss i) as [s|] eqn:E; [|apply nth_error_None in E; apply nth_error_Some_lt in Q; lia].
  rewrite (agrees_total _ _ _ _ AG _ _ _ E Q). pose proof (agrees_root _ _ _ _ AG) as R. destruct i; [rewrite R in Q; injection Q as <-; reflexivity|]. destruct q as [|n q]; [|reflexivity]. pose proof (unique_index _ _ _ _ (agrees_once _ _ _ _ AG) Q R). discriminate.
Qed.
Lemma nodup_map_in {A B} (g : A -> B) l : NoDup l -> (forall x y, In x l -> In y l -> g x = g y -> x = y) -> NoDup (map g l).
Proof.
  induction 1 as [|x l N D IH]; intros I; cbn; constructor; [|apply IH; intros; apply I; cbn; auto]. intros X. apply in_map_iff in X as (y & E & Y). apply N. rewrite <- (I y x (or_intror Y) (or_introl eq_refl) E). exact Y.
Qed.
Lemma sorted_map {A B} (g : A -> B) (P : A -> A -> Prop) (Q : B -> B -> Prop) l : StronglySorted P l -> (forall x y, In x l -> In y l -> P x y -> Q (g x) (g y)) -> StronglySorted Q (map g l).
Proof.
  induction 1 as [|x l S IH F]; intros H; cbn; constructor.
  - apply IH. intros; apply H; cbn; auto.
  - rewrite Forall_forall in *. intros y I. apply in_map_iff in I as (z & <- & Z). apply H; cbn; auto.
Qed.
Lemma sorted_names i q : nth_error paths i = Some q -> let js := srt (total_time ss) (get_children ss i) in let ns := map name_of js in
  (forall j, In j js -> nth_error paths j = Some (name_of j :: q) /\ (i < j)%nat) /\ Within t0 h q ns /\ StronglySorted (fun a b => time t0 h t (b :: q) <= time t0 h t (a :: q)) ns.
Proof.
  intros Q js ns. destruct (SO (total_time ss) (get_children ss i)) as [PM ST]. fold js in PM, ST.
  assert (J : forall j, In j js -> nth_error paths j = Some (name_of j :: q) /\ (i < j)%nat) by (intros j I; apply (child_named i q j Q); eapply Permutation_in; [symmetry; exact PM|exact I]).
  split; [exact J|]. split; [split|].
  - apply nodup_map_in; [eapply Permutation_NoDup; [exact PM|apply children_from_nodup]|]. intros x y X Y E. destruct (J x X) as [PX _]. destruct (J y Y) as [PY _]. rewrite E in PX. eapply unique_index; [apply AG|exact PX|exact PY].
  - intros n. pose proof (agrees_visited _ _ _ _ AG (n :: q)) as V. cbn [visited] in V. rewrite <- V. split.
    + intros I. apply in_map_iff in I as (j & <- & I). destruct (J j I) as [P _]. eapply nth_error_In. exact P.
    + intros I. apply In_nth_error in I as [j P]. assert (IJ : In j js) by (eapply Permutation_in; [exact PM|]; apply (child_path i q j Q); eauto). apply in_map_iff. exists j. split; [|exact IJ]. destruct (J j IJ) as [P' _]. congruence.
  - unfold ns. eapply sorted_map; [exact ST|]. intros x y X Y L. cbn beta in L. rewrite (total_of x _ (proj1 (J x X))), (total_of y _ (proj1 (J y Y))) in L. exact L.
Qed.
Lemma sumz_perm {A} (g : A -> Z) l l' : Permutation l l' -> sumz g l = sumz g l'.
Proof. induction 1; unfold sumz in *; cbn [fold_right map] in *; lia. Qed.
Lemma sumz_filter {A} (b : A -> bool) (g : A -> Z) l : sumz (fun p => if b p then g p else 0) l = sumz g (filter b l).
Proof. induction l as [|x l IH]; cbn; [reflexivity|]. fold (sumz (fun p => if b p then g p else 0) l). destruct (b x); cbn; fold (sumz g (filter b l)); lia. Qed.
Lemma sumz_map {A B} (k : A -> B) (g : B -> Z) l : sumz g (map k l) = sumz (fun x => g (k x)) l.
Proof. induction l as [|x l IH]; cbn; [reflexivity|]. fold (sumz g (map k l)). fold (sumz (fun x => g (k x)) l). lia. Qed.
Lemma within_inner q ns : Within t0 h q ns -> sumz (fun n => time t0 h t (n :: q)) ns = inner t0 h q.
Proof.
  intros [ND V]. cbn [time]. rewrite <- (inner_sum t0 h q paths BAL (agrees_once _ _ _ _ AG)) by (intros p P; apply (agrees_visited _ _ _ _ AG); exact P).
  rewrite sumz_filter, <- (sumz_map (fun n => n :: q) (spent t0 h)). apply sumz_perm. apply NoDup_Permutation.
  - apply nodup_map_in; [exact ND|]. intros x y _ _ E. congruence.
  - apply NoDup_filter, AG.
  - intros p. rewrite in_map_iff, filter_In, (agrees_visited _ _ _ _ AG). cbn [visited]. split.
    + intros (n & <- & I). split; [apply V, I|]. cbn. destruct (path_dec q q); [reflexivity|congruence].
    + intros [P B]. destruct p as [|n p]; [discriminate|]. cbn in B. destruct (path_dec p q) as [->|]; [|discriminate]. exists n. split; [reflexivity|apply V, P].
Qed.

Hypothesis (I : IEEE f) (CL : Clock t0 (OpReport t :: h) t) (SHORT : t - since t0 h < 2 ^ fm_prec f) (CN : Clear nan) (LN : (List.length nan <= 25)%nat).
Lemma section_told i q ns : nth_error paths i = Some q -> Within t0 h q ns -> exists v, section_value nan f ss i = Ok v /\ Told nan f (time t0 h t q) (time t0 h t []) (own t0 h t q ns) (lost_within t0 h q) v.
Proof.
  intros Q WN. unfold section_value. pose proof (agrees_length _ _ _ _ AG) as L. pose proof (agrees_root _ _ _ _ AG) as R.
  destruct (nth_error ss 0) as [s0|] eqn:E0; [|apply nth_error_None in E0; apply nth_error_Some_lt in R; lia]. destruct (nth_error ss i) as [s|] eqn:E; [|apply nth_error_None in E; apply nth_error_Some_lt in Q; lia].
  assert (BAL' : Balanced t0 (OpReport t :: h)) by exact BAL. rewrite (exclusive_spec _ _ _ _ _ _ BAL' AG Q), (overhead_spec _ _ _ _ BAL' AG (List.length ss) i q Q) by lia. cbn [bind].
  assert (TI : match i with O => reported t0 (OpReport t :: h) | S _ => spent t0 (OpReport t :: h) q end = time t0 h t q) by (rewrite <- (total_of i q Q); unfold total_time; rewrite E; symmetry; exact (agrees_total _ _ _ _ AG _ _ _ E Q)).
  assert (T0 : stotal s0 = time t0 h t []) by (rewrite <- (total_of 0 [] R); unfold total_time; rewrite E0; reflexivity). assert (TS : stotal s = time t0 h t q) by (rewrite <- (total_of i q Q); unfold total_time; rewrite E; reflexivity).
  rewrite TI, T0, TS. change (inner t0 (OpReport t :: h) q) with (inner t0 h q). change (lost_within t0 (OpReport t :: h) q) with (lost_within t0 h q). rewrite <- (within_inner q ns WN). fold (own t0 h t q ns). eexists. split; [reflexivity|].
  destruct (spent_bound t0 _ _ CL BAL') as (B1 & _ & B2). pose proof (inner_bound t0 _ _ q CL BAL') as B3. pose proof (lost_bound t0 _ _ CL BAL' q) as B4. specialize (B2 q). cbn [since spent inner lost_within] in *. 
  assert (B5 : 0 <= time t0 h t q <= t - since t0 h) by (destruct q; cbn [time]; lia).
  apply told_text; try assumption; unfold Brief; try lia.
  - cbn [time]. lia.
  - unfold own. rewrite (within_inner q ns WN). lia.
Qed.
Lemma loop_spec q key (g : nat -> pnode -> pnode * res unit) js : forall ns v l c r,
  (forall j, In j js -> forall x, exists y cs', g j x = (PN true (pn_value x) cs', Ok tt) /\ shows (name_of j :: q) y /\ Put (text (name_of j)) y (pn_children x) cs') ->
  ~ In key (map fst l) -> Puts q ns (pn_children c) ->
  exists c', fold_left (fun st j => match st with (p, Ok _) => pn_or_add grow p key (g j) | _ => st end) js (PN true v (l ++ (key, c) :: r), Ok tt) = (PN true v (l ++ (key, c') :: r), Ok tt) /\
  pn_value c' = pn_value c /\ Puts q (ns ++ map name_of js) (pn_children c').
Proof.
  induction js as [|j js IH]; intros ns v l c r G N P; cbn [fold_left map].
  - exists c. rewrite app_nil_r. auto.
  - rewrite (or_add_first grow (PN true v (l ++ (key, c) :: r)) key (g j) l c r eq_refl N). destruct (G j (or_introl eq_refl) (pn_access c)) as (y & cs' & EG & SY & PU). rewrite EG. cbn [fst snd pn_value].
    destruct (IH (ns ++ [name_of j]) v l (PN true (pn_value (pn_access c)) cs') r) as (c' & X & V & Q).
    + intros j' J'. apply G. right. exact J'.
    + exact N.
    + cbn [pn_children]. eapply Puts_snoc; [exact P|exact SY|exact PU].
    + exists c'. split; [exact X|]. split; [rewrite V; destruct c; reflexivity|]. rewrite <- app_assoc in Q. exact Q.
Qed.
Lemma report_section_shows fuel : forall i q pn, nth_error paths i = Some q -> (List.length ss - i <= fuel)%nat ->
  exists c cs', report_section nan f text srt grow fuel ss i pn = (PN true (pn_value pn) cs', Ok tt) /\ shows q c /\ Put (text (name_of i)) c (pn_children pn) cs'.
Proof.
  induction fuel as [|fuel IH]; intros i q pn Q L; pose proof (agrees_length _ _ _ _ AG) as LL.
  - apply nth_error_Some_lt in Q. lia.
  - cbn [report_section]. destruct (sorted_names i q Q) as (J & WN & SN). set (js := srt (total_time ss) (get_children ss i)) in *. destruct (section_told i q _ Q WN) as (v & EV & TV). rewrite EV.
    destruct (nth_error ss i) as [s|] eqn:E; [|apply nth_error_None in E; apply nth_error_Some_lt in Q; lia]. assert (NM : name_of i = sname s) by (unfold name_of; rewrite E; reflexivity). rewrite NM. set (key := text (sname s)).
    assert (G : forall j, In j js -> forall x, exists y cs', report_section nan f text srt grow fuel ss j x = (PN true (pn_value x) cs', Ok tt) /\ shows (name_of j :: q) y /\ Put (text (name_of j)) y (pn_children x) cs').
    { intros j IJ x. destruct (J j IJ) as [PJ LT]. apply IH; [exact PJ|]. lia. }
    assert (FIN : forall l r, ~ In key (map fst l) -> forall a, exists c', fold_left (fun st j => match st with (p, Ok _) => pn_or_add grow p key (fun x => report_section nan f text srt grow fuel ss j x) | _ => st end) js (PN true (pn_value pn) (l ++ (key, PN a v []) :: r), Ok tt) = (PN true (pn_value pn) (l ++ (key, c') :: r), Ok tt) /\ shows q c').
    { intros l r N a. destruct (loop_spec q key (fun j x => report_section nan f text srt grow fuel ss j x) js [] (pn_value pn) l (PN a v []) r G N (Puts_nil q)) as (c' & X & V & P). exists c'. split; [exact X|].
      destruct (puts_shows q _ _ P) as [K H]. destruct c' as [m' v' cs']. cbn in V. subst v'. exact (Shows_node nan f text t0 h t q m' v cs' _ WN SN TV K H). }
    pose proof (child_index_spec (pn_children pn) key) as CI. destruct (child_index (pn_children pn) key) as [ix|]; [destruct CI as (l & x & r & EC & _ & N)|rename CI into A]; [|].
    + rewrite (or_add_first grow pn key _ l x r EC N). cbn [fst snd]. destruct (FIN l r N (pn_accessed (pn_access x))) as (c' & X & SC). exists c', (l ++ (key, c') :: r). split; [exact X|]. split; [exact SC|]. left. exists l, x, r. auto.
    + destruct (or_add_absent grow pn key (fun c => (PN (pn_accessed c) v [], Ok tt)) A) as (ds & SD & EO). rewrite EO. cbn [fst snd].
      destruct (FIN ds [] ltac:(rewrite <- (SameChildren_keys _ _ SD); exact A) (pn_accessed pn_empty)) as (c' & X & SC). exists c', (ds ++ [(key, c')]). split; [exact X|]. split; [exact SC|]. right. split; [exact A|]. exists ds. auto.
Qed.
Lemma report_root : exists c, report_section nan f text srt grow (S (List.length ss)) ss 0 pn_empty = (PN true [] [(text (name_of 0), c)], Ok tt) /\ shows [] c.
Proof.
  destruct (report_section_shows (S (List.length ss)) 0 [] pn_empty (agrees_root _ _ _ _ AG) ltac:(lia)) as (c & cs' & E & S & P). exists c. split; [|exact S]. rewrite E. destruct P as [(l & x & r & X & _)|(_ & ds & SD & ->)].
  - cbn in X. destruct l; discriminate.
  - inversion SD; subst. reflexivity.
Qed.
End Tree.
