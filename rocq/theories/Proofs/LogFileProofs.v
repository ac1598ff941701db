From Verif Require Import Model.Base Proofs.BaseFacts Model.StdString Model.Strings Model.Log Model.FileSystem Model.LogFile
  Spec.Log Spec.FileSystem Spec.LogFile Proofs.LogProofs Proofs.FileSystemProofs.
Local Open Scope Z_scope.

Lemma write_at_end old t : write_at old (length old) t = old ++ t.
Proof.
  unfold write_at. rewrite Nat.sub_diag. cbn [repeat]. rewrite app_nil_r, firstn_all. rewrite skipn_all2 by lia. rewrite app_nil_r. reflexivity.
Qed.
Lemma lines_snoc ts t : lines (ts ++ [t]) = lines ts ++ t ++ [LF].
Proof. unfold lines. rewrite flat_map_app. cbn [flat_map]. rewrite app_nil_r. reflexivity. Qed.

(* sending *)
Lemma send_log st s t : lf_log (send st s t) = lf_log st.
Proof. unfold send. destruct (lf_file st s) as [[|k pos]|]; reflexivity. Qed.
Lemma send_file st s t x : match lf_file (send st s t) x with
  | Some (At k pos) => exists pos0, lf_file st x = Some (At k pos0)
  | r => r = lf_file st x end.
Proof.
  unfold send. destruct (lf_file st s) as [[|k pos]|] eqn:E; try (destruct (lf_file st x) as [[|k' pos']|]; eauto; fail).
  cbn [lf_file]. unfold update. destruct (Nat.eqb_spec x s) as [->|N]; [eauto|]. destruct (lf_file st x) as [[|k' pos']|]; eauto.
Qed.
Lemma send_file_back st s t x k pos : lf_file st x = Some (At k pos) -> exists pos', lf_file (send st s t) x = Some (At k pos').
Proof.
  intros E. unfold send. destruct (lf_file st s) as [[|k' pos']|] eqn:F; eauto. cbn [lf_file]. unfold update. destruct (Nat.eqb_spec x s) as [->|N]; [|eauto]. rewrite E in F. injection F as <- <-. eauto.
Qed.
Lemma send_none st s t x : lf_file (send st s t) x = None <-> lf_file st x = None.
Proof.
  unfold send. destruct (lf_file st s) as [[|k' pos']|] eqn:F; try tauto. cbn [lf_file]. unfold update. destruct (Nat.eqb_spec x s) as [->|N]; [rewrite F; split; discriminate|tauto].
Qed.
Lemma send_closed st s t x : lf_file (send st s t) x = Some Closed <-> lf_file st x = Some Closed.
Proof.
  unfold send. destruct (lf_file st s) as [[|k' pos']|] eqn:F; try tauto. cbn [lf_file]. unfold update. destruct (Nat.eqb_spec x s) as [->|N]; [rewrite F; split; discriminate|tauto].
Qed.

Definition sendall (st : lf_state) (ss : list nat) (t : str) : lf_state := fold_left (fun a s => send a s t) ss st.
Lemma messagef_fold l text st0 : fold_left (fun a p => send a (fst p) (snd p)) (messagef (lf_log st0) l text) st0 = sendall st0 (message (lf_log st0) l) (cstr (firstn 1023 text)).
Proof.
  unfold messagef, sendall. generalize st0 at 2 4. generalize (message (lf_log st0) l) as ss. induction ss as [|s ss IH]; intros st; [reflexivity|]. cbn [map fold_left fst snd]. apply IH.
Qed.

(* s alone has k open *)
Definition Excl (st : lf_state) (s : nat) (k : list str) : Prop := forall x k' pos, x <> s -> lf_file st x = Some (At k' pos) -> k' <> k.
Lemma send_excl st x t s k : Excl st s k -> Excl (send st x t) s k.
Proof. intros H y k' pos N E. pose proof (send_file st x t y) as F. rewrite E in F. destruct F as [p F]. exact (H y k' p N F). Qed.
Lemma send_other st x t s k : Excl st s k -> x <> s -> lf_fs (send st x t) k = lf_fs st k /\ lf_file (send st x t) s = lf_file st s.
Proof.
  intros H N. unfold send. destruct (lf_file st x) as [[|k' pos]|] eqn:E; auto. cbn [lf_fs lf_file]. split; [|rewrite update_ne by congruence; reflexivity].
  apply put_other. intros ->. exact (H x k' pos N E eq_refl).
Qed.
Lemma send_self st s t k c : lf_file st s = Some (At k (length c)) -> lf_fs st k = Some (File c) ->
  lf_file (send st s t) s = Some (At k (length (c ++ t ++ [LF]))) /\ lf_fs (send st s t) k = Some (File (c ++ t ++ [LF])).
Proof.
  intros E F. unfold send. rewrite E, F. cbn [lf_file lf_fs]. rewrite update_eq, put_same, write_at_end. rewrite !app_length. split; reflexivity.
Qed.
Lemma sendall_excl ss t s k : forall st, Excl st s k -> Excl (sendall st ss t) s k.
Proof. induction ss as [|x ss IH]; intros st H; [exact H|]. cbn. apply IH, send_excl, H. Qed.
Lemma sendall_other ss t s k : forall st, Excl st s k -> ~ In s ss -> lf_fs (sendall st ss t) k = lf_fs st k /\ lf_file (sendall st ss t) s = lf_file st s.
Proof.
  induction ss as [|x ss IH]; intros st H N; [auto|]. cbn. destruct (send_other st x t s k H) as [A B]; [intros ->; apply N; left; reflexivity|].
  destruct (IH (send st x t)) as [C D]; [apply send_excl, H|intros I; apply N; right; exact I|]. split; [rewrite <- A; exact C|rewrite <- B; exact D].
Qed.
Lemma sendall_self ss t s k c : NoDup ss -> In s ss -> forall st, Excl st s k -> lf_file st s = Some (At k (length c)) -> lf_fs st k = Some (File c) ->
  lf_file (sendall st ss t) s = Some (At k (length (c ++ t ++ [LF]))) /\ lf_fs (sendall st ss t) k = Some (File (c ++ t ++ [LF])).
Proof.
  induction ss as [|x ss IH]; intros N I st H E F; [destruct I|]. inversion N as [|? ? NI N']; subst. cbn. destruct (Nat.eq_dec x s) as [->|NE].
  - destruct (send_self st s t k c E F) as [A B]. destruct (sendall_other ss t s k (send st s t)) as [C D]; [apply send_excl, H|exact NI|]. unfold sendall in C, D. rewrite C, D. auto.
  - destruct (send_other st x t s k H NE) as [A B]. apply IH; [exact N'|destruct I; [congruence|assumption]|apply send_excl, H|rewrite B; exact E|rewrite A; exact F].
Qed.
Lemma sendall_log ss t : forall st, lf_log (sendall st ss t) = lf_log st.
Proof. induction ss as [|x ss IH]; intros st; [reflexivity|]. cbn. unfold sendall in IH. rewrite IH. apply send_log. Qed.
Lemma sendall_none ss t x : forall st, lf_file (sendall st ss t) x = None <-> lf_file st x = None.
Proof. induction ss as [|y ss IH]; intros st; [reflexivity|]. cbn. unfold sendall in IH. rewrite IH. apply send_none. Qed.
Lemma sendall_file ss t x k pos : forall st, lf_file (sendall st ss t) x = Some (At k pos) -> exists pos0, lf_file st x = Some (At k pos0).
Proof.
  induction ss as [|y ss IH]; intros st E; [eauto|]. cbn in E. apply IH in E as [p E]. pose proof (send_file st y t x) as F. rewrite E in F. exact F.
Qed.

(* the file system *)
Record Disk (cwd : list str) (s0 s : fs) : Prop := {
  dk_tree : Tree s; dk_cwd : s cwd = Some Dir; dk_dirs : forall k, s k = Some Dir <-> s0 k = Some Dir }.
Lemma disk_put cwd s0 s k c : Disk cwd s0 s -> Writable s0 k -> Disk cwd s0 (put s k (File c)).
Proof.
  intros [T W D] [NK (a & x & -> & PA)]. assert (X : s (a ++ [x]) <> Some Dir) by (rewrite D; exact NK). constructor.
  - apply tree_put; [exact T|apply D; exact PA|exact X].
  - rewrite put_other; [exact W|]. intros ->. apply X. exact W.
  - intros k. destruct (name_dec k (a ++ [x])) as [->|N]; [rewrite put_same; split; [discriminate|intros C; contradiction]|rewrite put_other by exact N; apply D].
Qed.
Lemma disk_open cwd s0 s p k : Disk cwd s0 s -> Names cwd p k ->
  open_write cwd s p = (Some k, put s k (File [])) /\ Writable s0 k \/ open_write cwd s p = (None, s) /\ ~ Writable s0 k.
Proof.
  intros [T W D] N. destruct (names_key _ _ _ N) as (a & c & ->). rewrite (names_write cwd s p a c T W N).
  assert (NW : s a <> Some Dir -> ~ Writable s0 (a ++ [c])). { intros NA [_ (a' & c' & E & A)]. apply app_inj_tail in E as [<- <-]. apply NA, D, A. }
  destruct (s (a ++ [c])) as [[|g]|] eqn:K.
  - right. split; [reflexivity|]. intros [X _]. apply X, D, K.
  - destruct (s a) as [[|f]|] eqn:A; [left|right|right]; (split; [reflexivity|]); [|apply NW; discriminate|apply NW; discriminate].
    split; [rewrite <- D, K; discriminate|]. exists a, c. split; [reflexivity|apply D; exact A].
  - destruct (s a) as [[|f]|] eqn:A; [left|right|right]; (split; [reflexivity|]); [|apply NW; discriminate|apply NW; discriminate].
    split; [rewrite <- D, K; discriminate|]. exists a, c. split; [reflexivity|apply D; exact A].
Qed.
Lemma disk_send cwd s0 st x t : Disk cwd s0 (lf_fs st) -> (forall s k pos, lf_file st s = Some (At k pos) -> Writable s0 k) -> Disk cwd s0 (lf_fs (send st x t)).
Proof. intros D W. unfold send. destruct (lf_file st x) as [[|k pos]|] eqn:E; try exact D. cbn [lf_fs]. apply disk_put; [exact D|exact (W x k pos E)]. Qed.
Lemma disk_sendall cwd s0 ss t : forall st, Disk cwd s0 (lf_fs st) -> (forall s k pos, lf_file st s = Some (At k pos) -> Writable s0 k) -> Disk cwd s0 (lf_fs (sendall st ss t)).
Proof.
  induction ss as [|x ss IH]; intros st D W; [exact D|]. cbn. apply IH; [apply disk_send; assumption|]. intros s k pos E. pose proof (send_file st x t s) as F. rewrite E in F. destruct F as [p F]. exact (W s k p F).
Qed.
Lemma untouched_sendall k ss t : forall st, (forall s k' pos, lf_file st s = Some (At k' pos) -> k' <> k) -> lf_fs (sendall st ss t) k = lf_fs st k.
Proof.
  induction ss as [|x ss IH]; intros st H; [reflexivity|]. cbn. unfold sendall in IH. rewrite IH.
  - unfold send. destruct (lf_file st x) as [[|k' pos]|] eqn:E; try reflexivity. cbn [lf_fs]. apply put_other. intros ->. exact (H x k' pos E eq_refl).
  - intros s k' pos E. pose proof (send_file st x t s) as F. rewrite E in F. destruct F as [p F]. exact (H s k' p F).
Qed.

(* formats *)
Lemma cstr_split t : ~ In NUL (cstr t) /\ exists r, t = cstr t ++ r /\ (r = [] \/ hd_error r = Some NUL).
Proof.
  induction t as [|c t (N & r & E & R)]; [split; [intros []|exists []; auto]|]. cbn [cstr]. destruct (Ascii.eqb_spec c NUL) as [->|NE].
  - split; [intros []|]. exists (NUL :: t). auto.
  - split; [intros [X|X]; [congruence|contradiction]|]. exists r. cbn [app]. split; [congruence|exact R].
Qed.
Lemma cstr_length t : (length (cstr t) <= length t)%nat.
Proof. destruct (cstr_split t) as (_ & r & E & _). apply (f_equal (@length ascii)) in E. rewrite app_length in E. lia. Qed.
Lemma shown t : Shown t (cstr (firstn 1023 t)).
Proof.
  destruct (cstr_split (firstn 1023 t)) as (N & r & E & R). split; [exact N|].
  assert (L : (length (cstr (firstn 1023 t)) <= 1023)%nat) by (pose proof (cstr_length (firstn 1023 t)); pose proof (firstn_le_length 1023 t); lia).
  split; [exact L|]. exists (r ++ skipn 1023 t). rewrite app_assoc, <- E, firstn_skipn. split; [reflexivity|].
  destruct R as [->|R]; [|right; right; destruct r; [discriminate|exact R]]. rewrite app_nil_r in E. destruct (Nat.le_gt_cases (length t) 1023) as [A|A].
  - left. cbn [app]. apply skipn_all2. exact A.
  - right. left. rewrite <- E. rewrite firstn_length. lia.
Qed.
Lemma shown_fun t u v : Shown t u -> Shown t v -> u = v.
Proof.
  revert t u v. assert (X : forall t u v, Shown t u -> Shown t v -> (length u <= length v)%nat -> u = v).
  { intros t u v (Nu & Lu & r & E & R) (Nv & Lv & q & F & _) L. rewrite E in F. destruct R as [->|[R|R]].
    - rewrite app_nil_r in F. subst u. rewrite app_length in L. destruct q; [apply app_nil_r|cbn in L; lia].
    - assert (LL : length u = length v) by lia. clear - F LL. revert v F LL. induction u as [|a u IH]; intros [|b v] F LL; try discriminate; [reflexivity|]. cbn in F. injection F as -> F. f_equal. apply IH; [exact F|cbn in LL; lia].
    - clear - F R Nv L. revert v F Nv L. induction u as [|a u IH]; intros [|b v] F Nv L; [reflexivity| | |].
      + cbn in F. destruct r; [discriminate|]. cbn in R. injection R as ->. injection F as <- _. exfalso. apply Nv. left. reflexivity.
      + cbn in L. lia.
      + cbn in F. injection F as -> F. f_equal. apply IH; [exact F| |cbn in L; lia]. intros I. apply Nv. right. exact I. }
  intros t u v A B. destruct (Nat.le_ge_cases (length u) (length v)); [eapply X; eassumption|symmetry; eapply X; eassumption].
Qed.

(* the run against the history *)
Record Track (cwd : list str) (s0 : fs) (h : list sink_op) (st : lf_state) : Prop := {
  tr_sim : Sim (calls h) (lf_log st);
  tr_disk : Disk cwd s0 (lf_fs st);
  tr_writable : forall s k pos, lf_file st s = Some (At k pos) -> Writable s0 k /\ Uses cwd h s k;
  tr_file : forall s, lf_file st s <> None <-> alive (lf_log st) s = true /\ exists ts, Inbox h s ts;
  tr_frame : forall k, (forall s l p, In (NewFile s l p) h -> ~ Names cwd p k) \/ ~ Writable s0 k -> lf_fs st k = s0 k;
  tr_sole : forall s k, Sole cwd s0 h s k -> exists ts, Inbox h s ts /\ lf_fs st k = Some (File (lines ts)) /\ Excl st s k /\
    (alive (lf_log st) s = true -> lf_file st s = Some (At k (length (lines ts)))) }.
Lemma track_init cwd s0 : Tree s0 -> s0 cwd = Some Dir -> Track cwd s0 [] (lf_init s0).
Proof.
  intros T W. constructor; cbn.
  - apply sim_init.
  - constructor; [exact T|exact W|tauto].
  - discriminate.
  - intros s. split; [congruence|intros [C _]; discriminate].
  - reflexivity.
  - intros s k X. inversion X.
Qed.
Lemma meant_message h st l : Sim (calls h) (lf_log st) -> Fair (calls h) -> forall s, In s (message (lf_log st) l) <-> Meant h s l.
Proof.
  intros S F s. rewrite message_all by apply S. rewrite filter_In, Z.leb_le. split.
  - intros [I L]. exists (sinks (lf_log st)), (log_level (lf_log st) s). split; [apply S|]. split; [exact I|]. split; [apply (sim_level _ _ S), (sim_sinks _ _ S); exact I|exact L].
  - intros (ss & lv & R & I & L & LE). destruct (Registered_fun _ ss R F) as (_ & _ & U). rewrite (U _ (sim_reg _ _ S)). split; [exact I|].
    replace (log_level (lf_log st) s) with lv; [exact LE|]. symmetry. eapply Level_fun; [exact L|exact F|]. apply (sim_level _ _ S), (sim_sinks _ _ S). rewrite (U _ (sim_reg _ _ S)). exact I.
Qed.
Lemma message_nodup st h l : Sim h st -> NoDup (message st l) /\ forall s, In s (message st l) -> alive st s = true.
Proof.
  intros S. rewrite message_all by apply S. split; [apply NoDup_filter, S|]. intros s I. apply filter_In in I as [I _]. apply (sim_sinks _ _ S), I.
Qed.

Lemma track_message cwd s0 h st l t o : Track cwd s0 h st -> Fair (calls h) ->
  calls (o :: h) = calls h -> (forall s k, Uses cwd (o :: h) s k <-> Uses cwd h s k) -> (forall s' l' p, o <> NewFile s' l' p) ->
  (forall s ts, Inbox h s ts -> Meant h s l -> Inbox (o :: h) s (ts ++ [t])) -> (forall s ts, Inbox h s ts -> ~ Meant h s l -> Inbox (o :: h) s ts) ->
  (forall s ts, Inbox (o :: h) s ts -> exists ts', Inbox h s ts') -> (forall o', o <> Call o') ->
  Track cwd s0 (o :: h) (sendall st (message (lf_log st) l) t).
Proof.
  intros [S D W F FR SO] FA C U NF IG IP IB NC. pose proof (meant_message h st l S FA) as M. destruct (message_nodup _ _ l S) as [ND AL].
  assert (ID : forall s ts, Inbox h s ts -> exists ts', Inbox (o :: h) s ts').
  { intros s ts I. destruct (in_dec Nat.eq_dec s (message (lf_log st) l)) as [X|X]; [exists (ts ++ [t]); apply IG; [exact I|apply M; exact X]|exists ts; apply IP; [exact I|rewrite <- M; exact X]]. }
  constructor.
  - rewrite C, sendall_log. exact S.
  - apply disk_sendall; [exact D|]. intros s k pos E. apply (W s k pos E).
  - intros s k pos E. apply sendall_file in E as [p E]. rewrite U. exact (W s k p E).
  - intros s. rewrite sendall_log. assert (X : lf_file (sendall st (message (lf_log st) l) t) s <> None <-> lf_file st s <> None) by (rewrite sendall_none; tauto). rewrite X, F.
    split; (intros [A [ts I]]; split; [exact A|]); [exact (ID s ts I)|exact (IB s ts I)].
  - intros k H. rewrite untouched_sendall; [apply FR; destruct H as [H|H]; [left|right; exact H]; intros s l' p I; apply (H s l' p); right; exact I|].
    intros s k' pos E ->. destruct (W s k pos E) as [WR UE]. destruct H as [H|H]; [|contradiction]. clear - H UE NF.
    assert (G : forall s l p, In (NewFile s l p) h -> ~ Names cwd p k) by (intros s' l' p I; apply (H s' l' p); right; exact I). clear H. induction h as [|x h IH]; [exact UE|].
    destruct x as [[]|s' l' p|l' t'|l' t']; cbn [Uses] in UE; try (apply IH; [exact UE|intros; eapply G; right; eassumption]).
    + destruct UE as [_ UE]. apply IH; [exact UE|intros; eapply G; right; eassumption].
    + destruct UE as [[-> N]|[_ UE]]; [exact (G s l' p (or_introl eq_refl) N)|]. apply IH; [exact UE|intros; eapply G; right; eassumption].
  - intros s k SL. inversion SL as [? ? ? ? ? ? ? ? E|? ? ? ? SL' N1 N2 N3]; subst; [exfalso; eapply NF; reflexivity|]. destruct (SO s k SL') as (ts & I & K & EX & OP). rewrite sendall_log.
    destruct (in_dec Nat.eq_dec s (message (lf_log st) l)) as [X|X].
    + exists (ts ++ [t]). destruct (sendall_self _ t s k (lines ts) ND X st EX (OP (AL s X)) K) as [A B]. rewrite lines_snoc. split; [apply IG; [exact I|apply M; exact X]|]. split; [exact B|]. split; [apply sendall_excl, EX|]. intros _. exact A.
    + exists ts. destruct (sendall_other (message (lf_log st) l) t s k st EX X) as [A B]. split; [apply IP; [exact I|rewrite <- M; exact X]|]. split; [rewrite A; exact K|]. split; [apply sendall_excl, EX|]. rewrite B. exact OP.
Qed.

Lemma alive_step st o g : log_step st o = Ok g -> forall s, alive g s = match o with
  | New x _ | Copy x _ => if Nat.eqb s x then true else alive st s
  | Delete x => if Nat.eqb s x then false else alive st s
  | _ => alive st s end.
Proof.
  intros E s. destruct o as [x l|x y|x|[x|]|x|x l|l|]; cbn [log_step] in E; repeat match type of E with context [alive st ?z] => destruct (alive st z) eqn:?; try discriminate end; try discriminate; injection E as <-; try reflexivity.
  - unfold add_sink. cbn. destruct (existsb _ _); cbn; reflexivity.
  - unfold add_sink. destruct (existsb _ _); reflexivity.
  - unfold set_global. pose proof (set_all_levels l (sinks st) st) as X. cbn zeta in X. destruct X as (_ & B & _). cbn [alive]. rewrite B. reflexivity.
Qed.
Lemma fresh_step st o g : log_step st o = Ok g -> match o with New x _ | Copy x _ => alive st x = false | Delete x => alive st x = true | _ => True end.
Proof. destruct o as [x l|x y|x|[x|]|x|x l|l|]; cbn [log_step]; intros E; auto; destruct (alive st x); try discriminate; reflexivity. Qed.
Lemma fair_step h st o g : Sim h st -> Fair h -> log_step st o = Ok g -> Fair (o :: h).
Proof. intros S F E. apply (run_unfair [o] h st g S F). cbn [log_run]. rewrite E. reflexivity. Qed.
Lemma fair_throw h st o : Sim h st -> Fair h -> log_step st o = Throw -> Fair (o :: h).
Proof. intros S F E. apply (run_unfair [o] h st st S F). cbn [log_run]. rewrite E. reflexivity. Qed.

Lemma track_call cwd s0 h st o g f : Track cwd s0 h st -> log_step (lf_log st) o = Ok g ->
  (forall s, f s = if match o with Delete x => Nat.eqb s x | _ => false end then None else lf_file st s) ->
  Track cwd s0 (Call o :: h) (mkLf g (lf_fs st) f).
Proof.
  intros [S D W F FR SO] E FE. pose proof (alive_step _ _ _ E) as AL. pose proof (fresh_step _ _ _ E) as FS.
  assert (LF : forall s, f s <> None -> f s = lf_file st s /\ lf_file st s <> None). { intros s N. rewrite FE in *. destruct (match o with Delete x => Nat.eqb s x | _ => false end); [congruence|auto]. }
  constructor; cbn [lf_log lf_fs lf_file calls].
  - eapply sim_step; eassumption.
  - exact D.
  - intros s k pos X. assert (N : f s <> None) by congruence. destruct (LF s N) as [Y _]. rewrite Y in X. destruct (W s k pos X) as [A B]. split; [exact A|]. cbn [Uses]. destruct o; try exact B.
    split; [|exact B]. intros ->. rewrite FE, Nat.eqb_refl in N. congruence.
  - intros s. split.
    + intros N. destruct (LF s N) as [Y Y']. apply F in Y' as [A [ts I]]. assert (AG : alive g s = true).
      { rewrite AL. destruct o as [x l|x y|x|x|x|x l|l|]; try exact A; destruct (Nat.eqb_spec s x) as [->|]; auto. rewrite FE, Nat.eqb_refl in N. congruence. }
      split; [exact AG|]. exists ts. apply Inbox_call; [exact I| |]; intros z ->; congruence.
    + intros [A [ts I]]. inversion I as [| | | | |? ? ? ? I' N1 N2|]; subst. rewrite FE. rewrite AL in A.
      assert (Z : alive (lf_log st) s = true /\ match o with Delete x => Nat.eqb s x | _ => false end = false).
      { destruct o as [x l|x y|x|x|x|x l|l|]; cbn in A |- *; try (split; [exact A|reflexivity]); destruct (Nat.eqb_spec s x) as [E1|]; try subst x; auto; try discriminate; exfalso; try (eapply N1; reflexivity); eapply N2; reflexivity. }
      destruct Z as [Z1 Z2]. rewrite Z2. apply F. split; [exact Z1|exists ts; exact I'].
  - intros k H. apply FR. destruct H as [H|H]; [left; intros s l p I; apply (H s l p); right; exact I|right; exact H].
  - intros s k SL. inversion SL as [|? ? ? ? SL' N1 N2 N3]; subst. destruct (SO s k SL') as (ts & I & K & EX & OP). exists ts.
    split; [apply Inbox_call; [exact I| |]; intros z ->; [eapply N1|eapply N2]; reflexivity|]. split; [exact K|]. split.
    + intros x k' pos NE X. destruct (LF x ltac:(cbn in X; congruence)) as [Y _]. cbn in X. rewrite Y in X. exact (EX x k' pos NE X).
    + intros A. rewrite FE. rewrite AL in A.
      assert (Z : alive (lf_log st) s = true /\ match o with Delete x => Nat.eqb s x | _ => false end = false).
      { destruct o as [x l|x y|x|x|x|x l|l|]; cbn in A |- *; try (split; [exact A|reflexivity]); destruct (Nat.eqb_spec s x) as [E1|]; try subst x; auto; try discriminate; exfalso; try (eapply N1; reflexivity); eapply N2; reflexivity. }
      destruct Z as [Z1 Z2]. rewrite Z2. exact (OP Z1).
Qed.
Lemma uses_alive cwd h st s k : Sim (calls h) (lf_log st) -> Fair (calls h) -> Uses cwd h s k -> exists_after (calls h) s.
Proof.
  intros _ _. induction h as [|o h IH]; intros U; [exact U|]. destruct o as [[]|s' l' p|l' t'|l' t']; cbn [Uses calls exists_after] in *; try (apply IH; exact U); try tauto.
Qed.
Lemma track_new cwd s0 h st s l p k g : Track cwd s0 h st -> Fair (calls h) -> Names cwd p k -> log_step (lf_log st) (New s l) = Ok g ->
  let (o, f) := open_write cwd (lf_fs st) p in
  Track cwd s0 (NewFile s l p :: h) (mkLf g f (update (lf_file st) s (Some match o with Some k => At k 0 | None => Closed end))).
Proof.
  intros TR FA N E. pose proof TR as [S D W F FR SO]. pose proof (alive_step _ _ _ E) as AL. pose proof (fresh_step _ _ _ E) as FS. cbn in FS.
  assert (S' : Sim (New s l :: calls h) g) by (eapply sim_step; eassumption).
  assert (FN : lf_file st s = None). { destruct (lf_file st s) eqn:X; [|reflexivity]. assert (Y : lf_file st s <> None) by congruence. apply F in Y as [Y _]. congruence. }
  assert (FI : forall f x, update (lf_file st) s (Some f) x <> None <-> alive g x = true /\ exists ts, Inbox (NewFile s l p :: h) x ts).
  { intros f x. rewrite AL. unfold update. destruct (Nat.eqb_spec x s) as [->|NE].
    - split; [|discriminate]. intros _. split; [reflexivity|]. exists []. apply Inbox_new.
    - rewrite F. split; intros [A [ts I]]; (split; [exact A|exists ts]); [apply Inbox_other; [exact I|congruence]|]. inversion I; subst; [congruence|assumption]. }
  assert (SU : forall x k', x <> s -> Uses cwd h x k' -> Uses cwd (NewFile s l p :: h) x k') by (intros x k' NE U; right; split; [congruence|exact U]).
  destruct (disk_open cwd s0 (lf_fs st) p k D N) as [[-> WR]|[-> NW]]; constructor; cbn [lf_log lf_fs lf_file calls]; try exact S'; try (intros x; apply FI).
  - apply disk_put; assumption.
  - intros x k' pos. unfold update. destruct (Nat.eqb_spec x s) as [->|NE]; [intros X; injection X as <- _; split; [exact WR|left; auto]|]. intros X. destruct (W x k' pos X) as [A B]. split; [exact A|apply SU; assumption].
  - intros k' H. rewrite put_other; [apply FR; destruct H as [H|H]; [left; intros x y z I; apply (H x y z); right; exact I|right; exact H]|]. intros ->. destruct H as [H|H]; [exact (H s l p (or_introl eq_refl) N)|contradiction].
  - intros x k' SL. inversion SL as [? ? ? ? ? N' WR' NO|? ? ? ? SL' N1 N2 N3]; subst.
    + exists []. assert (k' = k). { clear - N N' D WR WR'. destruct (disk_open _ _ _ _ _ D N) as [[E _]|[_ X]]; [|contradiction]. destruct (disk_open _ _ _ _ _ D N') as [[E' _]|[_ X]]; [|contradiction]. congruence. }
      subst k'. split; [apply Inbox_new|]. split; [apply put_same|]. split; [|intros _; rewrite update_eq; reflexivity].
      intros y k'' pos NE Y. cbn [lf_file] in Y. rewrite update_ne in Y by exact NE. intros ->. destruct (W y k pos Y) as [_ U]. exact (NO y NE U).
    + destruct (N3 s l p eq_refl) as [NE NN]. assert (KN : k' <> k) by congruence. destruct (SO x k' SL') as (ts & I & K & EX & OP). exists ts. split; [apply Inbox_other; assumption|]. split; [rewrite put_other by exact KN; exact K|]. split.
      * intros y k'' pos NE' Y. cbn [lf_file] in Y. unfold update in Y. destruct (Nat.eqb_spec y s) as [->|NS]; [injection Y as <- _; congruence|exact (EX y k'' pos NE' Y)].
      * rewrite AL, update_ne by congruence. destruct (Nat.eqb_spec x s); [congruence|exact OP].
  - exact D.
  - intros x k' pos. unfold update. destruct (Nat.eqb_spec x s) as [->|NE]; [discriminate|]. intros X. destruct (W x k' pos X) as [A B]. split; [exact A|apply SU; assumption].
  - intros k' H. apply FR. destruct H as [H|H]; [left; intros x y z I; apply (H x y z); right; exact I|right; exact H].
  - intros x k' SL. inversion SL as [? ? ? ? ? N' WR' NO|? ? ? ? SL' N1 N2 N3]; subst.
    + exfalso. clear - N N' D NW WR'. destruct (disk_open _ _ _ _ _ D N) as [[_ X]|[E _]]; [contradiction|]. destruct (disk_open _ _ _ _ _ D N') as [[E' _]|[_ X]]; [congruence|contradiction].
    + destruct (N3 s l p eq_refl) as [NE NN]. destruct (SO x k' SL') as (ts & I & K & EX & OP). exists ts. split; [apply Inbox_other; assumption|]. split; [exact K|]. split.
      * intros y k'' pos NE' Y. cbn [lf_file] in Y. unfold update in Y. destruct (Nat.eqb_spec y s) as [->|NS]; [discriminate|exact (EX y k'' pos NE' Y)].
      * rewrite AL, update_ne by congruence. destruct (Nat.eqb_spec x s); [congruence|exact OP].
Qed.

Lemma call_step cwd st o st' : lf_step cwd st (Call o) = Ok st' -> exists g f, log_step (lf_log st) o = Ok g /\ st' = mkLf g (lf_fs st) f /\
  forall s, f s = if match o with Delete x => Nat.eqb s x | _ => false end then None else lf_file st s.
Proof.
  intros E. destruct o as [x l|x y|x|x|x|x l|l|]; cbn [lf_step] in E; try (destruct (lf_file st y); [discriminate|]);
  match type of E with bind ?r _ = _ => destruct r as [g| | |] eqn:G; try discriminate end; cbn [bind] in E; injection E as <-;
  (eexists; eexists; split; [reflexivity|]; split; [reflexivity|]; reflexivity).
Qed.
Lemma track_step cwd s0 h st o st' : Track cwd s0 h st -> Fair (calls h) -> Plain cwd (o :: h) -> lf_step cwd st o = Ok st' -> Track cwd s0 (o :: h) st' /\ Fair (calls (o :: h)).
Proof.
  intros T F P E. pose proof (tr_sim _ _ _ _ T) as S. destruct o as [o|s l p|l t|l t].
  - apply call_step in E as (g & f & G & -> & FE). split; [eapply track_call; eassumption|]. eapply fair_step; eassumption.
  - destruct (P s l p (or_introl eq_refl)) as [k N]. cbn [lf_step] in E. destruct (log_step (lf_log st) (New s l)) as [g| | |] eqn:G; try discriminate. cbn [bind] in E.
    pose proof (track_new cwd s0 h st s l p k g T F N G) as X. destruct (open_write cwd (lf_fs st) p) as [k' f]. injection E as <-. split; [exact X|]. eapply fair_step; eassumption.
  - cbn [lf_step] in E. injection E as <-. split; [|exact F]. apply (track_message cwd s0 h st l t); auto; try reflexivity; try discriminate.
    + intros s ts I M. apply Inbox_get; assumption.
    + intros s ts I M. apply Inbox_pass; assumption.
    + intros s ts I. inversion I; eauto.
  - cbn [lf_step] in E. rewrite messagef_fold in E. injection E as <-. split; [|exact F]. apply (track_message cwd s0 h st l (cstr (firstn 1023 t))); auto; try reflexivity; try discriminate.
    + intros s ts I M. apply Inbox_getf; [assumption|assumption|apply shown].
    + intros s ts I M. apply Inbox_passf; assumption.
    + intros s ts I. inversion I; eauto.
Qed.

Lemma step_throw cwd st o : lf_step cwd st o = Throw -> o = Call (Add None).
Proof.
  intros E. destruct o as [o|s l p|l t|l t]; try discriminate.
  - destruct o as [x l|x y|x|[x|]|x|x l|l|]; cbn [lf_step] in E; try (destruct (lf_file st y); [discriminate|]); try reflexivity;
    match type of E with bind ?r _ = _ => destruct r eqn:G; try discriminate end; cbn [log_step] in G; repeat match type of G with context [if ?b then _ else _] => destruct b end; discriminate.
  - cbn [lf_step log_step] in E. destruct (alive (lf_log st) s); cbn [bind] in E; [discriminate|]. destruct (open_write cwd (lf_fs st) p). discriminate.
Qed.
Lemma track_throw cwd s0 h st : Track cwd s0 h st -> Fair (calls h) -> Track cwd s0 (Call (Add None) :: h) st /\ Fair (calls (Call (Add None) :: h)).
Proof.
  intros [S D W F FR SO] FA. split.
  - constructor.
    + apply (sim_throw (calls h) (lf_log st) (Add None) S). reflexivity.
    + exact D.
    + exact W.
    + intros s. rewrite F. split; intros [A [ts I]]; (split; [exact A|exists ts]); [apply Inbox_call; [exact I|discriminate|discriminate]|]. inversion I; assumption.
    + intros k H. apply FR. destruct H as [H|H]; [left; intros x y z I; apply (H x y z); right; exact I|right; exact H].
    + intros s k SL. inversion SL as [|? ? ? ? SL' N1 N2 N3]; subst. destruct (SO s k SL') as (ts & I & R). exists ts. split; [apply Inbox_call; [exact I|discriminate|discriminate]|exact R].
  - apply (fair_throw (calls h) (lf_log st) (Add None) S FA). reflexivity.
Qed.
Lemma plain_tail cwd a h : Plain cwd (a ++ h) -> Plain cwd h.
Proof. intros P s l p I. apply (P s l p). apply in_or_app. right. exact I. Qed.
Lemma track_run cwd s0 ops : forall h st st', Track cwd s0 h st -> Fair (calls h) -> Plain cwd (rev ops ++ h) -> lf_run cwd st ops = Ok st' ->
  Track cwd s0 (rev ops ++ h) st' /\ Fair (calls (rev ops ++ h)).
Proof.
  induction ops as [|o ops IH]; intros h st st' T F P E; cbn [lf_run] in E; [injection E as <-; auto|]. cbn [rev] in *. rewrite <- app_assoc in *. cbn [app] in *.
  assert (PO : Plain cwd (o :: h)) by (apply (plain_tail cwd (rev ops)); exact P).
  destruct (lf_step cwd st o) as [st1| | |] eqn:S; try discriminate.
  - destruct (track_step cwd s0 h st o st1 T F PO S) as [T1 F1]. exact (IH _ _ _ T1 F1 P E).
  - apply step_throw in S as ->. destruct (track_throw cwd s0 h st T F) as [T1 F1]. exact (IH _ _ _ T1 F1 P E).
Qed.
Lemma track_start cwd s0 h st : Tree s0 -> s0 cwd = Some Dir -> Plain cwd h -> lf_run cwd (lf_init s0) (rev h) = Ok st -> Track cwd s0 h st /\ Fair (calls h).
Proof.
  intros T W P E. pose proof (track_run cwd s0 (rev h) [] (lf_init s0) st (track_init cwd s0 T W) Fair_start) as X. rewrite rev_involutive, app_nil_r in X. exact (X P E).
Qed.

(* when a run is defined *)
Lemma lawful_tail o h : Lawful (o :: h) -> Lawful h.
Proof.
  intros [F C]. split.
  - destruct o as [o|s l p|l t|l t]; cbn [calls] in F; try exact F; inversion F; assumption.
  - intros a b s t E. apply (C (o :: a) b s t). rewrite E. reflexivity.
Qed.
Lemma lawful_app a h : Lawful (a ++ h) -> Lawful h.
Proof. induction a as [|o a IH]; intros L; [exact L|]. apply IH. apply lawful_tail in L. exact L. Qed.
Lemma fair_ok h st o : Sim h st -> Fair (o :: h) -> (exists g, log_step st o = Ok g) \/ log_step st o = Throw.
Proof.
  intros S F. destruct (run_fair [o] h st S F) as [g E]. cbn [log_run] in E. destruct (log_step st o); try discriminate; eauto.
Qed.
Lemma lawful_step cwd s0 h st o : Track cwd s0 h st -> Lawful (o :: h) -> (exists st', lf_step cwd st o = Ok st') \/ lf_step cwd st o = Throw.
Proof.
  intros T [F C]. pose proof (tr_sim _ _ _ _ T) as S. destruct o as [o|s l p|l t|l t]; cbn [calls] in F; [| |left; eexists; reflexivity|left; eexists; reflexivity].
  - assert (X : match o with Copy s t => lf_file st t = None | _ => True end).
    { destruct o as [x l|x y|x|x|x|x l|l|]; auto. destruct (lf_file st y) eqn:E; [|reflexivity]. exfalso. assert (N : lf_file st y <> None) by congruence. apply (tr_file _ _ _ _ T) in N as [_ [ts I]]. exact (C [] h x y eq_refl ts I). }
    destruct (fair_ok _ _ _ S F) as [[g G]|G]; destruct o as [x l|x y|x|x|x|x l|l|]; cbn [lf_step]; rewrite ?X, ?G; cbn [bind]; eauto.
  - cbn [lf_step]. destruct (fair_ok _ _ _ S F) as [[g G]|G]; rewrite G; cbn [bind]; [|auto]. destruct (open_write cwd (lf_fs st) p). eauto.
Qed.
Lemma lawful_run cwd s0 ops : forall h st, Track cwd s0 h st -> Fair (calls h) -> Plain cwd (rev ops ++ h) -> Lawful (rev ops ++ h) -> exists st', lf_run cwd st ops = Ok st'.
Proof.
  induction ops as [|o ops IH]; intros h st T F P L; [eexists; reflexivity|]. cbn [rev lf_run] in *. rewrite <- app_assoc in *. cbn [app] in *.
  assert (PO : Plain cwd (o :: h)) by (apply (plain_tail cwd (rev ops)); exact P). assert (LO : Lawful (o :: h)) by (apply (lawful_app (rev ops)); exact L).
  destruct (lawful_step cwd s0 h st o T LO) as [[st1 E]|E]; rewrite E.
  - destruct (track_step cwd s0 h st o st1 T F PO E) as [T1 F1]. exact (IH _ _ T1 F1 P L).
  - apply step_throw in E as ->. destruct (track_throw cwd s0 h st T F) as [T1 F1]. exact (IH _ _ T1 F1 P L).
Qed.
Lemma run_lawful cwd s0 ops : forall h st st', Track cwd s0 h st -> Fair (calls h) -> Plain cwd (rev ops ++ h) -> Lawful h -> lf_run cwd st ops = Ok st' -> Lawful (rev ops ++ h).
Proof.
  induction ops as [|o ops IH]; intros h st st' T F P L E; [exact L|]. cbn [rev lf_run] in *. rewrite <- app_assoc in *. cbn [app] in *.
  assert (PO : Plain cwd (o :: h)) by (apply (plain_tail cwd (rev ops)); exact P).
  destruct (lf_step cwd st o) as [st1| | |] eqn:S; try discriminate.
  - destruct (track_step cwd s0 h st o st1 T F PO S) as [T1 F1]. apply (IH _ _ st' T1 F1 P); [|exact E]. split; [exact F1|].
    intros [|a0 a] b s t EQ ts I; cbn in EQ; [|injection EQ as -> EQ; exact (proj2 L a b s t EQ ts I)]. injection EQ as -> ->. cbn [lf_step] in S.
    destruct (lf_file st t) eqn:FT; [discriminate|]. cbn [log_step] in S. destruct (alive (lf_log st) s); [discriminate|]. destruct (alive (lf_log st) t) eqn:A; [|discriminate].
    pose proof (tr_file _ _ _ _ T t) as X. destruct X as [_ X]. apply X; [split; [exact A|exists ts; exact I]|exact FT].
  - apply step_throw in S as ->. destruct (track_throw cwd s0 h st T F) as [T1 F1]. apply (IH _ _ st' T1 F1 P); [|exact E]. split; [exact F1|].
    intros [|a0 a] b s t EQ ts I; cbn in EQ; [discriminate|]. injection EQ as _ EQ. exact (proj2 L a b s t EQ ts I).
Qed.

Lemma calls_app a b : calls (a ++ b) = calls a ++ calls b.
Proof. induction a as [|[o|s l p|l t|l t] a IH]; cbn; rewrite ?IH; reflexivity. Qed.
Lemma run_log cwd ops : forall st st', lf_run cwd st ops = Ok st' -> log_run (lf_log st) (rev (calls (rev ops))) = Ok (lf_log st').
Proof.
  induction ops as [|o ops IH]; intros st st' E; cbn [lf_run] in E; [injection E as <-; reflexivity|]. cbn [rev]. rewrite calls_app, rev_app_distr.
  destruct (lf_step cwd st o) as [st1| | |] eqn:S; try discriminate.
  - apply IH in E. destruct o as [o|s l p|l t|l t].
    + apply call_step in S as (g & f & G & -> & _). cbn [calls rev app log_run]. rewrite G. exact E.
    + cbn [lf_step] in S. destruct (log_step (lf_log st) (New s l)) as [g| | |] eqn:G; try discriminate. cbn [bind] in S. destruct (open_write cwd (lf_fs st) p). injection S as <-. cbn [calls rev app log_run]. rewrite G. exact E.
    + cbn [lf_step] in S. injection S as <-. cbn [calls rev app]. fold (sendall st (message (lf_log st) l) t) in E. rewrite sendall_log in E. exact E.
    + cbn [lf_step] in S. rewrite messagef_fold in S. injection S as <-. cbn [calls rev app]. rewrite sendall_log in E. exact E.
  - apply step_throw in S as ->. apply IH in E. cbn [calls rev app log_run log_step]. exact E.
Qed.

(* lines *)
Lemma lines_inj ts : forall us, (forall t, In t ts -> ~ In LF t) -> (forall t, In t us -> ~ In LF t) -> lines ts = lines us -> ts = us.
Proof.
  assert (H1 : forall (t u : str) r q, ~ In LF t -> ~ In LF u -> t ++ LF :: r = u ++ LF :: q -> t = u /\ r = q).
  { induction t as [|a t IH]; intros [|b u] r q A B E; cbn in E; [injection E as E2; auto|injection E as E1 E2|injection E as E1 E2|injection E as E1 E2].
    - exfalso. apply B. left. congruence.
    - exfalso. apply A. left. congruence.
    - subst b. destruct (IH u r q) as [-> ->]; auto; intros I; [apply A|apply B]; right; exact I. }
  induction ts as [|t ts IH]; intros [|u us] A B E; [reflexivity| | |].
  - cbn in E. destruct u; discriminate.
  - cbn in E. destruct t; discriminate.
  - cbn in E. rewrite <- !app_assoc in E. cbn in E. apply H1 in E as [-> E]; [|apply A; left; reflexivity|apply B; left; reflexivity]. f_equal. apply IH; [| |exact E]; intros x I; [apply A|apply B]; right; exact I.
Qed.
Lemma inbox_fun h : forall s ts us, Inbox h s ts -> Inbox h s us -> ts = us.
Proof.
  induction h as [|o h IH]; intros s ts us A B; [inversion A|].
  inversion A; subst; inversion B; subst; try congruence; try contradiction; try (eapply IH; eassumption).
  - f_equal. eapply IH; eassumption.
  - f_equal; [eapply IH; eassumption|]. f_equal. eapply shown_fun; eassumption.
Qed.
