From Verif Require Import Model.Base Proofs.BaseFacts Model.StdString Model.Strings Model.Number Model.Path Model.FileSystem.
From Verif Require Import Spec.Strings Spec.Decimal Spec.FileSystem Proofs.StringFacts Proofs.StringsProofs Proofs.PathProofs Proofs.NumberProofs Proofs.DictionaryProofs.
Local Open Scope Z_scope.

(* paths as text *)
Lemma cstr_plain text : ~ In NUL text -> cstr text = text.
Proof.
  induction text as [|c s IH]; intros H; [reflexivity|]. cbn [cstr]. destruct (Ascii.eqb_spec c NUL) as [->|].
  - exfalso. apply H. left. reflexivity.
  - rewrite IH; [reflexivity|]. intros I. apply H. right. exact I.
Qed.
Lemma components_plain c : ~ In SLASH c -> components c = [c].
Proof.
  induction c as [|x c IH]; intros H; [reflexivity|]. cbn [components]. destruct (Ascii.eqb_spec x SLASH) as [->|].
  - exfalso. apply H. left. reflexivity.
  - rewrite IH; [reflexivity|]. intros I. apply H. right. exact I.
Qed.
Lemma components_nonempty p : components p <> [].
Proof. induction p as [|x p IH]; cbn [components]; [discriminate|]. destruct (Ascii.eqb x SLASH); [discriminate|]. destruct (components p); discriminate. Qed.
Lemma components_in p c : ~ In SLASH c -> components (p ++ SLASH :: c) = components p ++ [c].
Proof.
  intros H. induction p as [|x p IH].
  - cbn [app components]. rewrite Ascii.eqb_refl. rewrite components_plain by exact H. reflexivity.
  - cbn [app components]. rewrite IH. destruct (Ascii.eqb x SLASH); [reflexivity|].
    pose proof (components_nonempty p). destruct (components p); [congruence|reflexivity].
Qed.

Lemma clean_walk k c : Clean c -> walk k c = k ++ [c].
Proof.
  intros (A & B & C & _). unfold walk. destruct (str_eqb c []) eqn:E; [apply str_eqb_eq in E; congruence|].
  destruct (str_eqb c ["."%char]) eqn:E2; [apply str_eqb_eq in E2; congruence|].
  destruct (str_eqb c ["."; "."]%char) eqn:E3; [apply str_eqb_eq in E3; congruence|]. reflexivity.
Qed.
Lemma clean_slash c : Clean c -> ~ In SLASH c.
Proof. intros (A & B & C & D & _). exact D. Qed.
Lemma clean_free c : Clean c -> free SEPS c.
Proof.
  intros (A & B & C & D & E & _). apply Forall_forall. intros x Hx [<-|[<-|[]]]; [exact (D Hx)|exact (E Hx)].
Qed.
Lemma names_nonul cwd p k : Names cwd p k -> ~ In NUL p.
Proof.
  induction 1 as [c C|c C|p k c N IH C]; destruct C as (_ & _ & _ & _ & _ & D); [exact D| |].
  - intros [E|I]; [discriminate|exact (D I)].
  - intros I. apply in_app_or in I as [I|[E|I]]; [exact (IH I)|discriminate|exact (D I)].
Qed.
Lemma names_cstr cwd p k : Names cwd p k -> cstr p = p.
Proof. intros N. apply cstr_plain. eapply names_nonul. exact N. Qed.
Lemma names_nonempty cwd p k : Names cwd p k -> p <> [].
Proof. intros [c C|c C|q j c N C]; [apply C|discriminate|]. intros E. apply app_eq_nil in E as [_ E]. discriminate. Qed.
Lemma names_key cwd p k : Names cwd p k -> exists a c, k = a ++ [c].
Proof. intros [c C|c C|q j c N C]; [exists cwd, c|exists [], c|exists j, c]; reflexivity. Qed.
Lemma names_last cwd p k : Names cwd p k -> exists q c, p = q ++ [c] /\ c <> SLASH.
Proof.
  assert (L : forall c, Clean c -> exists q x, c = q ++ [x] /\ x <> SLASH).
  { intros c C. destruct C as (A & _ & _ & D & _). destruct (exists_last A) as (q & x & ->). exists q, x. split; [reflexivity|].
    intros ->. apply D. apply in_or_app. right. left. reflexivity. }
  intros [c C|c C|q j c N C]; destruct (L c C) as (q' & x & E & X); rewrite E.
  - exists q', x. auto.
  - exists ("/"%char :: q'), x. auto.
  - exists (q ++ "/"%char :: q'), x. split; [|exact X]. rewrite <- app_assoc. reflexivity.
Qed.
Lemma names_strip cwd p k : Names cwd p k -> strip p = p.
Proof.
  intros N. destruct (names_last _ _ _ N) as (q & c & -> & C). unfold strip. rewrite rev_app_distr. cbn [rev app drop_slashes].
  destruct (Ascii.eqb_spec c SLASH); [contradiction|]. cbn [rev]. rewrite rev_involutive. reflexivity.
Qed.
Lemma names_head cwd p k : Names cwd p k -> exists c p', p = c :: p' .
Proof. intros N. apply names_nonempty in N. destruct p as [|c p']; [congruence|]. exists c, p'. reflexivity. Qed.

(* looking a plain name up *)
Definition start (cwd : list str) (p : str) : list str := match p with c :: _ => if Ascii.eqb c SLASH then [] else cwd | [] => cwd end.
Lemma start_app cwd p q : p <> [] -> start cwd (p ++ q) = start cwd p.
Proof. destruct p; [congruence|reflexivity]. Qed.
Lemma start_clean cwd c : Clean c -> start cwd c = cwd.
Proof.
  intros C. destruct C as (A & _ & _ & D & _). destruct c as [|x c]; [congruence|]. cbn. destruct (Ascii.eqb_spec x SLASH) as [->|]; [|reflexivity].
  exfalso. apply D. left. reflexivity.
Qed.
Lemma lookup_in cwd s p c : p <> [] -> Clean c -> lookup cwd s (p ++ SLASH :: c) = enter s (lookup cwd s p) c.
Proof.
  intros P C. unfold lookup. fold (start cwd (p ++ SLASH :: c)). fold (start cwd p). rewrite start_app by exact P.
  rewrite components_in by (apply clean_slash; exact C). rewrite fold_left_app. reflexivity.
Qed.
Lemma names_lookup cwd s p k : Tree s -> s cwd = Some Dir -> Names cwd p k ->
  forall a c, k = a ++ [c] -> lookup cwd s p = match s a with Some Dir => Some k | _ => None end.
Proof.
  intros T W N. induction N as [c C|c C|p k c N IH C]; intros a c' E.
  - apply app_inj_tail in E as [<- <-]. unfold lookup. fold (start cwd c). rewrite start_clean by exact C. rewrite components_plain by (apply clean_slash; exact C).
    cbn [fold_left enter]. rewrite W. rewrite clean_walk by exact C. reflexivity.
  - change [c] with ([] ++ [c]) in E. apply app_inj_tail in E as [<- <-].
    change (lookup cwd s ("/"%char :: c)) with (fold_left (enter s) (components ([] ++ SLASH :: c)) (Some [])).
    rewrite components_in by (apply clean_slash; exact C). cbn [components app fold_left enter]. destruct T as [T0 T1]. rewrite !T0. change (walk [] []) with (@nil str). rewrite ?T0.
    unfold enter. rewrite T0. rewrite clean_walk by exact C. reflexivity.
  - apply app_inj_tail in E as [<- <-]. change "/"%char with SLASH. rewrite lookup_in by (try exact C; eapply names_nonempty; exact N).
    destruct (names_key _ _ _ N) as (b & d & E). rewrite (IH b d E). destruct (s b) as [[|f]|] eqn:B; cbn [enter].
    + destruct (s k) as [[|f]|]; try reflexivity. rewrite clean_walk by exact C. reflexivity.
    + destruct (s k) as [[|g]|] eqn:K; try reflexivity. destruct T as [T0 T1]. rewrite E in K. apply T1 in K. congruence.
    + destruct (s k) as [[|g]|] eqn:K; try reflexivity. destruct T as [T0 T1]. rewrite E in K. apply T1 in K. congruence.
Qed.
Lemma names_stat cwd s p k : Tree s -> s cwd = Some Dir -> Names cwd p k -> stat cwd s p = s k.
Proof.
  intros T W N. unfold stat. rewrite (names_cstr _ _ _ N). destruct (names_head _ _ _ N) as (x & p' & E). rewrite E. rewrite <- E. clear x p' E.
  destruct (names_key _ _ _ N) as (a & c & E). rewrite (names_lookup cwd s p k T W N a c E).
  destruct (s a) as [[|f]|] eqn:A; [reflexivity| |]; (destruct (s k) eqn:K; [|reflexivity]; rewrite E in K; apply T in K; congruence).
Qed.
Lemma names_mkdir cwd s p a c : Tree s -> s cwd = Some Dir -> Names cwd p (a ++ [c]) ->
  mkdir cwd s p = match s (a ++ [c]), s a with None, Some Dir => (true, put s (a ++ [c]) Dir) | _, _ => (false, s) end.
Proof.
  intros T W N. unfold mkdir. rewrite (names_cstr _ _ _ N), (names_strip _ _ _ N). destruct (names_head _ _ _ N) as (x & p' & E). rewrite E. rewrite <- E. clear x p' E.
  rewrite (names_lookup cwd s p (a ++ [c]) T W N a c eq_refl). destruct (s a) as [[|f]|]; destruct (s (a ++ [c])); reflexivity.
Qed.
Lemma names_write cwd s p a c : Tree s -> s cwd = Some Dir -> Names cwd p (a ++ [c]) ->
  open_write cwd s p = match s (a ++ [c]), s a with
                       | Some Dir, _ => (None, s)
                       | _, Some Dir => (Some (a ++ [c]), put s (a ++ [c]) (File []))
                       | _, _ => (None, s)
                       end.
Proof.
  intros T W N. unfold open_write. rewrite (names_cstr _ _ _ N). destruct (names_head _ _ _ N) as (x & p' & E). rewrite E. rewrite <- E. clear x p' E.
  rewrite (names_lookup cwd s p (a ++ [c]) T W N a c eq_refl). destruct (s a) as [[|f]|]; destruct (s (a ++ [c])) as [[|g]|]; reflexivity.
Qed.

(* changes *)
Lemma put_same s k n : put s k n k = Some n.
Proof. unfold put. destruct (name_dec k k); congruence. Qed.
Lemma put_other s k n k' : k' <> k -> put s k n k' = s k'.
Proof. unfold put. destruct (name_dec k' k); congruence. Qed.
Lemma snoc_neq {A} (a : list A) c : a <> a ++ [c].
Proof. intros E. apply (f_equal (@length A)) in E. rewrite app_length in E. cbn in E. lia. Qed.
Lemma tree_put s a c n : Tree s -> s a = Some Dir -> s (a ++ [c]) <> Some Dir -> Tree (put s (a ++ [c]) n).
Proof.
  intros [T0 T1] A K. split.
  - rewrite put_other; [exact T0|]. destruct a; discriminate.
  - intros k d m H. destruct (name_dec (k ++ [d]) (a ++ [c])) as [E|E].
    + apply app_inj_tail in E as [-> ->]. rewrite put_other by apply snoc_neq. exact A.
    + rewrite put_other in H by exact E. apply T1 in H. rewrite put_other; [exact H|]. intros ->. congruence.
Qed.
Lemma tree_prefix s k : Tree s -> forall r, s (k ++ r) = Some Dir -> s k = Some Dir.
Proof.
  intros T r. induction r as [|c r IH] using rev_ind; [rewrite app_nil_r; auto|]. rewrite app_assoc. intros H. apply T in H. apply IH. exact H.
Qed.
Lemma tree_none s k : Tree s -> s k = None -> forall c r, s (k ++ c :: r) = None.
Proof.
  intros T H c r. destruct (s (k ++ c :: r)) eqn:E; [|reflexivity]. exfalso.
  assert (D : exists r' x, c :: r = r' ++ [x]). { destruct (@exists_last _ (c :: r)) as (r' & x & E'); [discriminate|]. eauto. }
  destruct D as (r' & x & E'). rewrite E', app_assoc in E. apply T in E. apply tree_prefix in E; [congruence|exact T].
Qed.
Lemma more_refl s : Only_more_folders s s.
Proof. intros k. left. reflexivity. Qed.
Lemma more_trans s t u : Only_more_folders s t -> Only_more_folders t u -> Only_more_folders s u.
Proof.
  intros A B k. destruct (A k) as [E|[E F]], (B k) as [G|[G H]]; rewrite ?G, ?E in *; try (left; reflexivity); try (right; split; congruence).
Qed.
Lemma more_kept s t k n : Only_more_folders s t -> s k = Some n -> t k = Some n.
Proof. intros M H. destruct (M k) as [E|[E _]]; congruence. Qed.

(* any path at all *)
Lemma enter_more s t cs : Only_more_folders s t -> forall o k, fold_left (enter s) cs o = Some k -> fold_left (enter t) cs o = Some k.
Proof.
  intros M. induction cs as [|c cs IH]; intros o k; [auto|]. cbn [fold_left]. intros H. destruct o as [j|].
  - cbn [enter] in *. destruct (s j) as [[|f]|] eqn:E.
    + rewrite (more_kept _ _ _ _ M E). apply IH. exact H.
    + exfalso. clear - H. induction cs; cbn in H; [discriminate|auto].
    + exfalso. clear - H. induction cs; cbn in H; [discriminate|auto].
  - cbn [enter] in *. apply IH. exact H.
Qed.
Lemma lookup_more cwd s t p k : Only_more_folders s t -> lookup cwd s p = Some k -> lookup cwd t p = Some k.
Proof. intros M. apply enter_more. exact M. Qed.
Lemma stat_more cwd s t p n : Only_more_folders s t -> stat cwd s p = Some n -> stat cwd t p = Some n.
Proof.
  intros M. unfold stat. destruct (cstr p) as [|x q]; [discriminate|]. destruct (lookup cwd s (x :: q)) eqn:E; [|discriminate].
  rewrite (lookup_more _ _ _ _ _ M E). apply more_kept. exact M.
Qed.
Lemma drop_slashes_spec p : exists n, p = repeat SLASH n ++ drop_slashes p.
Proof.
  induction p as [|c p (n & E)]; [exists 0%nat; reflexivity|]. cbn [drop_slashes]. destruct (Ascii.eqb_spec c SLASH) as [->|].
  - exists (S n). cbn [repeat app]. rewrite <- E. reflexivity.
  - exists 0%nat. reflexivity.
Qed.
Lemma rev_repeat {A} (x : A) n : rev (repeat x n) = repeat x n.
Proof.
  induction n as [|n IH]; [reflexivity|]. cbn [repeat rev]. rewrite IH. clear. induction n; [reflexivity|]. cbn [repeat app]. rewrite IHn. reflexivity.
Qed.
Lemma strip_spec p : exists n, p = strip p ++ repeat SLASH n.
Proof.
  destruct (drop_slashes_spec (rev p)) as (n & E). exists n. unfold strip. apply (f_equal (@rev ascii)) in E. rewrite rev_involutive, rev_app_distr, rev_repeat in E. exact E.
Qed.
Lemma lookup_slashes cwd s p n : p <> [] -> lookup cwd s (p ++ repeat SLASH n) =
  match n with O => lookup cwd s p | _ => match lookup cwd s p with Some k => match s k with Some Dir => Some k | _ => None end | None => None end end.
Proof.
  intros P. assert (C : components (p ++ repeat SLASH n) = components p ++ repeat [] n).
  { induction n as [|n IH].
    - cbn [repeat]. rewrite !app_nil_r. reflexivity.
    - assert (R : forall A (x : A) m, repeat x (S m) = repeat x m ++ [x]).
      { intros A x m. induction m; [reflexivity|]. change (repeat x (S (S m))) with (x :: repeat x (S m)). rewrite IHm at 1. reflexivity. }
      rewrite !R, !app_assoc. rewrite components_in by (intros []). rewrite IH. reflexivity. }
  unfold lookup. fold (start cwd (p ++ repeat SLASH n)). fold (start cwd p). rewrite start_app by exact P. rewrite C, fold_left_app.
  generalize (fold_left (enter s) (components p) (Some (start cwd p))). intros o. destruct n as [|n]; [reflexivity|]. cbn [repeat fold_left].
  assert (X : forall o, (match enter s o [] with Some k => match s k with Some Dir => Some k | _ => None end | None => None end) = enter s o []).
  { intros [k|]; [|reflexivity]. cbn [enter]. destruct (s k) as [[|f]|] eqn:E; try reflexivity. change (walk k []) with k. rewrite E. reflexivity. }
  replace (match o with Some k => match s k with Some Dir => Some k | _ => None end | None => None end) with (enter s o []).
  2:{ destruct o as [k|]; [|reflexivity]. cbn [enter]. destruct (s k) as [[|f]|]; reflexivity. }
  generalize (enter s o []) (X o). clear. intros o X. induction n as [|n IH]; [reflexivity|]. cbn [repeat fold_left].
  assert (Y : enter s o [] = o) by exact X. rewrite Y. exact IH.
Qed.
Lemma mkdir_spec cwd s p b t : mkdir cwd s p = (b, t) -> Only_more_folders s t /\
  (b = false -> t = s) /\ (b = true -> stat cwd s p = None /\ stat cwd t p = Some Dir).
Proof.
  unfold mkdir, stat. destruct (strip_spec (cstr p)) as (n & E). destruct (strip (cstr p)) as [|x q] eqn:S.
  { intros H; inversion H; subst. split; [apply more_refl|split; [reflexivity|discriminate]]. }
  rewrite E. cbn [app]. change (x :: q ++ repeat SLASH n) with ((x :: q) ++ repeat SLASH n).
  assert (P : x :: q <> []) by discriminate. revert P. generalize (x :: q). clear. intros q P.
  destruct (lookup cwd s q) as [k|] eqn:L.
  2:{ intros H; inversion H; subst. split; [apply more_refl|split; [reflexivity|discriminate]]. }
  destruct (s k) as [m|] eqn:K.
  { intros H; inversion H; subst. split; [apply more_refl|split; [reflexivity|discriminate]]. }
  intros H; inversion H; subst. assert (M : Only_more_folders s (put s k Dir)).
  { intros k'. unfold put. destruct (name_dec k' k) as [->|]; [right; auto|left; reflexivity]. }
  split; [exact M|]. split; [discriminate|]. intros _. rewrite !lookup_slashes by exact P. rewrite (lookup_more _ _ _ _ _ M L), L, put_same.
  split; destruct n; rewrite ?K, ?put_same; reflexivity.
Qed.
Lemma mkdir_tree cwd s p : Tree s -> Tree (snd (mkdir cwd s p)).
Proof.
  intros T. unfold mkdir. destruct (strip (cstr p)) as [|x q]; [exact T|]. destruct (lookup cwd s (x :: q)) as [k|] eqn:L; [|exact T].
  destruct (s k) eqn:K; [exact T|]. cbn [snd].
  unfold lookup in L. revert L. generalize (Some (if Ascii.eqb x SLASH then [] else cwd)).
  generalize (components_nonempty (x :: q)). generalize (components (x :: q)). intros cs N o L.
  destruct (exists_last N) as (cs' & c & ->). rewrite fold_left_app in L. cbn [fold_left] in L.
  destruct (fold_left (enter s) cs' o) as [j|]; [|cbn [enter] in L; discriminate]. cbn [enter] in L. destruct (s j) as [[|f]|] eqn:J; try discriminate.
  injection L as L. unfold walk in L. rename L into W0.
  destruct (str_eqb c [] || str_eqb c ["."%char]); [congruence|]. destruct (str_eqb c ["."; "."]%char).
  - destruct j as [|y j'] using rev_ind; [cbn in W0; congruence|]. rewrite removelast_last in W0. apply T in J. congruence.
  - subst k. apply tree_put; [exact T|exact J|congruence].
Qed.

Lemma parent_shorter d q : fits d -> has_parent_path d = true -> parent_path d = Ok q -> (length q < length d)%nat.
Proof.
  intros F H P. destruct (sep_cases d) as [S|(a & c & b & -> & C & B)].
  - destruct (parent_filename d F) as [X _]. destruct (X S) as (_ & _ & Y). congruence.
  - destruct (parent_filename (a ++ c :: b) F) as [_ X]. destruct (X a c b eq_refl C B) as (Y & _). rewrite Y in P. inversion P; subst. rewrite app_length. cbn. lia.
Qed.
Lemma parent_ok d : fits d -> exists q, parent_path d = Ok q /\ exists r, d = q ++ r.
Proof.
  intros F. destruct (sep_cases d) as [S|(a & c & b & -> & C & B)]; destruct (parent_filename _ F) as [X Y].
  - destruct (X S) as (Z & _). exists []. split; [exact Z|]. exists d. reflexivity.
  - destruct (Y a c b eq_refl C B) as (Z & _). exists a. split; [exact Z|]. exists (c :: b). reflexivity.
Qed.

(* create_directories on any path *)
Lemma create_any : forall fuel cwd s d, fits d -> (length d < fuel)%nat -> exists b t, create_directories fuel cwd s d = Ok (b, t) /\
  Only_more_folders s t /\ (Tree s -> Tree t) /\ (b = true -> stat cwd s d = None /\ stat cwd t d = Some Dir).
Proof.
  induction fuel as [|fuel IH]; intros cwd s d F L; [lia|]. cbn [create_directories].
  assert (S1 : exists s1, (if has_parent_path d then let* par := parent_path d in if folder_exists cwd s par then Ok s else let* r := create_directories fuel cwd s par in Ok (snd r) else Ok s) = Ok s1
     /\ Only_more_folders s s1 /\ (Tree s -> Tree s1)).
  { destruct (has_parent_path d) eqn:H; [|exists s; split; [reflexivity|split; [apply more_refl|auto]]].
    destruct (parent_ok d F) as (q & Q & r & E). rewrite Q. cbn [bind]. destruct (folder_exists cwd s q); [exists s; split; [reflexivity|split; [apply more_refl|auto]]|].
    pose proof (parent_shorter d q F H Q). destruct (IH cwd s q) as (b & t & C & M & T & _); [rewrite E in F; eapply fits_app_l; exact F|lia|].
    rewrite C. cbn [bind snd]. exists t. auto. }
  destruct S1 as (s1 & -> & M & T). cbn [bind]. destruct (mkdir cwd s1 d) as [b t] eqn:K. exists b, t.
  destruct (mkdir_spec _ _ _ _ _ K) as (M2 & _ & B). split; [reflexivity|]. split; [eapply more_trans; eassumption|]. split.
  - intros Ts. pose proof (mkdir_tree cwd s1 d (T Ts)) as X. rewrite K in X. exact X.
  - intros E. destruct (B E) as [B1 B2]. split; [|exact B2]. destruct (stat cwd s d) eqn:X; [|reflexivity]. rewrite (stat_more _ _ _ _ _ M X) in B1. discriminate.
Qed.

(* create_directories on a plain name *)
Lemma names_parent cwd p k : fits p -> Names cwd p k ->
  (k = cwd ++ [p] /\ Clean p /\ has_parent_path p = false) \/
  (exists c, p = "/"%char :: c /\ Clean c /\ k = [c] /\ has_parent_path p = true /\ parent_path p = Ok []) \/
  (exists q j c, p = q ++ "/"%char :: c /\ Names cwd q j /\ Clean c /\ k = j ++ [c] /\ has_parent_path p = true /\ parent_path p = Ok q).
Proof.
  intros F N. destruct (parent_filename p F) as [X Y]. inversion N as [c C|c C|q j c N' C]; subst.
  - left. destruct (X (clean_free _ C)) as (_ & _ & H). auto.
  - right; left. exists c. destruct (Y [] "/"%char c eq_refl) as (H1 & _ & H2); [left; reflexivity|apply clean_free; exact C|]. auto 10.
  - right; right. exists q, j, c. destruct (Y q "/"%char c eq_refl) as (H1 & _ & H2); [left; reflexivity|apply clean_free; exact C|]. auto 10.
Qed.
Lemma prefix_snoc (a k : list str) c : Prefix a (k ++ [c]) <-> Prefix a k \/ a = k ++ [c].
Proof.
  split.
  - intros (r & E). destruct r as [|x r'] using rev_ind; [right; rewrite app_nil_r in E; auto|]. left. rewrite app_assoc in E. apply app_inj_tail in E as [-> _]. exists r'. reflexivity.
  - intros [(r & ->)| ->]; [exists (r ++ [c]); rewrite app_assoc; reflexivity|exists []; rewrite app_nil_r; reflexivity].
Qed.
Lemma prefix_dec (a k : list str) : {Prefix a k} + {~ Prefix a k}.
Proof.
  revert k. induction a as [|x a IH]; intros k; [left; exists k; reflexivity|]. destruct k as [|y k]; [right; intros (r & E); discriminate|].
  destruct (list_eq_dec ascii_dec x y) as [->|N]; [|right; intros (r & E); apply N; inversion E; reflexivity]. destruct (IH k) as [P|P].
  - left. destruct P as (r & ->). exists r. reflexivity.
  - right. intros (r & E). apply P. exists r. inversion E. reflexivity.
Qed.
Lemma with_one s k c : Tree s -> s k = Some Dir -> s (k ++ [c]) = None -> With_folders (k ++ [c]) s (put s (k ++ [c]) Dir).
Proof.
  intros T K N a. split.
  - intros P A. apply prefix_snoc in P as [P| ->]; [|apply put_same]. exfalso. destruct P as (r & E). rewrite E in K. apply tree_prefix in K; [congruence|exact T].
  - intros H. rewrite put_other; [reflexivity|]. intros ->. destruct H as [H|H]; [|congruence]. apply H. apply prefix_snoc. right. reflexivity.
Qed.
Lemma with_none s k : Tree s -> s k <> None -> With_folders k s s.
Proof.
  intros T K a. split; [|auto]. intros (r & E) A. exfalso. apply K. rewrite E. destruct r as [|c r]; [rewrite app_nil_r; exact A|]. apply tree_none; assumption.
Qed.
Lemma with_next s t k c : Tree s -> s (k ++ [c]) = None -> With_folders k s t -> With_folders (k ++ [c]) s (put t (k ++ [c]) Dir).
Proof.
  intros T N W a. split.
  - intros P A. apply prefix_snoc in P as [P| ->]; [|apply put_same]. destruct (name_dec a (k ++ [c])) as [->|D]; [apply put_same|].
    rewrite put_other by exact D. apply W; assumption.
  - intros H. rewrite put_other.
    + apply W. destruct H as [H|H]; [left|right; exact H]. intros P. apply H. apply prefix_snoc. left. exact P.
    + intros ->. destruct H as [H|H]; [|congruence]. apply H. apply prefix_snoc. right. reflexivity.
Qed.
Lemma unblocked_up s k c : Unblocked s (k ++ [c]) -> Unblocked s k /\ forall f, s k <> Some (File f).
Proof.
  intros U. split.
  - intros a x r E f. apply (U a x (r ++ [c])). rewrite E, <- app_assoc. reflexivity.
  - intros f. apply (U k c []). reflexivity.
Qed.

Lemma create_plain cwd s p k : fits p -> Tree s -> s cwd = Some Dir -> Names cwd p k -> Unblocked s k -> forall fuel, (length p < fuel)%nat ->
  exists t, create_directories fuel cwd s p = Ok (match s k with None => true | _ => false end, t) /\ With_folders k s t.
Proof.
  intros F T W N. induction N as [c C|c C|p k c N IH C]; intros U fuel L; (destruct fuel as [|fuel]; [lia|]); cbn [create_directories].
  - destruct (names_parent cwd c (cwd ++ [c]) F (N_here _ _ C)) as [(_ & _ & H)|[(d & E & _)|(q & j & d & E & _)]].
    2:{ exfalso. destruct C as (_ & _ & _ & D & _). apply D. rewrite E. left. reflexivity. }
    2:{ exfalso. destruct C as (_ & _ & _ & D & _). apply D. rewrite E. apply in_or_app. right. left. reflexivity. }
    rewrite H. cbn [bind]. rewrite (names_mkdir cwd s c cwd c T W (N_here _ _ C)). rewrite W. destruct (s (cwd ++ [c])) eqn:K.
    + exists s. split; [reflexivity|]. apply with_none; [exact T|congruence].
    + exists (put s (cwd ++ [c]) Dir). split; [reflexivity|]. apply with_one; assumption.
  - pose proof (N_top cwd c C) as NN. destruct (parent_filename _ F) as [_ Y]. destruct (Y [] "/"%char c eq_refl) as (H1 & _ & H2); [left; reflexivity|apply clean_free; exact C|].
    rewrite H2, H1. cbn [bind]. change (folder_exists cwd s []) with false. cbn [length] in L. destruct fuel as [|fuel]; [lia|]. cbn [create_directories].
    change (has_parent_path []) with false. cbn [bind]. change (mkdir cwd s []) with (false, s). cbn [snd].
    change [c] with ([] ++ [c]) in *. rewrite (names_mkdir cwd s _ [] c T W NN). rewrite (proj1 T). destruct (s ([] ++ [c])) eqn:K.
    + exists s. split; [reflexivity|]. apply with_none; [exact T|congruence].
    + exists (put s ([] ++ [c]) Dir). split; [reflexivity|]. apply with_one; [exact T|apply T|exact K].
  - pose proof (N_in cwd p k c N C) as NN. destruct (parent_filename _ F) as [_ Y]. destruct (Y p "/"%char c eq_refl) as (H1 & _ & H2); [left; reflexivity|apply clean_free; exact C|].
    rewrite H2, H1. cbn [bind]. unfold folder_exists. rewrite (names_stat cwd s p k T W N). apply unblocked_up in U as [U1 U2].
    rewrite app_length in L. cbn [length] in L.
    destruct (s k) as [[|f]|] eqn:K; [| exfalso; exact (U2 f eq_refl) |].
    + cbn [bind]. rewrite (names_mkdir cwd s _ k c T W NN). rewrite K. destruct (s (k ++ [c])) eqn:K2.
      * exists s. split; [reflexivity|]. apply with_none; [exact T|congruence].
      * exists (put s (k ++ [c]) Dir). split; [reflexivity|]. apply with_one; assumption.
    + destruct (create_any fuel cwd s p (fits_app_l _ _ F) ltac:(lia)) as (b1 & t1 & C1 & M1 & T1 & _). specialize (T1 T).
      destruct (IH (fits_app_l _ _ F) U1 fuel ltac:(lia)) as (t & E & V). rewrite E in C1 |- *. inversion C1; subst b1 t1. cbn [bind snd].
      assert (W1 : t cwd = Some Dir) by (eapply more_kept; eassumption).
      rewrite (names_mkdir cwd t _ k c T1 W1 NN). assert (K1 : t k = Some Dir). { apply V; [exists []; rewrite app_nil_r; reflexivity|exact K]. }
      assert (K0 : s (k ++ [c]) = None) by (apply tree_none; assumption).
      assert (K2 : t (k ++ [c]) = None). { rewrite <- K0. apply V. left. intros (r & E2). apply (f_equal (@length str)) in E2. rewrite !app_length in E2. cbn in E2. lia. }
      rewrite K2, K1, K0. exists (put t (k ++ [c]) Dir). split; [reflexivity|]. apply with_next; assumption.
Qed.
Lemma create_blocked cwd s p k : fits p -> Tree s -> s cwd = Some Dir -> Names cwd p k -> (exists a c r f, k = a ++ c :: r /\ s a = Some (File f)) ->
  forall fuel, (length p < fuel)%nat -> exists t, create_directories fuel cwd s p = Ok (false, t) /\ Only_more_folders s t /\ Tree t.
Proof.
  intros F T W N (a & c & r & f & E & A) fuel L. destruct (create_any fuel cwd s p F L) as (b & t & C & M & Tt & B). exists t. specialize (Tt T).
  split; [|auto]. rewrite C. f_equal. f_equal. destruct b; [|reflexivity]. exfalso. destruct (B eq_refl) as [_ B2].
  assert (W1 : t cwd = Some Dir) by (eapply more_kept; eassumption). rewrite (names_stat cwd t p k Tt W1 N) in B2. rewrite E in B2. apply tree_prefix in B2; [|exact Tt].
  apply (more_kept _ _ _ _ M) in A. congruence.
Qed.

(* the candidates *)
Lemma candidate_mark folder i : 0 <= i -> candidate folder i = folder ++ mark i.
Proof.
  intros H. unfold candidate, mark. destruct (Z.ltb_spec 0 i), (Z.eqb_spec i 0); try lia; [reflexivity|]. rewrite app_nil_r. reflexivity.
Qed.
Lemma mark_length i : (length (mark i) <= 24)%nat.
Proof.
  unfold mark. destruct (i =? 0); [cbn; lia|]. rewrite !app_length. cbn [length].
  assert (D : forall n z, (length (dec_digits n z) <= n)%nat).
  { induction n as [|n IH]; intros z; [cbn; lia|]. cbn [dec_digits]. rewrite app_length. cbn [length]. destruct (z <? 10); [cbn; lia|]. specialize (IH (z / 10)). lia. }
  unfold dec. destruct (i <? 0); cbn [length]; [pose proof (D 20%nat (- i))|pose proof (D 20%nat i)]; lia.
Qed.
Lemma mark_chars i : 0 <= i < 2 ^ 31 -> forall x, In x (mark i) -> x <> "/"%char /\ x <> "\"%char /\ x <> NUL.
Proof.
  intros R x. unfold mark. destruct (i =? 0); [intros []|].
  assert (P : printable i) by (unfold printable; lia). pose proof (dec_canonical i P) as C.
  assert (D : Forall IsDigit (dec i)).
  { inversion C as [E1 E2|d ds A1 A2 A3 E1 E2|d ds A1 A2 A3 E1 E2].
    - constructor; [vm_compute; split; congruence|constructor].
    - constructor; assumption.
    - pose proof (digits_value_lower _ _ A1 A2 A3). assert (0 < 10 ^ Z.of_nat (length ds)) by (apply Z.pow_pos_nonneg; lia). lia. }
  intros H. apply in_app_or in H as [H|H].
  - destruct H as [<-|[<-|[]]]; split; [discriminate|split; discriminate|discriminate|split; discriminate].
  - apply in_app_or in H as [H|[<-|[]]]; [|split; [discriminate|split; discriminate]].
    rewrite Forall_forall in D. apply D in H. split; [|split]; intros ->; absurd_digit H.
Qed.
Lemma clean_mark c i : 0 <= i < 2 ^ 31 -> Clean c -> Clean (c ++ mark i).
Proof.
  intros R C. destruct (Z.eq_dec i 0) as [->|N]; [rewrite app_nil_r; exact C|]. pose proof (mark_chars i R) as M. destruct C as (A1 & A2 & A3 & A4 & A5 & A6).
  assert (L : (3 <= length (mark i))%nat). { unfold mark. destruct (Z.eqb_spec i 0); [contradiction|]. rewrite !app_length. cbn. lia. }
  assert (L2 : (4 <= length (c ++ mark i))%nat). { rewrite app_length. destruct c; [congruence|]. cbn [length]. lia. }
  assert (X : forall x, ~ In x c -> (In x (mark i) -> False) -> ~ In x (c ++ mark i)) by (intros x B D I; apply in_app_or in I as [I|I]; auto).
  split; [|split; [|split; [|split; [|split]]]].
  1-3: intros E; rewrite E in L2; cbn in L2; lia.
  all: apply X; [assumption|]; intros I; apply M in I; intuition congruence.
Qed.
Lemma names_mark cwd p k i : 0 <= i < 2 ^ 31 -> Names cwd p k -> exists a c, k = a ++ [c] /\ Names cwd (p ++ mark i) (a ++ [c ++ mark i]).
Proof.
  intros R [c C|c C|q j c N C].
  - exists cwd, c. split; [reflexivity|]. constructor. apply clean_mark; assumption.
  - exists [], c. split; [reflexivity|]. apply (N_top cwd (c ++ mark i)). apply clean_mark; assumption.
  - exists j, c. split; [reflexivity|]. rewrite <- app_assoc. apply (N_in cwd q j (c ++ mark i)); [exact N|]. apply clean_mark; assumption.
Qed.

(* the loop, any path *)
Lemma fits_mark folder i : Z.of_nat (length folder) + 24 < 2 ^ 63 -> fits (folder ++ mark i).
Proof. intros L. unfold fits. rewrite app_length. pose proof (mark_length i). lia. Qed.
Lemma unique_any cwd folder max : Z.of_nat (length folder) + 24 < 2 ^ 63 -> forall fuel s i, 0 <= i -> (1 <= fuel)%nat -> max - i < Z.of_nat fuel ->
  unique_loop fuel cwd s folder i max = Throw \/
  exists j t, unique_loop fuel cwd s folder i max = Ok (folder ++ mark j, t) /\ i <= j < max /\
    stat cwd s (folder ++ mark j) = None /\ stat cwd t (folder ++ mark j) = Some Dir /\ Only_more_folders s t /\ (Tree s -> Tree t).
Proof.
  intros L. induction fuel as [|fuel IH]; intros s i I G D; [lia|]. cbn [unique_loop]. destruct (Z.ltb_spec i max) as [H|H]; [|left; reflexivity].
  cbv zeta. rewrite candidate_mark by exact I. pose proof (fits_mark folder i L) as F.
  assert (R : exists b t, (if folder_exists cwd s (folder ++ mark i) then Ok (false, s) else create_directories (S (length (folder ++ mark i))) cwd s (folder ++ mark i)) = Ok (b, t) /\
     Only_more_folders s t /\ (Tree s -> Tree t) /\ (b = true -> stat cwd s (folder ++ mark i) = None /\ stat cwd t (folder ++ mark i) = Some Dir)).
  { destruct (folder_exists cwd s (folder ++ mark i)).
    - exists false, s. split; [reflexivity|]. split; [apply more_refl|]. split; [auto|discriminate].
    - apply create_any; [exact F|lia]. }
  destruct R as (b & t & -> & M & T & B). cbn [bind fst snd]. destruct b.
  - right. exists i, t. destruct (B eq_refl) as [B1 B2]. split; [reflexivity|]. split; [lia|]. auto.
  - destruct (IH t (i + 1) ltac:(lia) ltac:(lia) ltac:(lia)) as [E|(j & u & E & J & X1 & X2 & X3 & X4)]; [left; exact E|right].
    exists j, u. split; [exact E|]. split; [lia|]. split; [|split; [exact X2|split; [eapply more_trans; eassumption|auto]]].
    destruct (stat cwd s (folder ++ mark j)) eqn:Y; [|reflexivity]. rewrite (stat_more _ _ _ _ _ M Y) in X1. discriminate.
Qed.

(* the loop, plain names *)
Lemma same_tree s t : Same s t -> Tree s -> Tree t.
Proof. intros E [T0 T1]. split; [rewrite E; exact T0|]. intros k c n H. rewrite E in *. apply (T1 _ _ _ H). Qed.
Lemma with_none_same s t k : Tree s -> s k <> None -> With_folders k s t -> Same s t.
Proof.
  intros T K W a. destruct (s a) eqn:A; [|destruct (prefix_dec a k) as [P|P]].
  - rewrite <- A. apply W. right. congruence.
  - exfalso. apply K. destruct P as (r & ->). destruct r as [|c r]; [rewrite app_nil_r; exact A|apply tree_none; assumption].
  - rewrite <- A. apply W. left. exact P.
Qed.
Lemma with_same s t k u : Same s t -> With_folders k t u -> With_folders k s u.
Proof.
  intros E W a. specialize (W a) as [W1 W2]. rewrite E in W1, W2. split; assumption.
Qed.
Lemma unique_plain cwd folder a c max : Z.of_nat (length folder) + 24 < 2 ^ 63 -> max <= 2 ^ 31 -> Names cwd folder (a ++ [c]) ->
  forall fuel s i, 0 <= i -> (1 <= fuel)%nat -> max - i < Z.of_nat fuel -> Tree s -> s cwd = Some Dir -> Unblocked s (a ++ [c]) ->
  (unique_loop fuel cwd s folder i max = Throw /\ forall j, i <= j < max -> s (a ++ [c ++ mark j]) <> None) \/
  exists j t, unique_loop fuel cwd s folder i max = Ok (folder ++ mark j, t) /\ i <= j < max /\
    s (a ++ [c ++ mark j]) = None /\ (forall l, i <= l < j -> s (a ++ [c ++ mark l]) <> None) /\ With_folders (a ++ [c ++ mark j]) s t.
Proof.
  intros L X N. induction fuel as [|fuel IH]; intros s i I G D T W U; [lia|]. cbn [unique_loop].
  destruct (Z.ltb_spec i max) as [H|H]; [|left; split; [reflexivity|lia]].
  cbv zeta. rewrite candidate_mark by exact I. pose proof (fits_mark folder i L) as F.
  destruct (names_mark cwd folder (a ++ [c]) i ltac:(lia) N) as (a' & c' & E & N1). apply app_inj_tail in E as [<- <-].
  assert (U1 : Unblocked s (a ++ [c ++ mark i])).
  { intros b x r E f. apply app_eq_app in E. destruct E as (l & [[E1 E2]|[E1 E2]]).
    - destruct l as [|y l].
      + rewrite app_nil_r in E1. subst b. apply (U a c []). reflexivity.
      + cbn in E2. inversion E2; subst. apply (U b y (l ++ [c])). rewrite <- app_assoc. reflexivity.
    - destruct l as [|y l]; [rewrite app_nil_r in E1; subst b; apply (U a c []); reflexivity|]. cbn in E2. inversion E2. destruct l; discriminate. }
  assert (R : (s (a ++ [c ++ mark i]) <> None /\ exists t, (if folder_exists cwd s (folder ++ mark i) then Ok (false, s) else create_directories (S (length (folder ++ mark i))) cwd s (folder ++ mark i)) = Ok (false, t) /\ Same s t) \/
     (s (a ++ [c ++ mark i]) = None /\ exists t, (if folder_exists cwd s (folder ++ mark i) then Ok (false, s) else create_directories (S (length (folder ++ mark i))) cwd s (folder ++ mark i)) = Ok (true, t) /\ With_folders (a ++ [c ++ mark i]) s t)).
  { unfold folder_exists. rewrite (names_stat cwd s _ _ T W N1). 
    destruct (create_plain cwd s _ _ F T W N1 U1 (S (length (folder ++ mark i))) ltac:(lia)) as (t & E & V).
    destruct (s (a ++ [c ++ mark i])) as [[|f]|] eqn:K.
    - left. split; [discriminate|]. exists s. split; [reflexivity|]. intros b. reflexivity.
    - left. split; [discriminate|]. exists t. split; [exact E|]. apply (with_none_same s t (a ++ [c ++ mark i])); [exact T|congruence|exact V].
    - right. split; [reflexivity|]. exists t. split; [exact E|exact V]. }
  destruct R as [(K & t & -> & S)|(K & t & -> & V)]; cbn [bind fst snd].
  - assert (U2 : Unblocked t (a ++ [c])) by (intros b x r E f; rewrite S; apply (U b x r E)).
    destruct (IH t (i + 1) ltac:(lia) ltac:(lia) ltac:(lia) (same_tree _ _ S T) ltac:(rewrite S; exact W) U2) as [(E & Y)|(j & u & E & J & X1 & X2 & X3)].
    + left. split; [exact E|]. intros j J. destruct (Z.eq_dec j i) as [->|]; [exact K|]. rewrite <- S. apply Y. lia.
    + right. exists j, u. split; [exact E|]. split; [lia|]. rewrite S in X1. split; [exact X1|]. split.
      * intros l J1. destruct (Z.eq_dec l i) as [->|]; [exact K|]. rewrite <- S. apply X2. lia.
      * eapply with_same; eassumption.
  - right. exists i, t. split; [reflexivity|]. split; [lia|]. split; [exact K|]. split; [lia|exact V].
Qed.
Lemma unique_blocked cwd folder a c max : Z.of_nat (length folder) + 24 < 2 ^ 63 -> max <= 2 ^ 31 -> Names cwd folder (a ++ [c]) ->
  forall fuel s i, 0 <= i -> (1 <= fuel)%nat -> max - i < Z.of_nat fuel -> Tree s -> s cwd = Some Dir -> (exists b r f, a = b ++ r /\ s b = Some (File f)) ->
  unique_loop fuel cwd s folder i max = Throw.
Proof.
  intros L X N. induction fuel as [|fuel IH]; intros s i I G D T W B; [lia|]. cbn [unique_loop].
  destruct (Z.ltb_spec i max) as [H|H]; [|reflexivity].
  cbv zeta. rewrite candidate_mark by exact I. pose proof (fits_mark folder i L) as F.
  destruct (names_mark cwd folder (a ++ [c]) i ltac:(lia) N) as (a' & c' & E & N1). apply app_inj_tail in E as [<- <-].
  assert (R : exists t, (if folder_exists cwd s (folder ++ mark i) then Ok (false, s) else create_directories (S (length (folder ++ mark i))) cwd s (folder ++ mark i)) = Ok (false, t) /\ Only_more_folders s t /\ Tree t).
  { destruct (folder_exists cwd s (folder ++ mark i)).
    - exists s. split; [reflexivity|]. split; [apply more_refl|exact T].
    - apply (create_blocked cwd s _ _ F T W N1); [|lia]. destruct B as (b & r & f & -> & B).
      destruct r as [|y r]; [exists b, (c ++ mark i), [], f; rewrite app_nil_r; auto|]. exists b, y, (r ++ [c ++ mark i]), f. rewrite <- app_assoc. auto. }
  destruct R as (t & -> & M & Tt). cbn [bind fst snd]. apply IH; try lia; [exact Tt|eapply more_kept; eassumption|].
  destruct B as (b & r & f & E & B). exists b, r, f. split; [exact E|]. eapply more_kept; eassumption.
Qed.

(* copying *)
Lemma copy_plain cwd s from to kf a c overwrite : Tree s -> s cwd = Some Dir -> Names cwd from kf -> Names cwd to (a ++ [c]) ->
  copy_file cwd s from to overwrite =
  match s (a ++ [c]) with
  | Some Dir => (false, s)
  | Some (File _) =>
    if overwrite then
      let s1 := put s (a ++ [c]) (File []) in
      match s kf with
      | None => (false, s1)
      | Some _ => (true, put s1 (a ++ [c]) (File (match s1 kf with Some (File x) => x | _ => [] end)))
      end
    else (false, s)
  | None =>
    match s a with
    | Some Dir =>
      let s1 := put s (a ++ [c]) (File []) in
      match s kf with
      | None => (false, s1)
      | Some _ => (true, put s1 (a ++ [c]) (File (match s1 kf with Some (File x) => x | _ => [] end)))
      end
    | _ => (false, s)
    end
  end.
Proof.
  intros T W Nf Nt. unfold copy_file, file_exists, open_read. rewrite (names_stat cwd s to _ T W Nt), (names_stat cwd s from _ T W Nf), (names_write cwd s to a c T W Nt).
  assert (R : s a = Some Dir -> s (a ++ [c]) <> Some Dir -> read_all cwd (put s (a ++ [c]) (File [])) from = match put s (a ++ [c]) (File []) kf with Some (File x) => x | _ => [] end).
  { intros A K. unfold read_all. rewrite (names_stat cwd _ from kf); [reflexivity| | |exact Nf].
    - apply tree_put; assumption.
    - rewrite put_other; [exact W|]. intros E. apply K. rewrite <- E. exact W. }
  destruct (s (a ++ [c])) as [[|f]|] eqn:K.
  - cbn [orb negb]. destruct overwrite; reflexivity.
  - destruct T as [T0 T1]. pose proof (T1 _ _ _ K) as A. rewrite A in *. destruct overwrite; cbn [orb negb]; [|reflexivity]. cbv zeta. rewrite <- R by (try reflexivity; discriminate). destruct (s kf); reflexivity.
  - rewrite orb_true_r. destruct (s a) as [[|f]|] eqn:A; try reflexivity. cbv zeta. rewrite <- R by (try reflexivity; discriminate). destruct (s kf); reflexivity.
Qed.
