From Verif Require Import Model.Base Proofs.BaseFacts Model.StdString Model.Log Spec.Log.
Local Open Scope Z_scope.

Lemma update_eq {A} (f : nat -> A) k x : update f k x k = x.
Proof. unfold update. rewrite Nat.eqb_refl. reflexivity. Qed.
Lemma update_ne {A} (f : nat -> A) k x j : j <> k -> update f k x j = f j.
Proof. intros N. unfold update. apply Nat.eqb_neq in N. rewrite N. reflexivity. Qed.

Lemma scan_levels_le lv ss : forall low, scan_levels lv ss low <= low /\ forall s, In s ss -> scan_levels lv ss low <= lv s.
Proof.
  induction ss as [|x ss IH]; intros low; cbn [scan_levels]; [split; [lia|intros s []]|]. destruct (IH (if lv x <? low then lv x else low)) as [A B].
  destruct (Z.ltb_spec (lv x) low); (split; [lia|]); intros s [<-|I]; try lia; specialize (B s I); lia.
Qed.
Definition Covered (st : log_state) : Prop := forall s, In s (sinks st) -> lowest st <= log_level st s.
Lemma get_global_covered st : Covered (get_global st).
Proof. intros s I. cbn in *. apply scan_levels_le. exact I. Qed.

Lemma in_existsb s ss : existsb (Nat.eqb s) ss = true <-> In s ss.
Proof. rewrite existsb_exists. split; [intros (x & I & E); apply Nat.eqb_eq in E; subst; exact I|intros I; exists s; split; [exact I|apply Nat.eqb_refl]]. Qed.
Lemma erase_first_split a s b : ~ In s a -> erase_first s (a ++ s :: b) = a ++ b.
Proof.
  induction a as [|x a IH]; intros N; cbn [app erase_first]; [rewrite Nat.eqb_refl; reflexivity|]. destruct (Nat.eqb_spec s x) as [->|_]; [exfalso; apply N; left; reflexivity|]. rewrite IH; [reflexivity|]. intros I. apply N. right. exact I.
Qed.
Lemma erase_first_none s ss : ~ In s ss -> erase_first s ss = ss.
Proof. induction ss as [|x ss IH]; intros N; [reflexivity|]. cbn [erase_first]. destruct (Nat.eqb_spec s x) as [->|_]; [exfalso; apply N; left; reflexivity|]. rewrite IH; [reflexivity|]. intros I. apply N. right. exact I. Qed.

Lemma set_all_levels l ss : forall st, let st' := fold_left (fun a s => sink_set_level a s l) ss st in
  sinks st' = sinks st /\ alive st' = alive st /\ (forall s, log_level st' s = if existsb (Nat.eqb s) ss then l else log_level st s).
Proof.
  induction ss as [|x ss IH]; intros st; cbn [fold_left existsb]; [auto|]. destruct (IH (sink_set_level st x l)) as (A & B & C). split; [exact A|]. split; [exact B|]. intros s. rewrite C. cbn [sink_set_level get_global log_level].
  destruct (Nat.eqb_spec s x) as [->|N]; cbn [orb]; [rewrite update_eq; destruct (existsb _ ss); reflexivity|rewrite update_ne by exact N; reflexivity].
Qed.

Record Sim (h : list log_op) (st : log_state) : Prop := {
  sim_reg : Registered h (sinks st);
  sim_nodup : NoDup (sinks st);
  sim_alive : forall s, alive st s = true <-> exists_after h s;
  sim_sinks : forall s, In s (sinks st) -> alive st s = true;
  sim_level : forall s, alive st s = true -> Level h s (log_level st s);
  sim_low : Covered st }.

Lemma sim_init : Sim [] log_init.
Proof. constructor; cbn; try constructor; try discriminate; try tauto. intros s []. Qed.
Lemma keep_other h s l o : Level h s l -> (forall t l', o <> New t l') -> (forall t u, o <> Copy t u) -> (forall t l', o <> SetLevel t l') -> (forall l', o <> SetGlobal l') -> Level (o :: h) s l.
Proof. intros L A B C D. apply Lev_keep; [exact L|intros l'; split; [apply A|split; [apply C|apply D]]|intros t; apply B]. Qed.

Ltac splits := repeat match goal with |- _ /\ _ => split end.
Lemma sim_remove h st s (o : log_op) : Sim h st -> (o = Remove s \/ o = Delete s) ->
  Registered (o :: h) (sinks (remove_sink st s)) /\ NoDup (sinks (remove_sink st s)) /\ ~ In s (sinks (remove_sink st s)) /\ incl (sinks (remove_sink st s)) (sinks st).
Proof.
  intros [R N A S L W] O. cbn. destruct (in_dec Nat.eq_dec s (sinks st)) as [I|I].
  - apply in_split in I as (a & b & E). rewrite E in *. assert (NA : ~ In s (a ++ b)) by (apply NoDup_remove_2; exact N).
    rewrite erase_first_split by (intros X; apply NA; apply in_or_app; left; exact X).
    split; [destruct O as [->| ->]; [apply Reg_remove|apply Reg_delete]; exact R|]. split; [apply NoDup_remove_1 in N; exact N|]. split; [exact NA|].
    intros x X. apply in_app_or in X as [X|X]; apply in_or_app; [left|right; right]; exact X.
  - rewrite erase_first_none by exact I. split; [destruct O as [->| ->]; [apply Reg_remove_none|apply Reg_delete_none]; assumption|]. split; [exact N|]. split; [exact I|apply incl_refl].
Qed.
Lemma sim_step h st o st' : Sim h st -> log_step st o = Ok st' -> Sim (o :: h) st'.
Proof.
  intros SIM E. pose proof SIM as [R N A S L W]. destruct o as [s l|s t|s|[s|]|s|s l|l|]; cbn [log_step] in E.
  - destruct (alive st s) eqn:AS; [discriminate|]. injection E as <-. unfold add_sink. cbn [sinks].
    assert (NI : ~ In s (sinks st)) by (intros I; apply S in I; congruence).
    destruct (existsb (Nat.eqb s) (sinks st)) eqn:EX; [apply in_existsb in EX; contradiction|]. constructor.
    + cbn. apply Reg_new. exact R.
    + cbn. apply NoDup_snoc; assumption.
    + cbn. intros x. unfold update. destruct (Nat.eqb_spec x s) as [->|NE]; [tauto|]. rewrite A. split; [auto|]. intros [X|X]; [congruence|exact X].
    + cbn. intros x I. apply in_app_or in I as [I|[<-|[]]]; unfold update; [|rewrite Nat.eqb_refl; reflexivity]. destruct (Nat.eqb x s); [reflexivity|apply S; exact I].
    + cbn. intros x. unfold update. destruct (Nat.eqb_spec x s) as [->|NE]; [intros _; apply Lev_new|]. intros X. apply Lev_keep; [apply L; exact X|intros l'; splits; congruence|congruence].
    + apply get_global_covered.
  - destruct (alive st s) eqn:AS; [discriminate|]. destruct (alive st t) eqn:AT; [|discriminate]. injection E as <-. assert (NI : ~ In s (sinks st)) by (intros I; apply S in I; congruence). constructor.
    + cbn. apply Reg_other; [exact R|left; eauto].
    + exact N.
    + cbn. intros x. unfold update. destruct (Nat.eqb_spec x s) as [->|NE]; [tauto|]. rewrite A. split; [auto|]. intros [X|X]; [congruence|exact X].
    + cbn. intros x I. unfold update. destruct (Nat.eqb x s); [reflexivity|apply S; exact I].
    + cbn. intros x. unfold update. destruct (Nat.eqb_spec x s) as [->|NE]; [intros _; apply Lev_copy, L; exact AT|]. intros X. apply Lev_keep; [apply L; exact X|intros l'; splits; congruence|congruence].
    + intros x I. cbn in *. unfold update. destruct (Nat.eqb_spec x s) as [->|NE]; [contradiction|]. apply W. exact I.
  - destruct (alive st s) eqn:AS; [|discriminate]. injection E as <-. destruct (sim_remove h st s (Delete s) SIM (or_intror eq_refl)) as (R' & N' & NI & IN). constructor.
    + exact R'.
    + exact N'.
    + cbn. intros x. unfold update. destruct (Nat.eqb_spec x s) as [->|NE]; [split; [discriminate|intros [C _]; congruence]|]. rewrite A. split; [intros X; split; [congruence|exact X]|tauto].
    + cbn. intros x I. unfold update. destruct (Nat.eqb_spec x s) as [->|NE]; [contradiction|apply S, IN; exact I].
    + cbn. intros x. unfold update. destruct (Nat.eqb_spec x s) as [->|NE]; [discriminate|]. intros X. apply keep_other; try discriminate. apply L. exact X.
    + intros x I. cbn. pose proof (get_global_covered (mkLog (erase_first s (sinks st)) (lowest st) (log_level st) (alive st))) as G. apply G. exact I.
  - destruct (alive st s) eqn:AS; [|discriminate]. injection E as <-. unfold add_sink. destruct (existsb (Nat.eqb s) (sinks st)) eqn:EX.
    + apply in_existsb in EX. constructor; [apply Reg_again; assumption|exact N|exact A|exact S| |exact W]. intros x X. apply keep_other; try discriminate. apply L. exact X.
    + assert (NI : ~ In s (sinks st)) by (intros I; apply in_existsb in I; congruence). constructor.
      * cbn. apply Reg_add; assumption.
      * cbn. apply NoDup_snoc; assumption.
      * exact A.
      * cbn. intros x I. apply in_app_or in I as [I|[<-|[]]]; [apply S; exact I|exact AS].
      * intros x X. apply keep_other; try discriminate. apply L. exact X.
      * apply get_global_covered.
  - discriminate.
  - injection E as <-. destruct (sim_remove h st s (Remove s) SIM (or_introl eq_refl)) as (R' & N' & NI & IN). constructor; [exact R'|exact N'|exact A| | |apply get_global_covered].
    + cbn. intros x I. apply S, IN. exact I.
    + intros x X. apply keep_other; try discriminate. apply L. exact X.
  - destruct (alive st s) eqn:AS; [|discriminate]. injection E as <-. constructor; [|exact N|exact A|exact S| |apply get_global_covered].
    + cbn. apply Reg_other; [exact R|right; right; left; eauto].
    + cbn. intros x X. unfold update. destruct (Nat.eqb_spec x s) as [->|NE]; [apply Lev_set|]. apply Lev_keep; [apply L; exact X|intros l'; splits; congruence|congruence].
  - injection E as <-. unfold set_global. pose proof (set_all_levels l (sinks st) st) as X. cbn zeta in X. destruct (fold_left _ (sinks st) st) as [ss low lv al]. cbn [sinks alive log_level] in X. destruct X as (-> & -> & LV). cbn [sinks log_level alive]. constructor; cbn.
    + apply Reg_other; [exact R|right; right; right; left; eauto].
    + exact N.
    + exact A.
    + exact S.
    + intros x X. rewrite LV. destruct (existsb (Nat.eqb x) (sinks st)) eqn:EX; [apply in_existsb in EX; eapply Lev_global; eassumption|].
      eapply Lev_unregistered; [exact R| |apply L; exact X]. intros I. apply in_existsb in I. congruence.
    + intros x I. cbn in *. rewrite LV. apply in_existsb in I. rewrite I. lia.
  - injection E as <-. constructor; [|exact N|exact A|exact S| |apply get_global_covered].
    + cbn. apply Reg_other; [exact R|tauto].
    + intros x X. apply keep_other; try discriminate. apply L. exact X.
Qed.
Lemma sim_throw h st o : Sim h st -> log_step st o = Throw -> Sim (o :: h) st.
Proof.
  intros [R N A S L W] E. destruct o as [s l|s t|s|[s|]|s|s l|l|]; cbn [log_step] in E; repeat match type of E with context [if ?b then _ else _] => destruct b end; try discriminate.
  constructor; try assumption; [apply Reg_other; [exact R|tauto]|]. intros x X. apply keep_other; try discriminate. apply L. exact X.
Qed.
Lemma run_sim ops : forall h st st', Sim h st -> log_run st ops = Ok st' -> Sim (rev ops ++ h) st'.
Proof.
  induction ops as [|o ops IH]; intros h st st' SIM E; cbn [log_run] in E; [injection E as <-; exact SIM|]. cbn [rev]. rewrite <- app_assoc. cbn [app].
  destruct (log_step st o) as [st1| | |] eqn:E1; try discriminate; (eapply IH; [|exact E]); [eapply sim_step; eassumption|eapply sim_throw; eassumption].
Qed.
Lemma fair_prefix o h : Fair (o :: h) -> Fair h.
Proof. intros F. inversion F; assumption. Qed.
Lemma run_fair ops : forall h st, Sim h st -> Fair (rev ops ++ h) -> exists st', log_run st ops = Ok st'.
Proof.
  induction ops as [|o ops IH]; intros h st SIM F; [eexists; reflexivity|]. cbn [rev] in F. rewrite <- app_assoc in F. cbn [app] in F.
  assert (FO : Fair (o :: h)). { clear - F. induction (rev ops) as [|x l IHl]; [exact F|]. apply IHl. apply fair_prefix in F. exact F. }
  cbn [log_run]. destruct (log_step st o) as [st1| | |] eqn:E1.
  - eapply IH; [eapply sim_step; eassumption|exact F].
  - eapply IH; [eapply sim_throw; eassumption|exact F].
  - exfalso. pose proof (sim_alive _ _ SIM) as A. assert (B : forall s, alive st s = false <-> ~ exists_after h s) by (intros s; rewrite <- A; destruct (alive st s); split; congruence).
    inversion FO; subst; cbn [log_step] in E1; try discriminate; repeat match type of E1 with context [alive st ?s] => destruct (alive st s) eqn:?; try discriminate end;
    repeat match goal with H : alive st _ = true |- _ => apply A in H | H : alive st _ = false |- _ => apply B in H end; try contradiction.
    match goal with s : option nat |- _ => destruct s as [x|]; [|discriminate] end. destruct (alive st x) eqn:AX; [discriminate|]. apply B in AX. apply AX. match goal with H : forall y, Some _ = Some y -> _ |- _ => apply H end. reflexivity.
  - exfalso. destruct o as [s l|s t|s|[s|]|s|s l|l|]; cbn [log_step] in E1; repeat match type of E1 with context [if ?b then _ else _] => destruct b end; discriminate.
Qed.
Lemma run_unfair ops : forall h st st', Sim h st -> Fair h -> log_run st ops = Ok st' -> Fair (rev ops ++ h).
Proof.
  induction ops as [|o ops IH]; intros h st st' SIM F E; [exact F|]. cbn [log_run] in E. cbn [rev]. rewrite <- app_assoc. cbn [app].
  pose proof (sim_alive _ _ SIM) as A. assert (B : forall s, alive st s = false <-> ~ exists_after h s) by (intros s; rewrite <- A; destruct (alive st s); split; congruence).
  assert (X : (exists st1, log_step st o = Ok st1) \/ log_step st o = Throw -> Fair (o :: h)).
  { intros [[st1 E1]|E1]; destruct o as [s l|s t|s|[s|]|s|s l|l|]; cbn [log_step] in E1; repeat match type of E1 with context [alive st ?s] => destruct (alive st s) eqn:?; try discriminate end;
    repeat match goal with H : alive st _ = true |- _ => apply A in H | H : alive st _ = false |- _ => apply B in H end; try discriminate; constructor; auto; intros y Y; try discriminate. injection Y as <-. assumption. }
  destruct (log_step st o) as [st1| | |] eqn:E1; try discriminate.
  - eapply IH; [eapply sim_step; eassumption|apply X; eauto|exact E].
  - eapply IH; [eapply sim_throw; eassumption|apply X; eauto|exact E].
Qed.

Lemma log_string_filter lv ss l : log_string lv ss l = filter (fun s => lv s <=? l) ss.
Proof. induction ss as [|s ss IH]; [reflexivity|]. cbn [log_string filter]. rewrite IH. reflexivity. Qed.
Lemma message_all st l : Covered st -> message st l = filter (fun s => log_level st s <=? l) (sinks st).
Proof.
  intros W. unfold message. destruct (Z.leb_spec (lowest st) l); [apply log_string_filter|]. symmetry. unfold Covered in W. revert W. generalize (sinks st) as ss. induction ss as [|s ss IH]; intros W; [reflexivity|].
  cbn [filter]. specialize (W s (or_introl eq_refl)) as Ws. destruct (Z.leb_spec (log_level st s) l); [lia|]. apply IH. intros x I. apply W. right. exact I.
Qed.

(* the specification is a function of the history *)
Lemma split_unique_nat (a b a' b' : list nat) s : NoDup (a ++ s :: b) -> a ++ s :: b = a' ++ s :: b' -> a = a' /\ b = b'.
Proof.
  intros N E. assert (Na : ~ In s a /\ ~ In s b) by (apply NoDup_remove_2 in N; rewrite in_app_iff in N; tauto). revert a' E. clear N. destruct Na as [Na Nb].
  induction a as [|x a IH]; intros [|y a'] E; cbn in E; [injection E as E2; auto| injection E as E1 E2| injection E as E1 E2| injection E as E1 E2].
  - exfalso. apply Nb. rewrite E2. apply in_or_app. right. left. reflexivity.
  - exfalso. apply Na. left. exact E1.
  - destruct (IH ltac:(intros X; apply Na; right; exact X) a' E2) as [-> ->]. subst. auto.
Qed.
Lemma fair_op_inv o h : Fair (o :: h) -> Fair h /\
  match o with
  | New s _ => ~ exists_after h s | Copy s t => ~ exists_after h s /\ exists_after h t | Delete s | SetLevel s _ => exists_after h s
  | Add (Some s) => exists_after h s | _ => True end.
Proof. intros F. inversion F; subst; split; auto. destruct s; auto. Qed.
Lemma reg_op_inv o h ss : Registered (o :: h) ss -> exists ss0, Registered h ss0 /\
  match o with
  | New s _ => ss = ss0 ++ [s]
  | Add (Some s) => (In s ss0 /\ ss = ss0) \/ (~ In s ss0 /\ ss = ss0 ++ [s])
  | Remove s | Delete s => (~ In s ss0 /\ ss = ss0) \/ (exists a b, ss0 = a ++ s :: b /\ ss = a ++ b)
  | _ => ss = ss0 end.
Proof.
  intros R. inversion R; subst; try (eexists; split; [eassumption|]; cbn; eauto 6; fail).
  eexists. split; [eassumption|]. match goal with O : _ \/ _ |- _ => destruct O as [(?&?& ->)|[ -> |[(?&?& ->)|[(?& ->)| ->]]]]; reflexivity end.
Qed.
Lemma Registered_fun h : forall ss, Registered h ss -> Fair h -> NoDup ss /\ (forall s, In s ss -> exists_after h s) /\ forall ss', Registered h ss' -> ss' = ss.
Proof.
  induction h as [|o h IH]; intros ss R F.
  - inversion R; subst. split; [constructor|]. split; [intros s []|]. intros ss' R'. inversion R'; reflexivity.
  - apply fair_op_inv in F as [F FO]. apply reg_op_inv in R as (ss0 & R & RO). destruct (IH ss0 R F) as (N & E & U).
    assert (U' : forall ss', Registered (o :: h) ss' -> match o with
      | New s _ => ss' = ss0 ++ [s]
      | Add (Some s) => (In s ss0 /\ ss' = ss0) \/ (~ In s ss0 /\ ss' = ss0 ++ [s])
      | Remove s | Delete s => (~ In s ss0 /\ ss' = ss0) \/ (exists a b, ss0 = a ++ s :: b /\ ss' = a ++ b)
      | _ => ss' = ss0 end).
    { intros ss' R'. apply reg_op_inv in R' as (ss1 & R1 & RO'). rewrite (U _ R1) in RO'. exact RO'. }
    assert (RM : forall s, (~ In s ss0 /\ ss = ss0) \/ (exists a b, ss0 = a ++ s :: b /\ ss = a ++ b) -> NoDup ss /\ (forall x, In x ss -> x <> s /\ In x ss0) /\
      forall ss', (~ In s ss0 /\ ss' = ss0) \/ (exists a b, ss0 = a ++ s :: b /\ ss' = a ++ b) -> ss' = ss).
    { clear - N. intros s [[NI ->]|(a & b & -> & ->)].
      - split; [exact N|]. split; [intros x I; split; [intros ->; contradiction|exact I]|]. intros ss' [[_ ->]|(a & b & -> & _)]; [reflexivity|]. exfalso. apply NI, in_or_app. right. left. reflexivity.
      - pose proof (NoDup_remove_2 _ _ _ N) as NI. split; [apply NoDup_remove_1 in N; exact N|]. split.
        + intros x I. split; [intros ->; contradiction|]. apply in_app_or in I as [I|I]; apply in_or_app; [left|right; right]; exact I.
        + intros ss' [[X _]|(a' & b' & EQ & ->)]; [exfalso; apply X, in_or_app; right; left; reflexivity|]. apply split_unique_nat in EQ as [-> ->]; [reflexivity|exact N]. }
    destruct o as [s l|s t|s|[s|]|s|s l|l|]; cbn [exists_after].
    + subst ss. split; [apply NoDup_snoc; [exact N|intros I; exact (FO (E s I))]|]. split; [|exact U']. intros x I. apply in_app_or in I as [I|[->|[]]]; auto.
    + subst ss. auto.
    + destruct (RM s RO) as (A & B & C). split; [exact A|]. split; [intros x I; apply B in I as [I1 I2]; split; [congruence|auto]|]. auto.
    + destruct RO as [[I ->]|[NI ->]].
      * split; [exact N|]. split; [exact E|]. intros ss' R'. destruct (U' _ R') as [[_ ->]|[NI _]]; [reflexivity|contradiction].
      * split; [apply NoDup_snoc; assumption|]. split; [intros x I; apply in_app_or in I as [I|[->|[]]]; auto|]. intros ss' R'. destruct (U' _ R') as [[I _]|[_ ->]]; [contradiction|reflexivity].
    + subst ss. auto.
    + destruct (RM s RO) as (A & B & C). split; [exact A|]. split; [intros x I; apply B in I as [I1 I2]; auto|]. auto.
    + subst ss. auto.
    + subst ss. auto.
    + subst ss. auto.
Qed.
Lemma Level_fun h s l : Level h s l -> Fair h -> forall l', Level h s l' -> l' = l.
Proof.
  induction 1 as [h s l|h s t l L IH|h s l|h ss s l R I|h ss s l l0 R NI L IH|h s l o L IH K1 K2]; intros F l' L'; pose proof (fair_prefix _ _ F) as F'.
  - inversion L'; subst; [reflexivity|]. match goal with K : forall x, New _ _ <> New _ x /\ _ |- _ => destruct (K l) as [X _]; congruence end.
  - inversion L'; subst; [auto|]. match goal with K : forall x, Copy _ _ <> Copy _ x |- _ => destruct (K t); reflexivity end.
  - inversion L'; subst; [reflexivity|]. match goal with K : forall x, SetLevel _ _ <> New _ x /\ _ |- _ => destruct (K l) as (_ & X & _); congruence end.
  - inversion L'; subst; [reflexivity| |].
    + exfalso. destruct (Registered_fun _ _ R F') as (_ & _ & U). match goal with R2 : Registered h ?x, NI : ~ In s ?x |- _ => rewrite (U _ R2) in NI; contradiction end.
    + match goal with K : forall x, SetGlobal _ <> New _ x /\ _ |- _ => destruct (K l) as (_ & _ & X); congruence end.
  - inversion L'; subst; [|auto|].
    + exfalso. destruct (Registered_fun _ _ R F') as (_ & _ & U). match goal with R2 : Registered h ?x, I : In s ?x |- _ => rewrite (U _ R2) in I; contradiction end.
    + match goal with K : forall x, SetGlobal _ <> New _ x /\ _ |- _ => destruct (K l) as (_ & _ & X); congruence end.
  - inversion L'; subst; try (exfalso; destruct (K1 l') as (X & Y & Z); congruence); try (exfalso; eapply K2; reflexivity); [|auto].
    exfalso. match goal with K : forall x, SetGlobal ?y <> New _ x /\ _ |- _ => destruct (K y) as (_ & _ & X); congruence end.
Qed.
