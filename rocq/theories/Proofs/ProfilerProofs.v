From Verif Require Import Model.Base Proofs.BaseFacts Model.Profiler Spec.Profiler.
Local Open Scope Z_scope.

Lemma set_nth_length {A} (l : list A) : forall i x, length (set_nth l i x) = length l.
Proof. induction l as [|y l IH]; intros [|i] x; cbn; auto. Qed.
Lemma nth_set_nth_eq {A} (l : list A) : forall i x y, nth_error l i = Some y -> nth_error (set_nth l i x) i = Some x.
Proof. induction l as [|z l IH]; intros [|i] x y E; cbn in *; try discriminate; eauto. Qed.
Lemma nth_set_nth_ne {A} (l : list A) : forall i j x, i <> j -> nth_error (set_nth l i x) j = nth_error l j.
Proof. induction l as [|z l IH]; intros [|i] [|j] x N; cbn; auto; congruence. Qed.
Lemma nth_set_inv {A} (l : list A) i j x y : nth_error (set_nth l i x) j = Some y -> (i = j /\ y = x /\ exists z, nth_error l i = Some z) \/ (i <> j /\ nth_error l j = Some y).
Proof.
  intros E. destruct (Nat.eq_dec i j) as [->|N]; [|right; rewrite nth_set_nth_ne in E by exact N; auto]. left. split; [reflexivity|].
  destruct (nth_error l j) as [z|] eqn:Z; [rewrite (nth_set_nth_eq _ _ _ _ Z) in E; injection E as <-; eauto|].
  exfalso. apply nth_error_None in Z. rewrite <- (set_nth_length l j x) in Z. apply nth_error_None in Z. congruence.
Qed.
Lemma nth_snoc {A} (l : list A) x i y : nth_error (l ++ [x]) i = Some y -> nth_error l i = Some y \/ (i = length l /\ y = x).
Proof.
  intros E. destruct (lt_eq_lt_dec i (length l)) as [[L|L]|L].
  - rewrite nth_error_app1 in E by exact L. auto.
  - subst i. rewrite nth_error_app2, Nat.sub_diag in E by lia. injection E as <-. auto.
  - exfalso. apply nth_error_Some_lt in E. rewrite app_length in E. cbn in E. lia.
Qed.
Lemma nth_snoc_old {A} (l : list A) x i y : nth_error l i = Some y -> nth_error (l ++ [x]) i = Some y.
Proof. intros E. rewrite nth_error_app1; [exact E|]. eapply nth_error_Some_lt. exact E. Qed.
Lemma nth_snoc_new {A} (l : list A) x : nth_error (l ++ [x]) (length l) = Some x.
Proof. rewrite nth_error_app2, Nat.sub_diag by lia. reflexivity. Qed.

(* frames *)
Inductive Chain (e : Z) : list (path * Z) -> Prop :=
| Chain_root : Chain e [([], e)]
| Chain_cons n p s fs t : Chain e ((p, s) :: fs) -> Chain e ((n :: p, t) :: (p, s) :: fs).
Lemma frames_chain t0 h : Balanced t0 h -> Chain (since t0 h) (frames t0 h).
Proof.
  induction h as [|o h IH]; [constructor|]. destruct o as [t|n t t'|t|t]; cbn [Balanced frames since].
  - constructor.
  - intros B. specialize (IH B). destruct (frames t0 h) as [|[p s] fs]; [inversion IH|]. constructor. exact IH.
  - intros [B L]. specialize (IH B). inversion IH as [E|n p s fs t2 C E]; rewrite <- E in L; [cbn in L; lia|exact C].
  - exact IH.
Qed.
Lemma chain_top e fs : Chain e fs -> exists p s fs', fs = (p, s) :: fs'.
Proof. intros C. inversion C; eauto. Qed.
Lemma chain_length e fs : Chain e fs -> forall p s fs', fs = (p, s) :: fs' -> length p = length fs' /\ forall q u, In (q, u) fs' -> (length q < length p)%nat.
Proof.
  induction 1 as [|n p s fs t C IH]; intros q u fs' E.
  - injection E as <- <- <-. split; [reflexivity|intros ? ? []].
  - injection E as <- <- <-. destruct (IH _ _ _ eq_refl) as [L I]. split; [cbn; congruence|]. intros q u [E|X]; [injection E as <- <-; cbn; lia|]. specialize (I q u X). cbn. lia.
Qed.
Lemma frames_visited t0 h : Balanced t0 h -> forall q u, In (q, u) (frames t0 h) -> visited t0 h q.
Proof.
  induction h as [|o h IH]; cbn [Balanced frames visited]; [intros _ q u [E|[]]; injection E as <- <-; reflexivity|]. destruct o as [t|n t t'|t|t].
  - intros _ q u [E|[]]. injection E as <- <-. reflexivity.
  - intros B q u. destruct (frames t0 h) as [|[p s] fs]; [intros []|]. intros [E|I]; [injection E as <- <-; auto|]. right. eapply IH; eassumption.
  - intros [B L] q u I. apply (IH B q u). destruct (frames t0 h); [destruct I|right; exact I].
  - intros B q u I. eapply IH; eassumption.
Qed.
Lemma visited_root t0 h : Balanced t0 h -> visited t0 h [].
Proof.
  induction h as [|o h IH]; [reflexivity|]. destruct o as [t|n t t'|t|t]; cbn [Balanced visited]; try tauto.
  intros B. destruct (chain_top _ _ (frames_chain _ _ B)) as (p & s & fs & ->). right. auto.
Qed.
Lemma visited_tail t0 h : Balanced t0 h -> forall n q, visited t0 h (n :: q) -> visited t0 h q.
Proof.
  induction h as [|o h IH]; cbn [Balanced visited]; [discriminate|]. destruct o as [t|m t t'|t|t]; [discriminate| | |exact IH].
  - intros B n q. pose proof (frames_visited t0 h B) as FV. destruct (frames t0 h) as [|[p s] fs]; [tauto|]. intros [E|V]; [injection E as <- <-; right; apply (FV q s); left; reflexivity|right; eauto].
  - intros [B _]. exact (IH B).
Qed.
Lemma spent_root t0 h : Balanced t0 h -> spent t0 h [] = 0.
Proof.
  induction h as [|o h IH]; [reflexivity|]. destruct o as [t|n t t'|t|t]; cbn [Balanced spent]; auto. intros [B L]. pose proof (frames_chain t0 h B) as C. inversion C as [E|n p s fs t2 C2 E]; rewrite <- E in L; [cbn in L; lia|].
  destruct (path_dec [] (n :: p)) as [X|X]; [discriminate|]. rewrite IH; auto.
Qed.
Lemma spent_unvisited t0 h q : Balanced t0 h -> ~ visited t0 h q -> spent t0 h q = 0.
Proof.
  induction h as [|o h IH]; [reflexivity|]. destruct o as [t|n t t'|t|t]; cbn [Balanced spent visited]; auto.
  - intros B N. destruct (chain_top _ _ (frames_chain _ _ B)) as (p & s & fs & E). rewrite E in N. tauto.
  - intros [B L] N. pose proof (frames_visited t0 h B) as FV. destruct (frames t0 h) as [|[p s] fs]; [reflexivity|]. destruct (path_dec q p) as [->|X]; [exfalso; apply N; apply (FV p s); left; reflexivity|]. rewrite IH; auto.
Qed.
Lemma lost_unvisited t0 h q : Balanced t0 h -> ~ visited t0 h q -> lost t0 h q = 0.
Proof.
  induction h as [|o h IH]; [reflexivity|]. destruct o as [t|n t t'|t|t]; cbn [Balanced lost visited]; auto; try tauto.
  intros B N. destruct (chain_top _ _ (frames_chain _ _ B)) as (p & s & fs & E). rewrite E in *. destruct (path_dec q (n :: p)); [tauto|]. rewrite IH; tauto.
Qed.

(* sections *)
Lemma scan_spec ss : forall k name parent,
  match scan ss k name parent with
  | Some i => exists j s, i = (k + j)%nat /\ nth_error ss j = Some s /\ sname s = name /\ sparent s = Some parent
  | None => forall j s, nth_error ss j = Some s -> ~ (sname s = name /\ sparent s = Some parent)
  end.
Proof.
  induction ss as [|s ss IH]; intros k name parent; cbn [scan]; [intros [|j] s; discriminate|].
  destruct (Nat.eqb_spec (sname s) name) as [E|E]; [destruct (sparent s) as [p|] eqn:P; [destruct (Nat.eqb_spec p parent) as [->|E2]|]|]; cbn [andb].
  - exists 0%nat, s. split; [lia|]. auto.
  - specialize (IH (S k) name parent). destruct (scan ss (S k) name parent) as [i|]; [destruct IH as (j & s' & -> & X); exists (S j), s'; split; [lia|exact X]|].
    intros [|j] s' N; [injection N as <-; rewrite P; intros [_ C]; congruence|apply (IH j); exact N].
  - specialize (IH (S k) name parent). destruct (scan ss (S k) name parent) as [i|]; [destruct IH as (j & s' & -> & X); exists (S j), s'; split; [lia|exact X]|].
    intros [|j] s' N; [injection N as <-; rewrite P; intros [_ C]; congruence|apply (IH j); exact N].
  - specialize (IH (S k) name parent). destruct (scan ss (S k) name parent) as [i|]; [destruct IH as (j & s' & -> & X); exists (S j), s'; split; [lia|exact X]|].
    intros [|j] s' N; [injection N as <-; intros [C _]; congruence|apply (IH j); exact N].
Qed.
Lemma find_section_spec t0 h ss paths name parent r : Agrees t0 h ss paths -> nth_error paths parent = Some r ->
  match find_section ss name parent with
  | Some i => exists s, nth_error ss i = Some s /\ nth_error paths i = Some (name :: r)
  | None => ~ In (name :: r) paths
  end.
Proof.
  intros A P. unfold find_section. pose proof (scan_spec (skipn (S parent) ss) (S parent) name parent) as X. destruct (scan _ _ name parent) as [i|].
  - destruct X as (j & s & -> & E & N & PA). rewrite nth_error_skipn in E. exists s. split; [exact E|].
    assert (L : (S parent + j < length paths)%nat) by (rewrite (agrees_length _ _ _ _ A); eapply nth_error_Some_lt; exact E). destruct (nth_error_ex paths _ L) as [q Q].
    pose proof (agrees_names _ _ _ _ A _ _ _ E Q) as Y. rewrite PA in Y. destruct Y as (_ & r' & R & ->). rewrite P in R. injection R as <-. rewrite N in Q. exact Q.
  - intros I. apply In_nth_error in I as [i Q]. assert (L : (i < length ss)%nat) by (rewrite <- (agrees_length _ _ _ _ A); eapply nth_error_Some_lt; exact Q). destruct (nth_error_ex ss _ L) as [s E].
    pose proof (agrees_names _ _ _ _ A _ _ _ E Q) as Y. destruct (sparent s) as [j|] eqn:PA.
    + destruct Y as (LT & r' & R & EQ). injection EQ as EN ER. subst r'.
      assert (j = parent). { pose proof (proj1 (NoDup_nth_error paths) (agrees_once _ _ _ _ A) j parent) as U. apply U; [eapply nth_error_Some_lt; exact R|congruence]. } subst j.
      apply (X (i - S parent)%nat s); [rewrite nth_error_skipn; replace (S parent + (i - S parent))%nat with i by lia; exact E|auto].
    + subst i. rewrite (agrees_root _ _ _ _ A) in Q. discriminate.
Qed.

Record Sim (t0 : Z) (h : list prof_op) (p : profiler) (paths : list path) : Prop := {
  sim_agrees : Agrees t0 h (sections p) paths;
  sim_current : exists q t fs, frames t0 h = (q, t) :: fs /\ nth_error paths (current p) = Some q;
  sim_epoch : forall q t, In (q, t) (frames t0 h) -> forall i s, nth_error paths i = Some q -> nth_error (sections p) i = Some s -> sepoch s = t }.

Lemma sim_reset t0 h t p : p = reset t -> (h = [] /\ t0 = t \/ exists h', h = OpReset t :: h') -> Sim t0 h p [[]].
Proof.
  intros -> H. assert (F : frames t0 h = [([], t)]) by (destruct H as [[-> ->]|[h' ->]]; reflexivity). constructor.
  - constructor; cbn; try reflexivity.
    + repeat constructor. intros [].
    + intros q. destruct H as [[-> ->]|[h' ->]]; cbn; split; [intros [<-|[]]; reflexivity|intros ->; auto|intros [<-|[]]; reflexivity|intros ->; auto].
    + intros [|[|i]] s q E Q; try discriminate. injection E as <-. reflexivity.
    + intros [|[|i]] s q E Q; try discriminate. injection E as <-. destruct H as [[-> ->]|[h' ->]]; reflexivity.
    + intros [|[|i]] s q E Q; try discriminate. injection E as <-. destruct H as [[-> ->]|[h' ->]]; reflexivity.
  - rewrite F. exists [], t, []. split; reflexivity.
  - rewrite F. intros q u [E|[]] [|[|i]] s Q S; try discriminate. injection E as <- <-. injection S as <-. reflexivity.
Qed.
Lemma unique_index paths i j (q : path) : NoDup paths -> nth_error paths i = Some q -> nth_error paths j = Some q -> i = j.
Proof. intros N A B. apply (proj1 (NoDup_nth_error paths) N); [eapply nth_error_Some_lt; exact A|congruence]. Qed.
(* a new, empty section *)
Lemma agrees_add t0 h ss paths n parent r : Balanced t0 h -> Agrees t0 h ss paths -> nth_error paths parent = Some r -> ~ In (n :: r) paths ->
  let ss' := ss ++ [mkSection n (Some parent) 0 0 0] in let paths' := paths ++ [n :: r] in
  length paths' = length ss' /\ nth_error paths' 0 = Some [] /\ NoDup paths' /\ (forall q, In q paths' <-> q = n :: r \/ visited t0 h q) /\
  (forall i s q, nth_error ss' i = Some s -> nth_error paths' i = Some q ->
    match sparent s with None => i = 0%nat | Some j => (j < i)%nat /\ exists r, nth_error paths' j = Some r /\ q = sname s :: r end /\
    stotal s = match i with O => reported t0 h | _ => spent t0 h q end /\ soverhead s = lost t0 h q).
Proof.
  intros B A P N. cbv zeta. split; [rewrite !app_length, (agrees_length _ _ _ _ A); reflexivity|]. split; [apply nth_snoc_old, A|]. split; [apply NoDup_snoc; [apply A|exact N]|].
  split; [intros q; rewrite in_app_iff, (agrees_visited _ _ _ _ A); cbn; intuition congruence|].
  pose proof (agrees_length _ _ _ _ A) as L. intros i s q E Q. apply nth_snoc in E as [E|[-> ->]].
  - apply nth_snoc in Q as [Q|[-> _]]; [|apply nth_error_Some_lt in E; lia]. split; [|split; [exact (agrees_total _ _ _ _ A _ _ _ E Q)|exact (agrees_overhead _ _ _ _ A _ _ _ E Q)]].
    pose proof (agrees_names _ _ _ _ A _ _ _ E Q) as X. destruct (sparent s) as [j|]; [|exact X]. destruct X as (LT & r' & R & EQ). split; [exact LT|]. exists r'. split; [apply nth_snoc_old; exact R|exact EQ].
  - rewrite <- L in Q. rewrite nth_snoc_new in Q. injection Q as <-. cbn [sparent sname stotal soverhead].
    assert (NV : ~ visited t0 h (n :: r)) by (rewrite <- (agrees_visited _ _ _ _ A); exact N). pose proof (nth_error_Some_lt _ _ _ P) as PL.
    split; [split; [lia|exists r; split; [apply nth_snoc_old; exact P|reflexivity]]|]. destruct (length ss) as [|k] eqn:K; [lia|]. split; [symmetry; apply spent_unvisited; assumption|symmetry; apply lost_unvisited; assumption].
Qed.

Lemma sim_start t0 h p paths n t t' : Balanced t0 h -> Sim t0 h p paths -> exists p' paths', start_section p n t t' = Ok p' /\ Sim t0 (OpStart n t t' :: h) p' paths'.
Proof.
  intros B [A (r & u & fs & F & P) EP]. pose proof (frames_chain _ _ B) as CH. rewrite F in CH. unfold start_section, acquire_section.
  pose proof (find_section_spec t0 h (sections p) paths n (current p) r A P) as FS.
  assert (X : exists ss i paths' s, (let '(ss, i) := match find_section (sections p) n (current p) with Some i => (sections p, i) | None => add_section (sections p) n (Some (current p)) end in (ss, i)) = (ss, i) /\ nth_error ss i = Some s /\ nth_error paths' i = Some (n :: r) /\
    length paths' = length ss /\ nth_error paths' 0 = Some [] /\ NoDup paths' /\ (forall q, In q paths' <-> q = n :: r \/ visited t0 h q) /\
    (forall i s q, nth_error ss i = Some s -> nth_error paths' i = Some q ->
      match sparent s with None => i = 0%nat | Some j => (j < i)%nat /\ exists r, nth_error paths' j = Some r /\ q = sname s :: r end /\
      stotal s = match i with O => reported t0 h | _ => spent t0 h q end /\ soverhead s = lost t0 h q) /\
    (forall q v, In (q, v) ((r, u) :: fs) -> forall j s, nth_error paths' j = Some q -> nth_error ss j = Some s -> nth_error paths j = Some q /\ nth_error (sections p) j = Some s)).
  { destruct (find_section (sections p) n (current p)) as [i|].
    - destruct FS as (s & E & Q). exists (sections p), i, paths, s. split; [reflexivity|]. split; [exact E|]. split; [exact Q|]. split; [apply A|]. split; [apply A|]. split; [apply A|]. split.
      + intros q. rewrite (agrees_visited _ _ _ _ A). split; [auto|]. intros [->|V]; [|exact V]. rewrite <- (agrees_visited _ _ _ _ A). eapply nth_error_In. exact Q.
      + split; [|auto]. intros j s' q E' Q'. split; [exact (agrees_names _ _ _ _ A _ _ _ E' Q')|]. split; [exact (agrees_total _ _ _ _ A _ _ _ E' Q')|exact (agrees_overhead _ _ _ _ A _ _ _ E' Q')].
    - destruct (agrees_add t0 h (sections p) paths n (current p) r B A P FS) as (X1 & X2 & X3 & X4 & X5). exists (sections p ++ [mkSection n (Some (current p)) 0 0 0]), (length (sections p)), (paths ++ [n :: r]), (mkSection n (Some (current p)) 0 0 0).
      split; [reflexivity|]. split; [apply nth_snoc_new|]. split; [rewrite <- (agrees_length _ _ _ _ A); apply nth_snoc_new|]. repeat (split; [assumption|]).
      intros q v I j s Q E. assert (IP : In q paths) by (rewrite (agrees_visited _ _ _ _ A); apply (frames_visited t0 h B q v); rewrite F; exact I).
      apply nth_snoc in Q as [Q|[_ ->]]; [|contradiction]. split; [exact Q|]. apply nth_snoc in E as [E|[-> _]]; [exact E|]. apply nth_error_Some_lt in Q. rewrite (agrees_length _ _ _ _ A) in Q. lia. }
  destruct X as (ss & i & paths' & s & EQ & E & Q & L & R & ND & V & X & OLD).
  destruct (match find_section (sections p) n (current p) with Some i0 => (sections p, i0) | None => add_section (sections p) n (Some (current p)) end) as [ss1 i1]. injection EQ as -> ->. rewrite E.
  eexists. exists paths'. split; [reflexivity|].
  assert (NI : forall v, ~ In (n :: r, v) ((r, u) :: fs)).
  { intros v I. destruct (chain_length _ _ CH r u fs eq_refl) as [_ LT]. destruct I as [EQ|I]; [injection EQ as EQ; apply (f_equal (@length nat)) in EQ; cbn in EQ; lia|]. apply LT in I. cbn in I. lia. }
  constructor; cbn [sections current].
  - constructor.
    + rewrite set_nth_length. exact L.
    + exact R.
    + exact ND.
    + intros q. rewrite V. cbn [visited]. rewrite F. reflexivity.
    + intros j s' q E' Q'. apply nth_set_inv in E' as [(<- & -> & _)|[NE E']]; cbn [sparent sname]; [destruct (X _ _ _ E Q') as [Y _]; exact Y|destruct (X _ _ _ E' Q') as [Y _]; exact Y].
    + intros j s' q E' Q'. cbn [reported spent]. apply nth_set_inv in E' as [(<- & -> & _)|[NE E']]; cbn [stotal]; [destruct (X _ _ _ E Q') as (_ & Y & _); exact Y|destruct (X _ _ _ E' Q') as (_ & Y & _); exact Y].
    + intros j s' q E' Q'. cbn [lost]. rewrite F. apply nth_set_inv in E' as [(<- & -> & _)|[NE E']]; cbn [soverhead].
      * destruct (X _ _ _ E Q') as (_ & _ & Y). rewrite Y. assert (q = n :: r) by congruence. subst q. destruct (path_dec (n :: r) (n :: r)) as [_|C]; [unfold duration_of_now; lia|congruence].
      * destruct (X _ _ _ E' Q') as (_ & _ & Y). rewrite Y. destruct (path_dec q (n :: r)) as [->|_]; [|lia]. exfalso. apply NE. eapply unique_index; eassumption.
  - exists (n :: r), t, ((r, u) :: fs). cbn [frames]. rewrite F. split; [reflexivity|exact Q].
  - cbn [frames]. rewrite F. intros q v I j s' Q' E'. apply nth_set_inv in E' as [(<- & -> & _)|[NE E']]; cbn [sepoch].
    + assert (q = n :: r) by congruence. subst q. destruct I as [EQ|I]; [congruence|]. exfalso. exact (NI v I).
    + destruct I as [EQ|I]; [injection EQ as <- <-; exfalso; apply NE; eapply unique_index; eassumption|]. assert (I' : In (q, v) (frames t0 h)) by (rewrite F; exact I).
      assert (Y : nth_error paths j = Some q /\ nth_error (sections p) j = Some s'). { destruct I as [EQ|I]; [injection EQ as <- <-; apply (OLD r u (or_introl eq_refl) j s' Q' E')|apply (OLD q v (or_intror I) j s' Q' E')]. }
      destruct Y as [Y1 Y2]. exact (EP q v I' j s' Y1 Y2).
Qed.
Lemma sim_end t0 h p paths t : Balanced t0 (OpEnd t :: h) -> Sim t0 h p paths -> exists p', end_section p t = Ok p' /\ Sim t0 (OpEnd t :: h) p' paths.
Proof.
  intros [B LEN] [A (r & u & fs & F & P) EP]. pose proof (frames_chain _ _ B) as CH. rewrite F in *. unfold end_section.
  inversion CH as [E|n q v fs' u' C2 E1]; subst; [cbn in LEN; lia|]. clear CH LEN. rename q into r, fs' into fs. pose proof (agrees_length _ _ _ _ A) as L.
  destruct (nth_error_ex (sections p) (current p)) as [s S]; [rewrite <- L; eapply nth_error_Some_lt; exact P|]. rewrite S.
  pose proof (agrees_names _ _ _ _ A _ _ _ S P) as N. destruct (sparent s) as [i|] eqn:PA; [|rewrite N, (agrees_root _ _ _ _ A) in P; discriminate].
  destruct N as (LT & r' & R & EQ). injection EQ as EN ER. subst r'. eexists. split; [reflexivity|].
  assert (EPS : sepoch s = u) by (eapply EP; [left; reflexivity|exact P|exact S]).
  constructor; cbn [sections current].
  - constructor.
    + rewrite set_nth_length. exact L.
    + apply A.
    + apply A.
    + apply A.
    + intros j s' q E Q. apply nth_set_inv in E as [(<- & -> & _)|[NE E]]; cbn [sparent sname]; [|exact (agrees_names _ _ _ _ A _ _ _ E Q)]. assert (q = n :: r) by congruence. subst q. split; [exact LT|]. exists r. split; [exact R|congruence].
    + intros j s' q E Q. cbn [reported spent]. rewrite F. apply nth_set_inv in E as [(<- & -> & _)|[NE E]]; cbn [stotal].
      * assert (q = n :: r) by congruence. subst q. rewrite (agrees_total _ _ _ _ A _ _ _ S P), EPS. destruct (current p) as [|k]; [lia|]. destruct (path_dec (n :: r) (n :: r)) as [_|C]; [lia|congruence].
      * rewrite (agrees_total _ _ _ _ A _ _ _ E Q). destruct j as [|j]; [reflexivity|]. destruct (path_dec q (n :: r)) as [->|_]; [|lia]. exfalso. apply NE. eapply unique_index; [apply A|exact P|exact Q].
    + intros j s' q E Q. cbn [lost]. apply nth_set_inv in E as [(<- & -> & _)|[NE E]]; cbn [soverhead]; [rewrite (agrees_overhead _ _ _ _ A _ _ _ S Q); unfold duration_of_now; lia|exact (agrees_overhead _ _ _ _ A _ _ _ E Q)].
  - exists r, v, fs. cbn [frames]. rewrite F. split; [reflexivity|exact R].
  - cbn [frames]. rewrite F. cbn [tl]. intros q w I j s' Q E. apply nth_set_inv in E as [(<- & -> & _)|[NE E]]; cbn [sepoch].
    + apply (EP q w (or_intror I) (current p) s); [congruence|exact S].
    + apply (EP q w (or_intror I) j s' Q E).
Qed.
Lemma sim_report t0 h p paths t : Balanced t0 h -> Sim t0 h p paths -> exists p', report p t = Ok p' /\ Sim t0 (OpReport t :: h) p' paths.
Proof.
  intros B [A (r & u & fs & F & P) EP]. pose proof (agrees_root _ _ _ _ A) as R. pose proof (agrees_length _ _ _ _ A) as L. unfold report. destruct (sections p) as [|s0 ss] eqn:SS; [destruct paths; discriminate|].
  assert (E0 : sepoch s0 = since t0 h).
  { assert (I : In ([], since t0 h) (frames t0 h)). { pose proof (frames_chain t0 h B) as C. clear - C. induction C; [left; reflexivity|right; assumption]. } eapply EP; [exact I|exact R|reflexivity]. }
  eexists. split; [reflexivity|]. constructor; cbn [sections current].
  - constructor; [exact L|apply A|apply A|apply A| | |].
    + intros [|j] s' q E Q; cbn in E; [|exact (agrees_names _ _ _ _ A (S j) s' q E Q)]. injection E as <-. cbn [sparent]. exact (agrees_names _ _ _ _ A 0%nat s0 q eq_refl Q).
    + intros [|j] s' q E Q; cbn in E; [|exact (agrees_total _ _ _ _ A (S j) s' q E Q)]. injection E as <-. cbn. rewrite E0. reflexivity.
    + intros [|j] s' q E Q; cbn in E; [|exact (agrees_overhead _ _ _ _ A (S j) s' q E Q)]. injection E as <-. exact (agrees_overhead _ _ _ _ A 0%nat s0 q eq_refl Q).
  - exists r, u, fs. auto.
  - cbn [frames]. intros q w I [|j] s' Q E; cbn in E; [|exact (EP q w I (S j) s' Q E)]. injection E as <-. exact (EP q w I 0%nat s0 Q eq_refl).
Qed.
Lemma sim_end_ub t0 h p paths t : Balanced t0 h -> Sim t0 h p paths -> ~ (2 <= length (frames t0 h))%nat -> end_section p t = UB.
Proof.
  intros B [A (r & u & fs & F & P) EP] N. pose proof (frames_chain _ _ B) as CH. rewrite F in *. inversion CH as [E|n q v fs' u' C2 E1]; subst; [|cbn in N; lia].
  unfold end_section. assert (C : current p = 0%nat) by (eapply unique_index; [apply A|exact P|apply A]). rewrite C in *. destruct (nth_error (sections p) 0) as [s|] eqn:S; [|reflexivity].
  pose proof (agrees_names _ _ _ _ A _ _ _ S P) as X. destruct (sparent s); [lia|reflexivity].
Qed.
Lemma run_sim t0 ops : forall h p paths, Balanced t0 (rev ops ++ h) -> Sim t0 h p paths -> exists p' paths', prof_run p ops = Ok p' /\ Sim t0 (rev ops ++ h) p' paths'.
Proof.
  induction ops as [|o ops IH]; intros h p paths B S; [exists p, paths; auto|]. cbn [rev prof_run] in *. rewrite <- app_assoc in *. cbn [app] in *.
  assert (BO : Balanced t0 (o :: h)). { clear - B. induction (rev ops) as [|x l IHl]; [exact B|]. apply IHl. destruct x; cbn in B; tauto. }
  assert (X : exists p' paths', prof_step p o = Ok p' /\ Sim t0 (o :: h) p' paths').
  { destruct o as [t|n t t'|t|t]; cbn [prof_step].
    - exists (reset t), [[]]. split; [reflexivity|]. eapply sim_reset; [reflexivity|]. right. eauto.
    - eapply sim_start; eassumption.
    - destruct (sim_end t0 h p paths t BO S) as (p' & E & S'). eauto.
    - destruct (sim_report t0 h p paths t BO S) as (p' & E & S'). eauto. }
  destruct X as (p' & paths' & -> & S'). eapply IH; eassumption.
Qed.
Lemma run_balanced t0 ops : forall h p paths p', Balanced t0 h -> Sim t0 h p paths -> prof_run p ops = Ok p' -> Balanced t0 (rev ops ++ h).
Proof.
  induction ops as [|o ops IH]; intros h p paths p' B S E; [exact B|]. cbn [rev prof_run] in *. rewrite <- app_assoc. cbn [app].
  destruct o as [t|n t t'|t|t]; cbn [prof_step] in E.
  - eapply (IH _ (reset t)); [exact B|eapply sim_reset; [reflexivity|right; eauto]|exact E].
  - destruct (sim_start t0 h p paths n t t' B S) as (p1 & paths1 & E1 & S1). rewrite E1 in E. eapply IH; [|exact S1|exact E]. exact B.
  - destruct (le_lt_dec 2 (length (frames t0 h))) as [L|L].
    + destruct (sim_end t0 h p paths t (conj B L) S) as (p1 & E1 & S1). rewrite E1 in E. eapply IH; [|exact S1|exact E]. exact (conj B L).
    + rewrite (sim_end_ub t0 h p paths t B S) in E by lia. discriminate.
  - destruct (sim_report t0 h p paths t B S) as (p1 & E1 & S1). rewrite E1 in E. eapply IH; [|exact S1|exact E]. exact B.
Qed.

(* sums *)
Lemma sumz_app {A} (f : A -> Z) a b : sumz f (a ++ b) = sumz f a + sumz f b.
Proof. induction a as [|x a IH]; cbn; [reflexivity|]. fold (sumz f (a ++ b)). fold (sumz f a). lia. Qed.
Lemma sumz_ext {A} (f g : A -> Z) l : (forall x, In x l -> f x = g x) -> sumz f l = sumz g l.
Proof. induction l as [|x l IH]; intros E; [reflexivity|]. cbn. fold (sumz f l) (sumz g l). rewrite (E x (or_introl eq_refl)), IH; [reflexivity|]. intros y I. apply E. right. exact I. Qed.
Lemma sumz_plus {A} (f g : A -> Z) l : sumz (fun x => f x + g x) l = sumz f l + sumz g l.
Proof. induction l as [|x l IH]; [reflexivity|]. cbn. fold (sumz f l) (sumz g l) (sumz (fun x => f x + g x) l). lia. Qed.
Lemma sumz_zero {A} (f : A -> Z) l : (forall x, In x l -> f x = 0) -> sumz f l = 0.
Proof. induction l as [|x l IH]; intros E; [reflexivity|]. cbn. fold (sumz f l). rewrite (E x (or_introl eq_refl)), IH; [reflexivity|]. intros y I. apply E. right. exact I. Qed.
Lemma sumz_one {A} (f : A -> Z) l x : NoDup l -> In x l -> (forall y, In y l -> y <> x -> f y = 0) -> sumz f l = f x.
Proof.
  induction l as [|y l IH]; intros N I Z; [destruct I|]. inversion N as [|? ? NI N']; subst. cbn. fold (sumz f l). destruct I as [->|I].
  - rewrite sumz_zero; [lia|]. intros z IZ. apply Z; [right; exact IZ|]. intros ->. contradiction.
  - rewrite (Z y (or_introl eq_refl)) by (intros ->; contradiction). rewrite IH; [lia|exact N'|exact I|]. intros z IZ. apply Z. right. exact IZ.
Qed.

Definition child_of (i : nat) (s : section) : bool := match sparent s with Some p => Nat.eqb p i | None => false end.
Lemma minus_children_sum ss i : forall t, minus_children ss i t = t - sumz (fun s => if child_of i s then stotal s else 0) ss.
Proof.
  induction ss as [|s ss IH]; intros t; cbn [minus_children]; [cbn; lia|]. rewrite IH. unfold child_of. cbn. fold (sumz (fun s => if match sparent s with Some p => Nat.eqb p i | None => false end then stotal s else 0) ss).
  destruct (sparent s) as [p|]; [destruct (Nat.eqb p i)|]; lia.
Qed.
(* the time spent directly below q, told from the history *)
Definition below (q p : path) : bool := match p with [] => false | _ :: p' => if path_dec p' q then true else false end.
Fixpoint inner (t0 : Z) (h : list prof_op) (q : path) : Z :=
  match h with
  | [] | OpReset _ :: _ => 0
  | OpEnd t :: h' => match frames t0 h' with (p, s) :: _ => (if below q p then t - s else 0) + inner t0 h' q | [] => 0 end
  | _ :: h' => inner t0 h' q
  end.
Lemma inner_sum t0 h q L : Balanced t0 h -> NoDup L -> (forall p, visited t0 h p -> In p L) -> sumz (fun p => if below q p then spent t0 h p else 0) L = inner t0 h q.
Proof.
  intros B N. induction h as [|o h IH]; intros V; [apply sumz_zero; intros p _; cbn; destruct (below q p); reflexivity|]. destruct o as [t|n t t'|t|t]; cbn [Balanced spent inner visited] in *.
  - apply sumz_zero. intros p _. destruct (below q p); reflexivity.
  - apply IH; [exact B|]. intros p VP. apply V. destruct (chain_top _ _ (frames_chain _ _ B)) as (p' & s & fs & ->). right. exact VP.
  - destruct B as [B LEN]. specialize (IH B V). pose proof (frames_visited t0 h B) as FV. destruct (frames t0 h) as [|[r s] fs] eqn:F; [cbn in LEN; lia|].
    rewrite <- IH. rewrite (sumz_ext _ (fun p => (if below q p then (if path_dec p r then t - s else 0) else 0) + (if below q p then spent t0 h p else 0))) by (intros p _; destruct (below q p); lia).
    rewrite sumz_plus. f_equal. rewrite (sumz_one _ L r).
    + destruct (path_dec r r); [reflexivity|congruence].
    + exact N.
    + apply V, (FV r s). left. reflexivity.
    + intros p _ NE. destruct (below q p); [|reflexivity]. destruct (path_dec p r); [contradiction|reflexivity].
  - apply IH; assumption.
Qed.

Lemma sum_zip {A B} (f : A -> Z) (g : B -> Z) ss : forall ps, length ps = length ss -> (forall i s q, nth_error ss i = Some s -> nth_error ps i = Some q -> f s = g q) -> sumz f ss = sumz g ps.
Proof.
  induction ss as [|s ss IH]; intros [|q ps] L E; try discriminate; [reflexivity|]. cbn. fold (sumz f ss) (sumz g ps). rewrite (E 0%nat s q eq_refl eq_refl), (IH ps); [reflexivity|cbn in L; lia|]. intros i x y X Y. apply (E (S i)); assumption.
Qed.
Lemma child_below t0 h ss paths i q j s p : Agrees t0 h ss paths -> nth_error paths i = Some q -> nth_error ss j = Some s -> nth_error paths j = Some p -> child_of i s = below q p.
Proof.
  intros A Q E P. pose proof (agrees_names _ _ _ _ A _ _ _ E P) as N. unfold child_of. destruct (sparent s) as [k|].
  - destruct N as (_ & r & R & ->). cbn [below]. destruct (Nat.eqb_spec k i) as [->|NE]; destruct (path_dec r q) as [->|NQ]; try reflexivity; [congruence|]. exfalso. apply NE. eapply unique_index; [apply A|exact R|exact Q].
  - subst j. rewrite (agrees_root _ _ _ _ A) in P. injection P as <-. reflexivity.
Qed.
Lemma children_inner t0 h ss paths i q : Balanced t0 h -> Agrees t0 h ss paths -> nth_error paths i = Some q ->
  sumz (fun s => if child_of i s then stotal s else 0) ss = inner t0 h q.
Proof.
  intros B A Q. rewrite <- (inner_sum t0 h q paths B (agrees_once _ _ _ _ A)) by (intros p; apply (agrees_visited _ _ _ _ A)).
  apply sum_zip; [apply A|]. intros j s p E P. rewrite (child_below t0 h ss paths i q j s p A Q E P). destruct (below q p) eqn:BE; [|reflexivity].
  rewrite (agrees_total _ _ _ _ A _ _ _ E P). destruct j; [|reflexivity]. rewrite (agrees_root _ _ _ _ A) in P. injection P as <-. discriminate.
Qed.
Lemma exclusive_spec t0 h ss paths i q : Balanced t0 h -> Agrees t0 h ss paths -> nth_error paths i = Some q ->
  exclusive_time ss i = Ok (match i with O => reported t0 h | _ => spent t0 h q end - inner t0 h q).
Proof.
  intros B A Q. destruct (nth_error_ex ss i) as [s E]; [rewrite <- (agrees_length _ _ _ _ A); eapply nth_error_Some_lt; exact Q|]. unfold exclusive_time. rewrite E, minus_children_sum, (children_inner t0 h ss paths i q B A Q), (agrees_total _ _ _ _ A _ _ _ E Q). reflexivity.
Qed.
(* all exclusive times add up to the root's total *)
Lemma sum_swap {A B} (f : A -> B -> Z) la lb : sumz (fun a => sumz (f a) lb) la = sumz (fun b => sumz (fun a => f a b) la) lb.
Proof.
  induction la as [|a la IH]; [symmetry; apply sumz_zero; reflexivity|]. cbn. fold (sumz (fun a => sumz (f a) lb) la). rewrite IH, <- sumz_plus. reflexivity.
Qed.
Definition exclusive_or0 (ss : list section) (i : nat) : Z := match exclusive_time ss i with Ok e => e | _ => 0 end.
Lemma seq_sum_nth {A} (f : A -> Z) (g : nat -> Z) l : forall k, (forall i x, nth_error l i = Some x -> g (k + i)%nat = f x) -> sumz g (seq k (length l)) = sumz f l.
Proof.
  induction l as [|x l IH]; intros k E; [reflexivity|]. cbn [length seq]. cbn. fold (sumz g (seq (S k) (length l))) (sumz f l). rewrite (IH (S k)); [rewrite <- (E 0%nat x eq_refl), Nat.add_0_r; reflexivity|]. intros i y Y. rewrite <- (E (S i) y Y). f_equal. lia.
Qed.
Lemma exclusive_sum t0 h ss paths : Balanced t0 h -> Agrees t0 h ss paths -> sumz (exclusive_or0 ss) (seq 0 (length ss)) = reported t0 h.
Proof.
  intros B A. rewrite (sumz_ext _ (fun i => (match nth_error ss i with Some s => stotal s | None => 0 end) + - sumz (fun s => if child_of i s then stotal s else 0) ss)).
  2:{ intros i I. apply in_seq in I as [_ L]. cbn in L. destruct (nth_error_ex ss i L) as [s E]. unfold exclusive_or0, exclusive_time. rewrite E, minus_children_sum. lia. }
  rewrite sumz_plus. rewrite (seq_sum_nth stotal) by (intros i s E; cbn; rewrite E; reflexivity).
  assert (X : sumz (fun i => - sumz (fun s => if child_of i s then stotal s else 0) ss) (seq 0 (length ss)) = - sumz (fun s => match sparent s with Some _ => stotal s | None => 0 end) ss).
  { transitivity (- sumz (fun i => sumz (fun s => if child_of i s then stotal s else 0) ss) (seq 0 (length ss))).
    - generalize (seq 0 (length ss)) as l. intros l. induction l as [|i l IH]; [reflexivity|]. cbn. fold (sumz (fun i => - sumz (fun s => if child_of i s then stotal s else 0) ss) l) (sumz (fun i => sumz (fun s => if child_of i s then stotal s else 0) ss) l). fold (sumz (fun s => if child_of i s then stotal s else 0) ss) in *. lia.
    - f_equal. rewrite sum_swap. apply sumz_ext. intros s I. apply In_nth_error in I as [j E]. destruct (nth_error_ex paths j) as [p P]; [rewrite (agrees_length _ _ _ _ A); eapply nth_error_Some_lt; exact E|].
      pose proof (agrees_names _ _ _ _ A _ _ _ E P) as N. unfold child_of. destruct (sparent s) as [k|]; [|apply sumz_zero; reflexivity]. destruct N as (LT & r & R & _).
      rewrite (sumz_one _ _ k); [rewrite Nat.eqb_refl; reflexivity|apply seq_NoDup| |].
      + apply in_seq. apply nth_error_Some_lt in R. rewrite (agrees_length _ _ _ _ A) in R. lia.
      + intros y _ NE. destruct (Nat.eqb_spec k y); [congruence|reflexivity]. }
  rewrite X. clear X. pose proof (agrees_root _ _ _ _ A) as R. pose proof (agrees_length _ _ _ _ A) as L. destruct ss as [|s0 ss]; [destruct paths; discriminate|].
  pose proof (agrees_total _ _ _ _ A 0%nat s0 _ eq_refl R) as T0. assert (P0 : sparent s0 = None). { pose proof (agrees_names _ _ _ _ A 0%nat s0 _ eq_refl R) as N. destruct (sparent s0); [lia|reflexivity]. }
  cbn. fold (sumz stotal ss) (sumz (fun s => match sparent s with Some _ => stotal s | None => 0 end) ss). rewrite P0, T0. cut (sumz stotal ss = sumz (fun s => match sparent s with Some _ => stotal s | None => 0 end) ss); [intros E; rewrite E; lia|].
  apply sumz_ext. intros s I. apply In_nth_error in I as [j E]. destruct (nth_error_ex paths (S j)) as [p P]; [rewrite L; apply nth_error_Some_lt in E; cbn; lia|]. pose proof (agrees_names _ _ _ _ A (S j) s p E P) as N. destruct (sparent s); [reflexivity|discriminate].
Qed.

(* with a clock that does not run backwards *)
Section Monotone.
Context (t0 : Z).
Fixpoint Room (h : list prof_op) (up : Z) (fs : list (path * Z)) : Prop :=
  match fs with
  | [] => True
  | (p, s) :: fs' => s <= up /\ inner t0 h p <= spent t0 h p + (up - s) /\ Room h s fs'
  end.
Lemma room_more h up up' fs : up <= up' -> Room h up fs -> Room h up' fs.
Proof. destruct fs as [|[p s] fs]; [auto|]. cbn. intros L (A & B & C). split; [lia|]. split; [lia|exact C]. Qed.
Lemma room_ext h h' fs : (forall p s, In (p, s) fs -> inner t0 h p = inner t0 h' p /\ spent t0 h p = spent t0 h' p) -> forall up, Room h up fs -> Room h' up fs.
Proof.
  induction fs as [|[p s] fs IH]; intros E up; [auto|]. cbn. destruct (E p s (or_introl eq_refl)) as [-> ->]. intros (A & B & C). split; [exact A|]. split; [exact B|]. apply IH; [|exact C]. intros q u I. apply (E q u). right. exact I.
Qed.
Lemma below_longer p q : below q p = true -> length p = S (length q).
Proof. destruct p as [|n p]; cbn; [discriminate|]. destruct (path_dec p q) as [->|]; [reflexivity|discriminate]. Qed.
Lemma monotone h : forall now, Clock t0 h now -> Balanced t0 h -> Room h now (frames t0 h) /\ forall p, ~ In p (map fst (frames t0 h)) -> inner t0 h p <= spent t0 h p.
Proof.
  induction h as [|o h IH]; intros now C B.
  - inversion C; subst. cbn. split; [repeat split; lia|intros; lia].
  - destruct o as [t|n t t'|t|t]; cbn [Balanced frames] in B |- *.
    + inversion C as [|h' now' t' C' LE| | |]; subst. cbn. split; [repeat split; lia|intros; lia].
    + inversion C as [| |h' now' n' u u' C' LE LE'| |]; subst. destruct (IH _ C' B) as [R O]. pose proof (frames_chain t0 h B) as CH. destruct (frames t0 h) as [|[p s] fs] eqn:F; [inversion CH|].
      destruct (chain_length _ _ CH p s fs eq_refl) as [_ LT].
      assert (NI : ~ In (n :: p) (map fst ((p, s) :: fs))). { intros I. apply in_map_iff in I as ([q v] & E & I). cbn in E. subst q. destruct I as [E|I]; [injection E as E; apply (f_equal (@length nat)) in E; cbn in E; lia|apply LT in I; cbn in I; lia]. }
      split.
      * cbn [Room]. split; [exact LE'|]. split; [specialize (O _ NI); cbn [inner spent]; lia|]. fold (Room (OpStart n t now :: h)). change (Room (OpStart n t now :: h) t ((p, s) :: fs)).
        apply (room_ext h); [auto|]. eapply room_more; [exact LE|exact R].
      * intros q NQ. apply O. intros I. apply NQ. right. exact I.
    + destruct B as [B LEN]. inversion C as [| | |h' now' u C' LE|]; subst. destruct (IH _ C' B) as [R O]. pose proof (frames_chain t0 h B) as CH. destruct (frames t0 h) as [|[p s] fs] eqn:F; [inversion CH|].
      inversion CH as [E|n q v fs' u C2 E1]; subst; [cbn in LEN; lia|]. cbn [tl]. clear CH LEN.
      destruct (chain_length _ _ C2 q v fs' eq_refl) as [_ LT].
      assert (IN : forall x, inner t0 (OpEnd now :: h) x = (if below x (n :: q) then now - s else 0) + inner t0 h x) by (intros x; cbn [inner]; rewrite F; reflexivity).
      assert (SP : forall x, spent t0 (OpEnd now :: h) x = (if path_dec x (n :: q) then now - s else 0) + spent t0 h x) by (intros x; cbn [spent]; rewrite F; reflexivity).
      assert (BQ : below q (n :: q) = true) by (cbn; destruct (path_dec q q); [reflexivity|congruence]).
      assert (LQ : forall x : path, (length x <= length q)%nat -> x <> n :: q) by (intros x L ->; cbn in L; lia).
      cbn [Room] in R. destruct R as (R1 & R2 & R3 & R4 & R5). split.
      * cbn [Room]. split; [lia|]. split.
        { rewrite IN, SP, BQ. destruct (path_dec q (n :: q)) as [E|_]; [apply (f_equal (@length nat)) in E; cbn in E; lia|]. lia. }
        apply (room_ext h); [|exact R5]. intros x w I. apply LT in I. rewrite IN, SP. destruct (below x (n :: q)) eqn:BX; [apply below_longer in BX; cbn in BX; lia|]. destruct (path_dec x (n :: q)) as [E|_]; [subst x; cbn in I; lia|]. auto.
      * intros x NX. rewrite IN, SP. destruct (path_dec x (n :: q)) as [->|NE].
        { destruct (below (n :: q) (n :: q)) eqn:BX; [apply below_longer in BX; cbn in BX; lia|]. lia. }
        destruct (below x (n :: q)) eqn:BX; [cbn in BX; destruct (path_dec q x) as [<-|]; [|discriminate]; exfalso; apply NX; left; reflexivity|].
        specialize (O x). cbn [map fst In] in O, NX. assert (inner t0 h x <= spent t0 h x); [|lia]. apply O. intros [E|I]; [congruence|]. apply NX. exact I.
    + inversion C as [| | | |h' now' u C' LE]; subst. destruct (IH _ C' B) as [R O]. split; [|exact O]. apply (room_ext h); [auto|]. eapply room_more; [exact LE|exact R].
Qed.
Lemma room_root h : forall fs up e, Chain e fs -> Room h up fs -> inner t0 h [] <= spent t0 h [] + (up - e).
Proof.
  intros fs. induction fs as [|[p s] fs IH]; intros up e C R; [inversion C|]. inversion C as [E|n q v fs' u C2 E1]; subst; cbn [Room] in R; [lia|]. destruct R as (A & B & R). specialize (IH s e C2 R). lia.
Qed.
End Monotone.

(* overhead *)
Lemma within_refl p : within p p.
Proof. destruct p; cbn; auto. Qed.
Lemma within_length p q : within p q -> (length p <= length q)%nat.
Proof. induction q as [|n q IH]; cbn; intros [E|W]; [subst; cbn; lia|destruct W|subst; cbn; lia|]. apply IH in W. lia. Qed.
Lemma within_step p q : within p q -> q = p \/ exists n, within (n :: p) q.
Proof.
  induction q as [|m q IH]; cbn [within]; intros [E|W]; [auto|destruct W|auto|]. destruct (IH W) as [->|[n X]]; right; [exists m; cbn; auto|exists n; cbn; auto].
Qed.
Lemma within_weaken n p q : within (n :: p) q -> within p q /\ q <> p.
Proof.
  induction q as [|m q IH]; cbn [within]; intros [E|W]; [discriminate|destruct W| |].
  - injection E as -> ->. split; [right; apply within_refl|]. intros E. apply (f_equal (@length nat)) in E. cbn in E. lia.
  - destruct (IH W) as [W2 _]. split; [auto|]. intros <-. apply within_length in W2. cbn in W2. lia.
Qed.
Lemma within_unique n m p q : within (n :: p) q -> within (m :: p) q -> n = m.
Proof.
  induction q as [|k q IH]; cbn [within]; intros [A|A] [B|B]; try discriminate; try (destruct A; fail); try (destruct B; fail); [congruence| | |exact (IH A B)].
  - injection A as -> ->. apply within_length in B. cbn in B. lia.
  - injection B as -> ->. apply within_length in A. cbn in A. lia.
Qed.
Definition ind (p q : path) (d : Z) : Z := if within_dec p q then d else 0.
Lemma ind_split L p r d : NoDup L -> (forall n q, In (n :: q) L -> In q L) -> In r L ->
  ind p r d = (if path_dec p r then d else 0) + sumz (fun c => if below p c then ind c r d else 0) L.
Proof.
  intros N CL I. unfold ind. destruct (within_dec p r) as [W|W].
  - destruct (within_step _ _ W) as [->|[n X]].
    + destruct (path_dec p p) as [_|C]; [|congruence]. rewrite sumz_zero; [lia|]. intros c _. destruct (below p c) eqn:BE; [|reflexivity]. destruct (within_dec c p) as [WC|]; [|reflexivity]. apply within_length in WC. apply below_longer in BE. lia.
    + destruct (within_weaken _ _ _ X) as [_ NE]. destruct (path_dec p r) as [E|_]; [congruence|].
      assert (IN : In (n :: p) L). { clear - X CL I. induction r as [|m r IH]; cbn [within] in X; destruct X as [E|X]; [rewrite <- E; exact I|destruct X|rewrite <- E; exact I|]. apply IH; [eapply CL; exact I|exact X]. }
      rewrite (sumz_one _ L (n :: p) N IN).
      * cbn [below]. destruct (path_dec p p) as [_|C]; [|congruence]. destruct (within_dec (n :: p) r); [lia|contradiction].
      * intros c _ NC. destruct (below p c) eqn:BE; [|reflexivity]. destruct c as [|m c]; [discriminate|]. cbn in BE. destruct (path_dec c p) as [->|]; [|discriminate]. destruct (within_dec (m :: p) r) as [WC|]; [|reflexivity]. exfalso. apply NC. rewrite (within_unique _ _ _ _ WC X). reflexivity.
  - destruct (path_dec p r) as [->|_]; [exfalso; apply W, within_refl|]. rewrite sumz_zero; [lia|]. intros c _. destruct (below p c) eqn:BE; [|reflexivity]. destruct c as [|m c]; [discriminate|]. cbn in BE. destruct (path_dec c p) as [->|]; [|discriminate].
    destruct (within_dec (m :: p) r) as [WC|]; [|reflexivity]. apply within_weaken in WC as [WC _]. contradiction.
Qed.
Lemma lost_within_split t0 h p L : Balanced t0 h -> NoDup L -> (forall n q, In (n :: q) L -> In q L) -> (forall q, visited t0 h q -> In q L) ->
  lost_within t0 h p = lost t0 h p + sumz (fun c => if below p c then lost_within t0 h c else 0) L.
Proof.
  intros B N CL. induction h as [|o h IH]; intros V; [cbn; rewrite sumz_zero; [lia|]; intros c _; destruct (below p c); reflexivity|]. destruct o as [t|n t t'|t|t]; cbn [Balanced lost_within lost visited] in *.
  - rewrite sumz_zero; [lia|]. intros c _. destruct (below p c); reflexivity.
  - destruct (chain_top _ _ (frames_chain _ _ B)) as (r & s & fs & F). rewrite F in *. rewrite IH; [|exact B|auto].
    rewrite (sumz_ext (fun c => if below p c then (if within_dec c (n :: r) then t' - t else 0) + lost_within t0 h c else 0) (fun c => (if below p c then ind c (n :: r) (t' - t) else 0) + (if below p c then lost_within t0 h c else 0))) by (intros c _; unfold ind; destruct (below p c); lia).
    rewrite sumz_plus. pose proof (ind_split L p (n :: r) (t' - t) N CL (V _ (or_introl eq_refl))) as X. unfold ind at 1 in X. lia.
  - apply IH; tauto.
  - apply IH; assumption.
Qed.
Definition children_loop (rec : nat -> res Z) (i : nat) : list section -> nat -> Z -> res Z :=
  fix children (cs : list section) (j : nat) (t : Z) : res Z :=
    match cs with
    | [] => Ok t
    | c :: cs' =>
      match sparent c with
      | Some p =>
        if Nat.eqb p i then match rec j with Ok o => children cs' (S j) (t + o) | Throw => Throw | UB => UB | OutOfFuel => OutOfFuel end
        else children cs' (S j) t
      | None => children cs' (S j) t
      end
    end.
Lemma total_overhead_unfold fuel all i : total_overhead (S fuel) all i = match nth_error all i with None => UB | Some s => children_loop (total_overhead fuel all) i all 0%nat (soverhead s) end.
Proof. reflexivity. Qed.
Lemma children_loop_sum rec i (g : path -> Z) : forall cs ps j t, length ps = length cs ->
  (forall k s p, nth_error cs k = Some s -> nth_error ps k = Some p -> child_of i s = true -> rec (j + k)%nat = Ok (g p)) ->
  (forall q, (forall k s p, nth_error cs k = Some s -> nth_error ps k = Some p -> child_of i s = below q p) -> children_loop rec i cs j t = Ok (t + sumz (fun p => if below q p then g p else 0) ps)).
Proof.
  induction cs as [|c cs IH]; intros [|p ps] j t L R q E; try discriminate; [cbn; f_equal; lia|]. cbn [children_loop]. fold (children_loop rec i).
  assert (IH' : forall t, children_loop rec i cs (S j) t = Ok (t + sumz (fun p => if below q p then g p else 0) ps)).
  { intros u. apply IH; [cbn in L; lia| |]; [intros k s x A B D; rewrite <- (R (S k) s x A B D); f_equal; lia|intros k s x A B; apply (E (S k)); assumption]. }
  pose proof (E 0%nat c p eq_refl eq_refl) as E0. pose proof (R 0%nat c p eq_refl eq_refl) as R0. cbn. fold (sumz (fun p => if below q p then g p else 0) ps). unfold child_of in E0, R0. destruct (sparent c) as [k|].
  - destruct (Nat.eqb k i); rewrite <- E0; [|rewrite IH'; f_equal; lia]. rewrite Nat.add_0_r in R0. rewrite (R0 eq_refl), IH'. f_equal. lia.
  - rewrite <- E0, IH'. reflexivity.
Qed.
Lemma overhead_spec t0 h ss paths : Balanced t0 h -> Agrees t0 h ss paths -> forall fuel i q, nth_error paths i = Some q -> (length ss - i <= fuel)%nat -> total_overhead (S fuel) ss i = Ok (lost_within t0 h q).
Proof.
  intros B A. assert (CL : forall n q, In (n :: q) paths -> In q paths) by (intros n q; rewrite !(agrees_visited _ _ _ _ A); apply visited_tail; exact B).
  induction fuel as [|fuel IH]; intros i q Q L.
  - apply nth_error_Some_lt in Q. rewrite (agrees_length _ _ _ _ A) in Q. lia.
  - rewrite total_overhead_unfold. destruct (nth_error_ex ss i) as [s E]; [rewrite <- (agrees_length _ _ _ _ A); eapply nth_error_Some_lt; exact Q|]. rewrite E.
    rewrite (children_loop_sum (total_overhead (S fuel) ss) i (lost_within t0 h) ss paths 0%nat (soverhead s) (agrees_length _ _ _ _ A)) with (q := q).
    + rewrite (agrees_overhead _ _ _ _ A _ _ _ E Q). f_equal. symmetry. apply lost_within_split; [exact B|apply A|exact CL|]. intros p. apply (agrees_visited _ _ _ _ A).
    + intros k c p C P CH. cbn [Nat.add]. apply IH; [exact P|]. pose proof (agrees_names _ _ _ _ A _ _ _ C P) as N. unfold child_of in CH. destruct (sparent c) as [x|]; [|discriminate]. apply Nat.eqb_eq in CH. subst x. apply nth_error_Some_lt in C. lia.
    + intros k c p C P. eapply child_below; eassumption.
Qed.
