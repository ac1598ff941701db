From Coq Require Import Permutation.
From Verif Require Import Model.Base Proofs.BaseFacts Model.Memoize Spec.Memoize.

Section Stateful.
Context {K R S : Type} (lt : K -> K -> bool) (func : K -> S -> option R * S).
Let same a b := same_key lt a b = true.
Context (same_refl : forall a, same a a) (same_trans : forall a b c, same a b -> same b c -> same a c).
Lemma same_sym a b : same a b -> same b a.
Proof. unfold same, same_key. rewrite andb_comm. auto. Qed.

Lemma find_assign_same (m : @memory K R) k j r : same k j -> find_key lt (assign_key lt m k r) j = Some r.
Proof.
  intros E. induction m as [|[k' r'] m IH]; cbn [assign_key find_key]; [unfold same in E; rewrite E; reflexivity|]. destruct (same_key lt k' k) eqn:X; cbn [find_key].
  - rewrite (same_trans k' k j X E). reflexivity.
  - destruct (same_key lt k' j) eqn:Y; [|exact IH]. exfalso. rewrite (same_trans k' j k Y (same_sym _ _ E)) in X. discriminate.
Qed.
Lemma find_assign_other (m : @memory K R) k j r : ~ same k j -> find_key lt (assign_key lt m k r) j = find_key lt m j.
Proof.
  intros N. induction m as [|[k' r'] m IH]; cbn [assign_key find_key]; [destruct (same_key lt k j) eqn:X; [contradiction|reflexivity]|]. destruct (same_key lt k' k) eqn:X; cbn [find_key].
  - destruct (same_key lt k' j) eqn:Y; [|reflexivity]. exfalso. apply N. apply (same_trans k k' j); [apply same_sym; exact X|exact Y].
  - destruct (same_key lt k' j); [reflexivity|exact IH].
Qed.

Record Sim (s0 : S) (es : list (@event K R)) (m : memory) (s : S) : Prop := {
  sim_tr : Transparent same func s0 es s;
  sim_some : forall k r, find_key lt m k = Some r -> exists e, In e es /\ same (key e) k /\ outcome e = Some r;
  sim_none : forall k, find_key lt m k = None -> forall e, In e es -> same (key e) k -> outcome e = None }.
Lemma sim_start s0 : Sim s0 [] [] s0.
Proof. constructor; [constructor|discriminate|intros k _ e []]. Qed.
Lemma sim_call s0 es m s k o m' s' : Sim s0 es m s -> call lt func m s k = (o, m', s') ->
  Sim s0 (mkEvent k (match find_key lt m k with Some _ => false | None => true end) o :: es) m' s'.
Proof.
  intros [T A B] E. unfold call in E. destruct (find_key lt m k) as [r|] eqn:F.
  - injection E as <- <- <-. destruct (A k r F) as (e & I & Q & O). constructor.
    + eapply Tr_known; eassumption.
    + intros j x X. destruct (A j x X) as (e' & I' & Q'). exists e'. split; [right; exact I'|exact Q'].
    + intros j X e' [<-|I'] Q'; [|exact (B j X e' I' Q')]. cbn in *. exfalso. pose proof (B j X e I) as C. rewrite O in C. assert (D : same (key e) j) by (eapply same_trans; eassumption). specialize (C D). discriminate.
  - destruct (func k s) as [o' s1] eqn:G. pose proof (Tr_new same func s0 es s k o' s1 T (B k F) G) as T'. destruct o' as [r|]; injection E as <- <- <-; constructor; try exact T'.
    + intros j x X. assert (D : {same k j} + {~ same k j}) by apply bool_dec. destruct D as [D|D].
      * rewrite find_assign_same in X by exact D. injection X as <-. exists (mkEvent k true (Some r)). split; [left; reflexivity|]. split; [exact D|reflexivity].
      * rewrite find_assign_other in X by exact D. destruct (A j x X) as (e & I & Q). exists e. split; [right; exact I|exact Q].
    + intros j X e [<-|I] Q; cbn in *; [rewrite find_assign_same in X by exact Q; discriminate|]. assert (D : {same k j} + {~ same k j}) by apply bool_dec. destruct D as [D|D]; [rewrite find_assign_same in X by exact D; discriminate|].
      rewrite find_assign_other in X by exact D. exact (B j X e I Q).
    + intros j x X. destruct (A j x X) as (e & I & Q). exists e. split; [right; exact I|exact Q].
    + intros j X e [<-|I] Q; [reflexivity|exact (B j X e I Q)].
Qed.
Lemma calls_sim s0 ks : forall es m s, Sim s0 es m s -> let '(es', m', s') := calls lt func m s ks in Sim s0 (rev es' ++ es) m' s' /\ map key es' = ks.
Proof.
  induction ks as [|k ks IH]; intros es m s SIM; cbn [calls]; [split; [exact SIM|reflexivity]|]. destruct (call lt func m s k) as [[o m1] s1] eqn:E. pose proof (sim_call s0 es m s k o m1 s1 SIM E) as SIM1. specialize (IH _ m1 s1 SIM1).
  destruct (calls lt func m1 s1 ks) as [[es' m'] s']. destruct IH as [IH1 IH2]. cbn [rev map key]. rewrite <- app_assoc. split; [exact IH1|rewrite IH2; reflexivity].
Qed.
(* consequences *)
Lemma transparent_same s0 es s : Transparent same func s0 es s -> forall e e' r r', In e es -> In e' es -> same (key e) (key e') -> outcome e = Some r -> outcome e' = Some r' -> r = r'.
Proof.
  induction 1 as [|es s k e0 r0 T IH I0 S0 O0|es s k o s' T IH N F]; intros e e' r r' I I' Q O O'; [destruct I| |].
  - destruct I as [<-|I]; destruct I' as [<-|I']; cbn in *.
    + congruence.
    + injection O as ->. apply (IH e0 e' r r' I0 I'); auto. eapply same_trans; eassumption.
    + injection O' as ->. apply (IH e e0 r r' I I0); auto. eapply same_trans; [exact Q|apply same_sym; exact S0].
    + apply (IH e e' r r'); assumption.
  - destruct I as [<-|I]; destruct I' as [<-|I']; cbn in *.
    + congruence.
    + rewrite (N e' I' (same_sym _ _ Q)) in O'. discriminate.
    + rewrite (N e I Q) in O. discriminate.
    + apply (IH e e' r r'); assumption.
Qed.
Lemma transparent_once s0 es s : Transparent same func s0 es s -> forall a e b e' c, es = a ++ e :: b ++ e' :: c -> same (key e') (key e) -> outcome e' <> None -> invoked e = false.
Proof.
  induction 1 as [|es s k e0 r0 T IH I0 S0 O0|es s k o s' T IH N F]; intros a e b e' c E Q O.
  - destruct a; discriminate.
  - destruct a as [|x a]; cbn in E; [injection E as <- E; reflexivity|]. injection E as _ E. eapply IH; eassumption.
  - destruct a as [|x a]; cbn in E; [injection E as <- E|injection E as _ E; eapply IH; eassumption]. exfalso. apply O. apply N; [rewrite E; apply in_or_app; right; left; reflexivity|exact Q].
Qed.
Lemma transparent_source s0 es s : Transparent same func s0 es s -> forall e r, In e es -> outcome e = Some r -> exists e', In e' es /\ invoked e' = true /\ same (key e') (key e) /\ outcome e' = Some r.
Proof.
  induction 1 as [|es s k e0 r0 T IH I0 S0 O0|es s k o s' T IH N F]; intros e r I O; [destruct I| |].
  - destruct I as [<-|I]; cbn in O.
    + injection O as <-. destruct (IH e0 r0 I0 O0) as (e' & I' & V & Q & O'). exists e'. split; [right; exact I'|]. split; [exact V|]. split; [eapply same_trans; [exact Q|exact S0]|exact O'].
    + destruct (IH e r I O) as (e' & I' & X). exists e'. split; [right; exact I'|exact X].
  - destruct I as [<-|I]; cbn in O; [exists (mkEvent k true o); split; [left; reflexivity|]; split; [reflexivity|]; split; [apply same_refl|exact O]|].
    destruct (IH e r I O) as (e' & I' & X). exists e'. split; [right; exact I'|exact X].
Qed.
Lemma transparent_pure f s0 es s : (forall k s, fst (func k s) = f k) -> (forall a b, same a b -> f a = f b) -> Transparent same func s0 es s -> forall e, In e es -> outcome e = f (key e).
Proof.
  intros P C T. induction T as [|es s k e0 r0 T IH I0 S0 O0|es s k o s' T IH N F]; intros e I; [destruct I| |].
  - destruct I as [<-|I]; [|auto]. cbn. rewrite <- (C _ _ S0), <- O0. apply IH. exact I0.
  - destruct I as [<-|I]; [|auto]. cbn. rewrite <- (P k s), F. reflexivity.
Qed.
End Stateful.

(* recursive functions; the map tells all keys apart *)
Section Recursive.
Context {K R : Type} (lt : K -> K -> bool) (body : K -> prog K R) (total : forall a b, same_key lt a b = true <-> a = b).
Definition exec_plain (n : nat) : prog K R -> res R :=
  fix exec (p : prog K R) : res R :=
    match p with
    | Ret r => Ok r
    | Fail => Throw
    | Ask j c => match plain body n j with Ok r => exec (c r) | Throw => Throw | UB => UB | OutOfFuel => OutOfFuel end
    end.
Definition exec_memo (n : nat) : prog K R -> @memory K R -> list K -> res R * @memory K R * list K :=
  fix exec (p : prog K R) (m : @memory K R) (log : list K) : res R * @memory K R * list K :=
    match p with
    | Ret r => (Ok r, m, log)
    | Fail => (Throw, m, log)
    | Ask j c =>
      let '(o, m', log') := memoized lt body n m log j in
      match o with Ok r => exec (c r) m' log' | Throw => (Throw, m', log') | UB => (UB, m', log') | OutOfFuel => (OutOfFuel, m', log') end
    end.
Lemma plain_S n k : plain body (S n) k = exec_plain n (body k).
Proof. reflexivity. Qed.
Lemma memoized_S n m log k : memoized lt body (S n) m log k =
  match find_key lt m k with
  | Some r => (Ok r, m, log)
  | None => let '(o, m', log') := exec_memo n (body k) m (k :: log) in match o with Ok r => (Ok r, assign_key lt m' k r, log') | _ => (o, m', log') end
  end.
Proof. reflexivity. Qed.
Lemma exec_plain_ub n : (forall k, plain body n k <> UB) -> forall p, exec_plain n p <> UB.
Proof. intros H p. induction p as [r| |j c IH]; cbn; try discriminate. specialize (H j). destruct (plain body n j); try discriminate; [apply IH|congruence]. Qed.
Lemma plain_not_ub n : forall k, plain body n k <> UB.
Proof. induction n as [|n IH]; intros k; [discriminate|]. rewrite plain_S. apply exec_plain_ub. exact IH. Qed.
Lemma exec_plain_mono n n' : (forall k, plain body n k <> OutOfFuel -> plain body n' k = plain body n k) -> forall p, exec_plain n p <> OutOfFuel -> exec_plain n' p = exec_plain n p.
Proof.
  intros H p. induction p as [r| |j c IH]; cbn; intros N; try reflexivity. specialize (H j). destruct (plain body n j) as [r| | |] eqn:E; try (rewrite H by discriminate); auto. congruence.
Qed.
Lemma plain_mono n : forall k n', n <= n' -> plain body n k <> OutOfFuel -> plain body n' k = plain body n k.
Proof.
  induction n as [|n IH]; intros k n' L N; [exfalso; apply N; reflexivity|]. destruct n' as [|n']; [lia|]. rewrite !plain_S in *. apply exec_plain_mono; [|exact N]. intros j D. apply IH; [lia|exact D].
Qed.
Lemma assign_new (m : @memory K R) k r : find_key lt m k = None -> assign_key lt m k r = m ++ [(k, r)].
Proof. induction m as [|[k' r'] m IH]; cbn [find_key assign_key]; [reflexivity|]. destruct (same_key lt k' k); [discriminate|]. intros F. rewrite IH by exact F. reflexivity. Qed.
Lemma find_key_in (m : @memory K R) k : find_key lt m k <> None <-> In k (map fst m).
Proof.
  induction m as [|[k' r'] m IH]; cbn [find_key map fst In]; [tauto|]. destruct (same_key lt k' k) eqn:E.
  - apply total in E. subst. split; [auto|discriminate].
  - rewrite IH. split; [auto|]. intros [->|I]; [|exact I]. rewrite (proj2 (total k k) eq_refl) in E. discriminate.
Qed.
Lemma find_app (m m' : @memory K R) k : find_key lt (m ++ m') k = match find_key lt m k with Some r => Some r | None => find_key lt m' k end.
Proof. induction m as [|[k' r'] m IH]; cbn [app find_key]; [reflexivity|]. destruct (same_key lt k' k); [reflexivity|exact IH]. Qed.
Lemma least n k : plain body n k <> OutOfFuel -> exists i, i < n /\ plain body (S i) k <> OutOfFuel /\ plain body i k = OutOfFuel.
Proof.
  induction n as [|n IH]; intros D; [exfalso; apply D; reflexivity|]. destruct (plain body n k) as [r| | |] eqn:E.
  - destruct IH as (i & L & X); [discriminate|]. exists i. split; [lia|exact X].
  - destruct IH as (i & L & X); [discriminate|]. exists i. split; [lia|exact X].
  - exfalso. exact (plain_not_ub n k E).
  - exists n. split; [lia|]. split; [exact D|exact E].
Qed.
(* the memory holds only values of the function *)
Definition Right (m : @memory K R) : Prop := forall k r, find_key lt m k = Some r -> exists i, plain body i k = Ok r.
Lemma plain_fun i j k r : plain body i k <> OutOfFuel -> plain body j k = Ok r -> plain body i k = Ok r.
Proof.
  intros D E. destruct (le_lt_dec i j) as [L|L]; [rewrite <- (plain_mono i k j L D); exact E|]. rewrite <- E. apply plain_mono; [lia|]. rewrite E. discriminate.
Qed.
(* what an evaluation adds to the memory and to the log; need i says that it
   gets by with calls i deep *)
Definition Adds (need : nat -> Prop) (want : res R) (m : @memory K R) (log : list K) (x : res R * @memory K R * list K) : Prop :=
  fst (fst x) = want /\ exists new l, snd (fst x) = m ++ new /\ snd x = l ++ log /\ NoDup (map fst new) /\
  (forall k r, In (k, r) new -> find_key lt m k = None /\ forall i, need i -> plain body i k = Ok r) /\
  (forall r, want = Ok r -> Permutation l (map fst new)).
Lemma right_app m new i : Right m -> (forall k r, In (k, r) new -> plain body i k = Ok r) -> Right (m ++ new).
Proof.
  intros A B k r F. rewrite find_app in F. destruct (find_key lt m k) as [x|] eqn:E; [injection F as <-; exact (A k x E)|]. exists i. apply B. clear - F total. induction new as [|[k' r'] new IH]; [discriminate|]. cbn [find_key] in F.
  destruct (same_key lt k' k) eqn:E; [apply total in E; subst; injection F as <-; left; reflexivity|right; apply IH; exact F].
Qed.
Lemma exec_adds n : (forall k m log, plain body n k <> OutOfFuel -> Right m -> Adds (fun i => plain body i k <> OutOfFuel) (plain body n k) m log (memoized lt body n m log k)) ->
  forall p m log, exec_plain n p <> OutOfFuel -> Right m -> Adds (fun i => exec_plain i p <> OutOfFuel) (exec_plain n p) m log (exec_memo n p m log).
Proof.
  intros H p. induction p as [r| |j c IH]; intros m log D RM.
  - split; [reflexivity|]. exists [], []. cbn. rewrite app_nil_r. split; [reflexivity|]. split; [reflexivity|]. split; [constructor|]. split; [intros ? ? []|intros; constructor].
  - split; [reflexivity|]. exists [], []. cbn. rewrite app_nil_r. split; [reflexivity|]. split; [reflexivity|]. split; [constructor|]. split; [intros ? ? []|intros; constructor].
  - cbn [exec_plain exec_memo] in *. fold (exec_plain n) in *. fold (exec_memo n).
    assert (DJ : plain body n j <> OutOfFuel) by (intros E; rewrite E in D; apply D; reflexivity). destruct (H j m log DJ RM) as (W & new & l & EM & EL & ND & NW & PE).
    destruct (memoized lt body n m log j) as [[o m1] log1]. cbn [fst snd] in *. subst o m1 log1. destruct (plain body n j) as [r| | |] eqn:PJ; [| |exfalso; exact (plain_not_ub n j PJ)|congruence].
    + destruct (IH r (m ++ new) (l ++ log) D) as (W2 & new2 & l2 & EM2 & EL2 & ND2 & NW2 & PE2).
      { apply (right_app m new n RM). intros k x I. destruct (NW k x I) as [_ Y]. apply Y. rewrite PJ. discriminate. }
      split; [exact W2|]. exists (new ++ new2), (l2 ++ l). rewrite EM2, EL2, !app_assoc. split; [reflexivity|]. split; [reflexivity|]. split; [|split].
      * rewrite map_app. clear - ND ND2 NW2 total. induction new as [|[k x] new IHn]; [exact ND2|]. cbn in *. inversion ND as [|? ? NI ND']; subst. constructor.
        -- intros I. apply in_app_or in I as [I|I]; [contradiction|]. apply in_map_iff in I as ([k2 x2] & E & I). cbn in E. subst k2. destruct (NW2 k x2 I) as [F _]. rewrite find_app in F. destruct (find_key lt m k); [discriminate|]. cbn [find_key] in F. rewrite (proj2 (total k k) eq_refl) in F. discriminate.
        -- apply IHn; [exact ND'|]. intros k2 x2 I. destruct (NW2 k2 x2 I) as [F Y]. split; [|exact Y]. rewrite find_app in *. destruct (find_key lt m k2); [discriminate|]. cbn [find_key] in F. destruct (same_key lt k k2); [discriminate|exact F].
      * intros k x I. apply in_app_or in I as [I|I].
        -- destruct (NW k x I) as [F Y]. split; [exact F|]. intros i D'. apply Y. intros E. apply D'. cbn. rewrite E. reflexivity.
        -- destruct (NW2 k x I) as [F Y]. split; [rewrite find_app in F; destruct (find_key lt m k); [discriminate|reflexivity]|]. intros i D'. apply Y. cbn in D'. fold (exec_plain i) in D'. assert (DI : plain body i j <> OutOfFuel) by (intros E; apply D'; rewrite E; reflexivity). rewrite (plain_fun i n j r DI PJ) in D'. exact D'.
      * intros x E. rewrite map_app. rewrite Permutation_app_comm. apply Permutation_app; [apply (PE r eq_refl)|apply (PE2 x E)].
    + split; [reflexivity|]. exists new, l. split; [reflexivity|]. split; [reflexivity|]. split; [exact ND|]. split; [|discriminate]. intros k x I. destruct (NW k x I) as [F Y]. split; [exact F|]. intros i D'. apply Y. intros E. apply D'. cbn. rewrite E. reflexivity.
Qed.
Lemma memoized_adds n : forall k m log, plain body n k <> OutOfFuel -> Right m -> Adds (fun i => plain body i k <> OutOfFuel) (plain body n k) m log (memoized lt body n m log k).
Proof.
  induction n as [|n IH]; intros k m log D RM; [exfalso; apply D; reflexivity|]. rewrite memoized_S. destruct (find_key lt m k) as [r|] eqn:F.
  - destruct (RM k r F) as [i E]. split; [cbn [fst]; symmetry; eapply plain_fun; eassumption|]. exists [], []. cbn [snd fst app]. rewrite app_nil_r. split; [reflexivity|]. split; [reflexivity|]. split; [constructor|]. split; [intros ? ? []|intros; constructor].
  - destruct (least (S n) k D) as (i0 & L0 & D0 & N0). pose proof D as D1. rewrite plain_S in D1. destruct (exec_adds n IH (body k) m (k :: log) D1 RM) as (W & new & l & EM & EL & ND & NW & PE).
    rewrite <- plain_S in *. destruct (exec_memo n (body k) m (k :: log)) as [[o m1] log1]. cbn [fst snd] in *. subst o m1 log1.
    assert (NK : find_key lt (m ++ new) k = None).
    { rewrite find_app, F. destruct (find_key lt new k) as [x|] eqn:E; [|reflexivity]. exfalso. assert (I : exists y, In (k, y) new) by (assert (X : find_key lt new k <> None) by congruence; apply find_key_in in X; apply in_map_iff in X as ([k2 y] & E2 & I); cbn in E2; subst; eauto).
      destruct I as [y I]. destruct (NW k y I) as [_ Y]. rewrite plain_S in D0. specialize (Y i0 D0). congruence. }
    assert (NW' : forall k' r', In (k', r') new -> find_key lt m k' = None /\ forall i, plain body i k <> OutOfFuel -> plain body i k' = Ok r').
    { intros k' r' I. destruct (NW k' r' I) as [X Y]. split; [exact X|]. intros i DI. destruct i as [|i]; [exfalso; apply DI; reflexivity|]. rewrite plain_S in DI. rewrite <- (Y i DI). apply plain_mono; [lia|]. rewrite (Y i DI). discriminate. }
    destruct (plain body (S n) k) as [r| | |] eqn:PK; [| |exfalso; exact (plain_not_ub (S n) k PK)|congruence].
    + split; [reflexivity|]. exists (new ++ [(k, r)]), (l ++ [k]). cbn [fst snd]. rewrite (assign_new _ _ _ NK), <- !app_assoc. split; [reflexivity|]. split; [reflexivity|]. rewrite map_app. cbn [map fst]. split; [|split].
      * apply NoDup_snoc; [exact ND|]. intros I. apply find_key_in in I. rewrite find_app, F in NK. congruence.
      * intros k' r' I. apply in_app_or in I as [I|[E|[]]]; [apply NW'; exact I|]. injection E as <- <-. split; [exact F|]. intros i DI. eapply plain_fun; eassumption.
      * intros x E. apply Permutation_app_tail. apply (PE r eq_refl).
    + split; [reflexivity|]. exists new, (l ++ [k]). cbn [fst snd]. rewrite <- app_assoc. split; [reflexivity|]. split; [reflexivity|]. split; [exact ND|]. split; [exact NW'|discriminate].
Qed.
(* whatever the fuel, an answer is an answer of the function *)
Lemma find_assign (m : @memory K R) k r j : find_key lt (assign_key lt m k r) j = if same_key lt k j then Some r else find_key lt m j.
Proof.
  induction m as [|[k' r'] m IH]; cbn [assign_key find_key]; [reflexivity|]. destruct (same_key lt k' k) eqn:E; cbn [find_key].
  - apply total in E. subst k'. destruct (same_key lt k j); reflexivity.
  - rewrite IH. destruct (same_key lt k' j) eqn:E2; [|reflexivity]. apply total in E2. subst k'. destruct (same_key lt k j) eqn:E3; [|reflexivity]. apply total in E3. subst j. rewrite (proj2 (total k k) eq_refl) in E. discriminate.
Qed.
Lemma exec_plain_more i i' p : i <= i' -> exec_plain i p <> OutOfFuel -> exec_plain i' p = exec_plain i p.
Proof. intros L. apply exec_plain_mono. intros k. apply plain_mono. exact L. Qed.
Definition Sound (val : nat -> res R) (x : res R * @memory K R * list K) : Prop :=
  Right (snd (fst x)) /\ (fst (fst x) = OutOfFuel \/ exists i, val i = fst (fst x) /\ fst (fst x) <> UB).
Lemma exec_sound n : (forall k m log, Right m -> Sound (fun i => plain body i k) (memoized lt body n m log k)) ->
  forall p m log, Right m -> Sound (fun i => exec_plain i p) (exec_memo n p m log).
Proof.
  intros H p. induction p as [r| |j c IH]; intros m log RM; [split; [exact RM|right; exists 0; split; [reflexivity|discriminate]]|split; [exact RM|right; exists 0; split; [reflexivity|discriminate]]|].
  cbn [exec_memo]. fold (exec_memo n). destruct (H j m log RM) as [R1 V1]. destruct (memoized lt body n m log j) as [[o m1] log1]. cbn [fst snd] in *. destruct o as [r| | |].
  - destruct V1 as [C|(i & E & _)]; [discriminate|]. destruct (IH r m1 log1 R1) as [R2 V2]. split; [exact R2|]. destruct V2 as [O|(i2 & E2 & NU)]; [left; exact O|].
    destruct (fst (fst (exec_memo n (c r) m1 log1))) as [x| | |] eqn:EX; [| |congruence|left; reflexivity]; right; exists (max i i2); (split; [|discriminate]); cbn; fold (exec_plain (max i i2));
    (rewrite (plain_mono i j (max i i2)) by (try lia; rewrite E; discriminate)); rewrite E; rewrite (exec_plain_more i2) by (try lia; rewrite E2; discriminate); exact E2.
  - destruct V1 as [C|(i & E & _)]; [discriminate|]. split; [exact R1|]. right. exists i. cbn. rewrite E. split; [reflexivity|discriminate].
  - destruct V1 as [C|(i & E & C)]; [discriminate|congruence].
  - split; [exact R1|left; reflexivity].
Qed.
Lemma memoized_sound n : forall k m log, Right m -> Sound (fun i => plain body i k) (memoized lt body n m log k).
Proof.
  induction n as [|n IH]; intros k m log RM; [split; [exact RM|left; reflexivity]|]. rewrite memoized_S. destruct (find_key lt m k) as [r|] eqn:F.
  - split; [exact RM|]. right. destruct (RM k r F) as [i E]. exists i. split; [exact E|discriminate].
  - destruct (exec_sound n IH (body k) m (k :: log) RM) as [R1 V1]. destruct (exec_memo n (body k) m (k :: log)) as [[o m1] log1]. cbn [fst snd] in *. destruct o as [r| | |].
    + destruct V1 as [C|(i & E & _)]; [discriminate|]. assert (PK : plain body (S i) k = Ok r) by (rewrite plain_S; exact E). split; cbn [fst snd].
      * intros j x X. rewrite find_assign in X. destruct (same_key lt k j) eqn:SK; [|exact (R1 j x X)]. apply total in SK. subst j. injection X as <-. eauto.
      * right. exists (S i). split; [exact PK|discriminate].
    + destruct V1 as [C|(i & E & _)]; [discriminate|]. split; [exact R1|]. right. exists (S i). split; [rewrite plain_S; exact E|discriminate].
    + destruct V1 as [C|(i & E & C)]; [discriminate|congruence].
    + split; [exact R1|left; reflexivity].
Qed.
End Recursive.
