(* C47: memoize is transparent and calls once *)
From Coq Require Import Permutation.
From Verif Require Import Model.Base Model.Memoize Spec.Memoize Proofs.MemoizeProofs.

(* keys a map with the order lt does not tell apart *)
Definition Same {K} (lt : K -> K -> bool) (a b : K) : Prop := lt a b = false /\ lt b a = false.
Definition WeakOrder {K} (lt : K -> K -> bool) : Prop :=
  (forall a, lt a a = false) /\ (forall a b c, Same lt a b -> Same lt b c -> Same lt a c).
Lemma same_iff {K} (lt : K -> K -> bool) a b : same_key lt a b = true <-> Same lt a b.
Proof. unfold same_key, Same. destruct (lt a b), (lt b a); cbn; intuition congruence. Qed.
Lemma weak_laws {K} (lt : K -> K -> bool) : WeakOrder lt -> (forall a, same_key lt a a = true) /\ (forall a b c, same_key lt a b = true -> same_key lt b c = true -> same_key lt a c = true).
Proof. intros [A B]. split; [intros a; apply same_iff; split; apply A|]. intros a b c. rewrite !same_iff. apply B. Qed.

(* For any function, also one that keeps a state or throws, and any sequence of
   calls: a call whose key has had a result before repeats that result and
   invokes nothing, any other call is one invocation of the function. *)
Theorem C47_transparent : forall K R S (lt : K -> K -> bool) (func : K -> S -> option R * S) s0 ks, WeakOrder lt ->
  let '(es, _, s) := calls lt func [] s0 ks in Transparent (fun a b => same_key lt a b = true) func s0 (rev es) s /\ map key es = ks.
Proof.
  intros K R S lt func s0 ks W. destruct (weak_laws lt W) as [A B]. pose proof (calls_sim lt func B s0 ks [] [] s0 (sim_start lt func s0)) as X. destruct (calls lt func [] s0 ks) as [[es m] s]. destruct X as [X Y]. split; [|exact Y]. rewrite app_nil_r in X. apply X.
Qed.
(* Equal keys give equal results, each the result of an invocation with that
   key, and after a success the function is never invoked with that key again. *)
Theorem C47_once : forall K R S (lt : K -> K -> bool) (func : K -> S -> option R * S) s0 ks, WeakOrder lt ->
  let es := fst (fst (calls lt func [] s0 ks)) in
  (forall e e' r r', In e es -> In e' es -> Same lt (key e) (key e') -> outcome e = Some r -> outcome e' = Some r' -> r = r') /\
  (forall e r, In e es -> outcome e = Some r -> exists e', In e' es /\ invoked e' = true /\ Same lt (key e') (key e) /\ outcome e' = Some r) /\
  (forall a e b e' c, es = a ++ e :: b ++ e' :: c -> Same lt (key e) (key e') -> outcome e <> None -> invoked e' = false).
Proof.
  intros K R S lt func s0 ks W. destruct (weak_laws lt W) as [A B]. pose proof (C47_transparent K R S lt func s0 ks W) as T. destruct (calls lt func [] s0 ks) as [[es m] s]. destruct T as [T _]. cbn [fst]. split; [|split].
  - intros e e' r r' I I' Q O O'. apply in_rev in I. apply in_rev in I'. apply same_iff in Q. exact (transparent_same lt func B s0 (rev es) s T e e' r r' I I' Q O O').
  - intros e r I O. apply in_rev in I. destruct (transparent_source lt func A B s0 (rev es) s T e r I O) as (e' & I' & V & Q & O'). exists e'. split; [apply in_rev; exact I'|]. split; [exact V|]. split; [apply same_iff; exact Q|exact O'].
  - intros a e b e' c E Q O. apply same_iff in Q. apply (transparent_once lt func s0 (rev es) s T (rev c) e' (rev b) e (rev a)); [|exact Q|exact O].
    rewrite E. rewrite rev_app_distr. cbn [rev]. rewrite rev_app_distr. cbn [rev]. rewrite <- !app_assoc. reflexivity.
Qed.
(* For a function of the key alone, that does not tell apart what the map does
   not, memoize changes nothing. *)
Theorem C47_pure : forall K R (lt : K -> K -> bool) (f : K -> option R) ks, WeakOrder lt -> (forall a b, Same lt a b -> f a = f b) ->
  map outcome (fst (fst (calls lt (fun k (u : unit) => (f k, u)) [] tt ks))) = map f ks.
Proof.
  intros K R lt f ks W C. pose proof (C47_transparent K R unit lt (fun k u => (f k, u)) tt ks W) as T. destruct (calls lt (fun k u => (f k, u)) [] tt ks) as [[es m] s]. destruct T as [T <-]. cbn [fst]. rewrite map_map. apply map_ext_in. intros e I.
  apply (transparent_pure lt (fun k u => (f k, u)) f tt (rev es) s); [reflexivity| |exact T|apply -> in_rev; exact I]. intros a b Q. apply C, same_iff. exact Q.
Qed.
Theorem C47_weak_order_refuted : exists (lt : nat -> nat -> bool) (f : nat -> option nat) ks, WeakOrder lt /\
  map outcome (fst (fst (calls lt (fun k (u : unit) => (f k, u)) [] tt ks))) <> map f ks.
Proof. exists (fun _ _ => false), Some, [1; 2]. split; [split; unfold Same; auto|]. vm_compute. discriminate. Qed.

(* A function that calls itself through its memoized version gives what it
   gives without memory, is invoked once for each key it needs and has not yet
   got, and leaves only right values in the memory. *)
Theorem C47_recursive : forall K R (lt : K -> K -> bool) (body : K -> prog K R), (forall a b, Same lt a b <-> a = b) ->
  forall n k m log, (forall j r, find_key lt m j = Some r -> exists i, plain body i j = Ok r) -> plain body n k <> OutOfFuel ->
  exists new l, memoized lt body n m log k = (plain body n k, m ++ new, l ++ log) /\
  NoDup (map fst new) /\ (forall j r, In (j, r) new -> ~ In j (map fst m) /\ plain body n j = Ok r) /\
  (forall r, plain body n k = Ok r -> Permutation l (map fst new)).
Proof.
  intros K R lt body T n k m log RM D. assert (T' : forall a b, same_key lt a b = true <-> a = b) by (intros a b; rewrite same_iff; apply T).
  destruct (memoized_adds lt body T' n k m log D RM) as (W & new & l & EM & EL & ND & NW & PE). exists new, l. destruct (memoized lt body n m log k) as [[o m1] log1]. cbn [fst snd] in *. subst. split; [reflexivity|]. split; [exact ND|]. split; [|exact PE].
  intros j r I. destruct (NW j r I) as [F Y]. split; [|apply Y; exact D]. rewrite <- (find_key_in lt body T' m j). congruence.
Qed.
(* Also when it runs out of depth without memory, what it answers is right. *)
Theorem C47_recursive_sound : forall K R (lt : K -> K -> bool) (body : K -> prog K R), (forall a b, Same lt a b <-> a = b) ->
  forall n k m log o m' log', (forall j r, find_key lt m j = Some r -> exists i, plain body i j = Ok r) -> memoized lt body n m log k = (o, m', log') ->
  (forall j r, find_key lt m' j = Some r -> exists i, plain body i j = Ok r) /\ (o = OutOfFuel \/ exists i, plain body i k = o).
Proof.
  intros K R lt body T n k m log o m' log' RM E. assert (T' : forall a b, same_key lt a b = true <-> a = b) by (intros a b; rewrite same_iff; apply T).
  destruct (memoized_sound lt body T' n k m log RM) as [A B]. rewrite E in *. cbn [fst snd] in *. split; [exact A|]. destruct B as [->|(i & X & _)]; [auto|right; eauto].
Qed.

(* Fibonacci *)
Definition fib_body (k : nat) : prog nat nat := match k with 0 => Ret 0 | 1 => Ret 1 | S (S j as i) => Ask i (fun a => Ask j (fun b => Ret (a + b))) end.
Example C47_nonvacuous :
  WeakOrder Nat.ltb /\
  map (fun e => (invoked e, outcome e)) (fst (fst (calls Nat.ltb (fun k s => (if Nat.eqb k 9 then None else Some (k + s), S s)) [] 10 [1; 2; 1; 9; 2; 9]))) =
    [(true, Some 11); (true, Some 13); (false, Some 11); (true, None); (false, Some 13); (true, None)] /\
  fst (fst (memoized Nat.ltb fib_body 20 [] [] 12)) = Ok 144 /\ length (snd (memoized Nat.ltb fib_body 20 [] [] 12)) = 13.
Proof.
  split.
  - split; [intros a; apply Nat.ltb_irrefl|]. unfold Same. intros a b c. rewrite !Nat.ltb_ge. lia.
  - split; [vm_compute; reflexivity|]. split; vm_compute; reflexivity.
Qed.
