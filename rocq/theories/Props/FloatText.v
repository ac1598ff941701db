(* C90: the text of floating point numbers *)
From Coq Require Import String.
From Verif Require Import Model.Base Proofs.BaseFacts Model.StdString Model.Strings Model.Number Model.CharStream Model.PropTree Model.PropNode Model.PropFile Model.PropCast Model.FloatText
  Spec.Strings Spec.Decimal Spec.PropNode Spec.PropText Spec.PropCast Spec.FloatText
  Proofs.StringFacts Proofs.NumberProofs Proofs.ScanProofs Proofs.PropNodeProofs Proofs.PropCastProofs Props.PropCast Proofs.FloatScanProofs Proofs.FloatTextProofs.
Local Open Scope list_scope.
Local Open Scope Z_scope.

(* A number is written as the nearest multiple of one millionth. *)
Theorem C90_text : forall f neg n, IEEE f -> Finite f n ->
  exists k, Fixed6 neg k (to_text f (FFin neg n)) /\ Rounds (n * 10 ^ 6) (2 ^ fm_low f) k.
Proof. intros f neg n I F. exists (sixths f n). split; [apply text_fixed; assumption|]. apply sixths_rounds. destruct (ieee_wide f I) as [_ W]. destruct (ieee_wide f I) as [[? ?] _]. lia. Qed.
Theorem C90_text_unique : forall neg k neg' k' s, Fixed6 neg k s -> Fixed6 neg' k' s -> neg = neg' /\ k = k'.
Proof. exact fixed_fun. Qed.
(* Reading takes the longest number the text begins with, and gives the nearest
   value of the type. *)
Theorem C90_read : forall f under s x, IEEE f ->
  (stod f under s = Ok x <-> exists neg v r, Begins (cstr s) neg v r /\ Stands f neg v x /\ ~ OutOfRange f under v).
Proof.
  intros f under s x I. pose proof (ieee_wide f I) as W. unfold stod. split.
  - destruct (strtod f under (cstr s)) as [[[y []] r]|] eqn:E; try discriminate. intros H. injection H as ->. apply strtod_iff in E; [|exact W]. destruct E as (neg & v & B & S & R). exists neg, v, r. split; [exact B|]. split; [exact S|]. intros O. apply R in O. discriminate.
  - intros (neg & v & r & B & S & R). assert (E : strtod f under (cstr s) = Some (x, false, r)) by (apply strtod_iff; [exact W|]; exists neg, v; split; [exact B|]; split; [exact S|]; split; [discriminate|intros O; contradiction]). rewrite E. reflexivity.
Qed.
(* It throws in all other cases. *)
Theorem C90_throws : forall f under s, IEEE f ->
  (stod f under s = Throw <-> (forall neg v r, ~ Begins (cstr s) neg v r) \/ exists neg v r, Begins (cstr s) neg v r /\ OutOfRange f under v).
Proof.
  intros f under s I. pose proof (ieee_wide f I) as W. unfold stod. split.
  - destruct (strtod f under (cstr s)) as [[[y []] r]|] eqn:E; try discriminate; intros _.
    + right. apply strtod_iff in E; [|exact W]. destruct E as (neg & v & B & S & R). exists neg, v, r. split; [exact B|]. apply R. reflexivity.
    + left. exact (proj1 (strtod_none f under _) E).
  - intros [N|(neg & v & r & B & O)].
    + rewrite (proj2 (strtod_none f under _) N). reflexivity.
    + destruct (strtod f under (cstr s)) as [[[y e] r']|] eqn:E; [|reflexivity]. pose proof E as E'. apply strtod_iff in E; [|exact W]. destruct E as (neg' & v' & B' & S & R). apply begins_parse in B, B'. rewrite B in B'. injection B' as -> -> ->. destruct e; [reflexivity|]. apply R in O. discriminate.
Qed.
(* string_is tells whether it throws. *)
Theorem C90_is : forall f under s, IEEE f -> (string_is_real f under s = true <-> exists neg v r, Begins (cstr s) neg v r /\ ~ OutOfRange f under v).
Proof.
  intros f under s I. pose proof (ieee_wide f I) as W. unfold string_is_real. split.
  - destruct (stod f under s) as [x| | |] eqn:E; try discriminate. intros _. apply C90_read in E; [|exact I]. destruct E as (neg & v & r & B & _ & O). exists neg, v, r. auto.
  - intros (neg & v & r & B & O). assert (E : stod f under s = Ok (to_fnum f neg v)); [|rewrite E; reflexivity]. apply C90_read; [exact I|]. exists neg, v, r. split; [exact B|]. split; [|exact O]. apply stands_iff; [exact W|exact (begins_valued _ _ _ _ B)|reflexivity].
Qed.
(* A stream reads the number at its position, without regard to the range, and
   goes on behind it; without a number it gives 0, stays and fails. *)
Theorem C90_stream : forall f under st, IEEE f ->
  (forall neg v r x, Begins (cs_rest st) neg v r -> Stands f neg v x -> read_real f under st = (x, skip_delimiters (with_rest st r))) /\
  ((forall neg v r, ~ Begins (cs_rest st) neg v r) -> read_real f under st = (FFin false 0, set_fail st)).
Proof.
  intros f under st I. pose proof (ieee_wide f I) as W. unfold read_real. split.
  - intros neg v r x B S. destruct (strtod f under (cs_rest st)) as [[[y e] r']|] eqn:E.
    + apply strtod_iff in E; [|exact W]. destruct E as (neg' & v' & B' & S' & _). pose proof (proj1 (begins_parse _ _ _ _) B) as P. pose proof (proj1 (begins_parse _ _ _ _) B') as P'. rewrite P in P'. injection P' as <- <- <-.
      assert (V : valued v) by exact (begins_valued _ _ _ _ B). apply (stands_iff f neg v x W V) in S. apply (stands_iff f neg v y W V) in S'. subst x y. f_equal. unfold process_end_pos. destruct B as (w & g & b & E & _ & _ & F & _). destruct (form_head b v F) as (c & u & -> & _). rewrite E.
      assert (L : (List.length (w ++ g ++ (c :: u) ++ r) - List.length r = List.length (w ++ g ++ c :: u))%nat) by (rewrite !app_length; cbn [List.length]; rewrite ?app_length; lia). rewrite L. destruct (Nat.eqb_spec (List.length (w ++ g ++ c :: u)) 0) as [Q|_]; [rewrite !app_length in Q; cbn in Q; lia|].
      f_equal. f_equal. replace (w ++ g ++ (c :: u) ++ r) with ((w ++ g ++ c :: u) ++ r) by (rewrite <- !app_assoc; reflexivity). rewrite skipn_app, skipn_all, Nat.sub_diag. reflexivity.
    + apply strtod_none with (neg := neg) (v := v) (r := r) in E. contradiction.
  - intros N. apply (strtod_none f under) in N. rewrite N. reflexivity.
Qed.
(* What a text begins with, and what that stands for, is one thing only. *)
Theorem C90_read_unique : forall f s neg v r neg' v' r' x x', IEEE f -> Begins s neg v r -> Begins s neg' v' r' ->
  neg = neg' /\ v = v' /\ r = r' /\ (Stands f neg v x -> Stands f neg v x' -> x = x').
Proof.
  intros f s neg v r neg' v' r' x x' I B B'. pose proof (begins_valued _ _ _ _ B) as V. apply begins_parse in B, B'. rewrite B in B'. injection B' as -> -> ->. repeat split. intros S S'.
  apply stands_iff in S; [|exact (ieee_wide f I)|exact V]. apply stands_iff in S'; [|exact (ieee_wide f I)|exact V]. congruence.
Qed.
(* A number that was written is read again, without error, to a millionth, and
   with its sign; writing that gives the same text. *)
Theorem C90_roundtrip : forall f under neg n, IEEE f -> Finite f n ->
  exists m, stod f under (to_text f (FFin neg n)) = Ok (FFin neg m) /\ Finite f m /\ Z.abs (m - n) * 10 ^ 6 <= 2 ^ fm_low f /\
  to_text f (FFin neg m) = to_text f (FFin neg n).
Proof.
  intros f under neg n I F. pose proof (ieee_wide f I) as W. pose proof W as [[W1 W2] W3]. pose proof F as [R L]. pose proof (rep_nonneg f n R) as N. pose proof (sixths_nonneg f n ltac:(lia) N) as K. pose proof (sixths_rounds f n ltac:(lia)) as RK.
  pose proof (round_closest f (sixths f n) (10 ^ 6) ltac:(lia) ltac:(lia) K ltac:(lia)) as C. set (m := round_units f (sixths f n) (10 ^ 6)) in *. exists m. pose proof (six_finite f n _ m W F RK C) as FM.
  split; [|split; [exact FM|split; [apply (six_error f n (sixths f n)); try assumption; lia|]]].
  - unfold stod. rewrite text_cstr by (try exact I; exact F). rewrite <- (app_nil_r (to_text f (FFin neg n))). rewrite (fixed_strtod f under neg (sixths f n) _ [] m W (text_fixed f neg n I F) ends_nil K C (proj2 FM)). reflexivity.
  - pose proof (six_stable f n _ m W R RK C) as RM. pose proof (rounds_fun _ _ _ _ (pow_pos_ (fm_low f) ltac:(lia)) (sixths_rounds f m ltac:(lia)) RM) as E. unfold sixths in E. cbn [to_text]. rewrite E. reflexivity.
Qed.
(* Exactly the values that six decimals can mean are read back unchanged. *)
Theorem C90_exact : forall f under x, IEEE f -> Valid f x -> (stod f under (to_text f x) = Ok x <-> Six f x).
Proof.
  intros f under x I V. split.
  - intros E. destruct x as [|neg|neg n]; cbn; auto. split; [exact V|]. pose proof V as [R L]. pose proof (ieee_wide f I) as W. pose proof W as [[W1 W2] W3]. pose proof (rep_nonneg f n R) as N. pose proof (sixths_nonneg f n ltac:(lia) N) as K.
    exists (sixths f n). split; [exact K|]. pose proof (round_closest f (sixths f n) (10 ^ 6) ltac:(lia) ltac:(lia) K ltac:(lia)) as C. set (m := round_units f (sixths f n) (10 ^ 6)) in *. pose proof (six_finite f n _ m W V (sixths_rounds f n ltac:(lia)) C) as FM.
    unfold stod in E. rewrite text_cstr in E by (try exact I; exact V). rewrite <- (app_nil_r (to_text f (FFin neg n))) in E. rewrite (fixed_strtod f under neg (sixths f n) _ [] m W (text_fixed f neg n I V) ends_nil K C (proj2 FM)) in E. assert (E2 : m = n) by congruence. rewrite E2 in C. exact C.
  - intros S. unfold stod. rewrite text_cstr by assumption. rewrite <- (app_nil_r (to_text f x)), (text_strtod f under x [] I S Logic.I). reflexivity.
Qed.
(* These include the integers, the multiples of 1/64 and all large numbers: from
   2^33 in double precision, from 16 in single precision. *)
Theorem C90_exact_cases : forall f neg n, IEEE f -> Finite f n ->
  (exists m, n * 64 = m * 2 ^ fm_low f) \/ 2 ^ (fm_prec f - 20) * 2 ^ fm_low f <= n -> Six f (FFin neg n).
Proof.
  intros f neg n I F H. pose proof (ieee_wide f I) as W. pose proof W as [[W1 W2] W3]. pose proof F as [R L]. pose proof (rep_nonneg f n R) as N. split; [exact F|]. destruct H as [[m M]|H].
  - exists (m * 15625). pose proof (pow_pos_ (fm_low f) ltac:(lia)). split; [nia|]. apply closest_exact; [lia|exact R|]. lia.
  - exists (sixths f n). split; [apply sixths_nonneg; lia|]. apply (six_big f n _ W R); [rewrite (six_edge f W); exact H|apply sixths_rounds; lia].
Qed.
(* Order is kept by writing and by reading. *)
Theorem C90_text_order : forall f neg n neg' n' k k', IEEE f -> Finite f n -> Finite f n' -> sgn neg n <= sgn neg' n' ->
  Fixed6 neg k (to_text f (FFin neg n)) -> Fixed6 neg' k' (to_text f (FFin neg' n')) -> sgn neg k <= sgn neg' k'.
Proof.
  intros f neg n neg' n' k k' I F F' O T T'. destruct (fixed_fun _ _ _ _ _ T (text_fixed f neg n I F)) as [_ ->]. destruct (fixed_fun _ _ _ _ _ T' (text_fixed f neg' n' I F')) as [_ ->].
  pose proof (ieee_wide f I) as [[W1 W2] W3]. assert (U : 0 <= fm_low f) by lia. pose proof (rep_nonneg f n (proj1 F)) as N. pose proof (rep_nonneg f n' (proj1 F')) as N'. pose proof (sixths_nonneg f n U N) as K. pose proof (sixths_nonneg f n' U N') as K'. pose proof (pow_pos_ _ U) as PU.
  assert (MONO : forall a b, a <= b -> sixths f a <= sixths f b) by (intros a b L; apply (rounds_mono (a * 10 ^ 6) (2 ^ fm_low f) _ (b * 10 ^ 6) (2 ^ fm_low f)); [exact PU|exact PU|apply sixths_rounds; exact U|apply sixths_rounds; exact U|nia]).
  destruct neg, neg'; cbn [sgn] in *.
  - pose proof (MONO n' n ltac:(lia)). lia.
  - lia.
  - assert (n = 0) by lia. assert (n' = 0) by lia. subst. pose proof (MONO 0 0 ltac:(lia)). assert (Z0 : sixths f 0 = 0) by (apply (rounds_fun (0 * 10 ^ 6) (2 ^ fm_low f)); [exact PU|apply sixths_rounds; exact U|exact (rounds_exact 0 (2 ^ fm_low f) PU)]). lia.
  - apply MONO. exact O.
Qed.
Theorem C90_read_order : forall f neg num den n neg' num' den' n', IEEE f -> 0 <= num -> 0 < den -> 0 <= num' -> 0 < den' ->
  Stands f neg (VNum num den) (FFin neg n) -> Stands f neg' (VNum num' den') (FFin neg' n') -> sgn neg num * den' <= sgn neg' num' * den -> sgn neg n <= sgn neg' n'.
Proof.
  intros f neg num den n neg' num' den' n' I N D N' D' S S' O. pose proof (ieee_wide f I) as [[W1 W2] W3]. assert (U : 0 <= fm_low f) by lia.
  inversion S as [| |? ? ? C L|]; subst. inversion S' as [| |? ? ? C' L'|]; subst. pose proof (rep_nonneg f n (proj1 C)). pose proof (rep_nonneg f n' (proj1 C')). destruct neg, neg'; cbn [sgn] in *.
  - assert (n' <= n) by (apply (closest_mono f num' den' n' num den n); try assumption; lia). lia.
  - lia.
  - assert (num = 0) by nia. assert (num' = 0) by nia. subst. assert (Z0 : forall d, 0 < d -> Closest f 0 d 0) by (intros d PD; apply closest_exact; [exact PD|apply rep_zero; lia|lia]). rewrite (closest_fun _ _ _ _ _ C (Z0 _ D)), (closest_fun _ _ _ _ _ C' (Z0 _ D')). lia.
  - apply (closest_mono f num den n num' den' n'); try assumption.
Qed.

(* in property nodes and files, also inside vectors, vec3, quat and transform
   (C43) *)
Lemma real_char c : IsDigit c \/ c = "-"%char \/ c = "."%char \/ In c (lit "infa") -> plain c /\ ~ In c marks /\ ~ In c white.
Proof.
  intros H. assert (X : (nat_of_ascii c = 45 \/ nat_of_ascii c = 46 \/ 48 <= nat_of_ascii c <= 57 \/ 97 <= nat_of_ascii c <= 122)%nat).
  { destruct H as [H|[->|[->|H]]]; [unfold IsDigit, dval in H; lia|left; reflexivity|right; left; reflexivity|]. cbn in H. destruct H as [<-|[<-|[<-|[<-|[]]]]]; vm_compute; lia. }
  split; [unfold plain; lia|]. split; cbn; intros C; repeat (destruct C as [<-|C]; [vm_compute in X; lia|]); exact C.
Qed.
Theorem C90_cast : forall f under, IEEE f -> RoundTrip (real_cast f under) (Six f) /\ Carries (real_cast f under) (Valid f).
Proof.
  intros f under I. split.
  - apply text_roundtrip. intros x S. apply C90_exact; [exact I| |exact S]. destruct x; cbn; auto. apply S.
  - apply text_carries. intros x V. assert (G : Forall (fun c => plain c /\ ~ In c marks /\ ~ In c white) (to_text f x)) by (eapply Forall_impl; [|apply (text_chars f x I V)]; intros c; apply real_char). split.
    + split; [eapply Forall_impl; [|exact G]; intros ? [H _]; exact H|right; eapply Forall_impl; [|exact G]; intros ? (_ & H & _); exact H].
    + exists [], []. rewrite app_nil_r. split; [reflexivity|]. split; [constructor|]. split; [constructor|]. rewrite Forall_forall in G. split; intros a m E J; rewrite E in G.
      * apply (G a); [left; reflexivity|exact J].
      * apply (G a); [apply in_or_app; right; left; reflexivity|exact J].
Qed.
Theorem C90_file : forall f under grow k xs, IEEE f -> Forall (Six f) xs -> SafeLabel k -> IsTrim white k k ->
  let c := vector_cast grow (real_cast f under) in let text := save_prop (cset c grow pn_empty k xs) true in fits text ->
  exists t, load_prop text = Ok t /\ cget c t k = Ok xs.
Proof.
  intros f under grow k xs I S L T c text F. destruct (C90_cast f under I) as [R C]. apply (C43_file _ grow c (Forall (Six f)) k xs); try assumption.
  - apply C43_vector. exact R.
  - destruct C43_carries as (_ & _ & _ & H). apply (H fnum grow (real_cast f under) FNan (fun st => (FNan, st)) (Six f)). intros x SX. apply C. destruct x; cbn; auto. apply SX.
Qed.

(* bounds written as a..b *)
Lemma split_at (d : ascii) A : forall u w B, u ++ d :: w = A ++ d :: B -> ~ In d A -> ~ In d B -> w = B.
Proof.
  induction A as [|a A IH]; intros [|c u] w B E NA NB; cbn in E.
  - injection E as ->. reflexivity.
  - injection E as -> E. exfalso. apply NB. rewrite <- E. apply in_or_app. right. left. reflexivity.
  - injection E as -> E. exfalso. apply NA. left. reflexivity.
  - injection E as -> E. apply (IH u w B E); [|exact NB]. intros H. apply NA. right. exact H.
Qed.
Lemma digits_no_dot ds : Forall IsDigit ds -> ~ In "."%char ds.
Proof. intros F H. rewrite Forall_forall in F. pose proof (F _ H) as D. absurd_digit D. Qed.
Lemma text_dots f x u w : IEEE f -> Valid f x -> to_text f x = u ++ "."%char :: w -> exists c w', w = c :: w' /\ c <> "."%char.
Proof.
  intros I V E. destruct x as [|neg|neg n].
  - exfalso. assert (H : In "."%char (to_text f FNan)) by (rewrite E; apply in_or_app; right; left; reflexivity). cbn in H. intuition discriminate.
  - exfalso. assert (H : In "."%char (to_text f (FInf neg))) by (rewrite E; apply in_or_app; right; left; reflexivity). destruct neg; cbn in H; intuition discriminate.
  - pose proof (text_fixed f neg n I V) as F. rewrite E in F. clear E. remember (sixths f n) as k. remember (u ++ "."%char :: w) as s eqn:ES. destruct F as [neg ip i fp C P L D]. symmetry in ES. rename ES into E3. symmetry in E3. rewrite app_assoc in E3. symmetry in E3. cbn [lit String.list_ascii_of_string app] in E3.
    destruct (canonical_digits ip i C P) as (_ & FI & _ & _). apply (split_at "."%char (_ ++ ip) u w fp) in E3.
    + subst w. destruct fp as [|c fp]; [discriminate|]. exists c, fp. split; [reflexivity|]. intros ->. apply (digits_no_dot _ D). left. reflexivity.
    + intros H. apply in_app_or in H as [H|H]; [destruct neg; [destruct H as [H|[]]; discriminate|destruct H]|exact (digits_no_dot _ FI H)].
    + apply digits_no_dot. exact D.
Qed.
Lemma text_length f x : (List.length (to_text f x) <= 500)%nat.
Proof.
  assert (D : forall k n, (List.length (dec_digits k n) <= k)%nat).
  { induction k as [|k IH]; intros n; [cbn; lia|]. cbn [dec_digits]. rewrite app_length. cbn [List.length]. destruct (n <? 10); [cbn; lia|]. specialize (IH (n / 10)). lia. }
  assert (M : forall neg, (List.length (minus neg) <= 1)%nat) by (intros []; cbn; lia). destruct x as [|neg|neg n]; [cbn; lia|destruct neg; cbn; lia|]. cbn [to_text]. rewrite !app_length. cbn [List.length].
  specialize (M neg). specialize (D 400%nat (rhe (n * 10 ^ 6) (2 ^ fm_low f) / 10 ^ 6)).
  assert (L : forall k m, List.length (last_digits k m) = k) by (induction k as [|k IH]; intros m; [reflexivity|]; cbn [last_digits]; rewrite app_length, IH; cbn; lia). rewrite L. lia.
Qed.
Lemma stod_text f under x t : IEEE f -> Six f x -> Stop t -> Forall (fun c => c <> NUL) t -> stod f under (to_text f x ++ t) = Ok x.
Proof.
  intros I S T N. assert (V : Valid f x) by (destruct x; cbn; auto; apply S). unfold stod. rewrite cstr_id.
  - rewrite (text_strtod f under x t I S T). reflexivity.
  - apply Forall_app. split; [|exact N]. rewrite <- (text_cstr f x I V). apply cstr_nonul.
Qed.
Theorem C90_bounds : forall f under p a b lowest highest, IEEE f -> Six f a -> Six f b -> pn_value p = to_text f a ++ lit ".." ++ to_text f b ->
  read_bounds (stod f under) lowest highest p = Ok (a, b).
Proof.
  intros f under p a b lowest highest I A B V. assert (VA : Valid f a) by (destruct a; cbn; auto; apply A). assert (VB : Valid f b) by (destruct b; cbn; auto; apply B).
  rewrite (read_bounds_pair _ _ _ p (to_text f a) (to_text f b)).
  - rewrite V. rewrite (stod_text f under a _ I A).
    + cbn [bind]. rewrite <- (app_nil_r (to_text f b)), (stod_text f under b [] I B Logic.I (Forall_nil _)). reflexivity.
    + right. reflexivity.
    + apply Forall_app. split; [repeat constructor; discriminate|]. rewrite <- (text_cstr f b I VB). apply cstr_nonul.
  - rewrite V. unfold fits. rewrite !app_length. pose proof (text_length f a). pose proof (text_length f b). cbn [List.length lit String.list_ascii_of_string]. lia.
  - exact V.
  - intros n (l & r & E & <-). rewrite V in E. apply Nat.nlt_ge. intros LT. destruct (app_eq_app _ _ _ _ E) as (w & [[E1 E2]|[E1 E2]]).
    + destruct w as [|c w]; [rewrite app_nil_r in E1; rewrite E1 in LT; lia|]. injection E2 as <- E2. destruct (text_dots f a l w I VA E1) as (d & w' & -> & ND). injection E2 as X _. congruence.
    + rewrite E1, app_length in LT. lia.
Qed.
(* A vec3 may also be written as three numbers. *)
Lemma read_real_text f under st x u : IEEE f -> Six f x -> cs_delim st = default_delimiters -> (forall c r, u = c :: r -> c <> NUL /\ ~ In c default_delimiters) ->
  cs_rest st = to_text f x ++ " "%char :: u \/ (u = [] /\ cs_rest st = to_text f x) ->
  exists st', read_real f under st = (x, st') /\ cs_rest st' = u /\ cs_delim st' = default_delimiters.
Proof.
  intros I S D U E. assert (V : Valid f x) by (destruct x; cbn; auto; apply S). destruct (text_chars f x I V) as [_ NE].
  assert (SK : forall t, cs_rest (skip_delimiters (with_rest st t)) = drop_delims default_delimiters t /\ cs_delim (skip_delimiters (with_rest st t)) = default_delimiters).
  { intros t. unfold skip_delimiters, test_eof, with_rest. cbn. rewrite D. destruct (drop_delims default_delimiters t); cbn; split; try reflexivity; exact D. }
  assert (DD : drop_delims default_delimiters (" "%char :: u) = u) by (apply (drop_delims_app default_delimiters [" "%char] u); [constructor; [left; reflexivity|constructor]|exact U]).
  unfold read_real. destruct E as [E|[-> E]]; rewrite E.
  - rewrite (text_strtod f under x (" "%char :: u) I S (or_introl (or_introl eq_refl))). rewrite (process_split st _ _ E NE). destruct (SK (" "%char :: u)) as [S1 S2]. eexists. split; [reflexivity|]. rewrite S1. auto.
  - rewrite <- (app_nil_r (to_text f x)) in E |- *. rewrite (text_strtod f under x [] I S Logic.I). rewrite (process_split st _ _ E NE). destruct (SK []) as [S1 S2]. eexists. split; [reflexivity|]. rewrite S1. auto.
Qed.
Theorem C90_vec3_text : forall f under grow p x y z, IEEE f -> Forall (Six f) [x; y; z] -> pn_children p = [] ->
  pn_value p = to_text f x ++ lit " " ++ to_text f y ++ lit " " ++ to_text f z ->
  cfrom (vec3_cast grow (real_cast f under) (FFin false 0) (read_real f under)) p = Ok (x, y, z).
Proof.
  intros f under grow p x y z I F PC V. inversion F as [|? ? SX F1]; subst. inversion F1 as [|? ? SY F2]; subst. inversion F2 as [|? ? SZ _]; subst. cbn [vec3_cast cfrom].
  assert (G : forall k, cget_or (real_cast f under) p k (FFin false 0) = Ok (FFin false 0)) by (intros k; unfold cget_or, child_of; rewrite PC; reflexivity). rewrite !G. cbn [bind].
  assert (VV : forall x, Six f x -> Valid f x) by (intros []; cbn; tauto).
  assert (HD : forall x t, Six f x -> forall c r, to_text f x ++ t = c :: r -> c <> NUL /\ ~ In c default_delimiters).
  { intros a t SA c r E. destruct (text_chars f a I (VV a SA)) as [FC NE]. destruct (to_text f a) as [|d s]; [congruence|]. injection E as -> _. inversion FC as [|? ? H _]; subst. destruct (real_char c H) as (P & _ & NW). split.
    - intros ->. destruct H as [H|[H|[H|H]]]; try discriminate; [absurd_digit H|cbn in H; intuition discriminate].
    - intros Q. apply NW. clear - Q. unfold default_delimiters, white in *. cbn in *. tauto. }
  assert (HV : has_value p = true) by (unfold has_value; rewrite V; destruct (text_chars f x I (VV x SX)) as [_ NE]; destruct (to_text f x); [congruence|reflexivity]). rewrite HV. unfold cs_of_cstr.
  assert (NN : cstr (pn_value p) = pn_value p).
  { rewrite V. apply cstr_id. repeat (apply Forall_app; split); try (repeat constructor; discriminate); (rewrite <- text_cstr; [apply cstr_nonul|exact I|auto]). }
  rewrite NN, V.
  set (st0 := skip_delimiters _). assert (S0 : cs_rest st0 = to_text f x ++ " "%char :: to_text f y ++ " "%char :: to_text f z /\ cs_delim st0 = default_delimiters).
  { subst st0. unfold skip_delimiters, test_eof, with_rest. cbn [cs_rest cs_delim lit String.list_ascii_of_string app]. pose proof (drop_delims_app default_delimiters [] (to_text f x ++ " "%char :: to_text f y ++ " "%char :: to_text f z) (Forall_nil _) (HD x _ SX)) as DD. cbn [app] in DD. rewrite DD. destruct (to_text f x ++ _); split; reflexivity. }
  destruct S0 as [R0 D0]. destruct (read_real_text f under st0 x _ I SX D0 (HD y _ SY) (or_introl R0)) as (st1 & E1 & R1 & D1).
  rewrite E1. destruct (read_real_text f under st1 y (to_text f z) I SY D1) as (st2 & E2 & R2 & D2); [intros c r E; apply (HD z [] SZ c r); rewrite app_nil_r; exact E|left; exact R1|]. rewrite E2.
  destruct (read_real_text f under st2 z [] I SZ D2) as (st3 & E3 & _); [discriminate|right; auto|]. rewrite E3. reflexivity.
Qed.

(* C90: numbers below half a millionth are lost *)
Theorem C90_small_refuted : forall f under neg n, IEEE f -> Finite f n -> 2 * n * 10 ^ 6 < 2 ^ fm_low f ->
  to_text f (FFin neg n) = (if neg then lit "-" else []) ++ lit "0.000000" /\ stod f under (to_text f (FFin neg n)) = Ok (FFin neg 0).
Proof.
  intros f under neg n I F S. pose proof (ieee_wide f I) as W. pose proof W as [[W1 W2] W3]. pose proof (rep_nonneg f n (proj1 F)) as N. pose proof (pow_pos_ (fm_low f) ltac:(lia)) as PU.
  assert (K : sixths f n = 0) by (apply (rounds_fun (n * 10 ^ 6) (2 ^ fm_low f)); [exact PU|apply sixths_rounds; lia|split; [|intros E]; rewrite Z.mul_0_l, Z.sub_0_l, Z.abs_opp, Z.abs_eq in * by lia; lia]).
  split; [unfold sixths in K; cbn [to_text]; rewrite K; destruct neg; reflexivity|]. unfold stod. rewrite (text_cstr f _ I) by exact F. rewrite <- (app_nil_r (to_text f (FFin neg n))).
  rewrite (fixed_strtod f under neg 0 _ [] 0 W); [reflexivity| |apply ends_nil|lia| |apply pow_pos_; lia].
  - rewrite <- K. apply text_fixed; assumption.
  - apply closest_exact; [lia|apply rep_zero; lia|lia].
Qed.
(* C90: text after the number is ignored, and so are decimals after a comma *)
Theorem C90_trailing_refuted : forall under,
  stod float_fmt under (lit "1.5 or so") = Ok (FFin false (3 * 2 ^ 148)) /\ string_is_real float_fmt under (lit "1.5 or so") = true /\
  stod float_fmt under (lit "1,5") = Ok (FFin false (2 ^ 149)) /\ string_is_real float_fmt under (lit "0x10") = true /\ stod float_fmt under (lit "0x10") = Ok (FFin false (2 ^ 153)).
Proof. intros under. repeat split; vm_compute; reflexivity. Qed.
(* C90: whether very small numbers are an error depends on the library *)
Theorem C90_underflow_refuted : exists under under' n, stod float_fmt under (lit "1e-40") = Throw /\ stod float_fmt under' (lit "1e-40") = Ok (FFin false n) /\ 0 < n.
Proof. exists (fun _ _ => true), (fun _ _ => false). eexists. split; [vm_compute; reflexivity|]. split; vm_compute; reflexivity. Qed.
(* C90: a number that is too large is an error for from_str, but infinity for a
   char_stream *)
Theorem C90_overflow_refuted : forall under, let st := cs_of_cstr (lit "1e40 2") default_delimiters in
  stod float_fmt under (lit "1e40 2") = Throw /\ fst (read_real float_fmt under st) = FInf false /\ CharStream.good (snd (read_real float_fmt under st)) = true.
Proof. intros under. repeat split; vm_compute; reflexivity. Qed.

(* 0.1 and -1/3 *)
Example C90_nonvacuous : forall under,
  let tenth := FFin false (13421773 * 2 ^ 122) in let third := FFin true (11184811 * 2 ^ 124) in
  stod float_fmt under (lit " +1e-1") = Ok tenth /\ to_text float_fmt tenth = lit "0.100000" /\ Six float_fmt tenth /\
  Valid float_fmt third /\ to_text float_fmt third = lit "-0.333333" /\ ~ Six float_fmt third /\
  stod double_fmt under (lit "0.5") = Ok (FFin false (2 ^ 1073)) /\
  read_bounds (stod float_fmt under) FNan FNan (pn_of (lit "-1.5..1...5")) = Ok (FFin true (3 * 2 ^ 148), FFin false (2 ^ 149)) /\
  read_bounds (stod float_fmt under) FNan FNan (pn_of (lit "1...5")) = Ok (FFin false (2 ^ 149), FFin false (2 ^ 148)).
Proof.
  intros under tenth third. assert (IF : IEEE float_fmt) by (right; reflexivity).
  assert (V1 : Valid float_fmt tenth) by (split; [exists 13421773, 122; split; [lia|]; split; [split; [discriminate|vm_compute; reflexivity]|reflexivity]|vm_compute; reflexivity]).
  assert (V2 : Valid float_fmt third) by (split; [exists 11184811, 124; split; [lia|]; split; [split; [discriminate|vm_compute; reflexivity]|reflexivity]|vm_compute; reflexivity]).
  split; [vm_compute; reflexivity|]. split; [vm_compute; reflexivity|]. split; [apply (C90_exact float_fmt under tenth IF V1); vm_compute; reflexivity|]. split; [exact V2|]. split; [vm_compute; reflexivity|].
  split; [intros S; apply (C90_exact float_fmt under third IF V2) in S; vm_compute in S; discriminate|]. split; [vm_compute; reflexivity|]. split; vm_compute; reflexivity.
Qed.
