(* What the report of a profiler should say, from the history of calls: see
   Spec/Profiler.v for paths, time spent and time lost. *)
From Coq Require Import List Ascii String ZArith Reals Sorted Permutation.
From Verif Require Import Model.StdString Model.PropTree Model.Profiler Model.FloatText Spec.Strings Spec.Decimal Spec.FloatText Spec.PropNode Spec.Profiler.
Import ListNotations.
Local Open Scope list_scope.
Local Open Scope Z_scope.

(* k / 10^D with D decimals and no superfluous zeros in front *)
Inductive Fixed (D : nat) : bool -> Z -> str -> Prop :=
| Fixed_intro neg ip i fp : Canonical ip i -> 0 <= i -> List.length fp = D -> Forall IsDigit fp ->
    Fixed D neg (i * 10 ^ Z.of_nat D + digits_value fp) ((if neg then lit "-" else []) ++ ip ++ match fp with [] => [] | _ => lit "." ++ fp end).
(* s with spaces in front, W wide if s is not longer *)
Definition Field (W : nat) (s v : str) : Prop := exists j, v = repeat " "%char j ++ s /\ List.length v = Nat.max W (List.length s).

(* milliseconds: a nanoseconds, rounded *)
Definition Millis (a : Z) (v : str) : Prop := exists k s, Fixed 0 (a <? 0) k s /\ Field 6 s v /\ Rounds (Z.abs a) (10 ^ 6) k.
(* k hundredths of a percent are 100 a / b, rounded; the rounding errors of the
   calculation are small beside it *)
Definition Hundredths (f : fmt) (a b k : Z) : Prop :=
  (Rabs (IZR k - 10000 * IZR a / IZR b) <= 1 / 2 + 5 / IZR (2 ^ fm_prec f) * Rabs (10000 * IZR a / IZR b))%R.
Definition Percent (nan : str) (f : fmt) (W : nat) (a b : Z) (v : str) : Prop :=
  (b <> 0 /\ exists neg k s, Fixed 2 neg k s /\ Field W s v /\ Hundredths f a b (if neg then - k else k) /\ neg = xorb (a <? 0) (b <? 0)) \/
  (b = 0 /\ 0 < a /\ Field W (lit "inf") v) \/ (b = 0 /\ a < 0 /\ Field W (lit "-inf") v) \/ (b = 0 /\ a = 0 /\ Field W nan v).
(* the text for a section of total a, of which own is exclusive and over is
   overhead, in a run of length all *)
Definition Told (nan : str) (f : fmt) (a all own over : Z) (v : str) : Prop :=
  exists v1 v2 v3 v4, Millis a v1 /\ Percent nan f 6 a all v2 /\ Percent nan f 5 own all v3 /\ Percent nan f 5 over a v4 /\
  v = v1 ++ lit "ms " ++ v2 ++ lit "% (" ++ v3 ++ lit "% exclusive " ++ v4 ++ lit "% overhead)".

Definition str_dec : forall a b : str, {a = b} + {a <> b} := list_eq_dec ascii_dec.
(* std::sort for > on key *)
Definition Sorts (srt : (nat -> Z) -> list nat -> list nat) : Prop :=
  forall key l, Permutation l (srt key l) /\ StronglySorted (fun a b => key b <= key a) (srt key l).

Section Shows.
Context (nan : str) (f : fmt) (text : nat -> str) (t0 : Z) (h : list prof_op) (t : Z).
(* the total of q in a report at time t *)
Definition time (q : path) : Z := match q with [] => t - since t0 h | _ => spent t0 h q end.
(* the sections entered within q *)
Definition Within (q : path) (ns : list nat) : Prop := NoDup ns /\ forall n, In n ns <-> visited t0 h (n :: q).
Definition own (q : path) (ns : list nat) : Z := time q - sumz (fun n => time (n :: q)) ns.
(* a node shows the section q: its numbers, and the sections within it, those
   with the greatest total first; of those with the same text, the last, in the
   place of the first *)
Inductive Shows : path -> pnode -> Prop :=
| Shows_node q m v cs ns : Within q ns -> StronglySorted (fun a b => time (b :: q) <= time (a :: q)) ns ->
    Told nan f (time q) (time []) (own q ns) (lost_within t0 h q) v ->
    map fst cs = rev (nodup str_dec (rev (map text ns))) ->
    (forall k c, In (k, c) cs -> exists l n r, ns = l ++ n :: r /\ text n = k /\ ~ In k (map text r) /\ Shows (n :: q) c) ->
    Shows q (PN m v cs).
End Shows.
(* following keys from a node *)
Inductive Reach : list str -> pnode -> pnode -> Prop :=
| Reach_here c : Reach [] c c
| Reach_child k ks c d e : First k d (pn_children c) -> Reach ks d e -> Reach (k :: ks) c e.
