(* What the log should show of a round of tests, told from the history of calls
   (latest call first). *)
From Coq Require Import List ZArith Ascii String Bool.
From Verif Require Import Model.Base Model.StdString Model.Strings Model.Log Model.TestFramework Model.TestLog Spec.Log Spec.TestFramework Spec.Decimal.
Import ListNotations.
Local Open Scope list_scope.
Local Open Scope Z_scope.

(* the calls that concern the counters, and those that concern the sinks *)
Fixpoint tests_of (h : list suite_op) : list test_op :=
  match h with
  | [] => []
  | Run _ r _ :: h' => Check r :: tests_of h'
  | Renew :: h' => Again :: tests_of h'
  | _ :: h' => tests_of h'
  end.
Fixpoint logs_of (h : list suite_op) : list log_op :=
  match h with [] => [] | LogCall o :: h' => o :: logs_of h' | _ :: h' => logs_of h' end.
(* show_passed: what was last asked for *)
Fixpoint shown (h : list suite_op) : bool :=
  match h with [] => false | Show b :: _ => b | _ :: h' => shown h' end.
(* the receivers of a message of some level *)
Definition Hear (h : list suite_op) (l : Z) (ss : list nat) : Prop :=
  exists all lv, Registered (logs_of h) all /\ (forall s, In s all -> Level (logs_of h) s (lv s)) /\ ss = filter (fun s => lv s <=? l) all.

(* tests, failures and passes that the framework counts: since the last reset,
   plus the failures before it *)
Definition carried (h : list suite_op) : Z := ever false (tests_of h) - count false (tests_of h).
Definition Performed (h : list suite_op) : Z := carried h + count true (tests_of h) + count false (tests_of h).
Definition Failed (h : list suite_op) : Z := ever false (tests_of h).
Definition Passed (h : list suite_op) : Z := carried h + count true (tests_of h).

(* the lines *)
Inductive TestLine : Z -> str -> bool -> str -> str -> Prop :=
| Line_failed n d name text : Canonical d n -> TestLine n name false text (lit "TEST " ++ d ++ lit " " ++ name ++ lit ": FAILED! " ++ text)
| Line_passed n d name text : Canonical d n -> TestLine n name true text (lit "TEST " ++ d ++ lit " " ++ name ++ lit ": passed. " ++ text).
Inductive ReportLine : Z -> Z -> Z -> str -> Prop :=
| Line_report n f p dn df dp : Canonical dn n -> Canonical df f -> Canonical dp p ->
    ReportLine n f p (lit "Test results: " ++ dn ++ lit " performed, " ++ df ++ lit " failed, " ++ dp ++ lit " passed").

(* the lines received so far, each with its receiver, earliest first *)
Inductive Printed : list suite_op -> list (nat * str) -> Prop :=
| Pr_start : Printed [] []
| Pr_failed h out name text line ss : Printed h out -> TestLine (Performed h + 1) (cstr name) false text line -> Hear h 5 ss ->
    Printed (Run name false text :: h) (out ++ map (fun s => (s, line)) ss)
| Pr_passed h out name text line ss : Printed h out -> shown h = true -> TestLine (Performed h + 1) (cstr name) true text line -> Hear h 3 ss ->
    Printed (Run name true text :: h) (out ++ map (fun s => (s, line)) ss)
| Pr_quiet h out name text : Printed h out -> shown h = false -> Printed (Run name true text :: h) out
| Pr_report h out line ss : Printed h out -> ReportLine (Performed h) (Failed h) (Passed h) line -> Hear h (if 0 <? Failed h then 5 else 3) ss ->
    Printed (Report :: h) (out ++ map (fun s => (s, line)) ss)
| Pr_other h out o : Printed h out -> o = Renew \/ (exists b, o = Show b) \/ (exists c, o = LogCall c) -> Printed (o :: h) out.

(* the failed tests among calls (earliest first), numbered from n + 1 on *)
Fixpoint failures (n : Z) (ops : list suite_op) : list (Z * str * str) :=
  match ops with
  | [] => []
  | Run name false text :: r => (n + 1, cstr name, text) :: failures (n + 1) r
  | Run _ true _ :: r => failures (n + 1) r
  | _ :: r => failures n r
  end.
(* the lines that one sink received *)
Definition lines_to (s : nat) (out : list (nat * str)) : list str := map snd (filter (fun p => Nat.eqb (fst p) s) out).
