(* C29: scan_str and str_to_vec *)
From Coq Require Import String.
From Verif Require Import Model.Base Model.StdString Model.Strings Model.Number Model.CharStream Spec.Strings Spec.Decimal Spec.Scan Proofs.ScanProofs.
Local Open Scope Z_scope.
Local Open Scope list_scope.

(* kinds of variables and stored values, from the model to the specification *)
Definition kind_of := tk.
Definition val_of := tv.

(* str_to_vec never fails: it returns the longest sequence of elements at the
   front of the text (after leading delimiters), cut at the maximum *)
Theorem C29_str_to_vec : forall t s maxv d,
  exists l r vs, cstr s = l ++ r /\ only d l /\ (forall c r', r = c :: r' -> ~ In c d) /\
    Elements d (kind_of t) r (map val_of vs) /\
    str_to_vec t s maxv d = Ok (match maxv with Some m => firstn m vs | None => vs end).
Proof. exact str_to_vec_spec. Qed.
Print Assumptions C29_str_to_vec.

Theorem C29_elements_unique : forall d k s vs vs', Elements d k s vs -> Elements d k s vs' -> vs = vs'.
Proof. intros d k s vs vs' A B. eapply Elements_fun; eauto. Qed.
Print Assumptions C29_elements_unique.

Theorem C29_scan_str : forall s ts,
  exists l r, cstr s = l ++ r /\ only default_delimiters l /\ (forall c r', r = c :: r' -> ~ In c default_delimiters) /\
    let '(vs, n) := scan_str s ts in Scanned default_delimiters r (map kind_of ts) (map val_of vs) n.
Proof. exact scan_str_spec. Qed.
Print Assumptions C29_scan_str.

(* printed numbers are read back *)
Theorem C29_numbers : forall zs maxv, Forall (fun z => - 2 ^ 63 <= z < 2 ^ 63) zs ->
  str_to_vec Tlong (numbers_text zs) maxv default_delimiters =
  Ok (match maxv with Some m => firstn m (map Vnum zs) | None => map Vnum zs end).
Proof. exact numbers_vec. Qed.
Print Assumptions C29_numbers.

(* scanning all of n numbers assigns them all but reports n - 1 *)
Theorem C29_scan_count_refuted : forall zs, Forall (fun z => - 2 ^ 63 <= z < 2 ^ 63) zs -> zs <> [] ->
  scan_str (numbers_text zs) (map (fun _ => Tlong) zs) = (map Vnum zs, (length zs - 1)%nat).
Proof. exact numbers_scan. Qed.
Print Assumptions C29_scan_count_refuted.

Example C29_nonvacuous :
  numbers_text [1; -20; 300] = lit "1 -20 300" /\
  str_to_vec Tlong (lit " 12 -5x7") None default_delimiters = Ok [Vnum 12; Vnum (-5)] /\
  str_to_vec Tlong (lit "1,2, 3") (Some 2%nat) [","%char] = Ok [Vnum 1; Vnum 2] /\
  str_to_vec Tstring (lit "a bc d") None default_delimiters = Ok [Vstr (lit "a"); Vstr (lit "bc"); Vstr (lit "d")] /\
  scan_str (lit "7 seven 8 x") [Tint; Tstring; Tlong] = ([Vnum 7; Vstr (lit "seven"); Vnum 8], 3%nat) /\
  scan_str (lit "7 seven") [Tint; Tint; Tint] = ([Vnum 7; Vnum 0], 1%nat).
Proof. repeat split; vm_compute; reflexivity. Qed.
