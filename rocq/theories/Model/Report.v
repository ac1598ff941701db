(* The report of a profiler (flut/system/profiler.cpp:78-104): the prop_node it
   fills and the text of its values. *)
From Coq Require Import String.
From Verif Require Import Model.Base Model.StdString Model.Strings Model.Number Model.PropTree Model.PropNode Model.FloatText Model.Ieee Model.FloatInterp Model.Profiler.
Local Open Scope list_scope.
Local Open Scope Z_scope.

(* printf "%W.Df" of a double (C11 7.21.6.1), used by flut/system/profiler.cpp:97:
   rounded to nearest, ties to even; the text of nan depends on the library *)
Definition printf_f (nan : str) (f : fmt) (D : nat) (x : fnum) : str :=
  match x with
  | FNan => nan
  | FInf neg => minus neg ++ lit "inf"
  | FFin neg n =>
      let k := rhe (n * 10 ^ Z.of_nat D) (2 ^ fm_low f) in
      minus neg ++ dec_digits 400 (k / 10 ^ Z.of_nat D) ++ match D with O => [] | _ => "."%char :: last_digits D (k mod 10 ^ Z.of_nat D) end
  end.
Definition field (W : nat) (s : str) : str := repeat " "%char (W - List.length s) ++ s.
(* stringf (flut/string_tools.cpp:69-84): vsnprintf into 256 characters *)
Definition stringf (s : str) : str := cstr (firstn 255 s).
(* the text of a section (flut/system/profiler.cpp:97) *)
Definition section_text (nan : str) (f : fmt) (total rel_total rel_ex rel_over : fnum) : str :=
  stringf (field 6 (printf_f nan f 0 total) ++ lit "ms " ++ field 6 (printf_f nan f 2 rel_total) ++ lit "% (" ++
           field 5 (printf_f nan f 2 rel_ex) ++ lit "% exclusive " ++ field 5 (printf_f nan f 2 rel_over) ++ lit "% overhead)").

(* x / 1e6 of a nanoseconds_t, 100.0 * a / b (flut/system/profiler.cpp:89-95); f
   is the format of double *)
Definition millis (f : fmt) (t : Z) : fnum := f_div f (f_of_int f t) (f_of_int f 1000000).
Definition percent (f : fmt) (a b : fnum) : fnum := f_div f (f_mul f (f_of_int f 100) a) b.

(* get_children (flut/system/profiler.cpp:70-76); ids are positions *)
Fixpoint children_from (ss : list section) (i parent : nat) : list nat :=
  match ss with
  | [] => []
  | s :: ss' => if match sparent s with Some p => Nat.eqb p parent | None => false end then i :: children_from ss' (S i) parent else children_from ss' (S i) parent
  end.
Definition get_children (ss : list section) (parent : nat) : list nat := children_from ss 0 parent.
Definition total_time (ss : list section) (i : nat) : Z := match nth_error ss i with Some s => stotal s | None => 0 end.

(* the numbers of a section and their text (flut/system/profiler.cpp:89-97) *)
Definition section_value (nan : str) (f : fmt) (ss : list section) (i : nat) : res str :=
  match nth_error ss 0, nth_error ss i with
  | Some root, Some s =>
    let* ex := exclusive_time ss i in
    let* over := total_overhead (S (List.length ss)) ss i in
    let root_total := millis f (stotal root) in
    let total := millis f (stotal s) in
    Ok (section_text nan f total (percent f total root_total) (percent f (millis f ex) root_total) (percent f (millis f over) total))
  | _, _ => UB
  end.

Section Report.
(* text: the characters at the address of a name; srt: what std::sort makes of a
   list for > on the given key; grow: when vectors grow *)
Context (nan : str) (f : fmt) (text : nat -> str) (srt : (nat -> Z) -> list nat -> list nat) (grow : nat -> bool).

(* report_section (flut/system/profiler.cpp:87-104); fuel bounds the depth *)
Fixpoint report_section (fuel : nat) (ss : list section) (i : nat) (pn : pnode) : pnode * res unit :=
  match fuel with
  | O => (pn, OutOfFuel)
  | S fuel' =>
    match nth_error ss i, section_value nan f ss i with
    | Some s, Ok v =>
      let key := text (sname s) in
      fold_left (fun st j => match st with
                             | (p, Ok _) => pn_or_add grow p key (fun c => report_section fuel' ss j c)
                             | _ => st
                             end)
        (srt (total_time ss) (get_children ss i))
        (pn_or_add grow pn key (fun c => (PN (pn_accessed c) v [], Ok tt)))
    | _, Throw => (pn, Throw)
    | _, OutOfFuel => (pn, OutOfFuel)
    | _, _ => (pn, UB)
    end
  end.
(* report (flut/system/profiler.cpp:78-85) *)
Definition report_tree (p : profiler) (t : Z) : profiler * res pnode :=
  match report p t with
  | Ok p' => let (pn, r) := report_section (S (List.length (sections p'))) (sections p') 0 pn_empty in (p', bind r (fun _ => Ok pn))
  | Throw => (p, Throw)
  | UB => (p, UB)
  | OutOfFuel => (p, OutOfFuel)
  end.
End Report.
