(* C25: path joining and splitting *)
From Coq Require Import String.
From Verif Require Import Model.Base Model.StdString Model.Strings Model.Path Spec.Strings Proofs.StringFacts Proofs.StringsProofs Proofs.PathProofs.
Local Open Scope list_scope.

Theorem C25_parent_filename : forall d, fits d ->
  (free SEPS d -> parent_path d = Ok [] /\ filename d = Ok [] /\ has_parent_path d = false) /\
  (forall a c b, d = a ++ c :: b -> In c SEPS -> free SEPS b ->
     parent_path d = Ok a /\ filename d = Ok b /\ has_parent_path d = true).
Proof. exact parent_filename. Qed.
Print Assumptions C25_parent_filename.

Theorem C25_has_filename : forall d, fits d ->
  (has_filename d = false <-> d = [] \/ exists a c, d = a ++ [c] /\ In c SEPS).
Proof. exact has_filename_iff. Qed.
Print Assumptions C25_has_filename.

Theorem C25_join_file : forall p f, fits (p ++ "/"%char :: f) -> p <> [] -> free SEPS f ->
  (~ (exists q c, p = q ++ [c] /\ In c SEPS) -> join_path p f = p ++ "/"%char :: f /\
     filename (join_path p f) = Ok f /\ parent_path (join_path p f) = Ok p) /\
  (forall q c, p = q ++ [c] -> In c SEPS -> join_path p f = p ++ f /\
     filename (join_path p f) = Ok f /\ parent_path (join_path p f) = Ok q).
Proof. exact join_file. Qed.
Print Assumptions C25_join_file.

(* parent_path / filename gives the path back (up to the kind of separator),
   unless the parent is empty or itself ends in a separator *)
Theorem C25_recompose : forall a c b, fits (a ++ c :: b) -> In c SEPS -> free SEPS b ->
  exists p f, parent_path (a ++ c :: b) = Ok p /\ filename (a ++ c :: b) = Ok f /\
    ((a <> [] /\ ~ exists q d, a = q ++ [d] /\ In d SEPS) -> join_path p f = a ++ "/"%char :: b) /\
    ((a = [] \/ exists q d, a = q ++ [d] /\ In d SEPS) -> join_path p f = a ++ b).
Proof. exact recompose. Qed.
Print Assumptions C25_recompose.

(* "parent_path / filename recomposes every path" is false *)
Theorem C25_recompose_refuted :
  exists d p f, parent_path d = Ok p /\ filename d = Ok f /\ join_path p f <> d.
Proof. exists (lit "/f"), [], (lit "f"). split; [reflexivity|split; [reflexivity|discriminate]]. Qed.
Print Assumptions C25_recompose_refuted.

(* "filename of a bare name is that name" is false, for every name *)
Theorem C25_bare_filename_refuted :
  forall d, fits d -> free SEPS d -> d <> [] -> filename d <> Ok d.
Proof. intros d Hf H Hn E. destruct (parent_filename d Hf) as [K _]. destruct (K H) as (_ & E2 & _). congruence. Qed.
Print Assumptions C25_bare_filename_refuted.

Theorem C25_replace_filename : forall d f, fits d ->
  (free SEPS d -> replace_filename d f = Ok f) /\
  (forall a c b, d = a ++ c :: b -> In c SEPS -> free SEPS b -> replace_filename d f = Ok (join_path a f)).
Proof. exact replace_filename_spec. Qed.
Print Assumptions C25_replace_filename.

(* extension and replace_extension use the last dot of the whole path *)
Theorem C25_extension : forall d ext, fits d ->
  (free ["."%char] d -> extension d = Ok [] /\
     replace_extension d ext = d ++ match ext with [] => [] | _ => "."%char :: ext end) /\
  (forall a b, d = a ++ "."%char :: b -> free ["."%char] b -> extension d = Ok b /\
     replace_extension d ext = a ++ match ext with [] => [] | _ => "."%char :: ext end).
Proof. exact extension_spec. Qed.
Print Assumptions C25_extension.

(* so "replacing the extension keeps the folder" is false *)
Theorem C25_replace_extension_refuted :
  exists d ext, parent_path d = Ok (lit "v1.2") /\ parent_path (replace_extension d ext) = Ok [] /\ extension d = Ok (lit "2/data").
Proof. exists (lit "v1.2/data"), (lit "txt"). split; [reflexivity|split; vm_compute; reflexivity]. Qed.
Print Assumptions C25_replace_extension_refuted.

(* stem is not affected: it is the file part up to its last dot *)
Theorem C25_stem : forall d f, fits d ->
  free SEPS f -> (d = f \/ exists a c, d = a ++ c :: f /\ In c SEPS) ->
  (free ["."%char] f -> stem d = Ok f) /\
  (forall a b, f = a ++ "."%char :: b -> free ["."%char] b -> stem d = Ok a).
Proof. intros d f Hf H1 H2. apply stem_spec; [exact Hf|split; assumption]. Qed.
Print Assumptions C25_stem.

Theorem C25_make_preferred : forall d, length (make_preferred d) = length d /\ make_preferred (make_preferred d) = make_preferred d /\
  free [BSLASH] (make_preferred d) /\
  (forall i c, nth_error d i = Some c -> nth_error (make_preferred d) i = Some (if mem SEPS c then "/"%char else c)).
Proof. exact make_preferred_spec. Qed.
Print Assumptions C25_make_preferred.

Example C25_nonvacuous :
  join_path (lit "a/b") (lit "c.txt") = lit "a/b/c.txt" /\ join_path (lit "a/b/") (lit "c.txt") = lit "a/b/c.txt" /\
  filename (lit "a/b/c.txt") = Ok (lit "c.txt") /\ stem (lit "a.x/b/c.txt") = Ok (lit "c") /\ extension (lit "a/c.txt") = Ok (lit "txt") /\
  replace_filename (lit "a/b") (lit "c") = Ok (lit "a/c") /\ make_preferred (lit "a\b") = lit "a/b".
Proof. repeat split; vm_compute; reflexivity. Qed.
