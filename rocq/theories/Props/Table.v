(* C12, C13: table *)
From Verif Require Import Model.Base Model.DataHeader Model.Table Spec.Storage Spec.Table Proofs.TableProofs.

(* C12: resize with the same number of rows keeps every cell, new cells are T();
   it throws exactly when shrinking and is undefined exactly when rows are
   added to a table that has (or gets) a column. *)
Theorem C12_table_resize_columns : forall (T L : Type) (l0 : L) (t0 : T) (t : table T L) c,
  length (data_ t) = row_size t * column_size t -> column_size t <= c ->
  exists t', resize l0 t0 t (row_size t) c = Ok t' /\
    length (data_ t') = row_size t' * column_size t' /\
    row_size t' = row_size t /\ column_size t' = c /\
    forall i j, i < row_size t -> j < c ->
      at_ t' i j = if j <? column_size t then at_ t i j else Ok t0.
Proof. exact @resize_columns. Qed.
Print Assumptions C12_table_resize_columns.

Example C12_nonvacuous :
  exists t t', exec (step_any Nat.eqb 0 0) (create 0 0 2 2)
       [(true, AtSet 0 0 1); (true, AtSet 0 1 2); (true, AtSet 1 0 3); (true, AtSet 1 1 4)]
       = Some (t, [ONone; ONone; ONone; ONone]) /\
    length (data_ t) = row_size t * column_size t /\
    resize 0 0 t 2 4 = Ok t' /\ data_ t' = [1; 2; 0; 0; 3; 4; 0; 0].
Proof.
  exists (mkT (mkH [0; 0] []) (mkH [0; 0] []) [1; 2; 3; 4]), (mkT (mkH [0; 0] []) (mkH [0; 0; 0; 0] []) [1; 2; 0; 0; 3; 4; 0; 0]).
  split; [vm_compute; reflexivity|split; [vm_compute; reflexivity|split; vm_compute; reflexivity]].
Qed.

Theorem C12_table_resize_outcomes : forall (T L : Type) (l0 : L) (t0 : T) (t : table T L) r c,
  length (data_ t) = row_size t * column_size t ->
  (resize l0 t0 t r c = Throw <-> r < row_size t \/ c < column_size t) /\
  (resize l0 t0 t r c = UB <-> row_size t < r /\ column_size t <= c /\ 0 < c).
Proof. exact @resize_exact. Qed.
Print Assumptions C12_table_resize_outcomes.

(* "add_column fills the new column with default_value" is false *)
Theorem C12_add_column_default_refuted :
  exists t t', exec (step_any Nat.eqb 0 0) (create 0 0 0 0) [(true, AddRow 1 0)] = Some (t, [ONat 0]) /\
    add_column Nat.eqb 0 0 t 2 7 = (t', Ok 0) /\ at_ t' 0 0 = Ok 0.
Proof. do 2 eexists. repeat split. Qed.
Print Assumptions C12_add_column_default_refuted.

(* C13: any history, with any choice of evaluation order at every call by
   label, shows the observations of the ideal sheet. *)
Theorem C13_table_refines : forall (T L : Type) (eqb : L -> L -> bool) (l0 : L) (t0 : T),
  (forall a b, eqb a b = true <-> a = b) ->
  forall nr nc (bops : list (bool * op T L)) s rs,
  exec (ideal_step eqb l0 t0) (mkSh (repeat None nr) (repeat None nc) (fun _ _ => t0)) (map snd bops) = Some (s, rs) ->
  exists t, exec (step_any eqb l0 t0) (create l0 t0 nr nc) bops = Some (t, rs) /\
    row_size t = length (rn s) /\ column_size t = length (cn s) /\
    length (data_ t) = row_size t * column_size t /\
    (forall i j, at_ t i j = if in_range s i j then Ok (val s i j) else Throw).
Proof. exact @table_refines. Qed.
Print Assumptions C13_table_refines.

Example C13_nonvacuous :
  exists s, exec (ideal_step Nat.eqb 0 0) (mkSh (repeat None 0) (repeat None 0) (fun _ _ => 0))
    (map snd [(true, Put 1 10 5); (false, Put 2 11 6); (false, Get 1 10); (true, Get 2 10); (true, AddColumn 10 3);
              (false, ColumnSize); (true, Put 2 10 8); (false, Get 2 10); (true, Get 2 11); (true, At 5 5)])
    = Some (s, [ONone; ONone; OVal 5; OVal 0; OThrow; ONat 3; ONone; OVal 8; OVal 6; OThrow]).
Proof. eexists; reflexivity. Qed.
