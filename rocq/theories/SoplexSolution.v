(** Model of minimip/lp_interface/lpi_soplex.cc: the basic columns and rows. *)
From Coq Require Import List ZArith Bool.
From Verif Require Import Outcome Num Double GlopLp LpParams GlopIface GlopSolution SoplexIface.
Import ListNotations.
Open Scope Z_scope.

(** GetColumnsAndRowsInBasis (1461-1479); getBasisInd fills one index per row. *)
Definition SpxGetColumnsAndRowsInBasis {E : spx_engine} (s : sstate E) : outcome (list col_or_row) :=
  do _ <- check (freed s) ;
  Ok (map (fun k => let i := x_basis_ind E (s_x s) (Z.of_nat k) in
             if i <? 0 then Row (- i - 1) else Col i) (seq 0 (length (g_rows (s_lp s))))).
