(** Model of apop_matrix_pca (apop_linear_algebra.m4.c:110-144).  Doubles are reals.  gsl_linalg_SV_decomp is a parameter. *)
From Coq Require Import Reals.
From Verif Require Import DataModel StatsModel MvnModel.
Local Open Scope list_scope.
Local Open Scope R_scope.

Section Pca.
Context (svd : grid R -> grid R * list R).    (* the second and third outputs of gsl_linalg_SV_decomp; that it fails is not modelled *)
(** 129-130, each column with its mean taken off (apop_vector_normalize with 'm', StatsModel.v), in the matrix handed in *)
Definition centred (m : grid R) : grid R := Gr (gr m) (gc m) (map (fun row => imap (fun j x => x + - gsl_mean (colv m j)) row) (ga m)).
(** 132, gsl_blas_dgemm with the first matrix transposed *)
Definition gram (m : grid R) : grid R :=
  Gr (gc m) (gc m) (map (fun i => map (fun j => sumn (gr m) (fun k => el m k i * el m k j)) (seq 0 (gc m))) (seq 0 (gc m))).
(** 110-144.  [dims] None or zero: the default, the number of columns (a varadic argument that is 0 counts as not given).  Handed back: the matrix handed in,
    as it is left; the components, one per column; the weights (None: NaN or infinite).  136: a dimension past the columns is a NULL column, which
    gsl_matrix_set_col reads: [UB]. *)
Definition matrix_pca (m : grid R) (dims : option nat) : res (grid R * grid R * list (option R)) :=
  let d := match dims with None | Some O => gc m | Some d => d end in
  let c := centred m in
  let '(v, s) := svd (gram c) in
  let totals := vector_sum s in
  if (d <=? gc m)%nat
  then Ok (c, Gr (gc m) d (map (fun a => map (fun i => el v a i) (seq 0 d)) (seq 0 (gc m))), map (fun i => cdiv (vel s i) totals) (seq 0 d))
  else UB.
End Pca.
