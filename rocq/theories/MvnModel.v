(** Model of the log likelihood and the draws of model/apop_multivariate_normal.c.  Doubles are reals, [xr] (SearchModel.v) where they may be infinite or
    NaN.  apop_det_and_inv (LU decomposition by GSL) and gsl_linalg_cholesky_decomp are parameters. *)
From Coq Require Import Reals.
From Verif Require Import DataModel StatsModel SearchModel.
Local Open Scope list_scope.
Local Open Scope R_scope.

(** gsl_matrix_get, gsl_vector_get (inside the bounds) *)
Definition el (m : grid R) (i j : nat) : R := nth j (nth i (ga m) []) 0.
Definition vel (v : list R) (i : nat) : R := nth i v 0.
(** the sum of f(0), ..., f(n-1), in that order *)
Definition sumn (n : nat) (f : nat -> R) : R := vector_sum (map f (seq 0 n)).
(** apop_multivariate_normal.c:19-26, x_prime_sigma_x.  gsl_blas_dsymv with CblasUpper reads the upper triangle, the diagonal included, for both. *)
Definition upper (s : grid R) (i j : nat) : R := if (i <=? j)%nat then el s i j else el s j i.
Definition x_prime_sigma_x (s : grid R) (x : list R) : R :=
  let n := length x in sumn n (fun i => vel x i * sumn n (fun j => upper s i j * vel x j)).
(** gsl_vector_sub *)
Definition vsub (x y : list R) : list R := zip_with Rminus x y.

Section Mvn.
Context (det_inv : grid R -> option R * grid R)     (* apop_det_and_inv: the determinant (None: NaN) and the inverse *)
        (chol : grid R -> grid R).                  (* gsl_linalg_cholesky_decomp: L below and on the diagonal, its transpose above *)
(** 42-46, the loop over the rows.  gsl_vector_memcpy and gsl_vector_sub of different lengths, dsymv with a matrix of another size: GSL's error (abort), [UB] *)
Fixpoint mvn_rows (mu : list R) (inv : grid R) (rows : list (list R)) (ll : R) : res R :=
  match rows with
  | [] => Ok ll
  | r :: rows' =>
    if (length r =? length mu)%nat && (gr inv =? length r)%nat && (gc inv =? length r)%nat
    then mvn_rows mu inv rows' (ll + - x_prime_sigma_x inv (vsub r mu) / 2) else UB
  end.
(** 28-51, apop_multinormal_ll *)
Definition mvn_ll (mu : list R) (sigma : grid R) (m : grid R) : res xr :=
  let '(det, inv) := det_inv sigma in
  match det with
  | None => Ok NInf
  | Some d =>
    if Req_EM_T d 0 then Ok NInf else
    if Rle_dec d 0 then Ok NaN else
    do ll <- mvn_rows mu inv (ga m) 0;
    Ok (Fin (ll - INR (gr m) * (ln (2 * PI) * INR (gc m) / 2 + 1 / 2 * ln d)))
  end.
(** 65-83, mvnrng, for the draws [z] of gsl_ran_gaussian(r, 1), one for each mean *)
Definition mvn_draw (mu : list R) (sigma : grid R) (z : list R) : list R :=
  let n := length mu in
  let copy i j := if (i <? j)%nat then 0 else el (chol sigma) i j in
  map (fun i => sumn n (fun j => copy i j * vel z j) + vel mu i) (seq 0 n).
End Mvn.
