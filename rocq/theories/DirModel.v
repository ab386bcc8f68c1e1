(** Model of the log likelihood and the score of model/apop_dirichlet.c, for data in the matrix.  Doubles are reals; [ln] is log, used for positive
    numbers only.  gsl_sf_lngamma and gsl_sf_psi are parameters. *)
From Coq Require Import Reals.
From Verif Require Import DataModel StatsModel LikeModel.
Local Open Scope list_scope.
Local Open Scope R_scope.

Section Dirichlet.
Context (lg psi : R -> R).
(** gsl_ran_dirichlet_lnpdf (GSL): sum of (alpha_i - 1) log theta_i, plus lngamma of the sum of the alphas, less the lngammas *)
Fixpoint powers (al th : list R) : R := match al, th with a :: al', t :: th' => (a - 1) * ln t + powers al' th' | _, _ => 0 end.
(** apop_dirichlet.c:13-17, dirichletlnmap.  GSL reads as many numbers as there are parameters: beyond a shorter row [UB] *)
Definition dir_row (al r : list R) : res R :=
  if (length r <? length al)%nat then UB else Ok (powers al r + lg (vector_sum al) - vector_sum (map lg al)).
Fixpoint dir_rows (al : list R) (rows : list (list R)) : res R :=
  match rows with [] => Ok 0 | r :: rows' => do x <- dir_row al r; do y <- dir_rows al rows'; Ok (x + y) end.
(** 19-26, dirichlet_log_likelihood; [None]: NaN *)
Definition dir_ll (al : list R) (m : grid R) : res (option R) :=
  if Rlt_dec (Rabs (vector_sum al)) (1 / 100000) then Ok None else do x <- dir_rows al (ga m); Ok (Some x).
(** 28-38, dirichlet_dlog_likelihood, from the parameter [i] on; a parameter without a column: [UB] *)
Fixpoint dir_score_from (total : R) (m : grid R) (i : nat) (al : list R) : res (list R) :=
  match al with
  | [] => Ok []
  | a :: al' =>
    if (i <? gc m)%nat then
      do rest <- dir_score_from total m (S i) al';
      Ok (vector_sum (map ln (colv m i)) + INR (gr m) * psi total - INR (gr m) * psi a :: rest)
    else UB
  end.
Definition dir_score (al : list R) (m : grid R) : res (list R) := dir_score_from (vector_sum al) m 0 al.
End Dirichlet.
