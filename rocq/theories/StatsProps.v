(** C34: means, variances, covariances, correlations.  Numbers are real numbers; [None] is NaN or an infinity. *)
From Coq Require Import Reals Lra Psatz.
From Verif Require Import DataModel NamesProofs StatsModel StatsSpec StatsProofs StatsMatProofs.
Local Notation sqrt := R_sqrt.sqrt.
Local Open Scope list_scope.
Local Open Scope R_scope.

(** C34: the unweighted mean is the sum over n. *)
Theorem C34_mean : forall v, v <> [] -> vector_mean v None = Some (avg v).
Proof. exact mean_plain. Qed.
Print Assumptions C34_mean.
(** C34: the weighted mean is sum of w*x over sum of w. *)
Theorem C34_weighted_mean : forall v w, v <> [] -> length w = length v -> Rsum w <> 0 ->
  vector_mean v (Some w) = Some (Rdot w v / Rsum w).
Proof. exact mean_weighted. Qed.
Print Assumptions C34_weighted_mean.
(** C34: integer weights work as replication counts: mean, variance, covariance, third and fourth central moments. *)
Theorem C34_replicate_mean : forall v ks, length ks = length v -> (0 < total ks)%nat ->
  vector_mean v (Some (map INR ks)) = vector_mean (rep v ks) None.
Proof. exact mean_replicate. Qed.
Theorem C34_replicate_var : forall v ks, length ks = length v -> (2 <= total ks)%nat ->
  vector_var v (Some (map INR ks)) = vector_var (rep v ks) None.
Proof. exact var_replicate. Qed.
Theorem C34_replicate_cov : forall v1 v2 ks, length v2 = length v1 -> length ks = length v1 -> (2 <= total ks)%nat ->
  vector_cov v1 v2 (Some (map INR ks)) = vector_cov (rep v1 ks) (rep v2 ks) None.
Proof. exact cov_replicate. Qed.
Theorem C34_replicate_skew : forall v ks, length ks = length v -> (2 <= total ks)%nat ->
  vector_skew_pop v (Some (map INR ks)) = vector_skew_pop (rep v ks) None.
Proof. exact (central_replicate 3). Qed.
Theorem C34_replicate_kurtosis : forall v ks, length ks = length v -> (2 <= total ks)%nat ->
  vector_kurtosis_pop v (Some (map INR ks)) = vector_kurtosis_pop (rep v ks) None.
Proof. exact (central_replicate 4). Qed.
Print Assumptions C34_replicate_kurtosis.
Example C34_replicate_nonvacuous : rep [5; 7; 9] [2; 0; 3]%nat = [5; 5; 9; 9; 9] /\ (2 <= total [2; 0; 3])%nat.
Proof. split; [reflexivity|cbn; lia]. Qed.

(** C34: unweighted variance and covariance are the sums of squared deviations / products over n-1. *)
Theorem C34_var : forall v, (2 <= length v)%nat -> vector_var v None = Some (svar v).
Proof. exact var_plain. Qed.
Theorem C34_cov : forall v1 v2, (2 <= length v1)%nat -> length v2 = length v1 -> vector_cov v1 v2 None = Some (scov v1 v2).
Proof. exact cov_plain. Qed.
Print Assumptions C34_cov.

Lemma pop_aux e v : v <> [] -> central_pop e v None = Some (central e v).
Proof.
  intros H. unfold central_pop. rewrite check_ok by auto. cbn [negb]. unfold gsl_mean. rewrite (running_avg v) by auto.
  rewrite running_avg by (destruct v; [auto|discriminate]). reflexivity.
Qed.
(** C34: the population skew and kurtosis are the third and fourth central moments. *)
Theorem C34_skew_pop : forall v, v <> [] -> vector_skew_pop v None = Some (central 3 v).
Proof. exact (pop_aux 3). Qed.
Theorem C34_kurtosis_pop : forall v, v <> [] -> vector_kurtosis_pop v None = Some (central 4 v).
Proof. exact (pop_aux 4). Qed.
Print Assumptions C34_kurtosis_pop.

Lemma var_nonneg_aux v x : (2 <= length v)%nat -> vector_var v None = Some x -> 0 <= x /\ (x = 0 <-> forall a b, In a v -> In b v -> a = b).
Proof. intros H. rewrite var_plain by auto. intros [= <-]. split; [apply svar_nonneg; auto|apply svar_zero; auto]. Qed.
(** C34: variance is nonnegative, and zero exactly for constant vectors; also with nonnegative weights (summing to 1.1 or more). *)
Theorem C34_var_nonneg : forall v x, (2 <= length v)%nat -> vector_var v None = Some x ->
  0 <= x /\ (x = 0 <-> forall a b, In a v -> In b v -> a = b).
Proof. exact var_nonneg_aux. Qed.
Theorem C34_weighted_var_nonneg : forall v w x, v <> [] -> length w = length v -> 11 / 10 <= Rsum w -> Forall (fun y => 0 <= y) w ->
  vector_var v (Some w) = Some x -> 0 <= x.
Proof. exact wvar_nonneg. Qed.
Print Assumptions C34_weighted_var_nonneg.

(** C34: covariance is symmetric and the covariance of a vector with itself is its variance, for any weights. *)
Theorem C34_cov_sym : forall v1 v2 w, vector_cov v1 v2 w = vector_cov v2 v1 w.
Proof. exact cov_sym. Qed.
Theorem C34_cov_diag : forall v w, vector_cov v v w = vector_var v w.
Proof. exact cov_diag. Qed.
Print Assumptions C34_cov_diag.

(** C34: the correlation coefficient is cov/(sd*sd) and lies in [-1,1]. *)
Theorem C34_correlation : forall a b, (2 <= length a)%nat -> length b = length a -> svar a <> 0 -> svar b <> 0 ->
  exists r, vector_correlation a b None = Some r /\ r = scov a b / (sqrt (svar a) * sqrt (svar b)) /\ -1 <= r <= 1.
Proof. exact corr_plain. Qed.
Print Assumptions C34_correlation.
Example C34_correlation_nonvacuous : svar [1; 2] <> 0.
Proof. unfold svar, avg, Rsum. cbn. lra. Qed.

(** C34: mismatched sizes and empty vectors give NaN. *)
Lemma bad_sizes_aux v w : v = [] \/ length w <> length v -> vector_mean v (Some w) = None /\ vector_var v (Some w) = None /\ forall v2, vector_cov v v2 (Some w) = None.
Proof.
  intros H. assert (check_vw v (Some w) = false) as E.
  { unfold check_vw. destruct H as [->|H]; [reflexivity|]. destruct (Nat.eqb_spec (length w) (length v)); [congruence|]. apply Bool.andb_false_r. }
  unfold vector_mean, vector_var. rewrite E. split; [auto|]. split; [auto|]. intros v2. unfold vector_cov.
  destruct H as [->|H]; [reflexivity|]. destruct (Nat.eqb_spec (length w) (length v)); [congruence|]. cbn [andb negb]. rewrite Bool.orb_true_r. reflexivity.
Qed.
Theorem C34_bad_sizes : forall v w, v = [] \/ length w <> length v ->
  vector_mean v (Some w) = None /\ vector_var v (Some w) = None /\ forall v2, vector_cov v v2 (Some w) = None.
Proof. exact bad_sizes_aux. Qed.
Print Assumptions C34_bad_sizes.

(** C34: apop_data_covariance: entry (i,j) is the covariance of columns i and j (so the matrix is symmetric with the
    variances on the diagonal); its rows and columns carry the input's column names. *)
Lemma cov_matrix_aux g d m : mat d = Some m ->
  exists out nm, data_covariance g d = Some (out, nm) /\ wf_grid out /\ gr out = gc m /\ gc out = gc m /\
    rown nm = coln (nms d) /\ coln nm = coln (nms d) /\
    forall i j, (i < gc m)%nat -> (j < gc m)%nat -> cell out i j = Some (vector_cov (colv m i) (colv m j) (wts d)).
Proof.
  intros H. destruct (data_covariance_spec g d m H) as (out & E & W & R1 & C1 & HC). exists out. eexists. split; [exact E|].
  split; [auto|]. split; [auto|]. split; [auto|]. unfold name_stack. cbn [Ascii.eqb Bool.eqb].
  destruct (add_all_col name_alloc (coln (nms d))) as (A1 & A2 & _). destruct (add_all_row (add_all name_alloc (coln (nms d)) "c") (coln (nms d))) as (B1 & B2 & _).
  cbn zeta in *. rewrite B1, B2, A1, A2. auto.
Qed.
Theorem C34_covariance_matrix : forall g d m, mat d = Some m ->
  exists out nm, data_covariance g d = Some (out, nm) /\ wf_grid out /\ gr out = gc m /\ gc out = gc m /\
    rown nm = coln (nms d) /\ coln nm = coln (nms d) /\
    forall i j, (i < gc m)%nat -> (j < gc m)%nat -> cell out i j = Some (vector_cov (colv m i) (colv m j) (wts d)).
Proof. exact cov_matrix_aux. Qed.
Print Assumptions C34_covariance_matrix.
(** C34: apop_data_correlation: entry (i,j) is cov(i,j)/(sd(i)*sd(j)) whenever both variances are positive. *)
Theorem C34_correlation_matrix : forall g d m, mat d = Some m ->
  exists out nm, data_correlation g d = Some (out, nm) /\ data_covariance g d <> None /\
    wf_grid out /\ gr out = gc m /\ gc out = gc m /\
    forall i j c vi vj, (i < gc m)%nat -> (j < gc m)%nat ->
      vector_cov (colv m i) (colv m j) (wts d) = Some c ->
      vector_var (colv m i) (wts d) = Some vi -> vector_var (colv m j) (wts d) = Some vj -> 0 < vi -> 0 < vj ->
      cell out i j = Some (Some (c / (sqrt vi * sqrt vj))).
Proof. exact data_correlation_spec. Qed.
Print Assumptions C34_correlation_matrix.

(** C34: matrix sum, mean and population variance over all cells. *)
Theorem C34_matrix_sum : forall m, matrix_sum m = Rsum (concat (ga m)).
Proof. exact matrix_sum_spec. Qed.
Theorem C34_matrix_mean : forall m, concat (ga m) <> [] -> matrix_mean (Some m) = avg (concat (ga m)).
Proof. exact matrix_mean_spec. Qed.
Theorem C34_matrix_mean_and_var : forall m, concat (ga m) <> [] ->
  matrix_mean_and_var (Some m) = (avg (concat (ga m)), Some (central 2 (concat (ga m)))).
Proof. exact matrix_mv_spec. Qed.
Print Assumptions C34_matrix_mean_and_var.
(** C34: apop_vector_sum. *)
Theorem C34_vector_sum : forall v, vector_sum v = Rsum v.
Proof. intros v. unfold vector_sum. rewrite fold_left_Rplus. lra. Qed.
Print Assumptions C34_vector_sum.

(** C34: weights summing to one do not give the unweighted variance, though the documentation says so: equal weights 1/2
    on (0,1) give 3/8, the sample variance is 1/2. *)
Theorem C34_unit_weights_refuted : vector_var [0; 1] (Some [1/2; 1/2]) = Some (3/8) /\ vector_var [0; 1] None = Some (1/2).
Proof.
  split.
  - unfold vector_var, check_vw. cbn [length Nat.eqb negb andb combine fold_left]. unfold wlen.
    destruct (Rlt_dec _ _); [|lra]. cbn [length INR]. rewrite !cdiv_ok by lra. f_equal. field.
  - rewrite var_plain by (cbn; lia). f_equal. unfold svar, avg, Rsum. cbn. field.
Qed.
Print Assumptions C34_unit_weights_refuted.

Lemma column_aux (m : grid R) j : wf_grid m -> (j < gc m)%nat -> forall i, colv m j !! i = cell m i j.
Proof.
  destruct m as [r c a]. intros [_ H2] Hj i. unfold colv, cell. cbn in *. revert i.
  induction a as [|x a IH]; intros i; [destruct i; reflexivity|]. apply List.Forall_cons_iff in H2 as [Hx H2].
  destruct (x !! j) as [y|] eqn:E; [|apply lookup_ge_None in E; lia]. cbn [omap list_omap]. rewrite E. destruct i as [|i]; [cbn; auto|]. cbn. apply IH; auto.
Qed.
(** what "column j" means above *)
Theorem C34_column : forall (m : grid R) j, wf_grid m -> (j < gc m)%nat -> forall i, colv m j !! i = cell m i j.
Proof. exact column_aux. Qed.
Print Assumptions C34_column.
