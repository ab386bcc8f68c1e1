(** C123: the t distribution model. *)
From Coq Require Import Reals Lra Lia.
From Verif Require Import DataModel StatsModel StatsSpec StatsProofs StatsMatProofs ConvModel LikeModel LikeProps TModel.
Local Open Scope list_scope.
Local Open Scope R_scope.
Local Arguments Rsum : simpl never.

(** ---------- specification ---------- *)
(** parameters named μ, σ and df in this order, and no others *)
Definition t_params (p : page (option R)) (mu sigma : option R) (df : R) : Prop :=
  rown (nms p) = ["μ"; "σ"; "df"]%string /\ vect p = Some [mu; sigma; Some df].
(** the variance of a t distribution scaled by sigma, for df above two *)
Definition t_variance (sigma df : R) : R := sigma ^ 2 * (df / (df - 2)).
Definition in_vector (l : list R) : page R := Pg (Some l) None None None name_alloc None.
Definition in_matrix (m : grid R) : page R := Pg None (Some m) None None name_alloc None.

(** ---------- proofs ---------- *)
Lemma est_params g d : let '(mu, sigma, df) := t_numbers d in t_params (estimate_t g None d) mu sigma df.
Proof. unfold estimate_t, t_estimate. destruct (t_numbers d) as [[mu sigma] df]. split; reflexivity. Qed.
Lemma sqrt_share n v : 3 <= n -> 0 <= v -> csqrt ((n - 3) / (n - 1) * v) = Some (R_sqrt.sqrt ((n - 3) / (n - 1) * v)).
Proof.
  intros Hn Hv. unfold csqrt. destruct (Rlt_dec _ 0) as [H|]; auto. exfalso. assert (0 <= (n - 3) / (n - 1)).
  { apply Rmult_le_pos; [lra|]. left. apply Rinv_0_lt_compat. lra. } nra.
Qed.
Lemma numbers_vector l : (2 <= length l)%nat -> t_numbers (in_vector l) =
  (Some (avg l), csqrt ((INR (length l) - 3) / (INR (length l) - 1) * svar l), INR (length l) - 1).
Proof.
  intros H. destruct (len2 l H) as (H1 & H2 & H3). unfold t_numbers. unfold in_vector, tsize, vsz, msz1, msz2, vcells. cbn [vect mat].
  replace (length l =? 0)%nat with false by (destruct l; auto; congruence). rewrite Nat.mul_0_l, Nat.add_0_r. cbn [Nat.eqb].
  rewrite mean_plain, var_plain by auto. rewrite !cdiv_ok by lra. cbn [INR]. f_equal. f_equal.
  - f_equal. field. lra.
  - f_equal. field. lra.
Qed.
Lemma concat_len (m : grid R) : wf_grid m -> length (concat (ga m)) = (gr m * gc m)%nat.
Proof.
  intros W. pose proof (cells_len (in_matrix m)) as C. unfold cells, in_matrix, vcells, mcells, tsize, vsz, msz1, msz2 in C. cbn in C. apply C.
  intros m' E. cbn in E. injection E as <-. exact W.
Qed.
Lemma numbers_matrix m : wf_grid m -> (2 <= gr m * gc m)%nat -> let l := concat (ga m) in t_numbers (in_matrix m) =
  (Some (avg l), csqrt ((INR (length l) - 3) / (INR (length l) - 1) * central 2 l), INR (length l) - 1).
Proof.
  intros W H l. pose proof (concat_len m W) as E. fold l in E.
  assert (L : (2 <= length l)%nat) by lia. destruct (len2 l L) as (H1 & H2 & H3). unfold t_numbers. unfold in_matrix, tsize, vsz, msz1, msz2, vcells. cbn [vect mat].
  replace (gr m =? 0)%nat with false by (symmetry; apply Nat.eqb_neq; lia). cbn [Nat.eqb Nat.add]. rewrite matrix_mv_spec by auto. fold l. cbn [fst snd]. rewrite <- E.
  rewrite !cdiv_ok by lra. cbn [INR]. f_equal. f_equal.
  - f_equal. field. lra.
  - f_equal. field. lra.
Qed.

(** ---------- C123 ---------- *)
(** numbers in the vector: the mean, degrees of freedom one less than the count, and the scale with which the distribution's variance is the sample variance *)
Theorem C123_estimate : forall g l, (3 <= length l)%nat -> exists sigma, 0 <= sigma /\
  t_params (estimate_t g None (in_vector l)) (Some (avg l)) (Some sigma) (INR (length l) - 1) /\
  ((3 < length l)%nat -> t_variance sigma (INR (length l) - 1) = svar l) /\ (length l = 3%nat -> sigma = 0).
Proof.
  intros g l H. assert (H2 : (2 <= length l)%nat) by lia. pose proof (le_INR _ _ H) as HR. change (INR 3) with (1 + 1 + 1) in HR.
  pose proof (svar_nonneg l H2) as P. pose proof (est_params g (in_vector l)) as Q. rewrite numbers_vector in Q by auto. rewrite sqrt_share in Q by lra.
  set (n := INR (length l)) in *. assert (S : 0 <= (n - 3) / (n - 1) * svar l).
  { apply Rmult_le_pos; auto. apply Rmult_le_pos; [lra|]. left. apply Rinv_0_lt_compat. lra. }
  eexists. split; [apply R_sqrt.sqrt_pos|]. split; [exact Q|]. split.
  - intros H4. apply lt_INR in H4. fold n in H4. change (INR 3) with (1 + 1 + 1) in H4. unfold t_variance. rewrite <- Rsqr_pow2, Rsqr_sqrt by auto. field. lra.
  - intros E. replace n with 3 by (unfold n; rewrite E; cbn; lra). replace ((3 - 3) / (3 - 1) * svar l) with 0 by field. apply R_sqrt.sqrt_0.
Qed.
(** numbers in the matrix: the same, but the variance is the population's *)
Theorem C123_matrix : forall g m, wf_grid m -> (3 < gr m * gc m)%nat -> let l := concat (ga m) in exists sigma,
  t_params (estimate_t g None (in_matrix m)) (Some (avg l)) (Some sigma) (INR (length l) - 1) /\ t_variance sigma (INR (length l) - 1) = central 2 l.
Proof.
  intros g m W H l. pose proof (est_params g (in_matrix m)) as Q. rewrite numbers_matrix in Q by (auto; lia). fold l in Q.
  pose proof (concat_len m W) as E. fold l in E.
  assert (HR : 3 < INR (length l)) by (replace 3 with (INR 3) by (cbn; lra); apply lt_INR; lia).
  assert (P : 0 <= central 2 l).
  { unfold central, avg at 1. apply Rmult_le_pos; [|left; apply Rinv_0_lt_compat; rewrite map_length; lra]. apply Rsum_nonneg. apply Forall_forall. intros x Hx.
    apply in_map_iff in Hx. destruct Hx as (y & <- & _). apply pow2_ge_0. }
  rewrite sqrt_share in Q by (auto; lra). set (n := INR (length l)) in *. eexists. split; [exact Q|]. unfold t_variance. rewrite <- Rsqr_pow2, Rsqr_sqrt.
  - field. lra.
  - apply Rmult_le_pos; auto. apply Rmult_le_pos; [lra|]. left. apply Rinv_0_lt_compat. lra.
Qed.
(** numbers in both: the mean is that of all of them *)
Theorem C123_mean : forall g v m w nm, v <> [] -> wf_grid m -> (0 < gr m * gc m)%nat -> let d := Pg (Some v) (Some m) w None nm None in
  exists sigma, t_params (estimate_t g None d) (Some (avg (v ++ concat (ga m)))) sigma (INR (length v + gr m * gc m) - 1).
Proof.
  intros g v m w nm Hv W H d. pose proof (est_params g d) as Q. pose proof (concat_len m W) as E.
  destruct (t_numbers d) as [[mu sigma] df] eqn:EN. exists sigma. unfold t_numbers in EN. injection EN as Emu _ Edf.
  replace mu with (Some (avg (v ++ concat (ga m)))) in Q.
  { replace df with (INR (length v + gr m * gc m) - 1) in Q; auto. }
  rewrite <- Emu. unfold d, tsize, vsz, msz1, msz2, vcells. cbn [vect mat]. replace (length v =? 0)%nat with false by (destruct v; auto; congruence).
  replace (gr m =? 0)%nat with false by (symmetry; apply Nat.eqb_neq; lia). rewrite mean_plain by auto.
  assert (NE : concat (ga m) <> []) by (intros X; rewrite X in E; cbn in E; lia). pose proof (matrix_mv_spec m NE) as M3. unfold matrix_mean_and_var in M3. rewrite M3. cbn [fst].
  assert (L : INR (length v + gr m * gc m) <> 0) by (apply not_0_INR; destruct v; cbn; [congruence|lia]). rewrite cdiv_ok by auto. f_equal.
  unfold avg at 1. rewrite app_length, E, Rsum_app. rewrite <- (avg_len v), <- (avg_len (concat (ga m))), E by auto. field. auto.
Qed.
(** fewer than three numbers: the scale is not a number *)
Theorem C123_few : forall g x y, x <> y -> exists mu, t_params (estimate_t g None (in_vector [x; y])) mu None 1.
Proof.
  intros g x y N. pose proof (est_params g (in_vector [x; y])) as Q. rewrite numbers_vector in Q by (cbn; lia). exists (Some (avg [x; y])).
  replace (INR (length [x; y]) - 1) with 1 in Q by (cbn; lra). replace (csqrt _) with (@None R) in Q; auto.
  unfold csqrt. destruct (Rlt_dec _ 0) as [|H]; auto. exfalso. apply H. pose proof (svar_nonneg [x; y] ltac:(cbn; lia)) as P. pose proof (svar_zero [x; y] ltac:(cbn; lia)) as Z.
  assert (svar [x; y] <> 0). { intros E. apply N. apply (proj1 Z E); cbn; auto. } replace (INR (length [x; y])) with 2 by (cbn; lra). nra.
Qed.
Section Dist.
Context (tpdf tcdf : R -> R -> R).
(** likelihood, cdf and draws are of one distribution: with the library's own density the derivative of its cdf, the model's density is the derivative of the
    model's cdf; a draw is at most x exactly when the library's draw is at most the point at which the model's cdf at x asks the library's *)
Theorem C123_distribution : forall mu sigma df, 0 < sigma -> (forall x, 0 < tpdf x df) -> (forall x, derivable_pt_lim (fun y => tcdf y df) x (tpdf x df)) ->
  exists F, (forall x, t_cdf tcdf mu sigma df (single x) = Some (F x)) /\
    (forall x row rows nr nc nm, t_cdf tcdf mu sigma df (Pg None (Some (Gr nr nc ((x :: row) :: rows))) None None nm None) = Some (F x)) /\
    (forall x, derivable_pt_lim F x (exp (t_ll tpdf mu sigma df (single x)))) /\
    (forall t x, t_draw mu sigma t <= x <-> t <= (x - mu) / sigma) /\ (forall t, F (t_draw mu sigma t) = tcdf t df).
Proof.
  intros mu sigma df Hs Hp Hd. exists (fun x => tcdf ((x - mu) / sigma) df). split; [reflexivity|]. split; [reflexivity|]. split; [|split].
  - intros x. unfold t_ll. rewrite mapsum_one, tsize_one. unfold one_t. replace (ln _ - 1 * ln sigma) with (ln (tpdf ((x - mu) / sigma) df) + - ln sigma) by ring.
    rewrite exp_plus, exp_Ropp, !exp_ln by auto.
    apply (derivable_pt_lim_comp (fun x => (x - mu) / sigma) (fun y => tcdf y df) x (/ sigma) (tpdf ((x - mu) / sigma) df)); [|apply Hd].
    intros e He. exists (mkposreal 1 Rlt_0_1). intros h Hh _. replace (((x + h - mu) / sigma - (x - mu) / sigma) / h - / sigma) with 0 by (field; lra). rewrite Rabs_R0. auto.
  - intros t x. unfold t_draw. split; intros H.
    + apply (Rmult_le_reg_r sigma); auto. replace ((x - mu) / sigma * sigma) with (x - mu) by (field; lra). lra.
    + apply (Rmult_le_compat_r sigma) in H; [|lra]. replace ((x - mu) / sigma * sigma) with (x - mu) in H by (field; lra). lra.
  - intros t. unfold t_draw. f_equal. field. lra.
Qed.
(** the log likelihood of a data set is the sum of its cells' *)
Theorem C123_cells : forall mu sigma df d, wf_mat d -> t_ll tpdf mu sigma df d = Rsum (map (fun x => t_ll tpdf mu sigma df (single x)) (cells d)).
Proof.
  intros mu sigma df d W. unfold t_ll at 1. rewrite <- (cells_len d W), mapsum_R. fold (Rsumf (fun x => t_ll tpdf mu sigma df (single x)) (cells d)).
  rewrite (Rsumf_ext (fun x => t_ll tpdf mu sigma df (single x)) (fun x => one_t tpdf mu sigma df x + - ln sigma)).
  - rewrite Rsumf_plus, Rsumf_const. lra.
  - intros x _. unfold t_ll. rewrite mapsum_one, tsize_one. lra.
Qed.
End Dist.
(** deviation: the same numbers in a matrix give another scale than in a vector *)
Theorem C123_refuted_matrix : exists l m s1 s2 mu df, wf_grid m /\ concat (ga m) = l /\ (3 < length l)%nat /\
  (forall g, t_params (estimate_t g None (in_vector l)) mu (Some s1) df) /\ (forall g, t_params (estimate_t g None (in_matrix m)) mu (Some s2) df) /\ s1 <> s2.
Proof.
  set (l := [0; 0; 2; 2]). set (m := Gr 4 1 [[0]; [0]; [2]; [2]]). assert (W : wf_grid m) by (split; cbn; auto; repeat constructor).
  assert (A : avg l = 1) by (unfold avg, Rsum, l; cbn; field).
  assert (V : svar l = 4 / 3) by (unfold svar; rewrite A; unfold Rsum, l; cbn; field). assert (C : central 2 l = 1) by (unfold central; rewrite A; unfold avg, Rsum, l; cbn; field).
  assert (L : INR (length l) = 4) by (unfold l; cbn; lra).
  exists l, m, (R_sqrt.sqrt (4 / 9)), (R_sqrt.sqrt (1 / 3)), (Some 1), 3. split; auto. split; [reflexivity|]. split; [cbn; lia|].
  assert (Q : forall q, 0 <= q -> csqrt q = Some (R_sqrt.sqrt q)) by (intros q Hq; unfold csqrt; destruct (Rlt_dec q 0); auto; lra).
  split; [|split].
  - intros g. pose proof (est_params g (in_vector l)) as P. rewrite numbers_vector in P by (cbn; lia). rewrite L, A, V in P.
    replace ((4 - 3) / (4 - 1) * (4 / 3)) with (4 / 9) in P by field. replace (4 - 1) with 3 in P by lra. rewrite Q in P by lra. auto.
  - intros g. pose proof (est_params g (in_matrix m)) as P. rewrite numbers_matrix in P by (auto; cbn; lia). change (concat (ga m)) with l in P. rewrite L, A, C in P.
    replace ((4 - 3) / (4 - 1) * 1) with (1 / 3) in P by field. replace (4 - 1) with 3 in P by lra. rewrite Q in P by lra. auto.
  - intros E. apply R_sqrt.sqrt_inj in E; lra.
Qed.
(** deviation: with numbers in both parts the difference between the parts' means is left out of the scale, which may be zero for numbers that differ *)
Theorem C123_refuted_parts : exists d, wf_mat d /\ svar (cells d) = 8 / 7 * (1 / 4) /\ forall g, t_params (estimate_t g None d) (Some (1 / 2)) (Some 0) 7.
Proof.
  set (m := Gr 4 1 [[1]; [1]; [1]; [1]]). set (d := Pg (Some [0; 0; 0; 0]) (Some m) None None name_alloc None : page R).
  assert (W : wf_grid m) by (split; cbn; auto; repeat constructor).
  exists d. split; [intros m' E; injection E as <-; exact W|]. split.
  - unfold cells, vcells, mcells. cbn [vect mat d m ga concat app]. assert (A : avg [0; 0; 0; 0; 1; 1; 1; 1] = 1 / 2) by (unfold avg, Rsum; cbn; field).
    unfold svar. rewrite A. unfold Rsum. cbn. field.
  - intros g. pose proof (est_params g d) as P. assert (N : t_numbers d = (Some (1 / 2), Some 0, 7)); [|rewrite N in P; auto].
    pose proof (mean_plain (vcells d) ltac:(discriminate)) as M1. pose proof (var_plain (vcells d) ltac:(cbn; lia)) as M2.
    pose proof (matrix_mv_spec m ltac:(discriminate)) as M3.
    assert (A : avg (vcells d) = 0) by (unfold avg, Rsum; cbn; field). assert (V : svar (vcells d) = 0) by (unfold svar; rewrite A; unfold Rsum; cbn; field).
    assert (B : avg (concat (ga m)) = 1) by (unfold avg, Rsum; cbn; field). assert (C : central 2 (concat (ga m)) = 0) by (unfold central; rewrite B; unfold avg, Rsum; cbn; field).
    unfold t_numbers. rewrite M1, M2. change (mat d) with (Some m). rewrite M3. rewrite A, V, B, C. change (tsize d) with 8%nat. change (vsz d) with 4%nat. change (msz1 d * msz2 d)%nat with 4%nat. change (msz1 d) with 4%nat.
    cbn [Nat.eqb fst snd]. replace (INR 8) with 8 by (cbn; lra). replace (INR 4) with 4 by (cbn; lra). rewrite !cdiv_ok by lra.
    replace ((8 - 3) / (8 - 1) * (0 * (4 - 1) + 0 * (4 - 1)) / (8 - 1)) with 0 by field. unfold csqrt. destruct (Rlt_dec 0 0); [lra|]. rewrite R_sqrt.sqrt_0.
    replace ((0 * 4 + 1 * 4) / 8) with (1 / 2) by field. replace (8 - 1) with 7 by lra. reflexivity.
Qed.
(** deviation: estimating a t model that has been estimated before leaves its parameters as they were and adds three more behind them *)
Theorem C123_refuted_again : forall g d1 d2, let p1 := estimate_t g None d1 in let p2 := estimate_t g (Some p1) d2 in
  t_read p2 = t_read p1 /\ exists v1 v2, vect p1 = Some v1 /\ vect (estimate_t g None d2) = Some v2 /\ vect p2 = Some (v1 ++ v2).
Proof.
  intros g d1 d2. unfold estimate_t, t_estimate. destruct (t_numbers d1) as [[a b] c], (t_numbers d2) as [[a' b'] c']. split; [reflexivity|]. repeat eexists.
Qed.
(** the library's functions for one degree of freedom meet the hypotheses *)
Example C123_nonvacuous : let f x (_ : R) := / (PI * (1 + x ^ 2)) in let F x (_ : R) := 1 / 2 + atan x / PI in
  (forall x, 0 < f x 1) /\ (forall x, derivable_pt_lim (fun y => F y 1) x (f x 1)) /\ (3 < length [1; 2; 4; 9])%nat.
Proof.
  pose proof PI_RGT_0 as P. split; [|split; [|cbn; lia]].
  - intros x. apply Rinv_0_lt_compat. pose proof (pow2_ge_0 x). nra.
  - intros x. cbv beta. replace (/ (PI * (1 + x ^ 2))) with (0 + / PI * (/ (1 + x ^ 2))) by (field; pose proof (pow2_ge_0 x); split; lra).
    apply (derivable_pt_lim_ext (fun y => 1 / 2 + / PI * atan y)); [intros; field; lra|].
    apply derivable_pt_lim_plus; [apply derivable_pt_lim_const|]. apply derivable_pt_lim_scal.
    apply derivable_pt_lim_atan.
Qed.
Print Assumptions C123_estimate. Print Assumptions C123_matrix. Print Assumptions C123_mean. Print Assumptions C123_few. Print Assumptions C123_distribution. Print Assumptions C123_cells.
Print Assumptions C123_refuted_matrix. Print Assumptions C123_refuted_parts. Print Assumptions C123_refuted_again.
