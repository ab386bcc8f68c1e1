(** C126: what the Normal and Lognormal models report besides their likelihoods: lognormal estimates, the covariance page, predictions, cdfs and draws. *)
From Coq Require Import Reals Lra Lia.
From Verif Require Import DataModel StatsModel StatsSpec StatsProofs StatsProps ConvProofs ConvModel LikeModel LikeProps ScoreProps MleProps CtProps NormModel.
From Coquelicot Require Import Coquelicot.
Local Open Scope list_scope.
Local Open Scope R_scope.
Local Arguments Rsum : simpl never.

(** ---------- the copy with its logs is the data with every number replaced by its log ---------- *)
Lemma take_drop_alter (l : list R) i : (i < length l)%nat -> alter ln i (map ln (take i l) ++ drop i l) = map ln (take (S i) l) ++ drop (S i) l.
Proof.
  intros H. destruct (lookup_lt_is_Some_2 l i H) as [x Hx]. rewrite (drop_S l x i Hx), (take_S_r l i x Hx), map_app, <- app_assoc. cbn [map app].
  rewrite alter_app_r_alt by (rewrite map_length, take_length; lia). rewrite map_length, take_length. replace (i - i `min` length l)%nat with 0%nat by lia. reflexivity.
Qed.
Lemma log_cols g : wf_grid g -> fold_left log_col (seq 0 (gc g)) g = Gr (gr g) (gc g) (map (map ln) (ga g)).
Proof.
  intros [_ HF]. assert (G : forall k, (k <= gc g)%nat -> fold_left log_col (seq 0 k) g = Gr (gr g) (gc g) (map (fun r => map ln (take k r) ++ drop k r) (ga g))).
  { induction k as [|k IH]; intros Hk.
    - cbn. rewrite map_id. destruct g; auto.
    - rewrite seq_S, fold_left_app, IH by lia. cbn [fold_left]. unfold log_col. cbn [gr gc ga]. f_equal. rewrite map_map. apply map_ext_in. intros r Hr.
      apply take_drop_alter. eapply List.Forall_forall in HF; [|exact Hr]. cbn in HF. lia. }
  rewrite G by lia. f_equal. apply map_ext_in. intros r Hr. eapply List.Forall_forall in HF; [|exact Hr]. cbn in HF. rewrite take_ge, drop_ge, app_nil_r by lia. auto.
Qed.
Lemma log_data_rmap p : wf_mat p -> log_data p = CtProps.rmap ln p.
Proof.
  intros Hw. unfold log_data, CtProps.rmap. f_equal; try (destruct (vect p); reflexivity). unfold msz2. destruct (mat p) as [m|] eqn:Em; [|reflexivity]. cbn [option_map]. f_equal.
  rewrite <- log_cols by (apply Hw; auto). destruct (Nat.eqb_spec (gc m) 0) as [E|E]; [rewrite E; reflexivity|auto].
Qed.
Lemma cells_log p : wf_mat p -> cells (log_data p) = map ln (cells p).
Proof. intros Hw. rewrite log_data_rmap by auto. apply cells_rmap. Qed.
Lemma log_ll p mu sd : wf_mat p -> normal_ll mu sd (log_data p) = lognormal_ll mu sd p + mapsum ln p.
Proof. intros Hw. rewrite log_data_rmap by auto. apply normal_rmap. Qed.
Lemma log_wf p : wf_mat p -> wf_mat (log_data p).
Proof.
  intros Hw m. rewrite log_data_rmap by auto. unfold CtProps.rmap. cbn [mat]. destruct (mat p) as [g|] eqn:E; [|discriminate]. cbn [option_map]. intros H. injection H as <-.
  destruct (Hw g E) as [H1 H2]. split; cbn [gr gc ga]; [rewrite map_length; auto|]. rewrite Forall_map. eapply List.Forall_impl; [|exact H2]. intros r Hr. cbn in *. rewrite map_length. auto.
Qed.

(** ---------- estimates ---------- *)
Lemma mean_best mu s p : wf_mat p -> cells p <> [] -> 0 < s -> normal_ll mu s p <= normal_ll (avg (cells p)) s p.
Proof.
  intros Hw Hc Hs. rewrite !normal_R by auto. pose proof (solid_len p Hw Hc) as Hn. assert (0 < / (2 * s ^ 2)) by (apply Rinv_0_lt_compat; nra). set (k := / (2 * s ^ 2)) in *. set (V := central 2 (cells p)).
  unfold Rdiv. fold k. apply Rplus_le_compat_r. rewrite !Rmult_assoc. rewrite <- !Ropp_mult_distr_l. apply Ropp_le_contravar, Rmult_le_compat_l; [lra|].
  apply Rmult_le_compat_r; [lra|]. pose proof (pow2_ge_0 (avg (cells p) - mu)). nra.
Qed.
Lemma nonneg_central l : 0 <= central 2 l.
Proof.
  unfold central. unfold avg at 1. destruct l as [|x l]; [cbn; unfold Rsum; cbn; lra|]. apply Rmult_le_pos.
  - induction (x :: l) as [|y r IH] in |- * at 2; cbn [map]; [rewrite Rsum_nil; lra|]. rewrite Rsum_cons. pose proof (pow2_ge_0 (y - avg (x :: l))). lra.
  - left. apply Rinv_0_lt_compat. rewrite map_length. apply lt_0_INR. cbn. lia.
Qed.
(** C126: numbers in the vector: mean and sample standard deviation of the logs; no other mean makes the data more likely, whatever the standard deviation *)
Theorem C126_lognormal_vector : forall p v, vect p = Some v -> mat p = None -> (2 <= length v)%nat ->
  est_lognormal p = Ok (Some (Some (avg (map ln v), R_sqrt.sqrt (svar (map ln v))))) /\
  forall mu s, 0 < s -> lognormal_ll mu s p <= lognormal_ll (avg (map ln v)) s p.
Proof.
  intros p v Ev Em Hl. assert (Hw : wf_mat p) by (intros m' E'; congruence). split.
  - unfold est_lognormal, mu_var, log_data. rewrite Ev, Em. cbn [vect mat rbind]. unfold get_mu_var. cbn [vect mat]. rewrite mean_plain by (destruct v; [cbn in Hl; lia|discriminate]).
    rewrite var_plain by (rewrite map_length; auto). cbn [rbind]. pose proof (svar_nonneg (map ln v) ltac:(rewrite map_length; auto)) as Hs. destruct (Rlt_dec _ 0); [lra|].
    do 4 f_equal. unfold tsize, vsz, msz1, msz2. cbn [vect mat]. rewrite map_length. replace (length v + 0 * 0)%nat with (length v) by lia. field. apply not_0_INR. lia.
  - intros mu s Hs. assert (Hc : cells p = v) by (unfold cells, vcells, mcells; rewrite Ev, Em, app_nil_r; auto).
    pose proof (mean_best mu s (log_data p) (log_wf p Hw)) as H. rewrite cells_log, Hc in H by auto. rewrite !log_ll in H by auto. assert (map ln v <> []) by (destruct v; [cbn in Hl; lia|discriminate]). specialize (H ltac:(auto) Hs). lra.
Qed.
(** C126: numbers in the matrix: of all means and standard deviations the estimate makes the data likeliest *)
Theorem C126_lognormal_matrix : forall p m, vect p = None -> mat p = Some m -> wf_grid m -> 0 < central 2 (map ln (cells p)) ->
  exists mu sd, est_lognormal p = Ok (Some (Some (mu, sd))) /\ mu = avg (map ln (cells p)) /\ sd ^ 2 = central 2 (map ln (cells p)) /\ 0 < sd /\
    forall mu' sd', 0 < sd' -> lognormal_ll mu' sd' p <= lognormal_ll mu sd p.
Proof.
  intros p m Ev Em Hg HV. assert (Hw : wf_mat p) by (intros m' E'; congruence). assert (HL := log_wf p Hw). rewrite <- cells_log in * by auto.
  assert (Ev' : vect (log_data p) = None) by (unfold log_data; rewrite Ev; auto). destruct (mat (log_data p)) as [m'|] eqn:Em'; [|unfold log_data in Em'; rewrite Em in Em'; discriminate].
  destruct (C58_normal_matrix (log_data p) m' Ev' Em' (HL m' Em') HV) as (mu & sd & E & Ps & B). exists mu, sd.
  unfold est_lognormal, mu_var. rewrite Ev, Em, Ev', Em'. cbn [rbind]. unfold normal_estimate in E. destruct (get_mu_var (log_data p)) as [[a b]|] eqn:EG; [|discriminate].
  unfold csqrt in E. destruct (Rlt_dec b 0) as [|Hb]; [discriminate|]. injection E as <- <-. split; auto.
  assert (Hc : cells (log_data p) <> []). { intros E. rewrite E in HV. unfold central, avg in HV. cbn in HV. rewrite Rsum_nil in HV. unfold Rdiv in HV. lra. }
  assert (NE : normal_estimate (log_data p) = Some (a, R_sqrt.sqrt b)). { unfold normal_estimate. rewrite EG. unfold csqrt. destruct (Rlt_dec b 0); [lra|auto]. }
  split; [apply (C58_normal_mean _ _ _ HL NE Hc)|]. split.
  - rewrite pow2_sqrt by lra. unfold get_mu_var in EG. rewrite Ev', Em', C34_matrix_mean_and_var in EG by (intros X; apply Hc; unfold cells, vcells, mcells; rewrite Ev', Em', X; auto).
    injection EG as _ <-. unfold cells, vcells, mcells. rewrite Ev', Em'. reflexivity.
  - split; auto. intros mu' s Hs. specialize (B mu' s Hs). rewrite !log_ll in B by auto. lra.
Qed.

(** ---------- the covariance page and the prediction ---------- *)
(** C126: the second derivatives of the log likelihood at mean and standard deviation of the data: its inverse, with the sign changed, is sd^2/n for the mean,
    sd^2/(2n) for the standard deviation, and zero between them *)
Theorem C126_information : forall p mu sd, wf_mat p -> cells p <> [] -> mu = avg (cells p) -> sd ^ 2 = central 2 (cells p) -> 0 < sd ->
  let n := INR (length (cells p)) in
  derivable_pt_lim (fun m => fst (normal_score m sd p)) mu (- / (sd ^ 2 / n)) /\ derivable_pt_lim (fun s => snd (normal_score mu s p)) sd (- / (sd ^ 2 / (2 * n))) /\
  derivable_pt_lim (fun s => fst (normal_score mu s p)) sd 0.
Proof.
  intros p mu sd Hw Hc Hm Hs Ps n. pose proof (solid_len p Hw Hc) as Hn. rewrite <- cells_len in Hn by auto. fold n in Hn.
  assert (S1 : forall m, mapsum (fun x => x - m) p = n * (mu - m)).
  { intros m. rewrite mapsum_R. unfold Rminus. rewrite Rsumf_plus, Rsumf_const, Rsumf_id. fold n. subst mu. pose proof (avg_len _ Hc) as A. fold n in A. lra. }
  assert (S2 : mapsum (fun x => (x - mu) ^ 2) p = n * sd ^ 2). { rewrite mapsum_R, sum_sq by auto. rewrite <- Hm, <- Hs. fold n. ring. }
  unfold normal_score. cbn [fst snd]. rewrite <- cells_len by auto. fold n. split; [|split]; apply is_derive_Reals.
  - eapply is_derive_ext; [intros t; symmetry; rewrite S1; reflexivity|]. auto_derive; [auto; lra|]. field. lra.
  - rewrite S2. auto_derive; [repeat split; repeat apply Rmult_integral_contrapositive_currified; lra|]. field. lra.
  - eapply is_derive_ext; [intros t; symmetry; rewrite S1; replace (n * (mu - mu)) with 0 by ring; unfold Rdiv; rewrite Rmult_0_l; reflexivity|]. apply is_derive_Reals. apply derivable_pt_lim_const.
Qed.
(** C126: with numbers in one part: the page's diagonal is mean/n and 2 sd^4/(n-1) *)
Theorem C126_page : forall p mu sd c, one_part p -> est_normal p = Ok (Some (mu, sd), c) -> (1 < length (cells p))%nat -> wf_mat p ->
  c = (Some (mu / INR (length (cells p))), Some (2 * sd ^ 4 / (INR (length (cells p)) - 1))).
Proof.
  intros p mu sd c Ho He Hl Hw. unfold est_normal in He. rewrite cells_len in * by auto.
  assert (E1 : mu_var p = Ok (get_mu_var p)). { unfold mu_var, get_mu_var. destruct Ho as [-> | ->]; destruct (vect p), (mat p); auto. }
  rewrite E1 in He. cbn [rbind] in He. destruct (get_mu_var p) as [[a b]|]; [|discriminate]. injection He as He <-. unfold csqrt in He. destruct (Rlt_dec b 0) as [|Hb]; [discriminate|]. injection He as <- <-.
  assert (1 < INR (tsize p)) by (apply (lt_INR 1); auto). rewrite !cdiv_ok by lra. do 4 f_equal. replace (R_sqrt.sqrt b ^ 4) with ((R_sqrt.sqrt b ^ 2) ^ 2) by ring. rewrite pow2_sqrt by lra. auto.
Qed.
(** the estimate is normal_estimate's of C58, for numbers in one part *)
Theorem C126_estimate : forall p, one_part p -> exists c, est_normal p = Ok (normal_estimate p, c).
Proof.
  intros p Ho. assert (E1 : mu_var p = Ok (get_mu_var p)). { unfold mu_var, get_mu_var. destruct Ho as [-> | ->]; destruct (vect p), (mat p); auto. }
  unfold est_normal. rewrite E1. cbn [rbind]. eexists. reflexivity.
Qed.
(** C126: the prediction is the mean; next to it is sd / sqrt n, whose square is the variance of the mean *)
Theorem C126_predict : forall mu sd d, (0 < tsize d)%nat -> 0 <= sd -> pred_normal mu sd None = (mu, Some 0) /\ exists s, pred_normal mu sd (Some d) = (mu, Some s) /\ 0 <= s /\ s ^ 2 = sd ^ 2 / INR (tsize d).
Proof.
  intros mu sd d Hn Hs. split; [reflexivity|]. assert (P : 0 < INR (tsize d)) by (apply lt_0_INR; auto). pose proof (sqrt_lt_R0 _ P) as Q. exists (sd / R_sqrt.sqrt (INR (tsize d))). split; [|split].
  - unfold pred_normal. unfold csqrt. destruct (Rlt_dec _ 0); [lra|]. rewrite cdiv_ok by lra. auto.
  - apply Rmult_le_pos; [auto|]. left. apply Rinv_0_lt_compat. auto.
  - unfold Rdiv. rewrite Rpow_mult_distr. f_equal. rewrite pow_inv by lra. f_equal. apply pow2_sqrt. lra.
Qed.

(** ---------- cdfs and draws ---------- *)
Section laws.
(** the standard Normal's distribution function, and the library's in terms of it *)
Context (Phi : R -> R) (gP : R -> R -> R) (lnP : R -> R -> R -> R).
Hypothesis Phi_density : forall z, derivable_pt_lim Phi z (exp (- z ^ 2 / 2 - ln2pi_half)).
Hypothesis gP_law : forall x sd, 0 < sd -> gP x sd = Phi (x / sd).
Hypothesis lnP_law : forall x mu sd, 0 < x -> 0 < sd -> lnP x mu sd = Phi ((ln x - mu) / sd).
Definition cell1 (x : R) : page R := Pg None (Some (Gr 1 1 ((x :: nil) :: nil))) None None name_alloc None.
Lemma number_single x : the_number (single x) = Some x. Proof. reflexivity. Qed.
Lemma number_cell x : the_number (cell1 x) = Some x. Proof. reflexivity. Qed.
(** C126: the cdf's derivative is the likelihood of one number, in the vector or in the matrix *)
Theorem C126_normal_cdf : forall mu sd x, 0 < sd -> normal_cdf gP mu sd (single x) = Some (Phi ((x - mu) / sd)) /\ normal_cdf gP mu sd (cell1 x) = Some (Phi ((x - mu) / sd)) /\
  derivable_pt_lim (fun y => Phi ((y - mu) / sd)) x (exp (normal_ll mu sd (single x))) /\ normal_ll mu sd (cell1 x) = normal_ll mu sd (single x).
Proof.
  intros mu sd x Hs. split; [unfold normal_cdf; rewrite ?number_single, ?number_cell; rewrite gP_law by auto; auto|]. split; [unfold normal_cdf; rewrite ?number_single, ?number_cell; rewrite gP_law by auto; auto|]. split; [|reflexivity].
  rewrite normal_one by auto. apply is_derive_Reals. evar_last.
  - apply (is_derive_comp Phi (fun y => (y - mu) / sd)); [apply is_derive_Reals, Phi_density|auto_derive; [lra|reflexivity]].
  - unfold scal; cbn; unfold mult; cbn. rewrite Rmult_1_l. apply Rmult_eq_reg_l with sd; [|lra]. rewrite <- Rmult_assoc, Rinv_r, Rmult_1_l by lra.
    rewrite <- (exp_ln sd Hs) at 3. rewrite <- exp_plus. f_equal. field. lra.
Qed.
Theorem C126_lognormal_cdf : forall mu sd x, 0 < sd -> 0 < x -> lognormal_cdf lnP mu sd (single x) = Some (Phi ((ln x - mu) / sd)) /\ lognormal_cdf lnP mu sd (cell1 x) = Some (Phi ((ln x - mu) / sd)) /\
  derivable_pt_lim (fun y => Phi ((ln y - mu) / sd)) x (exp (lognormal_ll mu sd (single x))) /\ lognormal_ll mu sd (cell1 x) = lognormal_ll mu sd (single x).
Proof.
  intros mu sd x Hs Hx. split; [unfold lognormal_cdf; rewrite ?number_single, ?number_cell; rewrite lnP_law by auto; auto|]. split; [unfold lognormal_cdf; rewrite ?number_single, ?number_cell; rewrite lnP_law by auto; auto|]. split; [|reflexivity].
  assert (L : lognormal_ll mu sd (single x) = - ((ln x - mu) ^ 2) / (2 * sd ^ 2) - ln x - (ln2pi_half + ln sd)).
  { unfold lognormal_ll. rewrite !mapsum_R. unfold single, cells, vcells, mcells, tsize, vsz, msz1, msz2; cbn [vect mat app length]. unfold Rsumf, Rsum. cbn. field. lra. }
  rewrite L. apply is_derive_Reals. evar_last.
  - apply (is_derive_comp Phi (fun y => (ln y - mu) / sd)); [apply is_derive_Reals, Phi_density|auto_derive; [lra|reflexivity]].
  - unfold scal; cbn; unfold mult; cbn. apply Rmult_eq_reg_l with (sd * x); [|nra].
    transitivity (exp (- ((ln x - mu) / sd * ((ln x - mu) / sd * 1)) / 2 - ln2pi_half)); [field; lra|].
    rewrite <- (exp_ln sd Hs) at 3. rewrite <- (exp_ln x Hx) at 3. rewrite <- !exp_plus. f_equal. field. lra.
Qed.
(** C126: draws: with [z] a standard Normal number, and gsl_ran_gaussian's sd times it, a draw is at most [x] exactly when [z] is at most the argument of Phi above *)
Theorem C126_draws : forall mu sd z x, 0 < sd -> (normal_draw mu (sd * z) <= x <-> z <= (x - mu) / sd) /\ (0 < x -> (lognormal_draw mu (sd * z) <= x <-> z <= (ln x - mu) / sd)).
Proof.
  intros mu sd z x Hs. assert (D : forall a, z <= a / sd <-> sd * z <= a).
  { intros a. split; intros H.
    - apply Rmult_le_compat_l with (r := sd) in H; [|lra]. replace (sd * (a / sd)) with a in H by (field; lra). auto.
    - apply Rmult_le_reg_l with sd; auto. replace (sd * (a / sd)) with a by (field; lra). auto. }
  unfold normal_draw, lognormal_draw. split; [|intros Hx]; rewrite D; [lra|]. split; intros H.
  - destruct (Rle_or_lt (sd * z) (ln x - mu)) as [|C]; auto. exfalso. assert (ln x < sd * z + mu) as C' by lra. apply exp_increasing in C'. rewrite exp_ln in C' by auto. lra.
  - rewrite <- (exp_ln x Hx). destruct (Req_dec (sd * z + mu) (ln x)) as [-> | N]; [lra|]. left. apply exp_increasing. lra.
Qed.
End laws.

(** ---------- deviations ---------- *)
(** numbers in both parts: GSL stops the program *)
Theorem C126_refuted_both : forall p v m, vect p = Some v -> mat p = Some m -> v <> [] -> est_normal p = UB /\ est_lognormal p = UB.
Proof.
  intros p v m Ev Em Hv. assert (G : forall q w g, vect q = Some w -> mat q = Some g -> mu_var q = UB).
  { intros q w g E1 E2. unfold mu_var. rewrite E1, E2. destruct (vector_mean w None); auto. cbn [seq map cross_sq]. unfold get_at, uses_vector. rewrite E1, E2. reflexivity. }
  unfold est_normal, est_lognormal. rewrite (G p v m Ev Em), Ev. rewrite (G (log_data p) (map ln v) (if (msz2 p =? 0)%nat then m else fold_left log_col (seq 0 (msz2 p)) m)) by (unfold log_data; rewrite ?Ev, ?Em; auto). auto.
Qed.
(** the page's first element is the mean over n: it is the mean's variance sd^2/n only if the mean is the variance, and negative for a negative mean; the second is
    the variance of the variance, not of the standard deviation, sd^2/(2n) *)
Theorem C126_refuted_page : forall p mu sd c0 c1, one_part p -> wf_mat p -> (1 < length (cells p))%nat -> 0 < sd -> est_normal p = Ok (Some (mu, sd), (Some c0, Some c1)) -> let n := INR (length (cells p)) in
  (c0 = sd ^ 2 / n <-> mu = sd ^ 2) /\ (mu < 0 -> c0 < 0) /\ (c1 = sd ^ 2 / (2 * n) <-> sd ^ 2 = (n - 1) / (4 * n)).
Proof.
  intros p mu sd c0 c1 Ho Hw Hl Ps He n. pose proof (C126_page p mu sd _ Ho He Hl Hw) as E. fold n in E. injection E as -> ->. assert (1 < n) by (apply (lt_INR 1); auto). split; [|split].
  - split; intros E; [|rewrite E; auto]. apply Rmult_eq_reg_r with (/ n); [exact E|]. apply Rinv_neq_0_compat. lra.
  - intros N. unfold Rdiv. assert (0 < / n) by (apply Rinv_0_lt_compat; lra). nra.
  - split; intros E.
    + apply Rmult_eq_reg_l with (2 * sd ^ 2 / (n - 1)). 2: { apply Rmult_integral_contrapositive_currified; [nra|]. apply Rinv_neq_0_compat. lra. }
      transitivity (2 * sd ^ 4 / (n - 1)); [field; lra|]. etransitivity; [exact E|]. field. lra.
    + change (2 * sd ^ 4 / (n - 1) = sd ^ 2 / (2 * n)). replace (sd ^ 4) with (sd ^ 2 * sd ^ 2) by ring. rewrite !E. field. lra.
Qed.
(** next to the prediction, on a page called <Covariance>, is the standard deviation of the mean *)
Theorem C126_refuted_predict : forall mu sd d s, (0 < tsize d)%nat -> 0 < sd -> snd (pred_normal mu sd (Some d)) = Some s -> (s = sd ^ 2 / INR (tsize d) <-> sd ^ 2 = INR (tsize d)).
Proof.
  intros mu sd d s Hn Hs E. destruct (C126_predict mu sd d Hn (Rlt_le _ _ Hs)) as (_ & s' & E' & P & Q). rewrite E' in E. cbn in E. injection E as ->. rewrite <- Q.
  assert (Pn : 0 < INR (tsize d)) by (apply lt_0_INR; auto). assert (Q2 : s ^ 2 * INR (tsize d) = sd ^ 2) by (rewrite Q; field; lra). 
  assert (0 < s). { destruct P as [|Z]; auto. exfalso. rewrite <- Z in Q2. assert (0 < sd ^ 2) by (apply pow_lt; auto). lra. } split; intros H'.
  - assert (s = 1). { apply Rmult_eq_reg_l with s; [|lra]. replace (s * s) with (s ^ 2) by ring. lra. } subst s. lra.
  - rewrite <- Q2 in H'. assert (s ^ 2 = 1). { apply Rmult_eq_reg_r with (INR (tsize d)); lra. } assert ((s - 1) * (s + 1) = 0) as Z by lra. apply Rmult_integral in Z. destruct Z; [|lra]. assert (s = 1) by lra. subst s. lra.
Qed.
(** apop_predict of a Lognormal looks for the likeliest number (C114), since lognormal_predict is never registered; the likeliest is less than the expected value
    which lognormal_predict gives and the documentation promises *)
Theorem C126_refuted_lognormal : forall mu sd, 0 < sd -> let best := exp (mu - sd ^ 2) in (forall x, 0 < x -> x <> best -> lognormal_ll mu sd (single x) < lognormal_ll mu sd (single best)) /\ best < pred_lognormal mu sd.
Proof.
  intros mu sd Ps best. assert (L : forall x, lognormal_ll mu sd (single x) = - ((ln x - (mu - sd ^ 2)) ^ 2) / (2 * sd ^ 2) - mu + sd ^ 2 / 2 - (ln2pi_half + ln sd)).
  { intros x. unfold lognormal_ll. rewrite !mapsum_R. unfold single, cells, vcells, mcells, tsize, vsz, msz1, msz2; cbn [vect mat app length]. unfold Rsumf, Rsum. cbn. field. lra. }
  split.
  - intros x Hx N. rewrite !L. unfold best. rewrite ln_exp. replace (mu - sd ^ 2 - (mu - sd ^ 2)) with 0 by ring. assert (ln x - (mu - sd ^ 2) <> 0). { intros E. apply N. unfold best. rewrite <- (exp_ln x Hx). f_equal. lra. }
    assert (0 < (ln x - (mu - sd ^ 2)) ^ 2) by (apply pow2_gt_0; auto). assert (0 < / (2 * sd ^ 2)) by (apply Rinv_0_lt_compat; nra). unfold Rdiv. nra.
  - unfold best, pred_lognormal. apply exp_increasing. nra.
Qed.
Example C126_nonvacuous : let p := Pg None (Some (Gr 2 1 ((1 :: nil) :: (exp 2 :: nil) :: nil))) None None name_alloc None in wf_mat p /\ one_part p /\ 0 < central 2 (map ln (cells p)) /\
  (exists mu sd, 0 < sd /\ mu < 0 /\ exists c, est_normal (Pg None (Some (Gr 2 1 ((-3 :: nil) :: (-1 :: nil) :: nil))) None None name_alloc None) = Ok (Some (mu, sd), c)).
Proof.
  intros p. split. { intros m [= <-]. split; auto. repeat constructor. } split; [left; auto|]. split.
  - unfold p, cells, vcells, mcells. cbn [vect mat ga concat app map]. rewrite ln_1, ln_exp. unfold central, avg. cbn [map length]. unfold Rsum. cbn. lra.
  - set (q := Pg _ _ _ _ _ _). destruct (C126_estimate q (or_introl eq_refl)) as [c E]. exists (-2), 1. split; [lra|]. split; [lra|]. exists c. rewrite E. do 2 f_equal.
    unfold normal_estimate, get_mu_var. cbn [vect mat q]. rewrite C34_matrix_mean_and_var by discriminate. cbn [ga concat app]. unfold central, avg, csqrt. cbn [map length]. 
    replace (Rsum _ / INR 2) with 1 by (unfold Rsum; cbn; lra).
    destruct (Rlt_dec 1 0); [lra|]. rewrite R_sqrt.sqrt_1. do 2 f_equal. unfold q, tsize, vsz, msz1, msz2, Rsum. cbn. lra.
Qed.
(** there is a Phi as the laws ask *)
Example C126_laws : exists Phi, forall z, derivable_pt_lim Phi z (exp (- z ^ 2 / 2 - ln2pi_half)).
Proof.
  set (f := fun z => exp (- z ^ 2 / 2 - ln2pi_half)). exists (fun z => RInt f 0 z). intros z. apply is_derive_Reals. change (exp (- z ^ 2 / 2 - ln2pi_half)) with (f z).
  assert (K : forall y, continuous f y). { intros y. apply (ex_derive_continuous f y). unfold f. auto_derive. auto. }
  apply (is_derive_RInt f (fun w => RInt f 0 w) 0 z); [|apply K]. exists (mkposreal 1 Rlt_0_1). intros y _. apply (RInt_correct (V := R_CompleteNormedModule)), (ex_RInt_continuous f). intros; apply K.
Qed.
Print Assumptions C126_information. Print Assumptions C126_normal_cdf. Print Assumptions C126_lognormal_matrix. Print Assumptions C126_lognormal_vector. Print Assumptions C126_refuted_lognormal. Print Assumptions C126_draws.
