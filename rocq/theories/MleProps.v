(** C58: closed-form estimates maximise the likelihood; C59: the Uniform model. *)
From Coq Require Import Reals Lra.
From Verif Require Import DataModel StatsModel StatsSpec StatsProofs StatsProps ConvModel ConvProofs LikeModel LikeProps.
Local Open Scope list_scope.
Local Open Scope R_scope.
Local Arguments Rsum : simpl never.

Lemma ln_le_minus_1 x : 0 < x -> ln x <= x - 1.
Proof. intros H. pose proof (exp_ineq1_le (ln x)) as E. rewrite exp_ln in E by auto. lra. Qed.
Lemma ln_lt_minus_1 x : 0 < x -> x <> 1 -> ln x < x - 1.
Proof.
  intros H Hn. assert (Hl : ln x <> 0). { intros E. apply Hn. rewrite <- (exp_ln x H), E. apply exp_0. }
  pose proof (exp_ineq1 (ln x) Hl) as E. rewrite exp_ln in E by auto. lra.
Qed.
Lemma ln_div_le x y : 0 < x -> 0 < y -> ln x - ln y <= x / y - 1.
Proof. intros Hx Hy. replace (ln x - ln y) with (ln (x / y)) by (unfold Rdiv; rewrite ln_mult, ln_Rinv; auto using Rinv_0_lt_compat; lra). apply ln_le_minus_1. apply Rdiv_lt_0_compat; auto. Qed.

(** all data in one part *)
Definition one_part (p : page R) : Prop := vect p = None \/ mat p = None.
Lemma solid_len p : wf_mat p -> cells p <> [] -> 0 < INR (tsize p).
Proof. intros Hw Hc. rewrite <- cells_len by auto. apply INR_pos. destruct (cells p); cbn; [congruence|lia]. Qed.

(** C58: Exponential: with data in one part, of positive sum, the estimate is their mean, and no other value of the parameter is more likely. *)
Theorem C58_exponential : forall p, wf_mat p -> one_part p -> 0 < Rsum (cells p) ->
  exists h, exponential_estimate p = Some h /\ 0 < h /\ h = avg (cells p) /\ forall mu, 0 < mu -> exponential_ll mu p <= exponential_ll h p.
Proof.
  intros p Hw Ho HS. assert (Hc : cells p <> []) by (intros E; rewrite E, Rsum_nil in HS; lra). pose proof (solid_len p Hw Hc) as Hn.
  assert (HA : 0 < avg (cells p)). { unfold avg. apply Rdiv_lt_0_compat; auto. rewrite cells_len by auto. auto. }
  assert (HE : exponential_estimate p = Some (avg (cells p))).
  { assert (HL := cells_len p Hw). unfold exponential_estimate. destruct Ho as [Ho|Ho].
    - assert (Hm : cells p = mcells p) by (unfold cells, vcells; rewrite Ho; auto). unfold vsz. rewrite Ho. cbn [Nat.eqb].
      unfold tsize, vsz in HL, Hn |- *. rewrite Ho in HL, Hn |- *. cbn [Nat.add] in HL, Hn |- *. destruct (Nat.eqb_spec (msz1 p) 0) as [E|_]; [rewrite E in Hn; cbn in Hn; lra|].
      unfold mcells in Hm. destruct (mat p) as [m|] eqn:Em; [|congruence]. rewrite C34_matrix_mean by congruence. rewrite <- Hm.
      rewrite <- HL. rewrite cdiv_ok by (rewrite HL; lra). f_equal. field. rewrite HL. lra.
    - assert (Hm : cells p = vcells p) by (unfold cells, mcells; rewrite Ho; apply app_nil_r).
      assert (Hv : tsize p = vsz p) by (unfold tsize, msz1; rewrite Ho; cbn; lia). rewrite Hv in *. destruct (Nat.eqb_spec (vsz p) 0) as [E|_]; [rewrite E in Hn; cbn in Hn; lra|].
      rewrite <- Hm, mean_plain by auto. rewrite <- HL. rewrite cdiv_ok by (rewrite HL; lra). f_equal. field. rewrite HL. lra. }
  exists (avg (cells p)). split; [auto|]. split; [auto|]. split; [auto|]. intros mu Hmu. unfold exponential_ll. rewrite both_sum_R.
  set (h := avg (cells p)) in *. assert (HSn : Rsum (cells p) = INR (tsize p) * h) by (unfold h; rewrite <- cells_len by auto; symmetry; apply avg_len; auto).
  rewrite HSn. pose proof (ln_div_le h mu HA Hmu) as HD. apply Rmult_le_compat_l with (r := INR (tsize p)) in HD; [|lra].
  replace (- (INR (tsize p) * h) / h) with (- INR (tsize p)) by (field; lra).
  replace (- (INR (tsize p) * h) / mu) with (- (INR (tsize p) * (h / mu))) by (field; lra). lra.
Qed.
Print Assumptions C58_exponential.
(** C58: Poisson: with whole-numbered data of positive sum, in one part or in both. *)
Lemma poisson_est p : wf_mat p -> cells p <> [] -> (forall m, mat p = Some m -> (0 < gr m /\ 0 < gc m)%nat) -> poisson_estimate p = Some (avg (cells p)).
Proof.
  intros Hw Hc Hs. assert (HL := cells_len p Hw). pose proof (solid_len p Hw Hc) as Hn. unfold poisson_estimate.
  assert (HV : length (vcells p) = vsz p) by (unfold vcells, vsz; destruct (vect p); auto).
  assert (HM : length (mcells p) = (msz1 p * msz2 p)%nat). { unfold cells, tsize in HL. rewrite app_length, HV in HL. lia. }
  assert (Hm1 : msz1 p = 0%nat <-> mcells p = []).
  { rewrite <- length_zero_iff_nil, HM. split; [intros ->; auto|]. intros H. unfold msz1, msz2 in *. destruct (mat p) as [m|] eqn:Em; auto. destruct (Hs m eq_refl). nia. }
  assert (Hv1 : vsz p = 0%nat <-> vcells p = []) by (rewrite <- length_zero_iff_nil, HV; tauto).
  assert (HMM : mcells p <> [] -> matrix_mean (mat p) = avg (mcells p)).
  { intros H. unfold mcells in *. destruct (mat p) as [m|]; [|congruence]. apply C34_matrix_mean. auto. }
  destruct (Nat.eqb_spec (vsz p) 0) as [E1|E1], (Nat.eqb_spec (msz1 p) 0) as [E2|E2]; cbn [negb andb].
  - apply Hv1 in E1. apply Hm1 in E2. unfold cells in Hc. rewrite E1, E2 in Hc. cbn in Hc. congruence.
  - assert (E1' : vcells p = []) by (apply Hv1; auto). rewrite HMM by (rewrite <- Hm1; auto). unfold cells. rewrite E1'. auto.
  - assert (E2' : mcells p = []) by (apply Hm1; auto). unfold cells. rewrite E2', app_nil_r. apply mean_plain. rewrite <- Hv1. auto.
  - rewrite HMM by (rewrite <- Hm1; auto). rewrite mean_plain by (rewrite <- Hv1; auto). rewrite !cdiv_ok by lra.
    f_equal. unfold avg at 3. rewrite HL. unfold cells. rewrite Rsum_app, <- HM, <- HV, !(Rmult_comm (avg _)), !avg_len by (rewrite <- ?Hm1, <- ?Hv1; auto). field. lra.
Qed.
Theorem C58_poisson : forall lg p, wf_mat p -> (forall m, mat p = Some m -> (0 < gr m /\ 0 < gc m)%nat) -> Forall whole (cells p) -> 0 < Rsum (cells p) ->
  exists h Lh, poisson_estimate p = Some h /\ 0 < h /\ h = avg (cells p) /\ poisson_ll lg h p = Some Lh /\
    forall l, 0 < l -> exists L, poisson_ll lg l p = Some L /\ L <= Lh.
Proof.
  intros lg p Hw Hs HF HS. assert (Hc : cells p <> []) by (intros E; rewrite E, Rsum_nil in HS; lra). pose proof (solid_len p Hw Hc) as Hn.
  assert (HA : 0 < avg (cells p)). { unfold avg. apply Rdiv_lt_0_compat; auto. rewrite cells_len by auto. auto. }
  exists (avg (cells p)). eexists. split; [apply poisson_est; auto|]. split; [auto|]. split; [auto|]. split; [apply poisson_R; auto|].
  intros l Hl. eexists. split; [apply poisson_R; auto|].
  set (h := avg (cells p)) in *. assert (HSn : Rsum (cells p) = INR (tsize p) * h) by (unfold h; rewrite <- cells_len by auto; symmetry; apply avg_len; auto).
  rewrite HSn in *. pose proof (ln_div_le l h Hl HA) as HD. apply Rmult_le_compat_l with (r := INR (tsize p) * h) in HD; [|lra].
  replace (INR (tsize p) * h * (l / h - 1)) with (INR (tsize p) * (l - h)) in HD by (field; lra). lra.
Qed.
Print Assumptions C58_poisson.
(** C58: Bernoulli: some observations are zero and some are not. *)
Lemma nonzero_bounds l : 0 <= Rsumf nonzero l <= INR (length l).
Proof. induction l as [|x l IH]; [unfold Rsumf; cbn; rewrite Rsum_nil; lra|]. rewrite Rsumf_cons. cbn [length]. rewrite S_INR. unfold nonzero at 1 3. destruct (Req_EM_T x 0); lra. Qed.
Lemma nonzero_pos l x : In x l -> x <> 0 -> 0 < Rsumf nonzero l.
Proof.
  induction l as [|y l IH]; [intros []|]. rewrite Rsumf_cons. pose proof (nonzero_bounds l). intros [->|H'] Hx.
  - unfold nonzero at 1. destruct (Req_EM_T x 0); [congruence|lra].
  - specialize (IH H' Hx). unfold nonzero at 1. destruct (Req_EM_T y 0); lra.
Qed.
Lemma zero_lt l : In 0 l -> Rsumf nonzero l < INR (length l).
Proof.
  induction l as [|y l IH]; [intros []|]. rewrite Rsumf_cons. cbn [length]. rewrite S_INR. pose proof (nonzero_bounds l). intros [->|H'].
  - unfold nonzero at 1. destruct (Req_EM_T 0 0); [lra|congruence].
  - specialize (IH H'). unfold nonzero at 1. destruct (Req_EM_T y 0); lra.
Qed.
Theorem C58_bernoulli : forall p, wf_mat p -> In 0 (cells p) -> (exists x, In x (cells p) /\ x <> 0) ->
  exists h, bernoulli_estimate p = Some h /\ 0 < h < 1 /\ INR (length (cells p)) * h = Rsum (map nonzero (cells p)) /\
    forall q, 0 < q < 1 -> bernoulli_ll q p <= bernoulli_ll h p.
Proof.
  intros p Hw H0 (x & Hx & Hx0). assert (Hc : cells p <> []) by (intros E; rewrite E in H0; destruct H0). pose proof (solid_len p Hw Hc) as Hn.
  set (k := Rsumf nonzero (cells p)). assert (Hk : 0 < k) by (eapply nonzero_pos; eauto). assert (Hk2 : k < INR (tsize p)) by (rewrite <- cells_len by auto; apply zero_lt; auto).
  set (n := INR (tsize p)) in *. exists (k / n). split. { unfold bernoulli_estimate. rewrite mapsum_R. fold n k. apply cdiv_ok. lra. }
  assert (Hh : 0 < k / n < 1). { split; [apply Rdiv_lt_0_compat; lra|]. apply (Rmult_lt_reg_r n); auto. unfold Rdiv. rewrite Rmult_assoc, Rinv_l by lra. lra. }
  split; [auto|]. split. { rewrite cells_len by auto. fold n. change (Rsum (map nonzero (cells p))) with k. field. lra. }
  intros q Hq. rewrite !bernoulli_R by auto. rewrite !mapsum_R. fold n k.
  pose proof (ln_div_le q (k / n) ltac:(lra) ltac:(lra)) as D1. pose proof (ln_div_le (1 - q) (1 - k / n) ltac:(lra) ltac:(lra)) as D2.
  apply Rmult_le_compat_l with (r := k) in D1; [|lra]. apply Rmult_le_compat_l with (r := n - k) in D2; [|lra].
  replace (k * (q / (k / n) - 1)) with (n * q - k) in D1 by (field; lra). replace ((n - k) * ((1 - q) / (1 - k / n) - 1)) with (n * (1 - q) - (n - k)) in D2 by (field; split; lra). lra.
Qed.
Print Assumptions C58_bernoulli.

(** C58: Normal: the mean is best for every standard deviation; with data in the matrix, the pair is best. *)
Lemma normal_R mu sd p : wf_mat p -> cells p <> [] -> 0 < sd ->
  normal_ll mu sd p = - INR (tsize p) * (central 2 (cells p) + (avg (cells p) - mu) ^ 2) / (2 * sd ^ 2) - INR (tsize p) * (ln2pi_half + ln sd).
Proof. intros Hw Hc Hs. unfold normal_ll. rewrite mapsum_R, sum_sq, cells_len by auto. field. nra. Qed.
Lemma est_len p : wf_mat p -> one_part p -> length (cells p) = tsize p /\ (mat p = None -> cells p = vcells p /\ tsize p = vsz p) /\ (vect p = None -> cells p = mcells p /\ tsize p = (msz1 p * msz2 p)%nat).
Proof.
  intros Hw Ho. split; [apply cells_len; auto|]. split; intros H; unfold cells, tsize, vcells, mcells, vsz, msz1, msz2; rewrite H; rewrite ?app_nil_r; split; auto; lia.
Qed.
Theorem C58_normal_mean : forall p mu sd, wf_mat p -> normal_estimate p = Some (mu, sd) -> cells p <> [] ->
  mu = avg (cells p) /\ forall mu' s, 0 < s -> normal_ll mu' s p <= normal_ll mu s p.
Proof.
  intros p mu sd Hw He Hc. assert (Hmu : mu = avg (cells p)).
  { unfold normal_estimate, get_mu_var in He. destruct (vect p) as [v|] eqn:Ev, (mat p) as [m|] eqn:Em; try discriminate.
    - destruct (est_len p Hw (or_intror Em)) as (HL & HL2 & _). destruct (HL2 Em) as [H1 H2]. unfold vcells in H1. rewrite Ev in H1.
      rewrite mean_plain in He by congruence. destruct (vector_var v None) as [s|]; [|discriminate]. destruct (csqrt s); [|discriminate]. injection He as <- _.
      rewrite H2, H1. pose proof (solid_len p Hw Hc) as Hn. rewrite H2 in Hn. field. lra.
    - destruct (est_len p Hw (or_introl Ev)) as (HL & _ & HL2). destruct (HL2 Ev) as [H1 H2]. unfold mcells in H1. rewrite Em in H1.
      rewrite C34_matrix_mean_and_var in He by congruence. destruct (csqrt _); [|discriminate]. injection He as <- _.
      rewrite H2, H1. pose proof (solid_len p Hw Hc) as Hn. rewrite H2 in Hn. field. lra. }
  split; [auto|]. intros mu' s Hs. rewrite !normal_R by auto. pose proof (solid_len p Hw Hc) as Hn. subst mu.
  assert (0 < / (2 * s ^ 2)) by (apply Rinv_0_lt_compat; nra). set (k := / (2 * s ^ 2)) in *. set (V := central 2 (cells p)).
  unfold Rdiv. fold k. apply Rplus_le_compat_r. rewrite !Rmult_assoc. rewrite <- !Ropp_mult_distr_l. apply Ropp_le_contravar, Rmult_le_compat_l; [lra|].
  apply Rmult_le_compat_r; [lra|]. pose proof (pow2_ge_0 (avg (cells p) - mu')). nra.
Qed.
Print Assumptions C58_normal_mean.
Theorem C58_normal_matrix : forall p m, vect p = None -> mat p = Some m -> wf_grid m -> 0 < central 2 (cells p) ->
  exists mu sd, normal_estimate p = Some (mu, sd) /\ 0 < sd /\ forall mu' sd', 0 < sd' -> normal_ll mu' sd' p <= normal_ll mu sd p.
Proof.
  intros p m Ev Em Hg HV. assert (Hw : wf_mat p) by (intros m' E'; congruence).
  assert (Hc : cells p <> []). { intros E. unfold central, avg in HV. rewrite E in HV. cbn in HV. rewrite Rsum_nil in HV. unfold Rdiv in HV. lra. }
  destruct (est_len p Hw (or_introl Ev)) as (HL & _ & HL2). destruct (HL2 Ev) as [H1 H2]. unfold mcells in H1. rewrite Em in H1. pose proof (solid_len p Hw Hc) as Hn.
  set (V := central 2 (cells p)) in *. exists (avg (cells p)), (R_sqrt.sqrt V).
  assert (Hs : 0 < R_sqrt.sqrt V) by (apply sqrt_lt_R0; auto). split; [|split; [auto|]].
  - unfold normal_estimate, get_mu_var. rewrite Ev, Em, C34_matrix_mean_and_var by congruence. rewrite <- H1. fold V. unfold csqrt.
    destruct (Rlt_dec V 0); [lra|]. do 2 f_equal. rewrite H2 in *. field. lra.
  - intros mu' s Hs'. rewrite !normal_R by auto. fold V. rewrite pow2_sqrt by lra. set (n := INR (tsize p)) in *. set (A := avg (cells p)).
    assert (Hls : ln (R_sqrt.sqrt V) = / 2 * ln V). { rewrite <- (pow2_sqrt V) at 2 by lra. rewrite ln_pow by auto. cbn. lra. }
    assert (Hls' : ln s = / 2 * ln (s ^ 2)) by (rewrite ln_pow by auto; cbn; lra).
    rewrite Hls, Hls'. assert (Hs2 : 0 < s ^ 2) by nra. pose proof (ln_div_le V (s ^ 2) HV Hs2) as HD. apply Rmult_le_compat_l with (r := n * / 2) in HD; [|lra].
    replace (- n * (V + (A - A) ^ 2) / (2 * V)) with (- n * / 2) by (field; lra).
    replace (- n * (V + (A - mu') ^ 2) / (2 * s ^ 2)) with (- (n * / 2 * (V / s ^ 2)) - n * (A - mu') ^ 2 / (2 * s ^ 2)) by (field; lra).
    assert (0 <= n * (A - mu') ^ 2 / (2 * s ^ 2)). { apply Rmult_le_pos; [|left; apply Rinv_0_lt_compat; lra]. pose proof (pow2_ge_0 (A - mu')). nra. } lra.
Qed.
Print Assumptions C58_normal_matrix.
Example C58_nonvacuous : exists p, wf_mat p /\ one_part p /\ 0 < Rsum (cells p) /\ Forall whole (cells p) /\ In 0 (cells p) /\ (exists x, In x (cells p) /\ x <> 0) /\ 0 < central 2 (cells p).
Proof.
  exists (Pg None (Some (Gr 2 1 [[0]; [4]])) None None name_alloc None). split. { intros m [= <-]. split; auto. repeat constructor. }
  unfold cells. cbn [vcells mcells vect mat ga concat app]. split; [left; auto|]. split; [rewrite !Rsum_cons, Rsum_nil; lra|].
  split. { constructor; [exists 0%nat; auto|]. constructor; [exists 4%nat; cbn; lra|constructor]. } split; [left; auto|]. split; [exists 4; split; [right; left; auto|lra]|].
  unfold central, avg. cbn [map length]. unfold avg. cbn. rewrite !Rsum_cons, !Rsum_nil. lra.
Qed.
(** C58: deviations.  With data in the vector, the Normal's second parameter divides by n-1: any variance between is more likely.
    Exponential data in the matrix are left out if there are also data in the vector. *)
Theorem C58_normal_vector_refuted : forall p v, vect p = Some v -> mat p = None -> (2 <= length v)%nat -> 0 < central 2 v ->
  exists mu sd, normal_estimate p = Some (mu, sd) /\ normal_ll mu sd p < normal_ll mu (R_sqrt.sqrt (central 2 v)) p.
Proof.
  intros p v Ev Em Hl HV. assert (Hw : wf_mat p) by (intros m' E'; congruence). destruct (len2 v Hl) as (N1 & N2 & N3).
  destruct (est_len p Hw (or_intror Em)) as (HL & HL2 & _). destruct (HL2 Em) as [H1 H2]. unfold vcells in H1. rewrite Ev in H1.
  assert (Hc : cells p <> []) by congruence. pose proof (solid_len p Hw Hc) as Hn. unfold vsz in H2. rewrite Ev in H2.
  set (V := central 2 v) in *. set (n := INR (length v)) in *. assert (Hn1 : INR (tsize p) = n) by (rewrite H2; auto).
  assert (HSV : svar v = V * n / (n - 1)). { unfold svar, V, central. set (h := fun x => (x - avg v) ^ 2). unfold avg. rewrite map_length. fold n. field. lra. }
  set (W := svar v) in *. assert (HW : V < W). { rewrite HSV. apply (Rmult_lt_reg_r (n - 1)); [lra|]. unfold Rdiv. rewrite Rmult_assoc, Rinv_l by lra. lra. }
  exists (avg v), (R_sqrt.sqrt W). split.
  - unfold normal_estimate, get_mu_var. rewrite Ev, Em. rewrite mean_plain by auto. rewrite var_plain by auto. fold W. unfold csqrt.
    destruct (Rlt_dec W 0); [lra|]. do 2 f_equal. unfold vsz. rewrite Ev, Hn1. fold n. field. lra.
  - assert (HsW : 0 < R_sqrt.sqrt W) by (apply sqrt_lt_R0; lra). assert (HsV : 0 < R_sqrt.sqrt V) by (apply sqrt_lt_R0; lra).
    rewrite !normal_R by auto. rewrite H1. fold V. rewrite Hn1, !pow2_sqrt by lra.
    assert (Hls : forall X, 0 < X -> ln (R_sqrt.sqrt X) = / 2 * ln X). { intros X HX. rewrite <- (pow2_sqrt X) at 2 by lra. rewrite ln_pow by (apply sqrt_lt_R0; auto). cbn. lra. }
    rewrite !Hls by lra. assert (HD : ln V - ln W < V / W - 1).
    { replace (ln V - ln W) with (ln (V / W)) by (unfold Rdiv; rewrite ln_mult, ln_Rinv; try lra; apply Rinv_0_lt_compat; lra).
      apply ln_lt_minus_1; [apply Rdiv_lt_0_compat; lra|]. intros E. apply Rmult_eq_compat_r with (r := W) in E. unfold Rdiv in E. rewrite Rmult_assoc, Rinv_l in E by lra. lra. }
    apply Rmult_lt_compat_l with (r := n * / 2) in HD; [|lra].
    replace (- n * (V + (avg v - avg v) ^ 2) / (2 * W)) with (- (n * / 2 * (V / W))) by (field; lra).
    replace (- n * (V + (avg v - avg v) ^ 2) / (2 * V)) with (- (n * / 2)) by (field; lra). lra.
Qed.
Print Assumptions C58_normal_vector_refuted.
Theorem C58_exponential_refuted : exists p h, wf_mat p /\ Forall (fun x => 0 < x) (cells p) /\ exponential_estimate p = Some h /\
  exists mu, 0 < mu /\ exponential_ll h p < exponential_ll mu p.
Proof.
  set (p := Pg (Some [1]) (Some (Gr 1 1 [[3]])) None None name_alloc None : page R). assert (Hw : wf_mat p). { intros m [= <-]. split; auto. repeat constructor. }
  assert (Hc : cells p = [1; 3]) by reflexivity. exists p, (1 / 2). split; [auto|]. split; [rewrite Hc; repeat constructor; lra|].
  split.
  { unfold exponential_estimate. cbn [vsz vect p length Nat.eqb vcells]. rewrite mean_plain by discriminate. unfold avg. rewrite Rsum_cons, Rsum_nil. unfold tsize. cbn [vsz vect p length msz1 msz2 mat gr gc Nat.add Nat.mul].
    rewrite cdiv_ok by (cbn; lra). f_equal. cbn. field. }
  exists 2. split; [lra|]. unfold exponential_ll. rewrite both_sum_R, Hc, !Rsum_cons, Rsum_nil. change (tsize p) with 2%nat. cbn [INR].
  replace (ln (1 / 2)) with (- ln 2) by (unfold Rdiv; rewrite Rmult_1_l, ln_Rinv; lra).
  assert (ln 2 < 1). { replace (1) with (2 - 1) by lra. apply ln_lt_minus_1; lra. } lra.
Qed.
Print Assumptions C58_exponential_refuted.

(** ---------- C59 ---------- *)
Lemma fold_min l : forall m, let r := fold_left (fun m y => if Rlt_dec y m then y else m) l m in r <= m /\ (forall x, In x l -> r <= x) /\ (r = m \/ In r l).
Proof.
  induction l as [|y l IH]; intros m; cbn [fold_left]; cbv zeta.
  - split; [lra|]. split; [intros x []|auto].
  - destruct (IH (if Rlt_dec y m then y else m)) as (A & B & C). set (r := fold_left _ _ _) in *.
    split; [destruct (Rlt_dec y m); lra|]. split; [intros x [->|Hx]; [destruct (Rlt_dec x m); lra|auto]|].
    destruct C as [C|C]; [|right; right; auto]. destruct (Rlt_dec y m); [right; left; auto|left; auto].
Qed.
Lemma fold_max l : forall m, let r := fold_left (fun m y => if Rlt_dec m y then y else m) l m in m <= r /\ (forall x, In x l -> x <= r) /\ (r = m \/ In r l).
Proof.
  induction l as [|y l IH]; intros m; cbn [fold_left]; cbv zeta.
  - split; [lra|]. split; [intros x []|auto].
  - destruct (IH (if Rlt_dec m y then y else m)) as (A & B & C). set (r := fold_left _ _ _) in *.
    split; [destruct (Rlt_dec m y); lra|]. split; [intros x [->|Hx]; [destruct (Rlt_dec m x); lra|auto]|].
    destruct C as [C|C]; [|right; right; auto]. destruct (Rlt_dec m y); [right; left; auto|left; auto].
Qed.
(** the least and the greatest element of a list *)
Definition least (x : R) (l : list R) : Prop := In x l /\ forall y, In y l -> x <= y.
Definition greatest (x : R) (l : list R) : Prop := In x l /\ forall y, In y l -> y <= x.
Lemma gsl_min_spec l : match gsl_min l with Some x => least x l | None => l = [] end.
Proof. destruct l as [|x l]; [reflexivity|]. unfold gsl_min. destruct (fold_min (x :: l) x) as (A & B & [C|C]); cbv zeta in *; split; auto. rewrite C. left. auto. Qed.
Lemma gsl_max_spec l : match gsl_max l with Some x => greatest x l | None => l = [] end.
Proof. destruct l as [|x l]; [reflexivity|]. unfold gsl_max. destruct (fold_max (x :: l) x) as (A & B & [C|C]); cbv zeta in *; split; auto. rewrite C. left. auto. Qed.
Lemma minmax_spec p : match getminmax p with
  | (Some a, Some b) => least a (cells p) /\ greatest b (cells p)
  | (None, None) => cells p = [] | _ => False end.
Proof.
  unfold getminmax. cbn [fst snd]. pose proof (gsl_min_spec (mcells p)) as A1. pose proof (gsl_min_spec (vcells p)) as A2.
  pose proof (gsl_max_spec (mcells p)) as B1. pose proof (gsl_max_spec (vcells p)) as B2. unfold cells.
  destruct (gsl_min (mcells p)) as [a|], (gsl_max (mcells p)) as [b|]; try (rewrite A1 in B1; destruct B1 as [[] _]); try (rewrite B1 in A1; destruct A1 as [[] _]);
  destruct (gsl_min (vcells p)) as [a'|], (gsl_max (vcells p)) as [b'|]; try (rewrite A2 in B2; destruct B2 as [[] _]); try (rewrite B2 in A2; destruct A2 as [[] _]); cbn [omin omax].
  - destruct A1 as [A1 A1'], A2 as [A2 A2'], B1 as [B1 B1'], B2 as [B2 B2']. split; split.
    + apply in_or_app. destruct (Rlt_dec a a'); auto.
    + intros y Hy. apply in_app_or in Hy. destruct Hy as [Hy|Hy]; [specialize (A2' y Hy)|specialize (A1' y Hy)]; destruct (Rlt_dec a a'); lra.
    + apply in_or_app. destruct (Rlt_dec b' b); auto.
    + intros y Hy. apply in_app_or in Hy. destruct Hy as [Hy|Hy]; [specialize (B2' y Hy)|specialize (B1' y Hy)]; destruct (Rlt_dec b' b); lra.
  - rewrite A2. auto.
  - rewrite A1, app_nil_r. auto.
  - rewrite A1, A2. auto.
Qed.
(** C59: the likelihood is that of independent draws uniform on [a,b]: positive exactly if all data are in the interval, then (b-a)^-n; the log
    likelihood is its log; *)
Theorem C59_likelihood : forall a b p, a < b -> (0 < unif_p a b p <-> forall x, In x (cells p) -> a <= x <= b) /\
  (unif_ll a b p = None <-> unif_p a b p = 0) /\
  forall L, unif_ll a b p = Some L -> unif_p a b p = / (b - a) ^ tsize p /\ exp L = unif_p a b p.
Proof.
  intros a b p Hab. assert (Hpos : 0 < / (b - a) ^ tsize p) by (apply Rinv_0_lt_compat, pow_lt; lra).
  assert (HC : unif_covers a b p = true <-> forall x, In x (cells p) -> a <= x <= b).
  { pose proof (minmax_spec p) as HM. unfold unif_covers. destruct (getminmax p) as [[lo|] [hi|]]; try tauto; cbn [fst snd].
    - destruct HM as [[M1 M2] [M3 M4]]. destruct (Rle_dec a lo), (Rle_dec hi b); cbn [andb]; split; try discriminate; auto.
      + intros _ x Hx. specialize (M2 x Hx). specialize (M4 x Hx). lra.
      + intros H. destruct (H hi M3). lra.
      + intros H. destruct (H lo M1). lra.
      + intros H. destruct (H lo M1). lra.
    - rewrite HM. cbn. split; auto. intros _ x []. }
  unfold unif_p, unif_ll. destruct (unif_covers a b p).
  - split; [tauto|]. split; [split; [discriminate|lra]|]. intros L [= <-]. split; [auto|].
    replace (- ln (b - a) * INR (tsize p)) with (INR (tsize p) * ln (/ (b - a))) by (rewrite ln_Rinv; lra).
    change (Rpower (/ (b - a)) (INR (tsize p)) = / (b - a) ^ tsize p). rewrite Rpower_pow by (apply Rinv_0_lt_compat; lra). rewrite pow_inv; auto.
  - split; [split; [lra|]|split; [tauto|discriminate]]. intros H. apply HC in H. discriminate.
Qed.
Print Assumptions C59_likelihood.
(** the estimate is the smallest interval holding the data, and no other interval is more likely; *)
Theorem C59_estimate : forall p, cells p <> [] -> exists a b, uniform_estimate p = Some (a, b) /\ least a (cells p) /\ greatest b (cells p) /\
  (a < b -> forall a' b', a' < b' -> unif_p a' b' p <= unif_p a b p).
Proof.
  intros p Hc. pose proof (minmax_spec p) as HM. unfold uniform_estimate. destruct (getminmax p) as [[a|] [b|]]; try tauto.
  destruct HM as [Ha Hb]. exists a, b. split; [auto|]. split; [auto|]. split; [auto|]. intros Hab a' b' Hab'.
  destruct (C59_likelihood a b p Hab) as (P1 & P2 & P3). destruct (C59_likelihood a' b' p Hab') as (Q1 & Q2 & Q3).
  assert (Hp : 0 < unif_p a b p). { apply P1. intros x Hx. destruct Ha as [_ Ha], Hb as [_ Hb]. specialize (Ha x Hx). specialize (Hb x Hx). lra. }
  destruct (unif_ll a' b' p) as [L|] eqn:EL; [|rewrite (proj1 Q2 eq_refl); lra]. destruct (Q3 L eq_refl) as [Q4 Q5].
  destruct (unif_ll a b p) as [L2|] eqn:EL2; [|rewrite (proj1 P2 eq_refl) in Hp; lra]. destruct (P3 L2 eq_refl) as [P4 P5].
  rewrite Q4, P4. assert (Hq : 0 < unif_p a' b' p) by (rewrite <- Q5; apply exp_pos). pose proof (proj1 Q1 Hq) as HI.
  destruct (HI a (proj1 Ha)), (HI b (proj1 Hb)). apply Rinv_le_contravar; [apply pow_lt; lra|]. apply pow_incr. lra.
Qed.
Print Assumptions C59_estimate.
(** the distribution function rises from 0 to 1, and a draw is below x exactly if the uniform draw is below its value at x. *)
Theorem C59_cdf : forall a b, a < b -> (forall x, 0 <= unif_cdf a b x <= 1) /\ (forall x y, x <= y -> unif_cdf a b x <= unif_cdf a b y) /\
  unif_cdf a b a = 0 /\ unif_cdf a b b = 1 /\ (forall u x, 0 <= u < 1 -> a <= uniform_rng a b u < b /\ (uniform_rng a b u < x <-> u < unif_cdf a b x)).
Proof.
  intros a b Hab. assert (HD : forall x, (x - a) / (b - a) * (b - a) = x - a) by (intros; field; lra).
  assert (HB : forall x, a < x < b -> 0 < (x - a) / (b - a) < 1). { intros x Hx. specialize (HD x). split; nra. }
  split; [|split; [|split; [|split]]].
  - intros x. unfold unif_cdf. destruct (Rle_dec x a); [lra|]. destruct (Rle_dec b x); [lra|]. pose proof (HB x). lra.
  - intros x y H. unfold unif_cdf. destruct (Rle_dec x a), (Rle_dec y a); try lra.
    + destruct (Rle_dec b y); [lra|]. pose proof (HB y). lra.
    + destruct (Rle_dec b x), (Rle_dec b y); try lra; [pose proof (HB x); lra|]. pose proof (HD x). pose proof (HD y). nra.
  - unfold unif_cdf. destruct (Rle_dec a a); lra.
  - unfold unif_cdf. destruct (Rle_dec b a); [lra|]. destruct (Rle_dec b b); lra.
  - intros u x Hu. unfold uniform_rng. split; [nra|]. unfold unif_cdf. destruct (Rle_dec x a); [split; nra|]. destruct (Rle_dec b x); [split; nra|].
    pose proof (HD x). split; nra.
Qed.
Print Assumptions C59_cdf.
Example C59_nonvacuous : exists p, cells p <> [] /\ uniform_estimate p = Some (1, 5) /\ unif_p 0 4 p = 0 /\ unif_p 0 8 p = / 8 ^ 3.
Proof.
  exists (Pg (Some [2; 5]) (Some (Gr 1 1 [[1]])) None None name_alloc None). split; [discriminate|].
  assert (HG : getminmax (Pg (Some [2; 5]) (Some (Gr 1 1 [[1]])) None None name_alloc None) = (Some 1, Some 5)).
  { unfold getminmax. cbn. repeat (match goal with |- context [Rlt_dec (IZR ?x) (IZR ?y)] => destruct (Rlt_dec (IZR x) (IZR y)); try lra end); reflexivity. }
  unfold uniform_estimate, unif_p, unif_covers. rewrite HG. cbn [fst snd]. split; [auto|]. split.
  - destruct (Rle_dec 0 1), (Rle_dec 5 4); try lra; auto.
  - destruct (Rle_dec 0 1), (Rle_dec 5 8); try lra. cbn [andb]. do 2 f_equal. lra.
Qed.
