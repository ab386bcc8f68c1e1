(** C127: estimates, cdfs, likelihoods and draws of the Gamma, Beta, Exponential and Bernoulli models. *)
From Coq Require Import Reals Lra Lia.
From Verif Require Import DataModel StatsModel StatsSpec StatsProofs StatsProps ConvModel ConvProofs LikeModel LikeProps MleProps AsstModel RegexProps GamModel.
From Coquelicot Require Import Coquelicot.
Local Open Scope list_scope.
Local Open Scope R_scope.
Local Arguments Rsum : simpl never.

(** ---------- specification ---------- *)
(** mean and variance of a Gamma with shape a and scale b (those of a Beta: RegexProps.v, beta_mean and beta_variance) *)
Definition gamma_mean (a b : R) : R := a * b.
Definition gamma_variance (a b : R) : R := a * b ^ 2.
Definition in_matrix (x : R) : page R := Pg None (Some (Gr 1 1 ((x :: nil) :: nil))) None None name_alloc None.
(** the numbers are in one part, and this is their mean and their variance as estimates take it: over n-1 in the vector, over n in the matrix *)
Inductive moments : page R -> R -> R -> Prop :=
  | in_vec v w t nm e : (2 <= length v)%nat -> moments (Pg (Some v) None w t nm e) (avg v) (svar v)
  | in_mat m w t nm e : wf_grid m -> concat (ga m) <> nil -> moments (Pg None (Some m) w t nm e) (avg (concat (ga m))) (central 2 (concat (ga m))).

(** ---------- estimates ---------- *)
Lemma moments_parts p m v : moments p m v -> (0 < tsize p)%nat /\ part_moments (INR (vsz p) / INR (tsize p)) (INR (msz1 p * msz2 p) / INR (tsize p)) p = Some (m, Some v) /\
  part_moments (INR (vsz p / tsize p)) (INR ((msz1 p * msz2 p) / tsize p)) p = Some (m, Some v).
Proof.
  intros H. destruct H as [v w t nm e Hl|m w t nm e Hw Hc].
  - unfold part_moments, tsize, vsz, msz1, msz2, vcells. cbn [vect mat]. replace (length v + 0 * 0)%nat with (length v) by lia. split; [lia|].
    destruct (Nat.eqb_spec (length v) 0); [lia|]. cbn [Nat.eqb]. rewrite mean_plain by (destruct v; [cbn in Hl; lia|discriminate]). rewrite var_plain by auto.
    assert (INR (length v) <> 0) by (apply not_0_INR; lia). rewrite Nat.div_same by lia. cbn [Nat.mul]. replace (0 / length v)%nat with 0%nat by (symmetry; apply Nat.div_0_l; lia).
    split; do 3 f_equal; try (f_equal); cbn [INR]; field; auto.
  - assert (L : length (concat (ga m)) = (gr m * gc m)%nat). { pose proof (cells_len (Pg None (Some m) w t nm e)) as H. unfold cells, tsize, vcells, mcells, vsz, msz1, msz2 in H. cbn in H. apply H. intros m' [= <-]. auto. }
    assert (P : (0 < gr m * gc m)%nat) by (rewrite <- L; destruct (concat (ga m)); [congruence|cbn; lia]).
    unfold part_moments, tsize, vsz, msz1, msz2, vcells. cbn [vect mat Nat.eqb Nat.add]. split; [lia|]. destruct (Nat.eqb_spec (gr m) 0) as [E|_]; [rewrite E in P; lia|].
    rewrite C34_matrix_mean_and_var by auto. cbn [fst snd]. assert (INR (gr m * gc m) <> 0) by (apply not_0_INR; lia). rewrite Nat.div_same by lia. replace (0 / (gr m * gc m))%nat with 0%nat by (symmetry; apply Nat.div_0_l; lia).
    split; do 3 f_equal; try (f_equal); cbn [INR]; field; auto.
Qed.
(** C127: the Gamma estimated is the one with the numbers' mean and variance *)
Theorem C127_gamma : forall p m v, moments p m v -> 0 < m -> 0 < v -> exists a b, gamma_estimate p = (Some a, Some b) /\ 0 < a /\ 0 < b /\ gamma_mean a b = m /\ gamma_variance a b = v.
Proof.
  intros p m v H Hm Hv. destruct (moments_parts p m v H) as (_ & E & _). unfold gamma_estimate. rewrite E. rewrite !cdiv_ok by lra. exists (m ^ 2 / v), (v / m). split; auto.
  split; [apply Rdiv_lt_0_compat; [apply pow_lt|]; auto|]. split; [apply Rdiv_lt_0_compat; auto|]. unfold gamma_mean, gamma_variance. split; field; lra.
Qed.
(** C127: the Beta estimated is the one apop_beta_from_mean_var gives for mean and variance: it has them, if there is a Beta that does (C61) *)
Theorem C127_beta : forall p m v, moments p m v -> 0 < m < 1 -> 0 < v -> exists a b, beta_estimate p = Ok (Some a, Some b) /\ beta_from_mean_var m v = inr (a, b) /\
  (v < m * (1 - m) -> 0 < a /\ 0 < b /\ beta_mean a b = m /\ beta_variance a b = v).
Proof.
  intros p m v H Hm Hv. destruct (moments_parts p m v H) as (Hn & _ & E). unfold beta_estimate. destruct (Nat.eqb_spec (tsize p) 0); [lia|]. rewrite E. rewrite !cdiv_ok by lra.
  set (k := m * (1 - m) / v - 1). assert (B : beta_from_mean_var m v = inr (m * k, k * (1 - m))). { unfold beta_from_mean_var. destruct (Rle_dec 1 m); [lra|]. destruct (Rle_dec m 0); [lra|]. auto. }
  exists (m * k), (k * (1 - m)). split; [|split; [auto|]].
  - do 2 f_equal; f_equal; unfold k; field; lra.
  - intros Hb. destruct (C61_moments m v Hm (conj Hv Hb)) as (a & b & B' & R). rewrite B in B'. injection B' as <- <-. auto.
Qed.

(** ---------- cdf and likelihood ---------- *)
Section laws.
Context (lg : R -> R) (gammaP betaP : R -> R -> R -> R) (expP : R -> R -> R).
(** what the library's manual says of its densities, with [lg] the logarithm of the Gamma function *)
Hypothesis gamma_law : forall a b x, 0 < a -> 0 < b -> 0 < x -> derivable_pt_lim (fun y => gammaP y a b) x (/ (exp (lg a) * Rpower b a) * Rpower x (a - 1) * exp (- x / b)).
Hypothesis beta_law : forall a b x, 0 < a -> 0 < b -> 0 < x < 1 -> derivable_pt_lim (fun y => betaP y a b) x (exp (lg (a + b)) / (exp (lg a) * exp (lg b)) * Rpower x (a - 1) * Rpower (1 - x) (b - 1)).
Hypothesis exp_law : forall mu x, 0 < mu -> 0 <= x -> expP x mu = 1 - exp (- x / mu).
(** C127: apop_cdf at one number, in either part, is a function whose derivative is the likelihood of that number *)
Theorem C127_gamma_cdf : forall a b, 0 < a -> 0 < b -> exists F, (forall x, gamma_cdf gammaP a b (single x) = Some (F x) /\ gamma_cdf gammaP a b (in_matrix x) = Some (F x)) /\
  forall x, 0 < x -> derivable_pt_lim F x (exp (gamma_ll lg a b (single x))) /\ gamma_ll lg a b (in_matrix x) = gamma_ll lg a b (single x).
Proof.
  intros a b Ha Hb. exists (fun x => gammaP x a b). split; [split; reflexivity|]. intros x Hx. split; [|reflexivity].
  replace (exp (gamma_ll lg a b (single x))) with (/ (exp (lg a) * Rpower b a) * Rpower x (a - 1) * exp (- x / b)); [auto|].
  unfold gamma_ll. rewrite mapsum_R. unfold single, cells, vcells, mcells; cbn [vect mat app]. unfold Rsumf. cbn [map]. rewrite Rsum_cons, Rsum_nil. unfold gamma_one. destruct (Req_EM_T x 0); [lra|].
  unfold Rpower. rewrite <- exp_plus, <- exp_Ropp, <- !exp_plus. f_equal. unfold Rdiv. ring.
Qed.
Theorem C127_beta_cdf : forall a b, 0 < a -> 0 < b -> exists F, (forall x, beta_cdf betaP a b (single x) = Some (F x) /\ beta_cdf betaP a b (in_matrix x) = Some (F x)) /\
  forall x, 0 < x < 1 -> derivable_pt_lim F x (exp (beta_ll lg a b (single x))) /\ beta_ll lg a b (in_matrix x) = beta_ll lg a b (single x).
Proof.
  intros a b Ha Hb. exists (fun x => betaP x a b). split; [split; reflexivity|]. intros x Hx. split; [|reflexivity].
  replace (exp (beta_ll lg a b (single x))) with (exp (lg (a + b)) / (exp (lg a) * exp (lg b)) * Rpower x (a - 1) * Rpower (1 - x) (b - 1)); [auto|].
  unfold beta_ll. rewrite mapsum_R. unfold single, cells, vcells, mcells, tsize, vsz, msz1, msz2; cbn [vect mat app length]. unfold Rsumf. cbn [map]. rewrite Rsum_cons, Rsum_nil. unfold beta_one. destruct (Rlt_dec x 0); [lra|]. destruct (Rlt_dec 1 x); [lra|].
  unfold Rpower, Rdiv, lnbeta. rewrite <- exp_plus, <- exp_Ropp, <- !exp_plus. f_equal. cbn. ring.
Qed.
Theorem C127_exponential_cdf : forall mu, 0 < mu -> exists F, (forall x, expo_cdf expP mu (single x) = Some (F x) /\ expo_cdf expP mu (in_matrix x) = Some (F x)) /\ F 0 = 0 /\
  forall x, 0 < x -> derivable_pt_lim F x (exp (exponential_ll mu (single x))) /\ exponential_ll mu (in_matrix x) = exponential_ll mu (single x).
Proof.
  intros mu Hm. exists (fun x => expP x mu). split; [split; reflexivity|]. split.
  { rewrite exp_law by lra. unfold Rdiv. rewrite Ropp_0, Rmult_0_l, exp_0. lra. }
  assert (L : forall x, exponential_ll mu (single x) = - x / mu - ln mu). { intros x. unfold exponential_ll. rewrite both_sum_R. unfold single, cells, vcells, mcells, tsize, vsz, msz1, msz2; cbn [vect mat app length]. rewrite Rsum_cons, Rsum_nil. cbn. field. lra. }
  intros x Hx. split.
  - rewrite L. apply is_derive_Reals. eapply is_derive_ext_loc with (f := fun y => 1 - exp (- y / mu)).
    + exists (mkposreal x Hx). intros y Hy. unfold ball in Hy. cbn in Hy. unfold AbsRing_ball, abs, minus, plus, opp in Hy. cbn in Hy. apply Rabs_def2 in Hy. symmetry. apply exp_law; lra.
    + auto_derive; [auto|]. unfold Rminus. rewrite exp_plus, exp_Ropp, exp_ln by auto. unfold Rdiv. ring.
  - unfold exponential_ll. rewrite !both_sum_R. reflexivity.
Qed.
End laws.
(** C127: Bernoulli: of the uniform draws on [0,1), those that give at most x are the top share apop_cdf(x); the likelihoods of zero and one are the cdf's steps *)
Theorem C127_bernoulli : forall q, 0 < q < 1 -> exists F, (forall x, bernoulli_cdf q (single x) = Some (F x) /\ bernoulli_cdf q (in_matrix x) = Some (F x)) /\
  (forall u x, 0 <= u < 1 -> (bernoulli_draw q u <= x <-> 1 - F x <= u)) /\ exp (bernoulli_ll q (single 0)) = F 0 /\ exp (bernoulli_ll q (single 1)) = F 1 - F 0.
Proof.
  intros q Hq. exists (fun x => if Rlt_dec x 0 then 0 else if Rlt_dec x 1 then 1 - q else 1). split; [split; reflexivity|]. split; [|].
  - intros u x Hu. unfold bernoulli_draw. destruct (Rlt_dec u q), (Rlt_dec x 0); try destruct (Rlt_dec x 1); split; intros; lra.
  - assert (L : forall x, bernoulli_ll q (single x) = if Req_EM_T x 0 then ln (1 - q) else ln q). { intros x. unfold bernoulli_ll. rewrite mapsum_R. unfold single, cells, vcells, mcells; cbn [vect mat app]. unfold Rsumf. cbn [map]. rewrite Rsum_cons, Rsum_nil. lra. }
    rewrite !L. destruct (Req_EM_T 0 0); [|lra]. destruct (Req_EM_T 1 0); [lra|]. rewrite !exp_ln by lra. destruct (Rlt_dec 0 0), (Rlt_dec 0 1), (Rlt_dec 1 0), (Rlt_dec 1 1); split; lra.
Qed.
(** C127: a Beta draw is the first of the library's that is inside *)
Theorem C127_beta_draw : forall eps tape x, beta_draw eps tape = Ok x -> 0 < x <= 1 - eps /\ exists before after, tape = before ++ x :: after /\ List.Forall (fun y => ~ (0 < y <= 1 - eps)) before.
Proof.
  induction tape as [|y tape IH]; cbn [beta_draw]; intros x H; [discriminate|].
  assert (R : (~ (0 < y <= 1 - eps)) -> beta_draw eps tape = Ok x -> 0 < x <= 1 - eps /\ exists before after, y :: tape = before ++ x :: after /\ List.Forall (fun y => ~ (0 < y <= 1 - eps)) before).
  { intros N E. destruct (IH x E) as (A & b & c & -> & F). split; auto. exists (y :: b), c. split; auto. }
  destruct (Rlt_dec 0 y); [destruct (Rle_dec eps (1 - y))|]; [injection H as ->; split; [lra|]; exists nil, tape; auto|apply R; auto; lra|apply R; auto; lra].
Qed.

(** ---------- deviations ---------- *)
(** Beta, numbers in both parts: the weights are int quotients, zero: both parameters are NaN *)
Theorem C127_refuted_beta : forall v m w t nm e, v <> nil -> wf_grid m -> (0 < gr m * gc m)%nat -> (2 <= length v)%nat -> beta_estimate (Pg (Some v) (Some m) w t nm e) = Ok (None, None).
Proof.
  intros v m w t nm e Hv Hw P Hl. unfold beta_estimate, part_moments, tsize, vsz, msz1, msz2, vcells. cbn [vect mat]. destruct (Nat.eqb_spec (length v + gr m * gc m) 0); [lia|]. destruct (Nat.eqb_spec (length v) 0); [lia|].
  destruct (Nat.eqb_spec (gr m) 0) as [E|_]; [rewrite E in P; lia|]. rewrite mean_plain, var_plain by auto.
  assert (C : concat (ga m) <> nil). { intros C. pose proof (cells_len (Pg None (Some m) w t nm e)) as H. unfold cells, tsize, vcells, mcells, vsz, msz1, msz2 in H. cbn [vect mat app Nat.add] in H. rewrite C in H. cbn in H. rewrite <- H in P; [lia|]. intros m' [= <-]. auto. }
  rewrite C34_matrix_mean_and_var by auto. cbn [fst snd]. rewrite !Nat.div_small by lia. cbn [INR]. rewrite !Rmult_0_r, Rplus_0_r. unfold cdiv. destruct (Req_EM_T 0 0); [reflexivity|lra].
Qed.
(** Gamma, numbers in both parts: the mean is that of all, but the parts' means' distance is not in the variance: numbers that differ may have none, and the parameters are infinite or zero *)
Theorem C127_refuted_gamma : exists p, wf_mat p /\ cells p = 1 :: 1 :: 3 :: 3 :: nil /\ 0 < central 2 (cells p) /\ gamma_estimate p = (None, Some 0).
Proof.
  exists (Pg (Some (1 :: 1 :: nil)) (Some (Gr 2 1 ((3 :: nil) :: (3 :: nil) :: nil))) None None name_alloc None). split. { intros m' [= <-]. split; auto. repeat constructor. }
  split; [reflexivity|]. split.
  - unfold cells, vcells, mcells, central, avg. cbn [vect mat ga concat app map length]. rewrite !Rsum_cons, !Rsum_nil. cbn. lra.
  - unfold gamma_estimate, part_moments, tsize, vsz, msz1, msz2, vcells. cbn [vect mat gr gc length Nat.eqb Nat.add Nat.mul]. rewrite mean_plain by discriminate. rewrite var_plain by (cbn; lia). rewrite C34_matrix_mean_and_var by discriminate. cbn [fst snd].
    set (s := svar _). set (c := central _ _). assert (s = 0) as ->. { apply svar_zero; [cbn; lia|]. intros x y [<-|[<-|[]]] [<-|[<-|[]]]; auto. }
    assert (c = 0) as ->. { unfold c, central, avg. cbn [ga concat app map length]. rewrite !Rsum_cons, !Rsum_nil. cbn. lra. }
    rewrite !Rmult_0_l, Rplus_0_r. set (m := _ + _). assert (m = 2) as ->. { unfold m, avg. cbn [ga concat app map length]. rewrite !Rsum_cons, !Rsum_nil. cbn. lra. }
    unfold cdiv. destruct (Req_EM_T 0 0); [|lra]. destruct (Req_EM_T 2 0); [lra|]. f_equal. f_equal. unfold Rdiv. ring.
Qed.
(** Bernoulli: the covariance page has the variance of one observation; that of the estimate (the inverse of the negated second derivative of the log likelihood) is an n-th of it *)
Theorem C127_refuted_page : forall p, wf_mat p -> In 0 (cells p) -> (exists x, In x (cells p) /\ x <> 0) -> exists h score, bernoulli_estimate p = Some h /\
  (forall q, 0 < q < 1 -> derivable_pt_lim (fun q => bernoulli_ll q p) q (score q)) /\ score h = 0 /\
  derivable_pt_lim score h (- / (bernoulli_page h / INR (length (cells p)))) /\ bernoulli_page h / INR (length (cells p)) < bernoulli_page h.
Proof.
  intros p Hw H0 Hx. destruct (C58_bernoulli p Hw H0 Hx) as (h & E & Hh & Hk & _). assert (L : (2 <= length (cells p))%nat).
  { destruct Hx as (x & Hx & Hn). destruct (cells p) as [|a [|b l]]; [destruct H0| |cbn; lia]. exfalso. destruct H0 as [H0|[]], Hx as [Hx|[]]. congruence. }
  assert (N : 2 <= INR (length (cells p))) by (apply (le_INR 2); auto). set (n := INR (length (cells p))) in *. set (k := Rsum (map nonzero (cells p))) in *.
  exists h, (fun q => k / q - (n - k) / (1 - q)). split; auto. split.
  - intros q Hq. apply is_derive_Reals. eapply (is_derive_ext_loc (fun q => k * ln q + (n - k) * ln (1 - q))).
    + assert (D : 0 < Rmin q (1 - q)) by (apply Rmin_glb_lt; lra). exists (mkposreal _ D). intros y Hy. unfold ball in Hy. cbn in Hy. unfold AbsRing_ball, abs, minus, plus, opp in Hy. cbn in Hy.
      pose proof (Rmin_l q (1 - q)). pose proof (Rmin_r q (1 - q)). apply Rabs_def2 in Hy. rewrite bernoulli_R by (auto; lra). rewrite mapsum_R. rewrite <- cells_len by auto. fold n. change (Rsumf nonzero (cells p)) with k. reflexivity.
    + auto_derive; [lra|]. field. lra.
  - split; [rewrite <- Hk; field; lra|]. split.
    + apply is_derive_Reals. auto_derive; [lra|]. rewrite <- Hk. unfold bernoulli_page. field. repeat split; try lra. 
    + unfold bernoulli_page. assert (0 < h * (1 - h)) by nra. apply Rmult_lt_reg_r with n; [lra|]. replace (h * (1 - h) / n * n) with (h * (1 - h)) by (field; lra). nra.
Qed.
Example C127_nonvacuous : exists p, moments p (1 / 2) (1 / 8) /\ 1 / 8 < 1 / 2 * (1 - 1 / 2).
Proof.
  exists (Pg (Some (1 / 4 :: 3 / 4 :: nil)) None None None name_alloc None). split; [|lra]. assert (A : avg (1 / 4 :: 3 / 4 :: nil) = 1 / 2) by (unfold avg; cbn [length]; rewrite !Rsum_cons, Rsum_nil; cbn; lra).
  assert (S : svar (1 / 4 :: 3 / 4 :: nil) = 1 / 8). { unfold svar. rewrite A. cbn [map length]. rewrite !Rsum_cons, Rsum_nil. cbn. lra. }
  rewrite <- A, <- S. constructor. cbn. lia.
Qed.
Print Assumptions C127_gamma. Print Assumptions C127_beta. Print Assumptions C127_gamma_cdf. Print Assumptions C127_beta_cdf. Print Assumptions C127_exponential_cdf. Print Assumptions C127_bernoulli. Print Assumptions C127_refuted_page.
