(** C130: the entropy of a model. *)
From Coq Require Import Reals Lra Lia.
From Verif Require Import DataModel StatsModel StatsSpec StatsProofs StatsProps SummProps ConvModel ConvProofs LikeModel LikeProps EntModel GaussProofs.
From Coquelicot Require Import Coquelicot.
Local Open Scope list_scope.
Local Open Scope R_scope.
Local Arguments Rsum : simpl never.

(** ---------- specification ---------- *)
(** the expected value of [f] over [n] independent draws from a law: outcomes with their probabilities *)
Fixpoint expect {D} (law : list (D * R)) (n : nat) (f : list D -> R) : R :=
  match n with O => f nil | S k => Rsum (map (fun xp => snd xp * expect law k (fun t => f (fst xp :: t))) law) end.
(** the expected value of minus the log likelihood *)
Definition expected {D} (law : list (D * R)) (ll : D -> R) : R := Rsum (map (fun xp => snd xp * - ll (fst xp)) law).
(** the Normal density as the model's likelihood has it *)
Definition density (mu sd x : R) : R := exp (normal_ll mu sd (single x)).
Definition over_the_line (f : R -> R) (v : R) : Prop := is_RInt_gen f (Rbar_locally m_infty) (Rbar_locally p_infty) v.
Definition mu_sigma (mu sd : R) : page R := Pg (Some (mu :: sd :: nil)) None None None name_alloc None.

(** ---------- draws ---------- *)
Section draws.
Context {D : Type} (law : list (D * R)).
Hypothesis one : Rsum (map snd law) = 1.
Lemma Rsum_lin (l : list (D * R)) (f : D * R -> R) c : Rsum (map (fun xp => snd xp * (f xp + c)) l) = Rsum (map (fun xp => snd xp * f xp) l) + c * Rsum (map snd l).
Proof. induction l as [|x l IH]; cbn [map]; rewrite ?Rsum_nil, ?Rsum_cons; [lra|]. rewrite IH. lra. Qed.
Lemma map_ext' {A} (l : list A) (f g : A -> R) : (forall x, f x = g x) -> map f l = map g l.
Proof. intros H. apply List.map_ext. auto. Qed.
Lemma expect_ext n : forall f g, (forall t, length t = n -> f t = g t) -> expect law n f = expect law n g.
Proof. induction n as [|n IH]; intros f g H; cbn [expect]; [apply H; auto|]. f_equal. apply map_ext'. intros x. f_equal. apply IH. intros t Ht. apply H. cbn. lia. Qed.
Lemma Rsum_scale (l : list (D * R)) k (f : D * R -> R) : Rsum (map (fun x => k * f x) l) = k * Rsum (map f l).
Proof. induction l as [|x l IH]; cbn [map]; rewrite ?Rsum_nil, ?Rsum_cons; [lra|]. rewrite IH. lra. Qed.
Lemma expect_lin n : forall f k c, expect law n (fun t => k * f t + c) = k * expect law n f + c.
Proof.
  induction n as [|n IH]; intros f k c; cbn [expect]; auto.
  erewrite map_ext'. 2:{ intros x. rewrite IH. reflexivity. } rewrite Rsum_lin, one, Rmult_1_r. f_equal.
  rewrite <- Rsum_scale. f_equal. apply map_ext'. intros x. ring.
Qed.
Lemma expect_sum n (g : D -> R) : expect law n (fun t => Rsum (map g t)) = INR n * Rsum (map (fun xp => snd xp * g (fst xp)) law).
Proof.
  induction n as [|n IH]; [cbn; rewrite Rsum_nil; lra|]. cbn [expect]. set (S0 := Rsum (map (fun xp => snd xp * g (fst xp)) law)) in *.
  erewrite map_ext'. 2:{ intros x. cbn [map]. erewrite expect_ext. 2:{ intros t _. rewrite Rsum_cons. rewrite Rplus_comm. rewrite <- (Rmult_1_l (Rsum _)). reflexivity. } rewrite expect_lin, IH, Rmult_1_l. rewrite Rplus_comm. reflexivity. }
  rewrite Rsum_lin, one. fold S0. rewrite S_INR. ring.
Qed.
(** C130: for a model without a function of its own: whatever law the draws are from, the expected value of the result, over all the draws there may be, is the expected value of minus
    the log likelihood *)
Theorem C130_default : forall par (ll : D -> R) n, (1 <= n)%nat -> exists est, (forall rows, length rows = n -> model_entropy None par rows ll = Some (est rows)) /\ expect law n est = expected law ll.
Proof.
  intros par ll n Hn. exists (fun rows => - avg (map ll rows)). split.
  - intros rows L. unfold model_entropy. rewrite mean_plain by (destruct rows; [cbn in L; lia|discriminate]). reflexivity.
  - assert (N : INR n <> 0) by (apply not_0_INR; lia). rewrite (expect_ext n _ (fun t => (- / INR n) * Rsum (map ll t) + 0)). 2:{ intros t L. unfold avg. rewrite map_length, L. unfold Rdiv. ring. }
    rewrite expect_lin, expect_sum. unfold expected. erewrite (map_ext' _ (fun xp => snd xp * - ll (fst xp))). 2:{ intros x. rewrite <- Ropp_mult_distr_r. rewrite <- (Rmult_1_l (snd x * ll (fst x))), Ropp_mult_distr_l. reflexivity. }
    rewrite Rsum_scale. field. auto.
Qed.
(** C130: so for a PMF (the log likelihood of what may be drawn is the log of its probability) it is apop_vector_entropy of the probabilities *)
Theorem C130_pmf : forall par (ll : D -> R) n, (1 <= n)%nat -> (forall x p, In (x, p) law -> 0 <= p /\ (0 < p -> ll x = ln p)) ->
  exists est, (forall rows, length rows = n -> model_entropy None par rows ll = Some (est rows)) /\ vector_entropy (map snd law) = Some (expect law n est).
Proof.
  intros par ll n Hn H. destruct (C130_default par ll n Hn) as (est & A & B). exists est. split; auto. rewrite B. rewrite C52_shannon.
  2:{ apply List.Forall_forall. intros p Hp. apply List.in_map_iff in Hp as ((x & q) & <- & Hx). apply H in Hx. cbn. tauto. } 2:{ rewrite one. lra. }
  f_equal. unfold shannon, expected. rewrite one. clear one A B. induction law as [|[x p] l IH]; cbn [map]; [unfold Rsumf; cbn; rewrite !Rsum_nil; lra|].
  rewrite Rsumf_cons, Rsum_cons. rewrite Ropp_plus_distr, IH by (intros; apply H; right; auto). cbn [fst snd]. f_equal.
  destruct (H x p) as [Hp L]; [left; auto|]. unfold xlnx. rewrite Rdiv_1. destruct (Req_EM_T p 0) as [->|N]; [lra|]. rewrite L by lra. lra.
Qed.
End draws.

(** ---------- the Normal ---------- *)
Lemma ll_single mu sd x : 0 < sd -> normal_ll mu sd (single x) = - ((x - mu) ^ 2 / (2 * sd ^ 2)) - (ln2pi_half + ln sd).
Proof. intros Hs. unfold normal_ll. rewrite mapsum_R. unfold single, cells, vcells, mcells, tsize, vsz, msz1, msz2; cbn [vect mat app length]. unfold Rsumf. cbn [map]. rewrite Rsum_cons, Rsum_nil. cbn [INR Nat.add Nat.mul]. field. nra. Qed.
Definition moment (mu sd x : R) : R := (x - mu) * density mu sd x.
Lemma moment_derive mu sd x : 0 < sd -> is_derive (moment mu sd) x (density mu sd x - / sd ^ 2 * ((x - mu) ^ 2 * density mu sd x)).
Proof.
  intros Hs. apply (is_derive_ext (fun x => (x - mu) * exp (- ((x - mu) ^ 2 / (2 * sd ^ 2)) - (ln2pi_half + ln sd)))). { intros t. unfold moment, density. now rewrite ll_single. }
  unfold density. rewrite ll_single by auto. auto_derive; [nra|]. match goal with |- @eq _ ?a ?b => change (@eq R a b) end. change R in (type of x). replace (- ((x + - mu) * ((x + - mu) * 1) * / (2 * (sd * (sd * 1)))) + - (ln2pi_half + ln sd)) with (- ((x - mu) ^ 2 / (2 * sd ^ 2)) - (ln2pi_half + ln sd)) by (field; lra). set (e := exp _). field. lra.
Qed.
Lemma moment_small mu sd x : 0 < sd -> x <> mu -> Rabs (moment mu sd x) <= 2 * sd ^ 2 * exp (- (ln2pi_half + ln sd)) / Rabs (x - mu).
Proof.
  intros Hs Hx. unfold moment, density. rewrite ll_single by auto. rewrite Rabs_mult, (Rabs_pos_eq (exp _)) by (left; apply exp_pos).
  unfold Rminus at 2. rewrite exp_plus. set (C := exp (- (ln2pi_half + ln sd))). assert (0 < C) by apply exp_pos. set (z := Rabs (x - mu)). assert (0 < z) by (apply Rabs_pos_lt; lra).
  replace ((x - mu) ^ 2) with (z ^ 2) by (unfold z; apply pow2_abs). set (u := z ^ 2 / (2 * sd ^ 2)). assert (Hu : 0 < u) by (unfold u; apply Rdiv_lt_0_compat; nra).
  assert (E : exp (- u) <= / u). { rewrite exp_Ropp. apply Rinv_le_contravar; auto. pose proof (exp_ineq1 u ltac:(lra)). lra. }
  assert (z * / u = 2 * sd ^ 2 / z). { unfold u. field. lra. }
  apply Rle_trans with (z * (/ u * C)); [apply Rmult_le_compat_l; [lra|]; apply Rmult_le_compat_r; lra|]. rewrite <- Rmult_assoc, H1. right. unfold Rdiv. ring.
Qed.
Lemma moment_lim mu sd (F : (R -> Prop) -> Prop) {FF : Filter F} : 0 < sd -> (forall M, F (fun x => M < Rabs (x - mu))) -> filterlim (moment mu sd) F (locally 0).
Proof.
  intros Hs HF. apply filterlim_locally. intros eps. set (K := 2 * sd ^ 2 * exp (- (ln2pi_half + ln sd))). assert (HK : 0 < K). { unfold K. apply Rmult_lt_0_compat; [nra|apply exp_pos]. }
  destruct eps as [eps He]. assert (0 < K / eps) by (apply Rdiv_lt_0_compat; auto). apply (filter_imp (fun x => K / eps < Rabs (x - mu))); [|apply HF]. intros x Hx.
  assert (N : x <> mu). { intros ->. rewrite Rminus_eq_0, Rabs_R0 in Hx. lra. } pose proof (moment_small mu sd x Hs N) as B. fold K in B.
  unfold ball. cbn. unfold AbsRing_ball, abs, minus, plus, opp. cbn. rewrite Ropp_0, Rplus_0_r. eapply Rle_lt_trans; [exact B|].
  assert (0 < Rabs (x - mu)) by (apply Rabs_pos_lt; lra). apply Rmult_lt_reg_r with (Rabs (x - mu)); auto. unfold Rdiv at 1. rewrite Rmult_assoc, Rinv_l, Rmult_1_r by lra.
  apply Rmult_lt_reg_r with (/ eps); [apply Rinv_0_lt_compat; auto|]. replace (eps * Rabs (x - mu) * / eps) with (Rabs (x - mu)) by (field; lra). exact Hx.
Qed.
Lemma far_m mu M : Rbar_locally m_infty (fun x => M < Rabs (x - mu)).
Proof. exists (mu - Rabs M - 1). intros x Hx. pose proof (Rle_abs M). pose proof (Rabs_pos M). rewrite Rabs_left; lra. Qed.
Lemma far_p mu M : Rbar_locally p_infty (fun x => M < Rabs (x - mu)).
Proof. exists (mu + Rabs M + 1). intros x Hx. pose proof (Rle_abs M). pose proof (Rabs_pos M). rewrite Rabs_pos_eq; lra. Qed.
Lemma moment_total mu sd : 0 < sd -> over_the_line (fun x => density mu sd x - / sd ^ 2 * ((x - mu) ^ 2 * density mu sd x)) 0.
Proof.
  intros Hs. assert (D : forall x, Derive (moment mu sd) x = density mu sd x - / sd ^ 2 * ((x - mu) ^ 2 * density mu sd x)) by (intros x; apply is_derive_unique, moment_derive; auto).
  unfold over_the_line. apply (is_RInt_gen_ext (Derive (moment mu sd))).
  { apply filter_forall. intros ab x _. apply D. }
  replace 0 with (0 - 0) by lra. apply is_RInt_gen_Derive.
  - apply filter_forall. intros ab x _. eexists. apply moment_derive. auto.
  - apply filter_forall. intros ab x _. apply (continuous_ext (fun x => exp (- ((x - mu) ^ 2 / (2 * sd ^ 2)) - (ln2pi_half + ln sd)) - / sd ^ 2 * ((x - mu) ^ 2 * exp (- ((x - mu) ^ 2 / (2 * sd ^ 2)) - (ln2pi_half + ln sd))))).
    { intros t. rewrite D. unfold density. now rewrite ll_single. }
    apply (ex_derive_continuous (V := R_NormedModule)). auto_derive. nra.
  - apply moment_lim; [typeclasses eauto|auto|apply far_m].
  - apply moment_lim; [typeclasses eauto|auto|apply far_p].
Qed.
Lemma root : exp (- ln2pi_half) = / (R_sqrt.sqrt 2 * R_sqrt.sqrt PI).
Proof.
  rewrite exp_Ropp. f_equal. set (q := exp ln2pi_half). assert (0 < q) by apply exp_pos. assert (Q : q * q = 2 * PI). { unfold q. rewrite <- exp_plus. unfold ln2pi_half. replace (_ + _) with (ln 2 + ln PI) by lra. rewrite exp_plus, !exp_ln; auto; [apply PI_RGT_0|lra]. }
  pose proof (sqrt_lt_R0 2 ltac:(lra)). pose proof (sqrt_lt_R0 PI PI_RGT_0). pose proof (sqrt_sqrt 2 ltac:(lra)) as S2. pose proof (sqrt_sqrt PI ltac:(pose proof PI_RGT_0; lra)) as SP.
  set (a := R_sqrt.sqrt 2) in *. set (b := R_sqrt.sqrt PI) in *. assert (0 < a * b) by nra. assert (E : (q - a * b) * (q + a * b) = 0). { replace ((q - a * b) * (q + a * b)) with (q * q - (a * a) * (b * b)) by ring. rewrite Q, S2, SP. ring. }
  apply Rmult_integral in E as [E|E]; lra.
Qed.
Definition shares_below (mu sd x : R) : R := I ((x - mu) / (sd * R_sqrt.sqrt 2)) / R_sqrt.sqrt PI.
Lemma shares_derive mu sd x : 0 < sd -> is_derive (shares_below mu sd) x (density mu sd x).
Proof.
  intros Hs. pose proof (sqrt_lt_R0 2 ltac:(lra)). pose proof (sqrt_lt_R0 PI PI_RGT_0). set (c := sd * R_sqrt.sqrt 2). assert (0 < c) by (unfold c; nra).
  assert (E : density mu sd x = / c * bell ((x - mu) / c) * / R_sqrt.sqrt PI).
  { unfold density. rewrite ll_single by auto. replace (- ((x - mu) ^ 2 / (2 * sd ^ 2)) - (ln2pi_half + ln sd)) with (- ((x - mu) / c) ^ 2 + (- ln2pi_half + - ln sd)).
    2:{ unfold c. pose proof (sqrt_sqrt 2 ltac:(lra)) as S. set (r := R_sqrt.sqrt 2) in *. replace (((x - mu) / (sd * r)) ^ 2) with ((x - mu) ^ 2 / (sd ^ 2 * (r * r))) by (field; lra). rewrite S. replace (sd ^ 2 * 2) with (2 * sd ^ 2) by ring. ring. }
    rewrite !exp_plus, root, (exp_Ropp (ln sd)), exp_ln by auto. unfold bell, c. field. lra. }
  rewrite E. unfold shares_below. fold c. apply (is_derive_ext (fun x => scal (/ R_sqrt.sqrt PI) (I ((x - mu) / c)))). { intros t. unfold scal. cbn. unfold mult. cbn. apply Rmult_comm. }
  replace (/ c * bell ((x - mu) / c) * / R_sqrt.sqrt PI) with (scal (/ R_sqrt.sqrt PI) (scal (/ c) (bell ((x - mu) / c)))). 2:{ unfold scal. cbn. unfold mult. cbn. ring. }
  apply (is_derive_scal (fun x => I ((x - mu) / c))). apply (is_derive_comp I (fun x => (x - mu) / c)); [apply I_derive|]. auto_derive; auto. field. lra.
Qed.
Lemma over_two : half / R_sqrt.sqrt PI = 1 / 2.
Proof. unfold half. pose proof (sqrt_lt_R0 PI PI_RGT_0). field. lra. Qed.
Lemma shares_p mu sd : 0 < sd -> filterlim (shares_below mu sd) (Rbar_locally p_infty) (locally (1 / 2)).
Proof.
  intros Hs. pose proof (sqrt_lt_R0 2 ltac:(lra)). rewrite <- over_two. apply (filterlim_comp _ _ _ (fun x => I ((x - mu) / (sd * R_sqrt.sqrt 2))) (fun y => y / R_sqrt.sqrt PI) _ (locally half)).
  - apply (filterlim_comp _ _ _ (fun x => (x - mu) / (sd * R_sqrt.sqrt 2)) I _ (Rbar_locally p_infty)); [|apply I_lim]. intros P [M HM]. set (c := sd * R_sqrt.sqrt 2). assert (0 < c) by (unfold c; nra).
    exists (M * c + mu). intros x Hx. apply HM. apply Rmult_lt_reg_r with c; auto. unfold Rdiv. rewrite Rmult_assoc, Rinv_l, Rmult_1_r; lra.
  - change (continuous (fun y => y * / R_sqrt.sqrt PI) half). apply (ex_derive_continuous (V := R_NormedModule)). auto_derive. auto.
Qed.
Lemma shares_odd mu sd x : 0 < sd -> shares_below mu sd x = - shares_below (- mu) sd (- x).
Proof. intros Hs. pose proof (sqrt_lt_R0 2 ltac:(lra)). unfold shares_below. replace ((- x - - mu) / (sd * R_sqrt.sqrt 2)) with (- ((x - mu) / (sd * R_sqrt.sqrt 2))) by (field; lra). rewrite I_odd. unfold Rdiv. ring. Qed.
Lemma shares_m mu sd : 0 < sd -> filterlim (shares_below mu sd) (Rbar_locally m_infty) (locally (- (1 / 2))).
Proof.
  intros Hs. apply (filterlim_ext (fun x => - shares_below (- mu) sd (- x))). { intros x. symmetry. apply shares_odd. auto. }
  apply (filterlim_comp _ _ _ (fun x => shares_below (- mu) sd (- x)) Ropp _ (locally (1 / 2))).
  - apply (filterlim_comp _ _ _ Ropp (shares_below (- mu) sd) _ (Rbar_locally p_infty)); [|apply shares_p; auto]. intros P [M HM]. exists (- M). intros x Hx. apply HM. lra.
  - apply (filterlim_opp (V := R_NormedModule)).
Qed.
(** the likelihood of one number is a density *)
Lemma density_total mu sd : 0 < sd -> over_the_line (density mu sd) 1.
Proof.
  intros Hs. assert (D : forall x, Derive (shares_below mu sd) x = density mu sd x) by (intros x; apply is_derive_unique, shares_derive; auto).
  unfold over_the_line. apply (is_RInt_gen_ext (Derive (shares_below mu sd))). { apply filter_forall. intros ab x _. apply D. }
  replace 1 with (1 / 2 - - (1 / 2)) by lra. apply is_RInt_gen_Derive.
  - apply filter_forall. intros ab x _. eexists. apply shares_derive. auto.
  - apply filter_forall. intros ab x _. apply (continuous_ext (fun x => exp (- ((x - mu) ^ 2 / (2 * sd ^ 2)) - (ln2pi_half + ln sd)))).
    { intros t. rewrite D. unfold density. now rewrite ll_single. }
    apply (ex_derive_continuous (V := R_NormedModule)). auto_derive. nra.
  - apply shares_m; auto.
  - apply shares_p; auto.
Qed.
(** C130: the function of the Normal gives, without draws, the integral of minus the log likelihood times the likelihood over the line (and the likelihood is a density: its integral is one) *)
Theorem C130_normal : forall D mu sd (rows : list D) ll, 0 < sd -> over_the_line (density mu sd) 1 /\
  exists h, model_entropy (Some norment) (mu_sigma mu sd) rows ll = Some h /\ over_the_line (fun x => - normal_ll mu sd (single x) * density mu sd x) h.
Proof.
  intros D mu sd rows ll Hs. pose proof (density_total mu sd Hs) as H1. split; auto. unfold model_entropy, norment. change (get_at (mu_sigma mu sd) 1 0) with (Got sd). cbv iota zeta. destruct (Req_EM_T (sd ^ 2) 0); [nra|]. eexists. split; [reflexivity|].
  pose proof (moment_total mu sd Hs) as H0. unfold over_the_line in *.
  pose proof (is_RInt_gen_scal _ (ln2pi_half + ln sd + / 2) _ H1) as A. pose proof (is_RInt_gen_scal _ (- / 2) _ H0) as B. pose proof (is_RInt_gen_plus _ _ _ _ A B) as C.
  eapply is_RInt_gen_ext; [|replace (_ : R) with (plus (scal (ln2pi_half + ln sd + / 2) 1) (scal (- / 2) 0)); [exact C|]].
  - apply filter_forall. intros ab x _. unfold plus, scal. cbn. unfold mult. cbn. rewrite ll_single by auto. field. nra.
  - unfold plus, scal. cbn. unfold mult. cbn. unfold ln2pi_half. rewrite !ln_mult; try nra; try (pose proof PI_RGT_0; nra). rewrite ln_1. lra.
Qed.

(** ---------- deviations ---------- *)
(** the manual names a function for PMFs: there is none, and the result is as random as the draws *)
Theorem C130_refuted_pmf : exists law : list (nat * R), Rsum (map snd law) = 1 /\ exists h1 h2 h, vector_entropy (map snd law) = Some h /\
  model_entropy None (mu_sigma 0 1) (0%nat :: nil) (fun i => ln (nth i (map snd law) 0)) = Some h1 /\ model_entropy None (mu_sigma 0 1) (1%nat :: nil) (fun i => ln (nth i (map snd law) 0)) = Some h2 /\ h1 < h < h2.
Proof.
  exists ((0%nat, 3 / 4) :: (1%nat, 1 / 4) :: nil). cbn [map snd]. split; [rewrite !Rsum_cons, Rsum_nil; lra|].
  assert (S : Rsum (3 / 4 :: 1 / 4 :: nil) = 1) by (rewrite !Rsum_cons, Rsum_nil; lra).
  exists (- ln (3 / 4)), (- ln (1 / 4)), (- (ln (3 / 4) * (3 / 4) + ln (1 / 4) * (1 / 4))). split.
  - rewrite C52_shannon by (try (rewrite S; lra); repeat constructor; lra). unfold shannon. rewrite S. f_equal. rewrite !Rsumf_cons. unfold Rsumf. cbn [map]. rewrite Rsum_nil. unfold xlnx. rewrite !Rdiv_1. destruct (Req_EM_T (3 / 4) 0); [lra|]. destruct (Req_EM_T (1 / 4) 0); [lra|]. lra.
  - unfold model_entropy. cbn [map nth]. rewrite !mean_plain by discriminate. unfold avg. cbn [length INR]. rewrite !Rsum_cons, Rsum_nil. split; [f_equal; lra|]. split; [f_equal; lra|].
    assert (ln (1 / 4) < ln (3 / 4)) by (apply ln_increasing; lra). lra.
Qed.
Example C130_nonvacuous : Rsum (map snd ((0%nat, 3 / 4) :: (1%nat, 1 / 4) :: nil)) = 1 /\ expected ((0%nat, 3 / 4) :: (1%nat, 1 / 4) :: nil) (fun i => - INR i) = 1 / 4.
Proof. unfold expected. cbn [map snd fst INR]. rewrite !Rsum_cons, !Rsum_nil. lra. Qed.
Print Assumptions C130_default. Print Assumptions C130_pmf. Print Assumptions C130_normal.
