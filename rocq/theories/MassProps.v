(** C131: the likelihoods of one number under the Exponential, Poisson, Uniform and Bernoulli models are probability distributions, with the mean and variance
    their parameters say. *)
From Coq Require Import Reals Lra Lia.
From Verif Require Import Base DataModel StatsModel StatsSpec StatsProofs StatsProps ConvModel ConvProofs LikeModel LikeProps.
From Coquelicot Require Import Coquelicot.
Local Open Scope list_scope.
Local Open Scope R_scope.
Local Arguments Rsum : simpl never.

(** ---------- specification ---------- *)
(** a data set of one number, in the vector or in the matrix *)
Definition one (in_vector : bool) (x : R) : page R :=
  if in_vector then Pg (Some (x :: nil)) None None None name_alloc None else Pg None (Some (Gr 1 1 ((x :: nil) :: nil))) None None name_alloc None.
(** the likelihood of a number; [None] for a log likelihood of minus infinity *)
Definition likelihood (ll : option R) : R := match ll with Some l => exp l | None => 0 end.
(** the integral over the whole line, and from zero on *)
Definition total (f : R -> R) (v : R) : Prop := is_RInt_gen f (Rbar_locally m_infty) (Rbar_locally p_infty) v.
Definition total_from_0 (f : R -> R) (v : R) : Prop := is_RInt_gen f (at_point 0) (Rbar_locally p_infty) v.
(** a number the Poisson model takes for a count: at least zero, and at most 1e-4 above a whole number *)
Definition count (x : R) : Prop := exists n : nat, INR n <= x <= INR n + 1 / 10000.

Lemma cells_one s x : cells (one s x) = x :: nil.
Proof. now destruct s. Qed.
Lemma tsize1 s x : tsize (one s x) = 1%nat.
Proof. now destruct s. Qed.
Lemma mapsum1 s f x : mapsum f (one s x) = f x.
Proof. rewrite mapsum_R, cells_one. unfold Rsumf. cbn [map]. rewrite Rsum_cons, Rsum_nil. lra. Qed.

(** ---------- the Exponential ---------- *)
Lemma expo_single s mu x : 0 < mu -> exp (exponential_ll mu (one s x)) = exp (- (x / mu)) / mu.
Proof.
  intros H. unfold exponential_ll. rewrite both_sum_R, cells_one, tsize1, Rsum_cons, Rsum_nil. cbn [INR].
  replace (- (x + 0) / mu - 1 * ln mu) with (- (x / mu) + - ln mu) by (field; lra). rewrite exp_plus, exp_Ropp, (exp_Ropp (ln mu)), exp_ln by auto. reflexivity.
Qed.
Lemma decay mu x : 0 < mu -> 1 <= x -> x ^ 2 * exp (- (x / mu)) <= 27 * mu ^ 3 / x.
Proof.
  intros Hm Hx. set (y := x / mu / 3). assert (Hy : 0 < y) by (unfold y; apply Rdiv_lt_0_compat; [apply Rdiv_lt_0_compat|]; lra).
  assert (E : exp (- (x / mu)) = (/ exp y) ^ 3). { rewrite exp_Ropp. replace (x / mu) with (y + y + y) by (unfold y; field; lra). rewrite !exp_plus. pose proof (exp_pos y). field. lra. }
  rewrite E. assert (B : / exp y <= / y). { apply Rinv_le_contravar; auto. pose proof (exp_ineq1 y ltac:(lra)). lra. }
  assert (P : 0 < / exp y) by (apply Rinv_0_lt_compat, exp_pos). apply Rle_trans with (x ^ 2 * (/ y) ^ 3).
  - apply Rmult_le_compat_l; [nra|]. apply pow_incr. lra.
  - right. unfold y. field. lra.
Qed.
Lemma quadratic_lim mu a b c : 0 < mu -> filterlim (fun x => - (a * x ^ 2 + b * x + c) * exp (- (x / mu))) (Rbar_locally p_infty) (locally 0).
Proof.
  intros Hm. apply filterlim_locally. intros eps. set (K := Rabs a + Rabs b + Rabs c). set (D := K * (27 * mu ^ 3)).
  assert (HK : 0 <= K) by (unfold K; pose proof (Rabs_pos a); pose proof (Rabs_pos b); pose proof (Rabs_pos c); lra). assert (Hmu : 0 < mu ^ 3) by (apply pow_lt; auto). assert (HD : 0 <= D) by (unfold D; nra).
  exists (1 + D / eps). intros x Hx. pose proof (cond_pos eps) as He. assert (0 <= D / eps) by (apply Rmult_le_pos; [auto|left; apply Rinv_0_lt_compat; auto]).
  assert (X1 : 1 <= x) by lra. change (Rabs (- (a * x ^ 2 + b * x + c) * exp (- (x / mu)) - 0) < eps). rewrite Rminus_0_r, Rabs_mult, Rabs_Ropp, (Rabs_pos_eq (exp _)) by (left; apply exp_pos).
  assert (Q : Rabs (a * x ^ 2 + b * x + c) <= K * x ^ 2).
  { eapply Rle_trans; [apply Rabs_triang|]. eapply Rle_trans; [apply Rplus_le_compat_r, Rabs_triang|]. rewrite !Rabs_mult, (Rabs_pos_eq x) by lra. rewrite (Rabs_pos_eq (x ^ 2)) by nra. unfold K.
    pose proof (Rabs_pos a). pose proof (Rabs_pos b). pose proof (Rabs_pos c). assert (x <= x ^ 2) by nra. assert (1 <= x ^ 2) by nra. nra. }
  pose proof (decay mu x Hm X1) as Dc. apply Rle_lt_trans with (K * (27 * mu ^ 3 / x)).
  - apply Rle_trans with (K * x ^ 2 * exp (- (x / mu))). { apply Rmult_le_compat_r; [left; apply exp_pos|auto]. } rewrite Rmult_assoc. now apply Rmult_le_compat_l.
  - replace (K * (27 * mu ^ 3 / x)) with (D / x) by (unfold D; field; lra). apply Rmult_lt_reg_r with x; [lra|]. replace (D / x * x) with D by (field; lra).
    apply Rmult_lt_reg_r with (/ eps); [apply Rinv_0_lt_compat; auto|]. replace (eps * x * / eps) with x by (field; lra). unfold Rdiv in Hx. lra.
Qed.
Lemma quadratic_int mu a b c : 0 < mu -> total_from_0 (fun x => ((a * x ^ 2 + b * x + c) / mu - (2 * a * x + b)) * exp (- (x / mu))) c.
Proof.
  intros Hm. set (G := fun x => - (a * x ^ 2 + b * x + c) * exp (- (x / mu))).
  assert (D : forall x, is_derive G x (((a * x ^ 2 + b * x + c) / mu - (2 * a * x + b)) * exp (- (x / mu)))).
  { intros x. unfold G. auto_derive; [lra|]. match goal with |- @eq _ ?u ?v => change (@eq R u v) end. unfold Rdiv. set (e := exp _). ring. }
  assert (D' : forall x, Derive G x = ((a * x ^ 2 + b * x + c) / mu - (2 * a * x + b)) * exp (- (x / mu))) by (intros x; apply is_derive_unique, D).
  unfold total_from_0. apply (is_RInt_gen_ext (Derive G)). { apply filter_forall. intros ab x _. apply D'. }
  replace c with (0 - G 0) at 1. 2: { unfold G. replace (- (0 / mu)) with 0 by (unfold Rdiv; ring). rewrite exp_0. ring. }
  apply is_RInt_gen_Derive.
  - apply filter_forall. intros ab x _. eexists. apply D.
  - apply filter_forall. intros ab x _. apply (continuous_ext (fun x => ((a * x ^ 2 + b * x + c) / mu - (2 * a * x + b)) * exp (- (x / mu)))). { intros t. now rewrite D'. }
    apply (ex_derive_continuous (V := R_NormedModule)). auto_derive. lra.
  - intros P HP. unfold filtermap, at_point. now apply locally_singleton.
  - now apply quadratic_lim.
Qed.
Lemma from_0_ext f g v : (forall x, f x = g x) -> total_from_0 f v -> total_from_0 g v.
Proof. intros E. apply is_RInt_gen_ext. apply filter_forall. intros ab x _. apply E. Qed.
(** C131: over the numbers from zero on the Exponential likelihood is a density, with mean mu and variance mu^2 *)
Theorem C131_exponential : forall side mu, 0 < mu -> let f := fun x => exp (exponential_ll mu (one side x)) in
  total_from_0 f 1 /\ total_from_0 (fun x => x * f x) mu /\ total_from_0 (fun x => (x - mu) ^ 2 * f x) (mu ^ 2).
Proof.
  intros s mu Hm f. split; [|split].
  - eapply from_0_ext; [|apply (quadratic_int mu 0 0 1 Hm)]. intros x. unfold f. rewrite expo_single by auto. set (e := exp _). field. lra.
  - eapply from_0_ext; [|apply (quadratic_int mu 0 1 mu Hm)]. intros x. unfold f. rewrite expo_single by auto. set (e := exp _). field. lra.
  - eapply from_0_ext; [|apply (quadratic_int mu 1 0 (mu ^ 2) Hm)]. intros x. unfold f. rewrite expo_single by auto. set (e := exp _). field. lra.
Qed.

(** ---------- the Poisson ---------- *)
Lemma trunc_at x n : INR n <= x < INR n + 1 -> trunc x = Z.of_nat n.
Proof.
  intros H. unfold trunc. destruct (Rle_dec 0 x) as [|Hn]; [|pose proof (pos_INR n); lra]. destruct (base_Int_part x) as [A B]. rewrite INR_IZR_INZ in H.
  assert (Int_part x < Z.of_nat n + 1)%Z. { apply lt_IZR. rewrite plus_IZR. lra. } assert (Z.of_nat n < Int_part x + 1)%Z. { apply lt_IZR. rewrite plus_IZR. lra. } lia.
Qed.
Lemma good_count n x : INR n <= x <= INR n + 1 / 10000 -> poisson_bad x = false.
Proof.
  intros H. unfold poisson_bad. pose proof (pos_INR n). destruct (Rlt_dec x 0); [lra|]. rewrite (trunc_at x n) by lra. rewrite <- INR_IZR_INZ. destruct (Rlt_dec _ _); [lra|auto].
Qed.
Lemma bad_count x : ~ count x -> poisson_bad x = true.
Proof.
  intros N. unfold poisson_bad. destruct (Rlt_dec x 0) as [|H]; auto. destruct (Rlt_dec _ _) as [|H2]; auto. exfalso. apply N. destruct (base_Int_part x) as [A B].
  assert (0 <= Int_part x)%Z. { assert (0 < Int_part x + 1)%Z; [|lia]. apply lt_IZR. rewrite plus_IZR. lra. }
  exists (Z.to_nat (Int_part x)). rewrite INR_IZR_INZ, Z2Nat.id by auto. unfold trunc in H2. destruct (Rle_dec 0 x); lra.
Qed.
Section poisson.
Context (lg : R -> R).
Hypothesis lgs : forall n : nat, lg (INR n + 1) = ln (INR (fact n)).
Lemma poisson_single s lambda n : 0 < lambda -> likelihood (poisson_ll lg lambda (one s (INR n))) = lambda ^ n / INR (fact n) * exp (- lambda).
Proof.
  intros H. unfold poisson_ll. rewrite cells_one. cbn [existsb]. rewrite (good_count n) by lra. cbn [orb likelihood]. rewrite mapsum1, tsize1. cbn [INR].
  assert (F : 0 < INR (fact n)) by (apply lt_0_INR, lt_O_fact). unfold Rminus. rewrite exp_plus. replace (- (1 * lambda)) with (- lambda) by ring. f_equal. unfold poisson_one.
  destruct (Req_EM_T (INR n) 0) as [E|E].
  - apply (INR_eq n 0) in E. subst n. cbn. rewrite exp_0. field.
  - rewrite lgs. unfold Rminus. rewrite exp_plus, exp_Ropp, exp_ln by auto. rewrite (Rmult_comm (ln lambda)). rewrite <- ln_pow, exp_ln; auto. apply pow_lt. auto.
Qed.
End poisson.
Lemma series_exp x : is_series (fun n => x ^ n / INR (fact n)) (exp x).
Proof. pose proof (is_exp_Reals x) as H. apply is_pseries_R in H. eapply is_series_ext; [|exact H]. intros n. cbn. unfold Rdiv. ring. Qed.
Lemma series_val (f : nat -> R) (u v : R) : u = v -> is_series f u -> is_series f v.
Proof. now intros ->. Qed.
Lemma shift1 x : is_series (fun n => INR n * (x ^ n / INR (fact n))) (x * exp x).
Proof.
  apply is_series_decr_1. apply (series_val _ (x * exp x)). { change (x * exp x = x * exp x + - (0 * (x ^ 0 / INR (fact 0)))). ring. }
  eapply is_series_ext; [|apply (is_series_scal x _ _ (series_exp x))]. intros n. change (x * (x ^ n / INR (fact n)) = INR (S n) * (x ^ S n / INR (fact (S n)))).
  rewrite fact_simpl, mult_INR. assert (0 < INR (fact n)) by (apply lt_0_INR, lt_O_fact). assert (0 < INR (S n)) by (apply lt_0_INR; lia). change (x ^ S n) with (x * x ^ n). field. lra.
Qed.
Lemma shift2 x : is_series (fun n => INR n * (INR n - 1) * (x ^ n / INR (fact n))) (x ^ 2 * exp x).
Proof.
  apply is_series_decr_1. apply (series_val _ (x * (x * exp x))). { change (x * (x * exp x) = x ^ 2 * exp x + - (0 * (0 - 1) * (x ^ 0 / INR (fact 0)))). ring. }
  eapply is_series_ext; [|apply (is_series_scal x _ _ (shift1 x))]. intros n. change (x * (INR n * (x ^ n / INR (fact n))) = INR (S n) * (INR (S n) - 1) * (x ^ S n / INR (fact (S n)))).
  rewrite fact_simpl, mult_INR. assert (0 < INR (fact n)) by (apply lt_0_INR, lt_O_fact). assert (0 < INR (S n)) by (apply lt_0_INR; lia). change (x ^ S n) with (x * x ^ n). rewrite S_INR in *. field. lra.
Qed.
(** C131: under a Poisson the probabilities of the whole numbers from zero on add up to one, with mean and variance lambda *)
Theorem C131_poisson : forall lg, (forall n : nat, lg (INR n + 1) = ln (INR (fact n))) -> forall side lambda, 0 < lambda ->
  let p := fun n => likelihood (poisson_ll lg lambda (one side (INR n))) in
  is_series p 1 /\ is_series (fun n => INR n * p n) lambda /\ is_series (fun n => (INR n - lambda) ^ 2 * p n) lambda.
Proof.
  intros lg L s lambda H p. assert (P : forall n, p n = lambda ^ n / INR (fact n) * exp (- lambda)) by (intros; apply poisson_single; auto).
  assert (E : exp lambda * exp (- lambda) = 1) by (rewrite <- exp_plus, Rplus_opp_r; apply exp_0). set (w := exp (- lambda)) in *.
  pose proof (is_series_scal w _ _ (series_exp lambda)) as S0. pose proof (is_series_scal w _ _ (shift1 lambda)) as S1. pose proof (is_series_scal w _ _ (shift2 lambda)) as S2.
  split; [|split].
  - eapply series_val; [|eapply is_series_ext; [|exact S0]]. { change (w * exp lambda = 1). lra. } intros n. rewrite P. change (w * (lambda ^ n / INR (fact n)) = lambda ^ n / INR (fact n) * w). ring.
  - eapply series_val; [|eapply is_series_ext; [|exact S1]]. { change (w * (lambda * exp lambda) = lambda). replace (w * (lambda * exp lambda)) with (lambda * (exp lambda * w)) by ring. rewrite E. ring. }
    intros n. rewrite P. change (w * (INR n * (lambda ^ n / INR (fact n))) = INR n * (lambda ^ n / INR (fact n) * w)). ring.
  - pose proof (is_series_plus _ _ _ _ (is_series_plus _ _ _ _ S2 (is_series_scal (1 - 2 * lambda) _ _ S1)) (is_series_scal (lambda ^ 2) _ _ S0)) as S3.
    eapply series_val; [|eapply is_series_ext; [|exact S3]].
    { change (w * (lambda ^ 2 * exp lambda) + (1 - 2 * lambda) * (w * (lambda * exp lambda)) + lambda ^ 2 * (w * exp lambda) = lambda).
      replace (w * (lambda ^ 2 * exp lambda) + (1 - 2 * lambda) * (w * (lambda * exp lambda)) + lambda ^ 2 * (w * exp lambda)) with ((exp lambda * w) * (lambda ^ 2 + (1 - 2 * lambda) * lambda + lambda ^ 2)) by ring. rewrite E. ring. }
    intros n. rewrite P. set (q := lambda ^ n / INR (fact n)). change (w * (INR n * (INR n - 1) * q) + (1 - 2 * lambda) * (w * (INR n * q)) + lambda ^ 2 * (w * q) = (INR n - lambda) ^ 2 * (q * w)). ring.
Qed.
(** C131: numbers that are not counts have probability zero *)
Theorem C131_poisson_support : forall lg side lambda x, ~ count x -> likelihood (poisson_ll lg lambda (one side x)) = 0.
Proof. intros lg s lambda x N. unfold poisson_ll. rewrite cells_one. cbn [existsb]. now rewrite bad_count. Qed.

(** ---------- the Uniform ---------- *)
Lemma int_val (f : R -> R) u v (x y : R) : x = y -> is_RInt f u v x -> is_RInt f u v y.
Proof. now intros ->. Qed.
Lemma zero_int (f : R -> R) u v : u <= v -> (forall x, u < x < v -> f x = 0) -> is_RInt f u v 0.
Proof.
  intros H Z. apply (is_RInt_ext (fun _ => 0)). { intros x Hx. rewrite Rmin_left, Rmax_right in Hx by auto. now rewrite Z. }
  eapply int_val; [|apply (is_RInt_const (V := R_NormedModule) u v 0)]. change ((v - u) * 0 = 0). ring.
Qed.
Lemma in_a_piece (f g G : R -> R) a b : a < b -> (forall x, a < x < b -> f x = g x) -> (forall x, x < a -> f x = 0) -> (forall x, b < x -> f x = 0) ->
  (forall x, is_derive G x (g x)) -> (forall x, continuous g x) -> total f (G b - G a).
Proof.
  intros Hab E Z1 Z2 D C. intros P HP. exists (fun x => x < a) (fun x => b < x); [exists a; auto|exists b; auto|].
  intros u v Hu Hv. exists (G b - G a). split; [|now apply locally_singleton]. cbn [fst snd].
  assert (I : is_RInt f a b (G b - G a)).
  { apply (is_RInt_ext g). { intros x Hx. rewrite Rmin_left, Rmax_right in Hx by lra. symmetry. auto. } apply (is_RInt_derive G g); auto. }
  pose proof (is_RInt_Chasles f u a b _ _ (zero_int f u a ltac:(lra) ltac:(intros; apply Z1; lra)) I) as I1.
  pose proof (is_RInt_Chasles f u b v _ _ I1 (zero_int f b v ltac:(lra) ltac:(intros; apply Z2; lra))) as I2.
  eapply int_val; [|exact I2]. change (0 + (G b - G a) + 0 = G b - G a). ring.
Qed.
Lemma unif_single s a b x : a < b -> unif_p a b (one s x) = if Rle_dec a x then if Rle_dec x b then / (b - a) else 0 else 0.
Proof.
  intros H. unfold unif_p. rewrite tsize1, pow_1. unfold unif_covers. assert (getminmax (one s x) = (Some x, Some x)) as ->.
  { destruct s; unfold getminmax, one, mcells, vcells; cbn; destruct (Rlt_dec x x); auto; lra. }
  cbn [fst snd]. destruct (Rle_dec a x), (Rle_dec x b); cbn [andb]; auto.
Qed.
(** C131: the Uniform likelihood is a density, with the mean and variance of the distribution, and zero outside [a,b] *)
Theorem C131_uniform : forall side a b, a < b -> let f := fun x => unif_p a b (one side x) in
  total f 1 /\ total (fun x => x * f x) ((a + b) / 2) /\ total (fun x => (x - (a + b) / 2) ^ 2 * f x) ((b - a) ^ 2 / 12) /\
  (forall x, x < a \/ b < x -> f x = 0).
Proof.
  intros s a b H f. assert (In : forall x, a < x < b -> f x = / (b - a)) by (intros x Hx; unfold f; rewrite unif_single by auto; destruct (Rle_dec a x), (Rle_dec x b); lra).
  assert (Lo : forall x, x < a -> f x = 0) by (intros x Hx; unfold f; rewrite unif_single by auto; destruct (Rle_dec a x); auto; lra).
  assert (Hi : forall x, b < x -> f x = 0) by (intros x Hx; unfold f; rewrite unif_single by auto; destruct (Rle_dec a x), (Rle_dec x b); auto; lra).
  assert (V : forall g u v, u = v -> total g u -> total g v) by (now intros g u v ->).
  split; [|split; [|split]].
  - eapply V; [|apply (in_a_piece f (fun _ => / (b - a)) (fun x => x / (b - a)) a b H); auto]. { field. lra. }
    + intros x. auto_derive; [lra|]. match goal with |- @eq _ ?u ?v => change (@eq R u v) end. field. lra.
    + intros x. apply (ex_derive_continuous (V := R_NormedModule)). auto_derive. auto.
  - eapply V; [|apply (in_a_piece _ (fun x => x / (b - a)) (fun x => x ^ 2 / (2 * (b - a))) a b H)]. { field. lra. }
    + intros x Hx. rewrite In by auto. reflexivity.
    + intros x Hx. rewrite Lo by auto. ring.
    + intros x Hx. rewrite Hi by auto. ring.
    + intros x. auto_derive; [lra|]. match goal with |- @eq _ ?u ?v => change (@eq R u v) end. field. lra.
    + intros x. apply (ex_derive_continuous (V := R_NormedModule)). auto_derive. lra.
  - eapply V; [|apply (in_a_piece _ (fun x => (x - (a + b) / 2) ^ 2 / (b - a)) (fun x => (x - (a + b) / 2) ^ 3 / (3 * (b - a))) a b H)]. { field. lra. }
    + intros x Hx. rewrite In by auto. reflexivity.
    + intros x Hx. rewrite Lo by auto. ring.
    + intros x Hx. rewrite Hi by auto. ring.
    + intros x. auto_derive; [lra|]. match goal with |- @eq _ ?u ?v => change (@eq R u v) end. field. lra.
    + intros x. apply (ex_derive_continuous (V := R_NormedModule)). auto_derive. lra.
  - intros x [X|X]; auto.
Qed.

(** ---------- the Bernoulli ---------- *)
(** C131: the probabilities of zero and one add up to one, with mean q and variance q(1-q) *)
Theorem C131_bernoulli : forall side q, 0 < q < 1 -> let p := fun x => exp (bernoulli_ll q (one side x)) in
  p 0 + p 1 = 1 /\ 0 * p 0 + 1 * p 1 = q /\ (0 - q) ^ 2 * p 0 + (1 - q) ^ 2 * p 1 = q * (1 - q).
Proof.
  intros s q H p. assert (P0 : p 0 = 1 - q). { unfold p, bernoulli_ll. rewrite mapsum1. destruct (Req_EM_T 0 0); [|lra]. apply exp_ln. lra. }
  assert (P1 : p 1 = q). { unfold p, bernoulli_ll. rewrite mapsum1. destruct (Req_EM_T 1 0); [lra|]. apply exp_ln. lra. }
  rewrite P0, P1. split; [lra|]. split; [lra|ring].
Qed.

(** ---------- deviations ---------- *)
(** the Exponential's likelihood does not look at the sign: a negative number is likelier than any other that is greater, without bound *)
Theorem C131_refuted_exponential : forall side mu, 0 < mu -> (forall x y, x < y -> exp (exponential_ll mu (one side y)) < exp (exponential_ll mu (one side x))) /\
  (forall M, 0 < M -> exists x, x < 0 /\ M < exp (exponential_ll mu (one side x))).
Proof.
  intros s mu H. split.
  - intros x y Hxy. rewrite !expo_single by auto. apply Rmult_lt_compat_r; [apply Rinv_0_lt_compat; auto|]. apply exp_increasing. assert (x / mu < y / mu); [|lra]. apply Rmult_lt_compat_r; [apply Rinv_0_lt_compat; auto|auto].
  - intros M HM. exists (- (mu * (M * mu))). assert (0 < mu * mu) by nra. split; [nra|]. rewrite expo_single by auto. replace (- (- (mu * (M * mu)) / mu)) with (M * mu) by (field; lra).
    pose proof (exp_ineq1 (M * mu) ltac:(nra)). apply Rmult_lt_reg_r with mu; auto. replace (exp (M * mu) / mu * mu) with (exp (M * mu)) by (field; lra). lra.
Qed.
(** numbers up to 1e-4 above a whole one have a probability too, so that those of all the numbers with a likelihood add up to more than one *)
Theorem C131_refuted_poisson : forall lg side lambda, 0 < lambda -> count (1 / 20000) /\ 0 < likelihood (poisson_ll lg lambda (one side (1 / 20000))).
Proof.
  intros lg s lambda H. assert (C : INR 0 <= 1 / 20000 <= INR 0 + 1 / 10000) by (cbn; lra). split; [exists 0%nat; auto|]. unfold poisson_ll. rewrite cells_one. cbn [existsb]. rewrite (good_count 0) by auto. cbn [orb likelihood]. apply exp_pos.
Qed.
(** under a Bernoulli every number but zero is a one *)
Theorem C131_refuted_bernoulli : forall side q x, x <> 0 -> bernoulli_ll q (one side x) = bernoulli_ll q (one side 1).
Proof. intros s q x H. unfold bernoulli_ll. rewrite !mapsum1. destruct (Req_EM_T x 0); [contradiction|]. destruct (Req_EM_T 1 0); lra. Qed.
Example C131_nonvacuous : exp (exponential_ll 2 (one true 0)) = 1 / 2 /\ unif_p 1 3 (one false 2) = 1 / 2 /\ ~ count (1 / 2) /\ (exists lg : R -> R, forall n : nat, lg (INR n + 1) = ln (INR (fact n))).
Proof.
  split; [rewrite expo_single by lra; replace (- (0 / 2)) with 0 by lra; rewrite exp_0; lra|]. split; [rewrite unif_single by lra; destruct (Rle_dec 1 2), (Rle_dec 2 3); lra|]. split.
  - intros [n Hn]. destruct n as [|n]; [cbn in Hn; lra|]. rewrite S_INR in Hn. pose proof (pos_INR n). lra.
  - exists (fun x => ln (INR (fact (Z.to_nat (Int_part x) - 1)))). intros n. do 3 f_equal. rewrite <- S_INR. rewrite Int_part_INR, Nat2Z.id. lia.
Qed.
Print Assumptions C131_exponential. Print Assumptions C131_poisson. Print Assumptions C131_uniform.
