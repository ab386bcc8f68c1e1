(** The Gaussian integral: the likelihood of the Normal model is a density.  (Analysis only; nothing of the code is modelled here.) *)
From Coq Require Import Reals Lra.
From Coquelicot Require Import Coquelicot.
Local Open Scope R_scope.
Local Notation sqrt := R_sqrt.sqrt.

Definition bell (t : R) : R := exp (- t ^ 2).
Lemma bell_cont t : continuous bell t.
Proof. apply (ex_derive_continuous (V := R_NormedModule)). unfold bell. auto_derive. auto. Qed.
Lemma bell_int a b : ex_RInt bell a b.
Proof. apply (ex_RInt_continuous (V := R_CompleteNormedModule)). intros z _. apply bell_cont. Qed.
Definition I (x : R) : R := RInt bell 0 x.
Lemma I_derive (x : R) : is_derive I x (bell x).
Proof. apply (is_derive_RInt bell I 0); [|apply bell_cont]. apply filter_forall. intros y. apply (RInt_correct bell). apply bell_int. Qed.

(** the companion *)
Definition k (x t : R) : R := exp (- (x ^ 2 * (1 + t ^ 2))) * / (1 + t ^ 2).
Lemma den t : 0 < 1 + t ^ 2. Proof. pose proof (pow2_ge_0 t). lra. Qed.
Lemma k_derive (x t : R) : is_derive (fun u => k u t) x (- 2 * x * exp (- (x ^ 2 * (1 + t ^ 2)))).
Proof. unfold k. pose proof (den t). auto_derive; [auto|]. match goal with |- @eq _ ?a ?b => change (@eq R a b) end. replace (- (x * (x * 1) * (1 + t * (t * 1)))) with (- (x ^ 2 * (1 + t ^ 2))) by ring. set (e := exp _). field. nra. Qed.
Lemma k_int x a b : ex_RInt (fun t => k x t) a b.
Proof. apply (ex_RInt_continuous (V := R_CompleteNormedModule)). intros z _. apply (ex_derive_continuous (V := R_NormedModule)). unfold k. pose proof (den z). auto_derive. lra. Qed.
Definition F (x : R) : R := RInt (fun t => k x t) 0 1.
Lemma F_derive (x : R) : is_derive F x (- 2 * bell x * I x).
Proof.
  assert (D : forall t, Derive (fun u => k u t) x = - 2 * x * exp (- (x ^ 2 * (1 + t ^ 2)))) by (intros t; apply is_derive_unique, k_derive).
  replace (- 2 * bell x * I x) with (RInt (fun t => Derive (fun u => k u t) x) 0 1).
  - apply (is_derive_RInt_param (fun u t => k u t)).
    + apply filter_forall. intros y t _. eexists. apply k_derive.
    + intros t _. apply (continuity_2d_pt_ext (fun u v => (- 2 * u) * exp (- ((u * u) * (1 + v * v))))).
      { intros u v. symmetry. replace (u * u) with (u ^ 2) by ring. replace (v * v) with (v ^ 2) by ring. apply is_derive_unique, k_derive. }
      apply continuity_2d_pt_mult. { apply continuity_2d_pt_mult; [apply continuity_2d_pt_const|apply continuity_2d_pt_id1]. }
      apply (continuity_1d_2d_pt_comp exp). { apply derivable_continuous_pt, derivable_pt_exp. }
      apply continuity_2d_pt_opp, continuity_2d_pt_mult; [apply continuity_2d_pt_mult; apply continuity_2d_pt_id1|].
      apply continuity_2d_pt_plus; [apply continuity_2d_pt_const|]. apply continuity_2d_pt_mult; apply continuity_2d_pt_id2.
    + apply filter_forall. intros y. apply k_int.
  - rewrite (RInt_ext _ (fun t => scal (- 2 * bell x) (scal x (bell (x * t + 0))))).
    + rewrite (RInt_scal (V := R_CompleteNormedModule)).
      * pose proof (RInt_comp_lin bell x 0 0 1 (bell_int _ _)) as E. transitivity (- 2 * bell x * RInt bell (x * 0 + 0) (x * 1 + 0)); [rewrite <- E; reflexivity|].
        replace (x * 0 + 0) with 0 by ring. replace (x * 1 + 0) with x by ring. reflexivity.
      * apply (ex_RInt_continuous (V := R_CompleteNormedModule)). intros z _. apply (ex_derive_continuous (V := R_NormedModule)). unfold scal. cbn. unfold mult. cbn. unfold bell. auto_derive. auto.
    + intros t _. rewrite D. unfold scal. cbn -[pow]. unfold mult. cbn -[pow]. unfold bell. rewrite Rplus_0_r.
      replace (- (x ^ 2 * (1 + t ^ 2))) with (- x ^ 2 + - (x * t) ^ 2) by ring. rewrite exp_plus. ring.
Qed.
Lemma F_0 : F 0 = PI / 4.
Proof.
  unfold F. apply is_RInt_unique. replace (PI / 4) with (minus (atan 1) (atan 0)). 2:{ rewrite atan_1, atan_0. unfold minus, plus, opp. cbn. lra. }
  apply (is_RInt_ext (fun t => / (1 + t ^ 2))). { intros t _. unfold k. replace (- (0 ^ 2 * (1 + t ^ 2))) with 0 by ring. rewrite exp_0. lra. }
  apply (is_RInt_derive atan).
  - intros t _. apply is_derive_Reals. apply derivable_pt_lim_atan.
  - intros t _. pose proof (den t). apply (ex_derive_continuous (V := R_NormedModule)). auto_derive. lra.
Qed.
Lemma F_bounds x : 0 <= F x <= exp (- x ^ 2).
Proof.
  assert (B : forall t, 0 <= k x t <= exp (- x ^ 2)).
  { intros t. unfold k. pose proof (den t) as Ht. assert (0 < / (1 + t ^ 2)) by (apply Rinv_0_lt_compat; auto). assert (/ (1 + t ^ 2) <= 1). { rewrite <- Rinv_1. apply Rinv_le_contravar; [lra|]. pose proof (pow2_ge_0 t). lra. }
    pose proof (exp_pos (- (x ^ 2 * (1 + t ^ 2)))). assert (exp (- (x ^ 2 * (1 + t ^ 2))) <= exp (- x ^ 2)). { destruct (Req_dec (x ^ 2 * t ^ 2) 0) as [E|E]; [right; f_equal; lra|]. left. apply exp_increasing. assert (0 <= x ^ 2 * t ^ 2) by (apply Rmult_le_pos; apply pow2_ge_0). lra. }
    split; [apply Rmult_le_pos; lra|]. rewrite <- (Rmult_1_r (exp (- x ^ 2))). apply Rmult_le_compat; lra. }
  unfold F. split.
  - apply RInt_ge_0; [lra|apply k_int|]. intros t _. apply B.
  - replace (exp (- x ^ 2)) with (RInt (fun _ => exp (- x ^ 2)) 0 1). 2:{ rewrite RInt_const. unfold scal. cbn -[pow]. unfold mult. cbn -[pow]. ring. }
    apply RInt_le; [lra|apply k_int|apply ex_RInt_const|]. intros t _. apply B.
Qed.
Lemma sum_const x : 0 <= x -> (I x) ^ 2 + F x = PI / 4.
Proof.
  intros Hx. destruct (Req_dec x 0) as [->|N]. { rewrite F_0. unfold I. rewrite RInt_point. unfold zero. cbn. lra. }
  rewrite <- F_0. replace (F 0) with ((I 0) ^ 2 + F 0). 2:{ unfold I. rewrite RInt_point. unfold zero. cbn. lra. }
  symmetry. apply (eq_is_derive (fun x => (I x) ^ 2 + F x)); [|lra]. intros t _.
  pose proof (I_derive t) as DI. pose proof (F_derive t) as DF. apply (is_derive_ext (fun x => I x * I x + F x)); [intros; cbn; ring|].
  replace (@zero R_NormedModule) with (plus (plus (mult (bell t) (I t)) (mult (I t) (bell t)) : R_NormedModule) (- 2 * bell t * I t : R_NormedModule)). 2:{ unfold plus, mult, zero. cbn. ring. }
  apply (is_derive_plus (fun x => I x * I x) F); auto. apply (is_derive_mult I I); auto. intros; apply Rmult_comm.
Qed.
Lemma I_pos x : 0 <= x -> 0 <= I x.
Proof. intros H. apply RInt_ge_0; auto. apply bell_int. intros; left; apply exp_pos. Qed.
Lemma I_odd x : I (- x) = - I x.
Proof.
  pose proof (RInt_comp_lin bell (-1) 0 0 x (bell_int _ _)) as E. replace (-1 * 0 + 0) with 0 in E by ring. replace (-1 * x + 0) with (- x) in E by ring.
  unfold I. rewrite <- E. transitivity (RInt (fun y => opp (bell y)) 0 x).
  - apply RInt_ext. intros y _. unfold scal, opp. cbn -[pow]. unfold mult. cbn -[pow]. unfold bell. replace (- (-1 * y + 0) ^ 2) with (- y ^ 2) by ring. ring.
  - exact (RInt_opp (V := R_CompleteNormedModule) bell 0 x (bell_int 0 x)).
Qed.
Definition half : R := sqrt PI / 2.
Lemma half_pos : 0 < half. Proof. unfold half. pose proof (sqrt_lt_R0 PI PI_RGT_0). lra. Qed.
Lemma half_sq : half ^ 2 = PI / 4.
Proof. unfold half. replace ((sqrt PI / 2) ^ 2) with (sqrt PI * sqrt PI / 4) by field. rewrite sqrt_sqrt; [auto|]. left. apply PI_RGT_0. Qed.
Lemma I_near x : 0 < x -> Rabs (I x - half) <= / (x ^ 2 * half).
Proof.
  intros Hx. pose proof half_pos as Hh. pose proof (I_pos x ltac:(lra)) as HI. pose proof (sum_const x ltac:(lra)) as S. rewrite <- half_sq in S. pose proof (F_bounds x) as [F0 F1].
  assert (E : exp (- x ^ 2) <= / x ^ 2). { rewrite exp_Ropp. apply Rinv_le_contravar; [nra|]. pose proof (exp_ineq1 (x ^ 2) ltac:(nra)). lra. }
  assert (P : (half - I x) * (half + I x) = F x) by (replace ((half - I x) * (half + I x)) with (half ^ 2 - I x ^ 2) by ring; lra). rewrite Rabs_minus_sym. rewrite Rabs_pos_eq by nra.
  rewrite Rinv_mult_distr by nra. apply Rmult_le_reg_r with half; auto. rewrite Rmult_assoc, Rinv_l, Rmult_1_r by lra. nra.
Qed.
Lemma I_lim : filterlim I (Rbar_locally p_infty) (locally half).
Proof.
  apply filterlim_locally. intros [eps He]. pose proof half_pos as Hh. exists (Rmax 1 (/ (eps * half))). intros x Hx. pose proof (Rmax_l 1 (/ (eps * half))). pose proof (Rmax_r 1 (/ (eps * half))).
  unfold ball. cbn. unfold AbsRing_ball, abs, minus, plus, opp. cbn. eapply Rle_lt_trans; [apply I_near; lra|].
  assert (0 < / (eps * half)) by (apply Rinv_0_lt_compat, Rmult_lt_0_compat; auto). assert (L : / (eps * half) < x ^ 2) by nra.
  replace eps with (/ (/ (eps * half) * half)) by (field; lra). apply Rinv_lt_contravar; [apply Rmult_lt_0_compat; nra|]. apply Rmult_lt_compat_r; auto.
Qed.
