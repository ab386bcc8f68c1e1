(** C126: expected values of the Normal's and the Lognormal's draws. *)
From Coq Require Import Reals Lra.
From Verif Require Import DataModel StatsModel LikeModel LikeProps NormModel EntProps.
From Coquelicot Require Import Coquelicot.
Local Open Scope list_scope.
Local Open Scope R_scope.

Lemma density_derive mu sd x : 0 < sd -> is_derive (fun x => - (sd ^ 2) * density mu sd x) x ((x - mu) * density mu sd x).
Proof.
  intros Hs. apply (is_derive_ext (fun x => - (sd ^ 2) * exp (- ((x - mu) ^ 2 / (2 * sd ^ 2)) - (ln2pi_half + ln sd)))). { intros t. unfold density. now rewrite ll_single. }
  unfold density. rewrite ll_single by auto. auto_derive; [nra|]. match goal with |- @eq _ ?a ?b => change (@eq R a b) end. change R in (type of x).
  replace (- ((x + - mu) * ((x + - mu) * 1) * / (2 * (sd * (sd * 1)))) + - (ln2pi_half + ln sd)) with (- ((x - mu) ^ 2 / (2 * sd ^ 2)) - (ln2pi_half + ln sd)) by (field; lra). set (e := exp _). field. lra.
Qed.
Lemma density_lim mu sd (F : (R -> Prop) -> Prop) {FF : Filter F} : 0 < sd -> (forall M, F (fun x => M < Rabs (x - mu))) -> filterlim (fun x => - (sd ^ 2) * density mu sd x) F (locally 0).
Proof.
  intros Hs HF. pose proof (moment_lim mu sd F Hs HF) as ML. apply filterlim_locally. intros eps. assert (S2 : 0 < sd ^ 2) by nra.
  assert (He : 0 < eps / sd ^ 2) by (apply Rdiv_lt_0_compat; [apply cond_pos|auto]). pose proof (proj1 (filterlim_locally _ _) ML (mkposreal _ He)) as B.
  eapply filter_imp; [|apply (filter_and _ _ B (HF 1))]. intros x [Hx H1]. unfold ball in *. cbn -[pow density] in *. unfold AbsRing_ball, abs, minus, plus, opp in *. cbn -[pow density] in *.
  rewrite Ropp_0, Rplus_0_r in *. unfold moment in Hx. rewrite Rabs_mult in Hx. replace (sd * (sd * 1)) with (sd ^ 2) by ring. rewrite Rabs_mult, Rabs_Ropp, (Rabs_pos_eq (sd ^ 2)) by lra. pose proof (Rabs_pos (density mu sd x)) as P.
  clear - Hx H1 P S2. set (d := Rabs (density mu sd x)) in *. replace (sd * (sd * 1)) with (sd ^ 2) in * by ring. assert (H : d < eps / sd ^ 2) by (generalize dependent (eps / sd ^ 2); intros; nra).
  apply (Rmult_lt_compat_l (sd ^ 2)) in H; [|exact S2]. replace (sd ^ 2 * (eps / sd ^ 2)) with (pos eps) in H by (field; nra). exact H.
Qed.
Lemma mean_total mu sd : 0 < sd -> over_the_line (fun x => (x - mu) * density mu sd x) 0.
Proof.
  intros Hs. set (G := fun x => - (sd ^ 2) * density mu sd x). assert (D : forall x, Derive G x = (x - mu) * density mu sd x) by (intros x; apply is_derive_unique, density_derive; auto).
  unfold over_the_line. apply (is_RInt_gen_ext (Derive G)). { apply filter_forall. intros ab x _. apply D. }
  replace 0 with (0 - 0) by lra. apply is_RInt_gen_Derive.
  - apply filter_forall. intros ab x _. eexists. apply density_derive. auto.
  - apply filter_forall. intros ab x _. apply (continuous_ext (fun x => (x - mu) * exp (- ((x - mu) ^ 2 / (2 * sd ^ 2)) - (ln2pi_half + ln sd)))).
    { intros t. rewrite D. unfold density. now rewrite ll_single. }
    apply (ex_derive_continuous (V := R_NormedModule)). auto_derive. nra.
  - apply density_lim; [typeclasses eauto|auto|apply far_m].
  - apply density_lim; [typeclasses eauto|auto|apply far_p].
Qed.
Lemma lin f g a b u v : over_the_line f u -> over_the_line g v -> over_the_line (fun x => a * f x + b * g x) (a * u + b * v).
Proof.
  intros A B. unfold over_the_line in *. pose proof (is_RInt_gen_plus _ _ _ _ (is_RInt_gen_scal _ a _ A) (is_RInt_gen_scal _ b _ B)) as C. exact C.
Qed.
Lemma line_ext f g v : (forall x, f x = g x) -> over_the_line f v -> over_the_line g v.
Proof. intros E. apply is_RInt_gen_ext. apply filter_forall. intros ab x _. apply E. Qed.
Lemma line_val f u v : u = v -> over_the_line f u -> over_the_line f v.
Proof. now intros ->. Qed.
(** C126: the likelihood is a density with mean mu and variance sd^2 *)
Theorem C126_moments : forall mu sd, 0 < sd -> over_the_line (density mu sd) 1 /\ over_the_line (fun x => x * density mu sd x) mu /\ over_the_line (fun x => (x - mu) ^ 2 * density mu sd x) (sd ^ 2).
Proof.
  intros mu sd Hs. pose proof (density_total mu sd Hs) as H1. pose proof (mean_total mu sd Hs) as H2. pose proof (moment_total mu sd Hs) as H3. split; [auto|]. split.
  - apply (line_val _ (1 * 0 + mu * 1)); [lra|]. eapply line_ext; [|apply (lin _ _ 1 mu 0 1 H2 H1)]. intros x. cbn -[density]. lra.
  - apply (line_val _ (sd ^ 2 * 1 + - (sd ^ 2) * 0)); [lra|]. eapply line_ext; [|apply (lin _ _ (sd ^ 2) (- sd ^ 2) 1 0 H1 H3)]. intros x. cbn -[density pow]. field. nra.
Qed.
(** C126: what apop_predict gives for a Normal (and lognormal_predict would give for a Lognormal) is the expected value of the model's draws, the library's Gaussian number having the density *)
Theorem C126_expected_draw : forall mu sd data, 0 < sd -> over_the_line (fun g => normal_draw mu g * density 0 sd g) (fst (pred_normal mu sd data)) /\
  over_the_line (fun g => lognormal_draw mu g * density 0 sd g) (pred_lognormal mu sd).
Proof.
  intros mu sd data Hs. split.
  - destruct (C126_moments 0 sd Hs) as (H1 & H2 & _). cbn [fst pred_normal]. apply (line_val _ (1 * 0 + mu * 1)); [lra|]. eapply line_ext; [|apply (lin _ _ 1 mu 0 1 H2 H1)]. intros g. unfold normal_draw. cbn -[density]. lra.
  - pose proof (density_total (sd ^ 2) sd Hs) as H1. apply (line_val _ (pred_lognormal mu sd * 1 + 0 * 1)); [lra|]. eapply line_ext; [|apply (lin _ _ (pred_lognormal mu sd) 0 1 1 H1 H1)].
    intros g. cbn -[density pow]. unfold pred_lognormal, lognormal_draw, density. rewrite !ll_single by auto. rewrite Rmult_0_l, Rplus_0_r, <- !exp_plus. f_equal. field. lra.
Qed.
Print Assumptions C126_moments. Print Assumptions C126_expected_draw.
