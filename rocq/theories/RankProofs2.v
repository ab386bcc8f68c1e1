From Coq Require Import Reals Lra Lia.
From Coquelicot Require Import Coquelicot.
From Verif Require Import DataModel StatsModel ConvModel OutModel LikeModel RankModel StatsProofs LikeProps RankProofs.
Local Open Scope list_scope.
Local Open Scope R_scope.

(** ---------- the Yule draw for given exponentials ---------- *)
Lemma q01 c s : 0 < c -> 0 < s -> 0 < exp (- s / c) < 1.
Proof.
  intros Hc Hs. split; [apply exp_pos|]. rewrite <- exp_0. apply exp_increasing. assert (0 < s / c) by (apply Rdiv_lt_0_compat; auto). unfold Rdiv in *. lra.
Qed.
Lemma ln_lt0 x : 0 < x < 1 -> ln x < 0.
Proof. intros H. rewrite <- ln_1. apply ln_increasing; lra. Qed.
Lemma yule_draw b e1 e2 : 1 < b -> 0 <= e1 -> 0 < e2 -> e1 < 2147483648 * - ln (1 - exp (- e2 / (b - 1))) ->
  exists m : nat, yule_rng b e1 e2 = Ok (INR (S m)) /\ (forall k, (k < S m)%nat <-> - INR k * ln (1 - exp (- e2 / (b - 1))) <= e1).
Proof.
  intros Hb H1 H2 Ho. assert (Hc : 0 < b - 1) by lra. pose proof (q01 _ _ Hc H2) as Q. set (q := exp (- e2 / (b - 1))) in *.
  assert (L : ln (1 - q) < 0) by (apply ln_lt0; lra). set (l := ln (1 - q)) in *.
  assert (E : - e1 / l * - l = e1) by (field; lra).
  assert (X : 0 <= - e1 / l). { apply Rmult_le_reg_r with (- l); [lra|]. rewrite E. lra. }
  destruct (floor_nat _ X) as [m Hm]. exists m. split.
  - unfold yule_rng. fold q. destruct (Req_EM_T b 1); [lra|]. destruct (Req_EM_T e2 0); [lra|]. destruct (Rlt_dec b 1); [lra|]. fold l.
    rewrite (c_int_between _ m Hm).
    + change (Ok (IZR (Z.max (Z.of_nat m) 0 + 1)) = Ok (INR (S m))). rewrite INR_IZR_INZ. do 2 f_equal. lia.
    + assert (INR m < 2147483648). { eapply Rle_lt_trans; [apply Hm|]. apply Rmult_lt_reg_r with (- l); [lra|]. rewrite E. lra. }
      rewrite INR_IZR_INZ in H. apply lt_IZR in H. lia.
  - intros k. transitivity (INR k <= - e1 / l).
    + split; intros H.
      * assert (k <= m)%nat as K by lia. apply le_INR in K. lra.
      * assert (INR k < INR (S m)) as K by (rewrite S_INR; lra). apply INR_lt in K. auto.
    + split; intros H.
      * apply (Rmult_le_compat_r (- l)) in H; [|lra]. rewrite E in H. lra.
      * apply Rmult_le_reg_r with (- l); [lra|]. rewrite E. lra.
Qed.
(** ---------- mixing over the second exponential ---------- *)
Definition yf (c : R) (k : nat) (s : R) := exp (- s) * (1 - exp (- s / c)) ^ k.
Fixpoint yA (c : R) (k : nat) (s : R) : R :=
  match k with
  | O => - exp (- s)
  | S j => INR (S j) / (c + INR (S j)) * yA c j s - c / (c + INR (S j)) * (exp (- s) * (1 - exp (- s / c)) ^ S j)
  end.
Fixpoint yT (c : R) (k : nat) : R := match k with O => 1 | S j => INR (S j) / (c + INR (S j)) * yT c j end.
Lemma yA_deriv c k s : 0 < c -> is_derive (yA c k) s (yf c k s).
Proof.
  intros Hc. induction k as [|k IH].
  - unfold yf. cbn [yA]. auto_derive; auto. cbn. ring.
  - assert (P : 0 < c + INR (S k)) by (pose proof (pos_INR (S k)); lra).
    assert (D : is_derive (fun s => exp (- s) * (1 - exp (- s / c)) ^ S k) s
      (- exp (- s) * (1 - exp (- s / c)) ^ S k + exp (- s) * (INR (S k) * (exp (- s / c) / c) * (1 - exp (- s / c)) ^ k))).
    { auto_derive; [auto|]. change (- s * / c) with (- s / c). cbn [pred]. cbn [Rpow_def.pow]. change (match k with 0%nat => 1 | S _ => INR k + 1 end) with (INR (S k)). set (N := INR (S k)). set (w := exp (- s / c)). unfold Rminus. set (p := (1 + - w) ^ k). field. lra. }
    pose proof (is_derive_minus _ _ _ _ _ (is_derive_scal _ _ (INR (S k) / (c + INR (S k))) _ IH) (is_derive_scal _ _ (c / (c + INR (S k))) _ D)) as G.
    cbn [yA]. replace (yf c (S k) s) with (Hierarchy.minus (INR (S k) / (c + INR (S k)) * yf c k s) (c / (c + INR (S k)) * (- exp (- s) * (1 - exp (- s / c)) ^ S k + exp (- s) * (INR (S k) * (exp (- s / c) / c) * (1 - exp (- s / c)) ^ k)))); [exact G|].
    unfold yf, Hierarchy.minus, Hierarchy.plus, Hierarchy.opp; cbn -[INR Rpow_def.pow]. cbn [Rpow_def.pow]. set (w := exp (- s / c)). set (N := INR (S k)) in *. field. lra.
Qed.
Lemma yA_0 c k : 0 < c -> yA c k 0 = - yT c k.
Proof.
  intros Hc. induction k as [|k IH]; cbn [yA yT].
  - rewrite Ropp_0, exp_0. auto.
  - rewrite IH. replace (- 0 / c) with 0 by (field; lra). rewrite exp_0. replace (1 - 1) with 0 by ring. rewrite pow_i by lia. ring.
Qed.
Lemma w01 c s : 0 < c -> 0 <= s -> 0 <= 1 - exp (- s / c) < 1.
Proof.
  intros Hc [Hs|Hs]; [pose proof (q01 c s Hc Hs); lra|]. subst. replace (- 0 / c) with 0 by (field; lra). rewrite exp_0. lra.
Qed.
Lemma pow_01 w k : 0 <= w <= 1 -> 0 <= w ^ k <= 1.
Proof. intros H. split; [apply pow_le; lra|]. rewrite <- (pow1 k). apply pow_incr. auto. Qed.
Lemma yA_bound c k s : 0 < c -> 0 <= s -> - exp (- s) <= yA c k s <= 0.
Proof.
  intros Hc Hs. pose proof (exp_pos (- s)) as E. pose proof (w01 c s Hc Hs) as W. induction k as [|k IH]; [cbn [yA]; lra|].
  assert (NS : 0 <= INR (S k)) by apply pos_INR. cbn [yA]. set (N := INR (S k)) in *.
  pose proof (pow_01 (1 - exp (- s / c)) (S k) ltac:(lra)) as P. set (p := (1 - exp (- s / c)) ^ S k) in *.
  assert (A : 0 <= N / (c + N)) by (apply Rdiv_le_0_compat; lra). assert (B : 0 <= c / (c + N)) by (apply Rdiv_le_0_compat; lra).
  assert (S1 : N / (c + N) + c / (c + N) = 1) by (field; lra). assert (EP : 0 <= exp (- s) * p <= exp (- s)) by nra. split; nra.
Qed.
Lemma yf_int c k M : 0 < c -> is_RInt (yf c k) 0 M (yA c k M + yT c k).
Proof.
  intros Hc. replace (yA c k M + yT c k) with (Hierarchy.minus (yA c k M) (yA c k 0)) by (rewrite yA_0 by auto; unfold Hierarchy.minus, Hierarchy.plus, Hierarchy.opp; cbn; ring).
  apply (is_RInt_derive (V := R_CompleteNormedModule)).
  - intros x _. apply yA_deriv; auto.
  - intros x _. apply (ex_derive_continuous (K := R_AbsRing) (V := R_NormedModule)). unfold yf. auto_derive. auto.
Qed.
Lemma yf_RInt c k M : 0 < c -> RInt (yf c k) 0 M = yA c k M + yT c k.
Proof. intros. apply is_RInt_unique. apply yf_int; auto. Qed.
Lemma yf_bounds c k M : 0 < c -> 0 <= M -> yT c k - exp (- M) <= RInt (yf c k) 0 M <= yT c k.
Proof. intros Hc HM. rewrite yf_RInt by auto. pose proof (yA_bound c k M Hc HM). lra. Qed.
Lemma exp_small eps : 0 < eps -> exists M, 0 < M /\ exp (- M) < eps.
Proof.
  intros H. exists (1 + Rabs (ln eps)). split; [pose proof (Rabs_pos (ln eps)); lra|]. rewrite <- (exp_ln eps H) at 2. apply exp_increasing.
  pose proof (Rabs_maj2 (ln eps)). lra.
Qed.
Lemma yf_lim c k : 0 < c -> is_lim (RInt (yf c k) 0) p_infty (yT c k).
Proof.
  intros Hc. apply is_lim_spec. intros eps. destruct (exp_small eps (cond_pos eps)) as (M & HM & HE). exists M. intros x Hx.
  pose proof (yf_bounds c k x Hc ltac:(lra)). assert (exp (- x) < exp (- M)) by (apply exp_increasing; lra).
  unfold Rabs. destruct (Rcase_abs _); lra.
Qed.
Lemma yT_small c k M : 0 < c -> 0 < M -> yT c k <= M * (1 - exp (- M / c)) ^ k + exp (- M).
Proof.
  intros Hc HM. pose proof (yf_bounds c k M Hc ltac:(lra)) as [B _]. enough (RInt (yf c k) 0 M <= M * (1 - exp (- M / c)) ^ k) by lra.
  replace (M * (1 - exp (- M / c)) ^ k) with (RInt (fun _ => (1 - exp (- M / c)) ^ k) 0 M) by (rewrite RInt_const; unfold Hierarchy.scal; cbn; unfold Hierarchy.mult; cbn; ring).
  apply RInt_le; [lra|eexists; apply yf_int; auto|apply ex_RInt_const|]. intros s Hs. unfold yf.
  pose proof (w01 c s Hc ltac:(lra)) as W. assert (HW : 1 - exp (- s / c) <= 1 - exp (- M / c)).
  { enough (exp (- M / c) < exp (- s / c)) by lra. apply exp_increasing. unfold Rdiv. apply Rmult_lt_compat_r; [apply Rinv_0_lt_compat; auto|lra]. }
  assert (exp (- s) <= 1) by (rewrite <- exp_0; left; apply exp_increasing; lra). pose proof (exp_pos (- s)).
  pose proof (pow_01 (1 - exp (- s / c)) k ltac:(lra)). pose proof (pow_incr _ (1 - exp (- M / c)) k (conj (proj1 W) HW)). nra.
Qed.
Lemma yT_pos c k : 0 < c -> 0 < yT c k.
Proof. intros Hc. induction k; cbn [yT]; [lra|]. apply Rmult_lt_0_compat; auto. pose proof (pos_INR k). apply Rdiv_lt_0_compat; rewrite S_INR; lra. Qed.
Lemma yT_zero c : 0 < c -> Un_cv (yT c) 0.
Proof.
  intros Hc eps He. destruct (exp_small (eps / 2)) as (M & HM & HE); [lra|]. pose proof (w01 c M Hc ltac:(lra)) as W.
  destruct (pow_lt_1_zero (1 - exp (- M / c))) with (y := eps / 2 / M) as [N HN]; [rewrite Rabs_pos_eq; lra|apply Rdiv_lt_0_compat; lra|].
  exists N. intros n Hn. unfold R_dist. rewrite Rminus_0_r, Rabs_pos_eq by (left; apply yT_pos; auto).
  pose proof (yT_small c n M Hc HM). specialize (HN n Hn). rewrite Rabs_pos_eq in HN by (apply pow_le; lra).
  apply (Rmult_lt_compat_l M) in HN; [|lra]. replace (M * (eps / 2 / M)) with (eps / 2) in HN by (field; lra). lra.
Qed.
(** ---------- the likelihood ---------- *)
Section Gamma.
Context (lg : R -> R) (Hlg : forall x, 0 < x -> lg (x + 1) = lg x + ln x) (H1 : lg 1 = 0).
Lemma yT_gamma c k : 0 < c -> yT c k = exp (lg (INR k + 1) + lg (c + 1) - lg (INR k + (c + 1))).
Proof.
  intros Hc. induction k as [|k IH]; cbn [yT].
  - cbn [INR]. replace (lg (0 + 1)) with (lg 1) by (f_equal; ring). replace (0 + (c + 1)) with (c + 1) by ring. rewrite H1, <- exp_0. f_equal. ring.
  - pose proof (pos_INR k). rewrite IH, S_INR, (Hlg (INR k + 1)) by lra. replace (INR k + 1 + (c + 1)) with (INR k + (c + 1) + 1) by ring.
    rewrite (Hlg (INR k + (c + 1))) by lra.
    replace (lg (INR k + 1) + ln (INR k + 1) + lg (c + 1) - (lg (INR k + (c + 1)) + ln (INR k + (c + 1))))
      with ((ln (INR k + 1) + - ln (INR k + (c + 1))) + (lg (INR k + 1) + lg (c + 1) - lg (INR k + (c + 1)))) by ring.
    rewrite (exp_plus (_ + _)), exp_plus, exp_Ropp, !exp_ln by lra. f_equal. unfold Rdiv. f_equal. f_equal. ring.
Qed.
Lemma yule_mass b k : 1 < b -> exp (yule_ll lg b (single (INR (S k)))) = yT (b - 1) k - yT (b - 1) (S k).
Proof.
  intros Hb. unfold yule_ll. rewrite mapsum_one, tsize_one. cbn [yT]. pose proof (pos_INR k). rewrite S_INR.
  replace (yT (b - 1) k - (INR k + 1) / (b - 1 + (INR k + 1)) * yT (b - 1) k) with ((b - 1) / (INR k + b) * yT (b - 1) k) by (field; lra).
  rewrite yT_gamma by lra. replace (b - 1 + 1) with b by ring. unfold yule_one. destruct (Rle_dec 1 (INR k + 1)); [|lra].
  replace (INR k + 1 + b) with (INR k + b + 1) by ring. rewrite (Hlg (INR k + b)) by lra.
  replace (lg (INR k + 1) - (lg (INR k + b) + ln (INR k + b)) + (ln (b - 1) + lg b) * 1) with
    ((ln (b - 1) + - ln (INR k + b)) + (lg (INR k + 1) + lg b - lg (INR k + b))) by ring.
  rewrite (exp_plus (_ + _)), exp_plus, exp_Ropp, !exp_ln by lra. f_equal.
Qed.
Lemma yule_tail b k : 1 < b -> sum_f_R0 (fun i => exp (yule_ll lg b (single (INR (S i))))) k = 1 - yT (b - 1) (S k).
Proof.
  intros Hb. induction k as [|k IH]; cbn [sum_f_R0].
  - rewrite yule_mass by auto. cbn [yT]. ring.
  - rewrite IH, yule_mass by auto. cbn [yT]. ring.
Qed.
End Gamma.
