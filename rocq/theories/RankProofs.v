From Coq Require Import Reals Lra Lia.
From Verif Require Import DataModel StatsModel ConvModel OutModel LikeModel RankModel StatsProofs LikeProps ArmsProofs3 McmcProps.
Local Open Scope list_scope.
Local Open Scope R_scope.

Lemma INR_pos n : (1 <= n)%nat -> 1 <= INR n.
Proof. intros H. apply le_INR in H. cbn in H. auto. Qed.
Lemma c_int_between x k : INR k <= x < INR k + 1 -> (Z.of_nat k <= 2147483647)%Z -> c_int x = Ok (Z.of_nat k).
Proof. intros H Hk. unfold c_int. rewrite (trunc_between x k H). unfold is_int. destruct (_ && _) eqn:E; auto. lia. Qed.
Lemma trunc_big x : 2147483648 <= x -> (2147483648 <= trunc x)%Z.
Proof.
  intros H. unfold trunc. destruct (Rle_dec 0 x); [|lra]. destruct (base_Int_part x) as [_ L].
  enough (2147483647 < Int_part x)%Z by lia. apply lt_IZR. lra.
Qed.
Lemma c_int_big x : 2147483648 <= x -> c_int x = UB.
Proof. intros H. apply trunc_big in H. unfold c_int, is_int. destruct (_ && _) eqn:E; auto. lia. Qed.
Lemma floor_nat x : 0 <= x -> exists n, INR n <= x < INR n + 1.
Proof.
  intros H. destruct (base_Int_part x) as [L U]. assert (0 <= Int_part x)%Z by (enough (-1 < Int_part x)%Z by lia; apply lt_IZR; lra).
  exists (Z.to_nat (Int_part x)). rewrite INR_IZR_INZ, Z2Nat.id; auto. lra.
Qed.
(** ---------- powers ---------- *)
Lemma rp_pos x y : 0 < Rpower x y. Proof. apply exp_pos. Qed.
Lemma rp_neg_lt c x y : 0 < c -> 0 < x -> x < y -> Rpower y (- c) < Rpower x (- c).
Proof. intros Hc Hx H. apply exp_increasing. apply ln_increasing in H; auto. nra. Qed.
Lemma rp_neg_le c x y : 0 < c -> 0 < x -> x <= y -> Rpower y (- c) <= Rpower x (- c).
Proof. intros Hc Hx [H|E]; [left; apply rp_neg_lt; auto|subst; lra]. Qed.
Lemma rp_inv c x : 0 < c -> 0 < x -> Rpower (Rpower x (- c)) (- (1 / c)) = x.
Proof. intros Hc Hx. rewrite Rpower_mult. replace (- c * - (1 / c)) with 1 by (field; lra). apply Rpower_1; auto. Qed.
Lemma rp_inv' c x : 0 < c -> 0 < x -> Rpower (Rpower x (- (1 / c))) (- c) = x.
Proof. intros Hc Hx. rewrite Rpower_mult. replace (- (1 / c) * - c) with 1 by (field; lra). apply Rpower_1; auto. Qed.
Lemma rp_between c n u : 0 < c -> (1 <= n)%nat -> 0 < u ->
  (Rpower (INR (S n)) (- c) < u <= Rpower (INR n) (- c) <-> INR n <= Rpower u (- (1 / c)) < INR n + 1).
Proof.
  intros Hc Hn Hu. pose proof (INR_pos n Hn) as N. assert (HI : 0 < 1 / c) by (apply Rdiv_lt_0_compat; lra). rewrite <- S_INR.
  assert (NS : 0 < INR (S n)) by (rewrite S_INR; lra). split; intros [A B]; split.
  - rewrite <- (rp_inv c (INR n)) at 1 by lra. apply rp_neg_le; auto.
  - rewrite <- (rp_inv c (INR (S n))) by lra. apply rp_neg_lt; auto. apply rp_pos.
  - rewrite <- (rp_inv' c u) by lra. apply rp_neg_lt; auto. apply rp_pos.
  - rewrite <- (rp_inv' c u) at 1 by lra. apply rp_neg_le; auto. lra.
Qed.
Lemma ln_chord y : 0 <= y <= 1 -> y * ln 2 <= ln (1 + y).
Proof.
  intros H. pose proof (exp_chord 0 (ln 2) y H) as E. rewrite exp_0, exp_ln in E by lra.
  rewrite <- (ln_exp (y * ln 2)). assert (exp (y * ln 2) <= 1 + y). { replace (y * ln 2) with ((1 - y) * 0 + y * ln 2) by ring. lra. }
  destruct (Rle_lt_or_eq_dec _ _ H0) as [L|L]; [left; apply ln_increasing; auto; apply exp_pos|rewrite L; lra].
Qed.
Lemma pow_chord c y : 0 < c -> 0 <= y <= 1 -> Rpower (1 + y) (- c) <= 1 - y + y * Rpower 2 (- c).
Proof.
  intros Hc Hy. pose proof (exp_chord 0 (- c * ln 2) y Hy) as E. rewrite exp_0 in E. unfold Rpower at 2. unfold Rpower.
  eapply Rle_trans; [|eapply Rle_trans; [exact E|lra]]. pose proof (ln_chord y Hy).
  assert (- c * ln (1 + y) <= (1 - y) * 0 + y * (- c * ln 2)) as [L|L] by nra; [left; apply exp_increasing; auto|rewrite L; lra].
Qed.
(** ---------- the Zipf round ---------- *)
Definition zt (c : R) (n : nat) := Rpower (1 + 1 / INR n) c.
Definition zaccept (c : R) (n : nat) := zt c n / Rpower 2 c * (Rpower 2 c - 1) / (INR n * (zt c n - 1)).
Lemma b_gt c : 0 < c -> 1 < Rpower 2 c.
Proof. intros H. rewrite <- (Rpower_O 2) at 1 by lra. apply Rpower_lt; lra. Qed.
Lemma inv01 n : (1 <= n)%nat -> 0 < 1 / INR n <= 1.
Proof.
  intros H. apply INR_pos in H. split; [apply Rdiv_lt_0_compat; lra|]. apply Rmult_le_reg_r with (INR n); [lra|]. unfold Rdiv. rewrite Rmult_assoc, Rinv_l; lra.
Qed.
Lemma zt_gt c n : 0 < c -> (1 <= n)%nat -> 1 < zt c n.
Proof. intros H Hn. pose proof (inv01 n Hn). unfold zt. rewrite <- (Rpower_O (1 + 1 / INR n)) at 1 by lra. apply Rpower_lt; lra. Qed.
Lemma rp_neg_eq c x : Rpower x (- c) = / Rpower x c. Proof. apply Rpower_Ropp. Qed.
Lemma zt_eq c n : 0 < c -> (1 <= n)%nat -> Rpower (INR (S n)) c = Rpower (INR n) c * zt c n.
Proof.
  intros Hc Hn. pose proof (INR_pos n Hn). pose proof (inv01 n Hn). unfold zt. rewrite Rpower_mult_distr by lra. f_equal. rewrite S_INR. field. lra.
Qed.
Lemma zaccept_pos c n : 0 < c -> (1 <= n)%nat -> 0 < zaccept c n.
Proof.
  intros Hc Hn. pose proof (INR_pos n Hn). pose proof (zt_gt c n Hc Hn). pose proof (b_gt c Hc). unfold zaccept.
  apply Rdiv_lt_0_compat; [|nra]. apply Rmult_lt_0_compat; [|lra]. apply Rdiv_lt_0_compat; lra.
Qed.
Lemma zaccept_le c n : 0 < c -> (1 <= n)%nat -> zaccept c n <= 1.
Proof.
  intros Hc Hn. pose proof (INR_pos n Hn). pose proof (zt_gt c n Hc Hn) as T. pose proof (b_gt c Hc) as B. pose proof (inv01 n Hn) as I.
  pose proof (pow_chord c (1 / INR n) Hc) as P. rewrite !rp_neg_eq in P. fold (zt c n) in P. assert (P' : / zt c n <= 1 - 1 / INR n + 1 / INR n * / Rpower 2 c) by (apply P; lra).
  unfold zaccept. apply Rmult_le_reg_r with (INR n * (zt c n - 1)); [nra|]. unfold Rdiv at 1. rewrite Rmult_assoc, Rinv_l, Rmult_1_r, Rmult_1_l by nra.
  apply (Rmult_le_compat_l (INR n * zt c n)) in P'; [|nra].
  replace (INR n * zt c n * / zt c n) with (INR n) in P' by (field; lra).
  replace (INR n * zt c n * (1 - 1 / INR n + 1 / INR n * / Rpower 2 c)) with (INR n * zt c n - zt c n + zt c n / Rpower 2 c) in P' by (field; lra).
  replace (zt c n / Rpower 2 c * (Rpower 2 c - 1)) with (zt c n - zt c n / Rpower 2 c) by (field; lra). lra.
Qed.
Lemma zaccept_one c : 0 < c -> zaccept c 1 = 1.
Proof.
  intros Hc. unfold zaccept, zt. replace (1 + 1 / INR 1) with 2 by (cbn; field). cbn [INR]. pose proof (b_gt c Hc). field. lra.
Qed.
Lemma zaccept_mass c n : 0 < c -> (1 <= n)%nat ->
  (Rpower (INR n) (- c) - Rpower (INR (S n)) (- c)) * zaccept c n = (1 - Rpower 2 (- c)) * Rpower (INR n) (- (c + 1)).
Proof.
  intros Hc Hn. pose proof (INR_pos n Hn). pose proof (zt_gt c n Hc Hn) as T. pose proof (b_gt c Hc) as B.
  replace (- (c + 1)) with (- c + - (1)) by ring. rewrite Rpower_plus, !rp_neg_eq, zt_eq, Rpower_1 by (auto; lra).
  pose proof (rp_pos (INR n) c). unfold zaccept. field. repeat split; lra.
Qed.
Lemma zipf_round_in a n u v : 1 < a -> (1 <= n)%nat -> (Z.of_nat n <= 2147483647)%Z ->
  Rpower (INR (S n)) (- (a - 1)) < u <= Rpower (INR n) (- (a - 1)) ->
  zipf_round a u v = Ok (if Rle_dec v (zaccept (a - 1) n) then Some (Z.of_nat n) else None).
Proof.
  intros Ha Hn Hb Hu. assert (U : 0 < u) by (pose proof (rp_pos (INR (S n)) (- (a - 1))); lra). assert (Hc : 0 < a - 1) by lra.
  unfold zipf_round. destruct (Req_EM_T a 1); [lra|]. destruct (Req_EM_T u 0); [lra|].
  apply (rp_between (a - 1)) in Hu; auto. rewrite (c_int_between _ n Hu Hb). cbn. rewrite <- INR_IZR_INZ. fold (zt (a - 1) n).
  pose proof (INR_pos n Hn). pose proof (zt_gt _ n Hc Hn) as T. pose proof (b_gt _ Hc) as B. set (c := a - 1) in *.
  assert (K : forall x y z, 0 < z -> (x < y <-> x * z < y * z)) by (intros; split; intros; [apply Rmult_lt_compat_r; auto|eapply Rmult_lt_reg_r; eauto]).
  assert (E : zt c n / Rpower 2 c < v * INR n * (zt c n - 1) / (Rpower 2 c - 1) <-> zaccept c n < v).
  { rewrite (K (zaccept c n) v (INR n * (zt c n - 1) / (Rpower 2 c - 1))) by (apply Rdiv_lt_0_compat; nra).
    replace (zaccept c n * (INR n * (zt c n - 1) / (Rpower 2 c - 1))) with (zt c n / Rpower 2 c) by (unfold zaccept; field; repeat split; lra).
    replace (v * (INR n * (zt c n - 1) / (Rpower 2 c - 1))) with (v * INR n * (zt c n - 1) / (Rpower 2 c - 1)) by (field; lra). tauto. }
  destruct (Rlt_dec _ _) as [L|L]; destruct (Rle_dec v (zaccept c n)); auto; exfalso; [apply E in L; lra|apply L, E; lra].
Qed.
Lemma zipf_round_big a u v : 1 < a -> 0 <= u <= Rpower 2147483648 (- (a - 1)) -> zipf_round a u v = UB.
Proof.
  intros Ha Hu. unfold zipf_round. destruct (Req_EM_T a 1); auto. destruct (Req_EM_T u 0); auto. rewrite c_int_big; auto.
  rewrite <- (rp_inv (a - 1) 2147483648) at 1 by lra. apply rp_neg_le; [apply Rdiv_lt_0_compat; lra|lra|lra].
Qed.
Lemma zipf_cover c u : 0 < c -> 0 < u < 1 -> exists n, (1 <= n)%nat /\ Rpower (INR (S n)) (- c) < u <= Rpower (INR n) (- c).
Proof.
  intros Hc Hu. assert (HI : 0 < 1 / c) by (apply Rdiv_lt_0_compat; lra). assert (G : 1 < Rpower u (- (1 / c))).
  { replace 1 with (Rpower 1 (- (1 / c))) at 1 by (unfold Rpower; rewrite ln_1, Rmult_0_r; apply exp_0). apply rp_neg_lt; lra. }
  destruct (floor_nat (Rpower u (- (1 / c)))) as [n Hn]; [lra|]. assert (1 <= n)%nat.
  { destruct n; [|lia]. cbn in Hn. lra. } exists n. split; auto. apply rp_between; auto. lra.
Qed.
Lemma zipf_unique c u n n' : 0 < c -> (1 <= n)%nat -> (1 <= n')%nat -> Rpower (INR (S n)) (- c) < u <= Rpower (INR n) (- c) ->
  Rpower (INR (S n')) (- c) < u <= Rpower (INR n') (- c) -> n = n'.
Proof.
  intros Hc H H' A B. destruct (Nat.lt_trichotomy n n') as [L|[L|L]]; auto; exfalso.
  - apply le_INR in L. apply (rp_neg_le c) in L; auto; [lra|]. rewrite S_INR. pose proof (pos_INR n). lra.
  - apply le_INR in L. apply (rp_neg_le c) in L; auto; [lra|]. rewrite S_INR. pose proof (pos_INR n'). lra.
Qed.
