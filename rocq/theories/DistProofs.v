(** Lemmas for vector distances (C35). *)
From Coq Require Import Reals Lra Psatz.
From Verif Require Import DataModel StatsModel StatsSpec StatsProofs.
Local Notation sqrt := R_sqrt.sqrt.
Local Open Scope list_scope.
Local Open Scope R_scope.
Local Arguments Rsum : simpl never.

(** -------- the loops as sums -------- *)
Lemma fold_add (f : R -> R -> R) l : forall acc,
  fold_left (fun d '(x, y) => d + f x y) l acc = acc + Rsumf (fun p => f (fst p) (snd p)) l.
Proof.
  induction l as [|[x y] l IH]; intros acc; cbn [fold_left]; [unfold Rsumf; cbn; rewrite Rsum_nil; lra|].
  rewrite IH, Rsumf_cons. cbn. lra.
Qed.

(** -------- sums over triples -------- *)
Lemma trip_12 (h : R -> R -> R) a : forall b c, length b = length a -> length c = length a ->
  Rsumf (fun p => h (fst p) (snd p)) (combine a b) = Rsumf (fun t : R * (R * R) => h (fst t) (fst (snd t))) (combine a (combine b c)).
Proof.
  induction a as [|x a IH]; intros [|y b] [|z c] H1 H2; try discriminate; [reflexivity|].
  cbn [combine]. rewrite !Rsumf_cons, (IH b c) by (cbn in *; lia). reflexivity.
Qed.
Lemma trip_23 (h : R -> R -> R) a : forall b c, length b = length a -> length c = length a ->
  Rsumf (fun p => h (fst p) (snd p)) (combine b c) = Rsumf (fun t : R * (R * R) => h (fst (snd t)) (snd (snd t))) (combine a (combine b c)).
Proof.
  induction a as [|x a IH]; intros [|y b] [|z c] H1 H2; try discriminate; [reflexivity|].
  cbn [combine]. rewrite !Rsumf_cons, (IH b c) by (cbn in *; lia). reflexivity.
Qed.
Lemma trip_13 (h : R -> R -> R) a : forall b c, length b = length a -> length c = length a ->
  Rsumf (fun p => h (fst p) (snd p)) (combine a c) = Rsumf (fun t : R * (R * R) => h (fst t) (snd (snd t))) (combine a (combine b c)).
Proof.
  induction a as [|x a IH]; intros [|y b] [|z c] H1 H2; try discriminate; [reflexivity|].
  cbn [combine]. rewrite !Rsumf_cons, (IH b c) by (cbn in *; lia). reflexivity.
Qed.
Lemma sum_flip (h : R -> R -> R) a : forall b, (forall x y, h x y = h y x) -> length b = length a ->
  Rsumf (fun p => h (fst p) (snd p)) (combine a b) = Rsumf (fun p => h (fst p) (snd p)) (combine b a).
Proof.
  induction a as [|x a IH]; intros [|y b] Hs H1; try discriminate; [reflexivity|].
  cbn [combine]. rewrite !Rsumf_cons, (IH b) by (cbn in *; auto; lia). cbn. rewrite Hs. reflexivity.
Qed.
Lemma combine_eq {A} (a : list A) : forall b, length b = length a -> (forall x y, In (x, y) (combine a b) -> x = y) -> a = b.
Proof.
  induction a as [|x a IH]; intros [|y b] H1 H; try discriminate; auto. cbn in H. f_equal; [apply H; auto|].
  apply IH; [cbn in H1; lia|]. intros; apply H; auto.
Qed.
Lemma combine_self {A} (a : list A) x y : In (x, y) (combine a a) -> x = y.
Proof. induction a as [|z a IH]; cbn; [tauto|]. intros [[= -> ->]|H]; auto. Qed.
Lemma sum_zero_iff (h : R -> R -> R) a b : (forall x y, 0 <= h x y) -> (forall x y, h x y = 0 <-> x = y) -> length b = length a ->
  (Rsumf (fun p => h (fst p) (snd p)) (combine a b) = 0 <-> a = b).
Proof.
  intros Hn Hz Hl. split.
  - intros E. apply combine_eq; auto. intros x y Hin. apply Hz.
    apply (Rsumf_zero (fun p => h (fst p) (snd p)) (combine a b)) with (x := (x, y)); auto.
  - intros ->. rewrite (Rsumf_ext _ (fun _ => 0)); [rewrite Rsumf_const; lra|]. intros [x y] Hin. apply Hz. apply combine_self in Hin. auto.
Qed.

(** -------- Minkowski for p = 2 -------- *)
Lemma minkowski2 {A} (f h : A -> R) l :
  sqrt (Rsumf (fun x => (f x + h x) ^ 2) l) <= sqrt (Rsumf (fun x => f x ^ 2) l) + sqrt (Rsumf (fun x => h x ^ 2) l).
Proof.
  set (a := Rsumf (fun x => f x ^ 2) l). set (b := Rsumf (fun x => h x ^ 2) l).
  assert (0 <= a) as Ha by (apply Rsumf_nonneg; intros; apply pow2_ge_0).
  assert (0 <= b) as Hb by (apply Rsumf_nonneg; intros; apply pow2_ge_0).
  pose proof (cauchy f h l) as HC. fold a b in HC. set (c := Rsumf (fun x => f x * h x) l) in HC.
  assert (Rsumf (fun x => (f x + h x) ^ 2) l = a + 2 * c + b) as ->.
  { rewrite (Rsumf_ext _ (fun x => (f x ^ 2 + 2 * (f x * h x)) + h x ^ 2)) by (intros; ring).
    rewrite (Rsumf_plus (fun x => f x ^ 2 + 2 * (f x * h x))), (Rsumf_plus (fun x => f x ^ 2)), Rsumf_scal. reflexivity. }
  pose proof (sqrt_pos a). pose proof (sqrt_pos b).
  assert (c <= sqrt a * sqrt b) as Hc.
  { rewrite <- sqrt_mult by auto. destruct (Rle_dec c 0); [pose proof (sqrt_pos (a * b)); lra|].
    rewrite <- (sqrt_pow2 c) by lra. apply sqrt_le_1_alt. auto. }
  apply Rsqr_incr_0_var; [|lra]. unfold Rsqr.
  destruct (Rle_dec 0 (a + 2 * c + b)) as [Hp|Hp].
  - rewrite sqrt_sqrt by auto. pose proof (sqrt_sqrt a Ha). pose proof (sqrt_sqrt b Hb). nra.
  - rewrite sqrt_neg_0 by lra. nra.
Qed.

(** -------- powers -------- *)
Lemma ln_le_sub x : 0 < x -> ln x <= x - 1.
Proof.
  intros H. destruct (Req_dec (ln x) 0) as [E|E].
  - rewrite E. apply (f_equal exp) in E. rewrite exp_ln, exp_0 in E by auto. lra.
  - pose proof (exp_ineq1 (ln x) E) as H1. rewrite exp_ln in H1 by auto. lra.
Qed.
Lemma ln_quot x y : 0 < x -> 0 < y -> ln (x / y) = ln x - ln y.
Proof. intros Hx Hy. unfold Rdiv. rewrite ln_mult, ln_Rinv; auto. apply Rinv_0_lt_compat; auto. Qed.
(** concavity: s^t <= 1 + t(s-1) for 0 <= t <= 1 *)
Lemma pow_concave s t : 0 < s -> 0 <= t <= 1 -> Rpower s t <= 1 + t * (s - 1).
Proof.
  intros Hs Ht. set (m := 1 + t * (s - 1)).
  assert (0 < m) as Hm by (unfold m; destruct (Req_dec t 1); nra).
  assert (ln s - ln m <= s / m - 1) as H1.
  { rewrite <- ln_quot by auto. apply ln_le_sub. apply Rdiv_lt_0_compat; auto. }
  assert (0 - ln m <= 1 / m - 1) as H2.
  { rewrite <- ln_1, <- ln_quot by lra. apply ln_le_sub. apply Rdiv_lt_0_compat; lra. }
  assert (t * ln s <= ln m) as H3.
  { assert (t * (s / m - 1) + (1 - t) * (1 / m - 1) = 0) as E by (unfold m; field; unfold m in Hm; lra). nra. }
  unfold Rpower. rewrite <- (exp_ln m Hm). destruct H3 as [H3|H3]; [left; apply exp_increasing; auto|rewrite H3; right; auto].
Qed.
Lemma bernoulli t p : 0 < t -> 1 <= p -> 1 + p * (t - 1) <= Rpower t p.
Proof.
  intros Ht Hp. assert (0 < Rpower t p) as Hs by (unfold Rpower; apply exp_pos).
  assert (0 <= / p <= 1) as Hq.
  { split; [left; apply Rinv_0_lt_compat; lra|]. rewrite <- Rinv_1. apply Rinv_le_contravar; lra. }
  pose proof (pow_concave (Rpower t p) (/ p) Hs Hq) as H. rewrite Rpower_mult, Rinv_r, Rpower_1 in H by lra.
  assert (p * (t - 1) <= Rpower t p - 1).
  { replace (Rpower t p - 1) with (p * (/ p * (Rpower t p - 1))) by (field; lra). apply Rmult_le_compat_l; lra. }
  lra.
Qed.
Lemma cpow_pos x p : 0 < x -> cpow x p = Rpower x p.
Proof. intros H. unfold cpow. destruct (Req_EM_T x 0); [lra|auto]. Qed.
Lemma cpow_0 p : cpow 0 p = 0.
Proof. unfold cpow. destruct (Req_EM_T 0 0); [auto|lra]. Qed.
Lemma cpow_nonneg x p : 0 <= cpow x p.
Proof. unfold cpow. destruct (Req_EM_T x 0); [lra|]. left. unfold Rpower. apply exp_pos. Qed.
Lemma cpow_zero x p : cpow x p = 0 <-> x = 0.
Proof.
  split; [|intros ->; apply cpow_0]. unfold cpow. destruct (Req_EM_T x 0); auto. intros H. unfold Rpower in H. pose proof (exp_pos (p * ln x)). lra.
Qed.
Lemma cpow_le x y p : 0 <= x <= y -> 0 < p -> cpow x p <= cpow y p.
Proof.
  intros [H1 H2] Hp. destruct (Req_dec x 0) as [->|Hx]; [rewrite cpow_0; apply cpow_nonneg|].
  rewrite !cpow_pos by lra. apply Rle_Rpower_l; lra.
Qed.
Lemma cpow_mult x y p : 0 <= x -> 0 <= y -> cpow (x * y) p = cpow x p * cpow y p.
Proof.
  intros Hx Hy. destruct (Req_dec x 0) as [->|]; [rewrite Rmult_0_l, cpow_0; lra|].
  destruct (Req_dec y 0) as [->|]; [rewrite Rmult_0_r, cpow_0; lra|]. rewrite !cpow_pos by nra.
  unfold Rpower. rewrite ln_mult by lra. rewrite Rmult_plus_distr_l, exp_plus. reflexivity.
Qed.
Lemma cpow_inv x p : 0 <= x -> 0 < p -> cpow (cpow x p) (1 / p) = x.
Proof.
  intros Hx Hp. destruct (Req_dec x 0) as [->|]; [rewrite !cpow_0; auto|]. rewrite (cpow_pos x) by lra.
  rewrite cpow_pos by (unfold Rpower; apply exp_pos). rewrite Rpower_mult. replace (p * (1 / p)) with 1 by (field; lra). apply Rpower_1. lra.
Qed.
Lemma cpow_inv' x p : 0 <= x -> 0 < p -> cpow (cpow x (1 / p)) p = x.
Proof.
  intros Hx Hp. destruct (Req_dec x 0) as [->|]; [rewrite !cpow_0; auto|]. rewrite (cpow_pos x) by lra.
  rewrite cpow_pos by (unfold Rpower; apply exp_pos). rewrite Rpower_mult. replace (1 / p * p) with 1 by (field; lra). apply Rpower_1. lra.
Qed.
Lemma cpow_1 x : 0 <= x -> cpow x 1 = x.
Proof. intros H. destruct (Req_dec x 0) as [->|]; [apply cpow_0|]. rewrite cpow_pos by lra. apply Rpower_1. lra. Qed.
Lemma cpow_2 x : 0 <= x -> cpow x 2 = x ^ 2.
Proof.
  intros H. destruct (Req_dec x 0) as [->|]; [rewrite cpow_0; ring|]. rewrite cpow_pos by lra.
  replace 2 with (INR 2) at 1 by (cbn; lra). apply Rpower_pow. lra.
Qed.
Lemma cpow_half x : 0 <= x -> cpow x (1 / 2) = sqrt x.
Proof.
  intros H. destruct (Req_dec x 0) as [->|]; [rewrite cpow_0, sqrt_0; auto|]. rewrite cpow_pos by lra.
  replace (1 / 2) with (/ 2) by lra. apply Rpower_sqrt. lra.
Qed.

(** convexity of x^p on [0, inf), p >= 1 *)
Lemma cpow_convex u v l p : 0 <= u -> 0 <= v -> 0 <= l <= 1 -> 1 <= p ->
  cpow (l * u + (1 - l) * v) p <= l * cpow u p + (1 - l) * cpow v p.
Proof.
  intros Hu Hv Hl Hp. set (m := l * u + (1 - l) * v).
  assert (0 <= m) as Hm by (unfold m; nra).
  destruct (Req_dec m 0) as [E|E].
  - rewrite E, cpow_0. pose proof (cpow_nonneg u p). pose proof (cpow_nonneg v p). nra.
  - assert (forall t, 0 <= t -> cpow m p * (1 + p * (t / m - 1)) <= cpow t p) as HT.
    { intros t Ht. destruct (Req_dec t 0) as [->|].
      - rewrite cpow_0. pose proof (cpow_nonneg m p). replace (0 / m) with 0 by (field; auto). nra.
      - replace t with (m * (t / m)) at 2 by (field; auto).
        assert (0 < t / m) by (apply Rdiv_lt_0_compat; lra).
        rewrite cpow_mult by lra. apply Rmult_le_compat_l; [apply cpow_nonneg|]. rewrite (cpow_pos (t / m)) by auto. apply bernoulli; auto. }
    pose proof (HT u Hu) as H1. pose proof (HT v Hv) as H2.
    assert (l * (1 + p * (u / m - 1)) + (1 - l) * (1 + p * (v / m - 1)) = 1) as E1 by (unfold m; field; unfold m in E; auto).
    pose proof (cpow_nonneg m p). nra.
Qed.

(** -------- Minkowski for p >= 1 -------- *)
Lemma Rsumf_le {A} (f h : A -> R) l : (forall x, In x l -> f x <= h x) -> Rsumf f l <= Rsumf h l.
Proof.
  induction l as [|x l IH]; intros H; [unfold Rsumf; cbn; lra|]. rewrite !Rsumf_cons.
  assert (f x <= h x) by (apply H; left; auto). assert (Rsumf f l <= Rsumf h l) by (apply IH; intros; apply H; right; auto). lra.
Qed.
Lemma minkowski {A} (f h : A -> R) l p : 1 <= p -> (forall x, 0 <= f x) -> (forall x, 0 <= h x) ->
  cpow (Rsumf (fun x => cpow (f x + h x) p) l) (1 / p) <=
  cpow (Rsumf (fun x => cpow (f x) p) l) (1 / p) + cpow (Rsumf (fun x => cpow (h x) p) l) (1 / p).
Proof.
  intros Hp Hf Hh.
  set (a := Rsumf (fun x => cpow (f x) p) l). set (b := Rsumf (fun x => cpow (h x) p) l).
  assert (0 <= a) as Ha by (apply Rsumf_nonneg; intros; apply cpow_nonneg).
  assert (0 <= b) as Hb by (apply Rsumf_nonneg; intros; apply cpow_nonneg).
  destruct (Req_dec a 0) as [Ea|Ea].
  { rewrite (Rsumf_ext _ (fun x => cpow (h x) p)).
    - fold b. pose proof (cpow_nonneg a (1 / p)). lra.
    - intros x Hx. replace (f x) with 0; [rewrite Rplus_0_l; auto|]. symmetry. apply (cpow_zero (f x) p).
      apply (Rsumf_zero (fun x => cpow (f x) p) l); auto. intros; apply cpow_nonneg. }
  destruct (Req_dec b 0) as [Eb|Eb].
  { rewrite (Rsumf_ext _ (fun x => cpow (f x) p)).
    - fold a. pose proof (cpow_nonneg b (1 / p)). lra.
    - intros x Hx. replace (h x) with 0; [rewrite Rplus_0_r; auto|]. symmetry. apply (cpow_zero (h x) p).
      apply (Rsumf_zero (fun x => cpow (h x) p) l); auto. intros; apply cpow_nonneg. }
  set (u := cpow a (1 / p)). set (v := cpow b (1 / p)).
  assert (0 < u) as Hu by (unfold u; rewrite cpow_pos by lra; unfold Rpower; apply exp_pos).
  assert (0 < v) as Hv by (unfold v; rewrite cpow_pos by lra; unfold Rpower; apply exp_pos).
  assert (cpow u p = a) as Eu by (apply cpow_inv'; lra). assert (cpow v p = b) as Ev by (apply cpow_inv'; lra).
  assert (cpow (u + v) p <> 0) as Hne by (rewrite cpow_zero; lra).
  assert (Rsumf (fun x => cpow (f x + h x) p) l <= cpow (u + v) p) as HS.
  { set (la := u / (u + v)).
    assert (0 <= la <= 1) as Hla.
    { unfold la. split; [left; apply Rdiv_lt_0_compat; lra|]. apply Rmult_le_reg_r with (u + v); [lra|]. replace (u / (u + v) * (u + v)) with u by (field; lra). lra. }
    assert (forall x, cpow (f x + h x) p <= (cpow (u + v) p * la / a) * cpow (f x) p + (cpow (u + v) p * (1 - la) / b) * cpow (h x) p) as HT.
    { intros x. replace (f x + h x) with ((u + v) * (la * (f x / u) + (1 - la) * (h x / v))).
      2:{ unfold la. field. lra. }
      assert (0 <= f x / u) by (apply Rmult_le_pos; [auto|left; apply Rinv_0_lt_compat; auto]).
      assert (0 <= h x / v) by (apply Rmult_le_pos; [auto|left; apply Rinv_0_lt_compat; auto]).
      rewrite cpow_mult by (try lra; nra).
      replace (_ * la / a * _ + _ * (1 - la) / b * _) with (cpow (u + v) p * (la * (cpow (f x) p / a) + (1 - la) * (cpow (h x) p / b))) by (field; lra).
      apply Rmult_le_compat_l; [apply cpow_nonneg|].
      replace (cpow (f x) p / a) with (cpow (f x / u) p).
      2:{ rewrite <- Eu. replace (f x) with (u * (f x / u)) at 2 by (field; lra). rewrite cpow_mult by lra. field. rewrite cpow_zero. lra. }
      replace (cpow (h x) p / b) with (cpow (h x / v) p).
      2:{ rewrite <- Ev. replace (h x) with (v * (h x / v)) at 2 by (field; lra). rewrite cpow_mult by lra. field. rewrite cpow_zero. lra. }
      apply cpow_convex; auto. }
    eapply Rle_trans; [apply Rsumf_le; intros x _; apply HT|].
    rewrite Rsumf_plus, !Rsumf_scal. fold a b. right. field. auto. }
  eapply Rle_trans; [apply cpow_le with (y := cpow (u + v) p)|].
  - split; [apply Rsumf_nonneg; intros; apply cpow_nonneg|auto].
  - apply Rdiv_lt_0_compat; lra.
  - rewrite cpow_inv by lra. lra.
Qed.

(** -------- the sup loop -------- *)
Lemma sup_loop l : forall acc : R, exists m,
  fold_left (fun d '(x, y) => if Rlt_dec (Rabs (x - y)) d then d else Rabs (x - y)) l acc = m /\
  acc <= m /\ (forall x y, In (x, y) l -> Rabs (x - y) <= m) /\ (m = acc \/ exists x y, In (x, y) l /\ m = Rabs (x - y)).
Proof.
  induction l as [|[x y] l IH]; intros acc; cbn [fold_left].
  - exists acc. split; [auto|]. split; [lra|]. split; [cbn; tauto|auto].
  - destruct (Rlt_dec (Rabs (x - y)) acc) as [H|H].
    + destruct (IH acc) as (m & -> & H1 & H2 & H3). exists m. split; [auto|]. split; [auto|]. split.
      * intros x' y' [[= -> ->]|Hin]; [lra|auto].
      * destruct H3 as [|(x' & y' & Hin & ->)]; auto. right. exists x', y'. split; [right; auto|auto].
    + destruct (IH (Rabs (x - y))) as (m & -> & H1 & H2 & H3). exists m. split; [auto|]. split; [lra|]. split.
      * intros x' y' [[= -> ->]|Hin]; [lra|auto].
      * right. destruct H3 as [->|(x' & y' & Hin & ->)]; [exists x, y; cbn; auto|]. exists x', y'. split; [right; auto|auto].
Qed.
