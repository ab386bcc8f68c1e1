(** C117: the Zipf model.  C118: the Yule model's draws. *)
From Coq Require Import Reals Lra Lia.
From Coquelicot Require Import Coquelicot.
From Verif Require Import DataModel StatsModel ConvModel OutModel LikeModel RankModel StatsProofs LikeProps RankProofs RankProofs2.
Local Open Scope list_scope.
Local Open Scope R_scope.

(** ================= C117 ================= *)
(** [zeta] is a sum of powers; only its value at the parameter used matters *)
Definition zeta_at (zeta : R -> R) (a : R) : Prop := Un_cv (sum_f_R0 (fun i => Rpower (INR (S i)) (- a))) (zeta a).
Lemma zeta_pos zeta a : zeta_at zeta a -> 0 < zeta a.
Proof.
  intros H. enough (1 <= zeta a) by lra. assert (G : forall n, 1 <= sum_f_R0 (fun i => Rpower (INR (S i)) (- a)) n).
  { induction n as [|n IH]; cbn -[INR]; [|pose proof (rp_pos (INR (S (S n))) (- a)); lra]. change (INR 1) with 1. unfold Rpower. rewrite ln_1, Rmult_0_r, exp_0. lra. }
  destruct (Rle_lt_dec 1 (zeta a)) as [L|L]; auto. destruct (H (1 - zeta a)) as [N HN]; [lra|]. specialize (HN N (le_n N)). specialize (G N).
  unfold R_dist, Rabs in HN. destruct (Rcase_abs _) in HN; lra.
Qed.

(** the mass the likelihood gives to the number n *)
Lemma zipf_mass_eq zeta a n : zeta_at zeta a -> 1 <= a -> (1 <= n)%nat ->
  exists l, zipf_ll zeta a (single (INR n)) = Some l /\ exp l = Rpower (INR n) (- a) / zeta a.
Proof.
  intros Hz Ha Hn. pose proof (zeta_pos _ _ Hz) as P. unfold zipf_ll. destruct (Rlt_dec a 1); [lra|]. eexists. split; [reflexivity|].
  rewrite mapsum_one, tsize_one. replace (- ln (INR n) * a - ln (zeta a) * 1) with (- a * ln (INR n) + - ln (zeta a)) by ring.
  rewrite exp_plus, exp_Ropp, exp_ln by auto. reflexivity.
Qed.
(** the likelihood of a set is the product of its cells' (logs: the sum), for vector and matrix alike; a parameter under one: NaN *)
Theorem C117_likelihood : forall zeta a d, wf_mat d ->
  (a < 1 -> zipf_ll zeta a d = None) /\
  (1 <= a -> exists l1, (forall x, zipf_ll zeta a (single x) = Some (l1 x)) /\ zipf_ll zeta a d = Some (Rsumf l1 (cells d))).
Proof.
  intros zeta a d Hw. unfold zipf_ll. split; intros Ha; destruct (Rlt_dec a 1); auto; try lra.
  exists (fun x => - a * ln x + - ln (zeta a)). split.
  - intros x. rewrite mapsum_one, tsize_one. f_equal. ring.
  - rewrite mapsum_R, Rsumf_plus, Rsumf_scal, Rsumf_const, cells_len by auto. f_equal. ring.
Qed.
(** the masses of 1, 2, 3, ... are n^-a up to a factor, and add to one *)
Theorem C117_total : forall zeta a, 1 <= a -> zeta_at zeta a ->
  exists mass : nat -> R, (forall n, (1 <= n)%nat -> exists l, zipf_ll zeta a (single (INR n)) = Some l /\ mass n = exp l) /\
    (forall n, (1 <= n)%nat -> mass n = Rpower (INR n) (- a) * mass 1%nat) /\
    Un_cv (sum_f_R0 (fun i => mass (S i))) 1.
Proof.
  intros zeta a Ha Hz. pose proof (zeta_pos _ _ Hz) as P. exists (fun n => Rpower (INR n) (- a) / zeta a). repeat split.
  - intros n Hn. destruct (zipf_mass_eq zeta a n Hz Ha Hn) as (l & E & El). eauto.
  - intros n Hn. cbn [INR]. replace (Rpower 1 (- a)) with 1 by (unfold Rpower; rewrite ln_1, Rmult_0_r, exp_0; auto). field. lra.
  - apply Un_cv_ext with (un := fun n => sum_f_R0 (fun i => Rpower (INR (S i)) (- a)) n * / zeta a).
    + intros n. rewrite Rmult_comm, scal_sum. apply sum_eq. intros. unfold Rdiv. auto.
    + replace 1 with (zeta a * / zeta a) by (field; lra). apply CV_mult; auto. intros e He. exists 0%nat. intros. rewrite R_dist_eq. auto.
Qed.
(** one turn of the loop: with u and v uniform, the number n comes out for u in an interval and v at most accept(n): with a chance (the
    interval's length times accept(n)) that is the same multiple of the likelihood's mass of n, for every n *)
Theorem C117_round : forall zeta a, 1 < a -> zeta_at zeta a -> exists (accept : nat -> R) (K : R), 0 < K /\
  accept 1%nat = 1 /\
  (forall n, (1 <= n)%nat -> 0 < accept n <= 1 /\
     forall l, zipf_ll zeta a (single (INR n)) = Some l ->
     (Rpower (INR n) (1 - a) - Rpower (INR (S n)) (1 - a)) * accept n = K * exp l) /\
  (forall n u v, (1 <= n)%nat -> (Z.of_nat n < 2 ^ 31)%Z -> Rpower (INR (S n)) (1 - a) < u <= Rpower (INR n) (1 - a) ->
     zipf_round a u v = Ok (if Rle_dec v (accept n) then Some (Z.of_nat n) else None)).
Proof.
  intros zeta a Ha Hz. assert (Hc : 0 < a - 1) by lra. pose proof (zeta_pos _ _ Hz) as P. exists (zaccept (a - 1)), ((1 - Rpower 2 (- (a - 1))) * zeta a).
  replace (1 - a) with (- (a - 1)) by ring. repeat split.
  - apply Rmult_lt_0_compat; auto. rewrite rp_neg_eq. pose proof (b_gt _ Hc) as B. pose proof (Rinv_lt_contravar 1 (Rpower 2 (a - 1))) as I. rewrite Rinv_1 in I. lra.
  - apply zaccept_one; auto.
  - apply zaccept_pos; auto.
  - apply zaccept_le; auto.
  - intros l E. destruct (zipf_mass_eq zeta a n Hz ltac:(lra) H) as (l' & E' & El). rewrite E in E'. injection E' as <-. rewrite El, zaccept_mass by auto.
    replace (- (a - 1 + 1)) with (- a) by ring. field. lra.
  - intros. apply zipf_round_in; auto. lia.
Qed.
(** these intervals share out the uniforms in (0,1) *)
Theorem C117_cover : forall a u, 1 < a -> 0 < u < 1 ->
  exists n, ((1 <= n)%nat /\ Rpower (INR (S n)) (1 - a) < u <= Rpower (INR n) (1 - a)) /\
    forall n', (1 <= n')%nat -> Rpower (INR (S n')) (1 - a) < u <= Rpower (INR n') (1 - a) -> n' = n.
Proof.
  intros a u Ha Hu. replace (1 - a) with (- (a - 1)) by ring. destruct (zipf_cover (a - 1) u) as (n & Hn & HI); [lra|auto|].
  exists n. split; auto. intros n' Hn' HI'. apply (zipf_unique (a - 1) u n' n); auto. lra.
Qed.
(** and for every parameter over one there is such a sum *)
Lemma zeta_ex a : 1 < a -> exists z, Un_cv (sum_f_R0 (fun i => Rpower (INR (S i)) (- a))) z.
Proof.
  intros Ha. assert (Hc : 0 < a - 1) by lra. set (K := 1 - Rpower 2 (- (a - 1))).
  assert (HK : 0 < K). { unfold K. rewrite rp_neg_eq. pose proof (b_gt _ Hc) as B. pose proof (Rinv_lt_contravar 1 (Rpower 2 (a - 1))) as I. rewrite Rinv_1 in I. lra. }
  assert (G : forall n, K * sum_f_R0 (fun i => Rpower (INR (S i)) (- a)) n <= 1 - Rpower (INR (S (S n))) (- (a - 1))).
  { assert (T : forall n, (1 <= n)%nat -> K * Rpower (INR n) (- a) <= Rpower (INR n) (- (a - 1)) - Rpower (INR (S n)) (- (a - 1))).
    { intros n Hn. pose proof (zaccept_mass (a - 1) n Hc Hn) as M. replace (- (a - 1 + 1)) with (- a) in M by ring. fold K in M. rewrite <- M.
      pose proof (zaccept_le _ n Hc Hn). pose proof (zaccept_pos _ n Hc Hn). assert (Rpower (INR (S n)) (- (a - 1)) < Rpower (INR n) (- (a - 1))).
      { apply rp_neg_lt; auto; [apply INR_pos in Hn; lra|rewrite S_INR; lra]. } nra. }
    induction n as [|n IH]; cbn [sum_f_R0].
    - specialize (T 1%nat ltac:(lia)). change (INR 1) with 1 in *. unfold Rpower at 2 in T. rewrite ln_1, Rmult_0_r, exp_0 in T. auto.
    - specialize (T (S (S n)) ltac:(lia)). lra. }
  destruct (growing_cv (sum_f_R0 (fun i => Rpower (INR (S i)) (- a)))) as [z Hz]; eauto.
  - intros n. cbn [sum_f_R0]. pose proof (rp_pos (INR (S (S n))) (- a)). lra.
  - exists (/ K). intros x [n ->]. specialize (G n). pose proof (rp_pos (INR (S (S n))) (- (a - 1))). apply Rmult_le_reg_l with K; auto. rewrite Rinv_r; lra.
Qed.
Example C117_zeta : forall a, 1 < a -> exists zeta, zeta_at zeta a.
Proof. intros a Ha. destruct (zeta_ex a Ha) as [z Hz]. exists (fun _ => z). exact Hz. Qed.
(** the whole draw: a value handed back is a whole number of at least one, and that of the first turn that was not rejected; if no u is in
    the overflow zone the draw is defined and ends unless every turn on the tape is rejected; a < 1: an error *)
Theorem C117_draw : forall a tape, 1 < a -> Forall (fun uv => Rpower (2 ^ 31) (1 - a) < fst uv < 1) tape ->
  (zipf_rng a tape = Fuel /\ Forall (fun uv => zipf_round a (fst uv) (snd uv) = Ok None) tape) \/
  (exists rejected u v rest n, tape = rejected ++ (u, v) :: rest /\ Forall (fun uv => zipf_round a (fst uv) (snd uv) = Ok None) rejected /\
    zipf_round a u v = Ok (Some (Z.of_nat n)) /\ (1 <= n)%nat /\ zipf_rng a tape = Ok (0%nat, Some (INR n))).
Proof.
  intros a tape Ha HF. unfold zipf_rng. destruct (Rlt_dec a 1) as [?|_]; [lra|].
  enough ((zipf_loop a tape = Fuel /\ Forall (fun uv => zipf_round a (fst uv) (snd uv) = Ok None) tape) \/
    (exists rejected u v rest n, tape = rejected ++ (u, v) :: rest /\ Forall (fun uv => zipf_round a (fst uv) (snd uv) = Ok None) rejected /\
    zipf_round a u v = Ok (Some (Z.of_nat n)) /\ (1 <= n)%nat /\ zipf_loop a tape = Ok (Z.of_nat n))) as [[E H]|(rj & u & v & rest & n & E1 & E2 & E3 & E4 & E5)].
  { left. rewrite E. auto. } { right. exists rj, u, v, rest, n. repeat (split; auto). rewrite E5, INR_IZR_INZ. reflexivity. }
  induction HF as [|[u v] tape H HF IH]; [left; auto|]. cbn [fst snd] in H. assert (U : 0 < u < 1) by (pose proof (rp_pos (2 ^ 31) (1 - a)); lra).
  destruct (zipf_cover (a - 1) u ltac:(lra) U) as (n & Hn & HI).
  assert (Hb : (Z.of_nat n <= 2147483647)%Z).
  { destruct (Z_le_gt_dec (Z.of_nat n) 2147483647); auto. exfalso. assert (2147483648 <= INR n) by (rewrite INR_IZR_INZ; apply IZR_le; lia).
    apply (rp_neg_le (a - 1)) in H0; [|lra|lra]. replace (1 - a) with (- (a - 1)) in H by ring. replace (2 ^ 31) with 2147483648 in H by (cbn; ring). lra. }
  pose proof (zipf_round_in a n u v Ha Hn Hb HI) as E. destruct (Rle_dec v _).
  - right. exists [], u, v, tape, n. cbn [zipf_loop]. rewrite E. auto 10.
  - assert (EL : zipf_loop a ((u, v) :: tape) = zipf_loop a tape) by (cbn [zipf_loop]; rewrite E; reflexivity). rewrite EL. destruct IH as [[E' H']|(rj & u' & v' & rest & m & E1 & E2 & E3 & E4 & E5)].
    + left. split; auto.
    + right. exists ((u, v) :: rj), u', v', rest, m. subst tape. repeat (split; auto).
Qed.
Theorem C117_error : forall a tape, a < 1 -> zipf_rng a tape = Ok (1%nat, None).
Proof. intros. unfold zipf_rng. destruct (Rlt_dec a 1); auto. lra. Qed.
(** deviation: for every parameter over one a first uniform of at most 2^(-31(a-1)), zero among them, makes an int of a number over the int
    range; with the parameter one, that the check lets pass, every first uniform does *)
Theorem C117_refuted_overflow : forall a u v tape, (1 < a /\ 0 <= u <= Rpower (2 ^ 31) (1 - a)) \/ a = 1 -> zipf_rng a ((u, v) :: tape) = UB.
Proof.
  intros a u v tape H. unfold zipf_rng. destruct (Rlt_dec a 1); [lra|]. cbn [zipf_loop]. destruct H as [[Ha Hu]| ->].
  - rewrite zipf_round_big; auto. replace (- (a - 1)) with (1 - a) by ring. replace 2147483648 with (2 ^ 31) by (cbn; ring). auto.
  - unfold zipf_round. destruct (Req_EM_T 1 1); auto; lra.
Qed.
(** a = 1.1: one first uniform in nine is too small *)
Example C117_overflow_often : / 9 < Rpower (2 ^ 31) (1 - 11 / 10).
Proof.
  replace (1 - 11 / 10) with (- (/ 10)) by field. rewrite Rpower_Ropp. apply Rinv_lt_contravar; [pose proof (rp_pos (2 ^ 31) (/ 10)); lra|].
  rewrite <- (Rpower_1 9) by lra. replace 1 with (INR 10 * / 10) by (cbn; field). rewrite <- Rpower_mult, Rpower_pow by lra.
  unfold Rpower. apply exp_increasing. apply Rmult_lt_compat_l; [lra|]. apply ln_increasing; cbn; lra.
Qed.
(** a = 2, the uniforms 2/5 and 1/2: the interval of 2 is (1/3, 1/2] and accept(2) is 3/4 *)
Example C117_nonvacuous : Forall (fun uv => Rpower (2 ^ 31) (1 - 2) < fst uv < 1) [(2 / 5, 9 / 10); (2 / 5, 1 / 2)] /\
  zipf_rng 2 [(2 / 5, 9 / 10); (2 / 5, 1 / 2)] = Ok (0%nat, Some 2).
Proof.
  assert (A : Rpower (2 ^ 31) (1 - 2) < 2 / 5).
  { replace (1 - 2) with (- (1)) by ring. rewrite Rpower_Ropp, Rpower_1 by (cbn; lra). cbn. lra. }
  assert (P1 : forall x, 0 < x -> Rpower x (2 - 1) = x) by (intros; replace (2 - 1) with 1 by ring; apply Rpower_1; auto).
  assert (E : forall v, zipf_round 2 (2 / 5) v = Ok (if Rle_dec v (3 / 4) then Some 2%Z else None)).
  { intros v. rewrite (zipf_round_in 2 2 (2 / 5) v); try lra; try lia.
    - replace (zaccept (2 - 1) 2) with (3 / 4) by (unfold zaccept, zt; cbn; rewrite !P1 by lra; field). reflexivity.
    - rewrite !Rpower_Ropp, !P1 by (cbn; lra). cbn. lra. }
  split; [repeat constructor; cbn in *; lra|]. unfold zipf_rng. destruct (Rlt_dec 2 1); [lra|]. cbn [zipf_loop]. rewrite !E.
  destruct (Rle_dec (9 / 10) (3 / 4)); [lra|]. cbn. destruct (Rle_dec (1 / 2) (3 / 4)); [|lra]. reflexivity.
Qed.

(** ================= C118 ================= *)
(** given the second exponential s, the draw is a whole number of at least one and exceeds k when the first exponential is at least
    -k ln(1 - exp(-s/(b-1))): with the chance (1 - exp(-s/(b-1)))^k, a geometric distribution *)
Theorem C118_given : forall b e1 s, 1 < b -> 0 <= e1 -> 0 < s -> e1 < 2 ^ 31 * - ln (1 - exp (- s / (b - 1))) ->
  exists m : nat, (1 <= m)%nat /\ yule_rng b e1 s = Ok (INR m) /\
    forall k, (k < m)%nat <-> - INR k * ln (1 - exp (- s / (b - 1))) <= e1.
Proof.
  intros b e1 s Hb H1 H2 Ho. destruct (yule_draw b e1 s) as (m & E & H); auto; [replace (2 ^ 31) with 2147483648 in Ho by (cbn; ring); auto|].
  exists (S m). split; [lia|]. auto.
Qed.
Theorem C118_chance : forall b s k, 1 < b -> 0 < s ->
  exp (- (- INR k * ln (1 - exp (- s / (b - 1))))) = (1 - exp (- s / (b - 1))) ^ k.
Proof.
  intros b s k Hb Hs. pose proof (q01 (b - 1) s ltac:(lra) Hs) as Q. rewrite <- Rpower_pow by lra. unfold Rpower. f_equal. ring.
Qed.
(** over the exponential s, the chance to exceed k is what the likelihood leaves for the numbers over k; and the likelihood's masses
    of 1, 2, 3, ... add to one *)
Theorem C118_mixture : forall lg b, (forall x, 0 < x -> lg (x + 1) = lg x + ln x) -> lg 1 = 0 -> 1 < b ->
  let mass n := exp (yule_ll lg b (single (INR n))) in
  (forall k, is_lim (fun M => RInt (fun s => exp (- s) * (1 - exp (- s / (b - 1))) ^ S k) 0 M) p_infty (1 - sum_f_R0 (fun i => mass (S i)) k)) /\
  Un_cv (sum_f_R0 (fun i => mass (S i))) 1.
Proof.
  intros lg b Hlg H1 Hb mass. unfold mass. split.
  - intros k. rewrite yule_tail by auto. replace (1 - (1 - yT (b - 1) (S k))) with (yT (b - 1) (S k)) by ring. apply yf_lim. lra.
  - apply Un_cv_ext with (un := fun k => 1 - yT (b - 1) (S k)); [intros k; rewrite yule_tail; auto|].
    replace 1 with (1 - 0) at 1 by ring. apply CV_minus; [intros e He; exists 0%nat; intros; rewrite R_dist_eq; auto|].
    intros e He. destruct (yT_zero (b - 1) ltac:(lra) e He) as [N HN]. exists N. intros n Hn. apply HN. lia.
Qed.
(** the first exponential zero, or the second: the draw is 1 *)
Theorem C118_zero : forall b e, 1 < b -> 0 <= e -> yule_rng b e 0 = Ok 1 /\ (0 < e -> yule_rng b 0 e = Ok 1).
Proof.
  intros b e Hb He. split.
  - unfold yule_rng. destruct (Req_EM_T b 1); [lra|]. destruct (Req_EM_T 0 0); [|lra]. reflexivity.
  - intros Hp. assert (Q := q01 (b - 1) e ltac:(lra) Hp). pose proof (ln_lt0 (1 - exp (- e / (b - 1))) ltac:(lra)) as L.
    destruct (yule_draw b 0 e) as (m & E & H); auto; try lra. rewrite E. destruct m; [reflexivity|]. exfalso. specialize (H 1%nat). cbn [INR] in H.
    assert (- (1) * ln (1 - exp (- e / (b - 1))) <= 0) by (apply H; lia). lra.
Qed.
(** deviation: a first exponential of 2^31 times -ln(1-q) or more is not an int, and there is no check of the parameter *)
Theorem C118_refuted_overflow : forall b e1 s, 1 < b -> 0 < s -> 2 ^ 31 * - ln (1 - exp (- s / (b - 1))) <= e1 -> yule_rng b e1 s = UB.
Proof.
  intros b e1 s Hb Hs H. assert (Q := q01 (b - 1) s ltac:(lra) Hs). pose proof (ln_lt0 (1 - exp (- s / (b - 1))) ltac:(lra)) as L.
  unfold yule_rng. destruct (Req_EM_T b 1); auto. destruct (Req_EM_T s 0); [lra|]. destruct (Rlt_dec b 1); auto. rewrite c_int_big; auto.
  apply Rmult_le_reg_r with (- ln (1 - exp (- s / (b - 1)))); [lra|]. replace (2 ^ 31) with 2147483648 in H by (cbn; ring).
  replace (- e1 / ln (1 - exp (- s / (b - 1))) * - ln (1 - exp (- s / (b - 1)))) with e1 by (field; lra). auto.
Qed.
Theorem C118_refuted_unchecked : forall b e1 s, b <= 1 -> 0 < s -> yule_rng b e1 s = UB.
Proof.
  intros b e1 s Hb Hs. unfold yule_rng. destruct (Req_EM_T b 1); auto. destruct (Req_EM_T s 0); [lra|]. destruct (Rlt_dec b 1); auto. lra.
Qed.
(** b = 2, s = ln 2: q = 1/2; the first exponential 3 ln 2 exceeds 3 and not 4: the draw is 4 *)
Example C118_nonvacuous : 0 < ln 2 /\ 3 * ln 2 < 2 ^ 31 * - ln (1 - exp (- ln 2 / (2 - 1))) /\ yule_rng 2 (3 * ln 2) (ln 2) = Ok 4.
Proof.
  assert (L : 0 < ln 2) by (rewrite <- ln_1; apply ln_increasing; lra).
  assert (E : ln (1 - exp (- ln 2 / (2 - 1))) = - ln 2).
  { replace (- ln 2 / (2 - 1)) with (- ln 2) by field. rewrite exp_Ropp, exp_ln by lra. replace (1 - / 2) with (/ 2) by field. apply ln_Rinv. lra. }
  assert (O : 3 * ln 2 < 2 ^ 31 * - ln (1 - exp (- ln 2 / (2 - 1)))) by (rewrite E; cbn; lra).
  split; auto. split; auto. destruct (C118_given 2 (3 * ln 2) (ln 2)) as (m & Hm & Em & H); auto; try lra. rewrite Em. rewrite E in H.
  assert (A : (3 < m)%nat) by (apply H; cbn; lra). assert (B : ~ (4 < m)%nat) by (rewrite H; cbn; lra). assert (m = 4%nat) as -> by lia. f_equal. cbn. ring.
Qed.
(** the hypothesis on the log-gamma function can be met (here by a function that is 0 on (0,1]) *)
Example C118_gamma : exists lg : R -> R, (forall x, 0 < x -> lg (x + 1) = lg x + ln x) /\ lg 1 = 0.
Proof.
  set (n := fun x => Z.to_nat (- Int_part (- x) - 1)).
  set (f := fix f (k : nat) (x : R) : R := match k with O => 0 | S j => ln (x - 1) + f j (x - 1) end).
  exists (fun x => f (n x) x). assert (E : forall x, Int_part (- (x + 1)) = (Int_part (- x) - 1)%Z).
  { intros x. destruct (base_Int_part (- x)) as [A B]. unfold Int_part at 1. replace (up (- (x + 1))) with (Int_part (- x) - 1 + 1)%Z; [lia|].
    apply tech_up; rewrite plus_IZR, minus_IZR; lra. }
  split.
  - intros x Hx. assert (0 <= - Int_part (- x) - 1)%Z.
    { destruct (base_Int_part (- x)) as [A _]. enough (Int_part (- x) < 0)%Z by lia. apply lt_IZR. lra. }
    replace (n (x + 1)) with (S (n x)) by (unfold n; rewrite E; lia). cbn [f]. replace (x + 1 - 1) with x by ring. ring.
  - replace (n 1) with 0%nat; [reflexivity|]. unfold n. replace (Int_part (- (1))) with (-1)%Z; [reflexivity|].
    unfold Int_part. replace (up (- (1))) with 0%Z; [reflexivity|]. apply tech_up; lra.
Qed.
Print Assumptions C117_likelihood. Print Assumptions C117_total. Print Assumptions C117_round. Print Assumptions C117_cover. Print Assumptions C117_draw.
Print Assumptions C117_error. Print Assumptions C117_refuted_overflow. Print Assumptions C118_given. Print Assumptions C118_chance.
Print Assumptions C118_mixture. Print Assumptions C118_zero. Print Assumptions C118_refuted_overflow. Print Assumptions C118_refuted_unchecked.
