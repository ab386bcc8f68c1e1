(** C37 conjugate updating. *)
From Coq Require Import Reals Lra.
From Verif Require Import DataModel MapModel MapProps StatsModel StatsSpec StatsProofs StatsProps ConvModel ConvProofs LikeModel.
Local Open Scope list_scope.
Local Open Scope R_scope.
Local Arguments Rsum : simpl never.

Definition wf_mat (p : page R) : Prop := forall m, mat p = Some m -> wf_grid m.
Lemma cells_len p : wf_mat p -> length (cells p) = tsize p.
Proof.
  intros H. unfold cells, tsize, vcells, mcells, vsz, msz1, msz2. rewrite app_length. destruct (mat p) as [m|] eqn:E.
  - destruct (H m E) as [H1 H2]. rewrite <- H1. f_equal; [destruct (vect p); auto|]. clear H1. induction H2 as [|r l Hr Hl IH]; cbn; auto.
    rewrite app_length, IH, Hr. auto.
  - destruct (vect p); auto.
Qed.
Lemma mapsum_R f p : mapsum f p = Rsumf f (cells p).
Proof. unfold mapsum, vector_sum. rewrite fold_left_Rplus. unfold Rsumf. lra. Qed.
Lemma both_sum_R p : both_sum p = Rsum (cells p).
Proof.
  unfold both_sum, cells, vcells, mcells. rewrite Rsum_app. unfold vector_sum. destruct (mat p) as [m|], (vect p) as [v|];
    rewrite ?C34_matrix_sum, ?fold_left_Rplus, ?Rsum_nil; lra.
Qed.
(** apop_map_sum over all cells is [mapsum] *)
Theorem C37_mapsum : forall g sch f p more, fair sch -> mappable "a" p ->
  map_sum g sch 0 Rplus (FD (fun x _ => f x)) "a" false (p :: more) = Ok (mapsum f p).
Proof.
  intros g sch f p more Hs Hm. rewrite (C21_map_sum R g sch 0 Rplus f "a" p more Hs); auto using Rplus_0_l, Rplus_0_r.
  - intros; lra.
  - unfold elem_part. tauto.
Qed.

(** a data set of one number *)
Definition single (x : R) : page R := Pg (Some [x]) None None None name_alloc None.
Lemma mapsum_one f x : mapsum f (single x) = f x.
Proof. rewrite mapsum_R. unfold Rsumf. cbn. rewrite Rsum_cons, Rsum_nil. lra. Qed.
Lemma tsize_one x : INR (tsize (single x)) = 1.
Proof. cbn. auto. Qed.

Section C37.
Context (lg : R -> R).
Lemma beta_one_ll a b t : 0 < t < 1 -> beta_ll lg a b (single t) = (a - 1) * ln t + (b - 1) * ln (1 - t) - lnbeta lg a b.
Proof.
  intros Ht. unfold beta_ll. rewrite mapsum_one, tsize_one. unfold beta_one. destruct (Rlt_dec t 0); [lra|]. destruct (Rlt_dec 1 t); [lra|]. lra.
Qed.
Lemma bernoulli_R q p : wf_mat p -> bernoulli_ll q p = mapsum nonzero p * ln q + (INR (tsize p) - mapsum nonzero p) * ln (1 - q).
Proof.
  intros H. unfold bernoulli_ll. rewrite !mapsum_R, <- (cells_len p H). unfold nonzero. induction (cells p) as [|x l IH].
  - cbn. unfold Rsumf. cbn. rewrite Rsum_nil. lra.
  - rewrite !Rsumf_cons, IH. cbn [length]. rewrite S_INR. destruct (Req_EM_T x 0); lra.
Qed.
(** C37: prior times likelihood is proportional to the posterior: for every success probability t, the log density of the prior at t plus the log likelihood of the data
    is the log density of the posterior at t plus a constant. *)
Theorem C37_beta_bernoulli : forall d a b, wf_mat d -> exists C, forall t, 0 < t < 1 ->
  beta_ll lg a b (single t) + bernoulli_ll t d = beta_ll lg (fst (betabernie d (a, b))) (snd (betabernie d (a, b))) (single t) + C.
Proof.
  intros d a b Hw. exists (lnbeta lg (fst (betabernie d (a, b))) (snd (betabernie d (a, b))) - lnbeta lg a b). intros t Ht.
  rewrite !beta_one_ll by auto. rewrite (bernoulli_R t d Hw). unfold betabernie. cbn [fst snd]. lra.
Qed.
Lemma gamma_one_ll a b t : 0 < t -> gamma_ll lg a b (single t) = (a - 1) * ln t - t / b - (lg a + a * ln b).
Proof. intros Ht. unfold gamma_ll. rewrite mapsum_one. unfold gamma_one. destruct (Req_EM_T t 0); lra. Qed.
(** the exponential model is parametrised by its mean, the inverse of the rate t *)
Theorem C37_gamma_exponential : forall d a b, wf_mat d -> maxsize d = tsize d -> 0 < b -> Forall (fun x => 0 <= x) (cells d) -> exists C, forall t, 0 < t ->
  gamma_ll lg a b (single t) + exponential_ll (/ t) d = gamma_ll lg (fst (gammaexpo d (a, b))) (snd (gammaexpo d (a, b))) (single t) + C.
Proof.
  intros d a b Hw Hmax Hb Hpos. set (b' := snd (gammaexpo d (a, b))). set (a' := fst (gammaexpo d (a, b))).
  exists (lg a' + a' * ln b' - lg a - a * ln b). intros t Ht. rewrite !gamma_one_ll by auto. unfold exponential_ll.
  rewrite ln_Rinv by auto. replace (- both_sum d / / t) with (- (both_sum d * t)) by (field; lra).
  assert (Hb' : t / b' = t / b + both_sum d * t).
  { unfold b', gammaexpo, both_sum. cbn [snd]. assert (0 <= both_sum d) by (rewrite both_sum_R; apply Rsum_nonneg; auto). unfold both_sum in H.
    set (M := match mat d with Some m => matrix_sum m | None => 0 end) in *. set (V := match vect d with Some v => vector_sum v | None => 0 end) in *.
    assert (Hi : 0 < / b) by (apply Rinv_0_lt_compat; auto).
    replace (t / (1 / (1 / b + M + V))) with (t * (1 / b + M + V)) by (unfold Rdiv; rewrite !Rmult_1_l, Rinv_inv; auto). unfold Rdiv. lra. }
  rewrite Hb'. unfold a', gammaexpo. cbn [fst]. rewrite Hmax. lra.
Qed.

Definition whole (x : R) : Prop := exists k, x = INR k.
Lemma whole_good x : whole x -> poisson_bad x = false.
Proof.
  intros [k ->]. unfold poisson_bad. pose proof (pos_INR k). destruct (Rlt_dec (INR k) 0); [lra|].
  rewrite trunc_INR, <- INR_IZR_INZ. destruct (Rlt_dec (1 / 10000) (INR k - INR k)); [lra|]. auto.
Qed.
Lemma poisson_R l p : wf_mat p -> Forall whole (cells p) ->
  poisson_ll lg l p = Some (ln l * Rsum (cells p) - Rsumf (fun x => if Req_EM_T x 0 then 0 else lg (x + 1)) (cells p) - INR (tsize p) * l).
Proof.
  intros Hw HF. unfold poisson_ll. replace (existsb poisson_bad (cells p)) with false.
  2:{ symmetry. induction HF as [|x l0 Hx HF IH]; cbn; auto. rewrite (whole_good x Hx). auto. }
  do 2 f_equal. rewrite mapsum_R. clear. induction (cells p) as [|x c IH]; [unfold Rsumf; cbn; rewrite Rsum_nil; lra|].
  rewrite !Rsumf_cons, Rsum_cons, IH. unfold poisson_one. destruct (Req_EM_T x 0); [subst|]; lra.
Qed.
Theorem C37_gamma_poisson : forall d a b, wf_mat d -> maxsize d = tsize d -> 0 < b -> Forall whole (cells d) -> exists C, forall t, 0 < t ->
  exists L, poisson_ll lg t d = Some L /\
  gamma_ll lg a b (single t) + L = gamma_ll lg (fst (gammapoisson d (a, b))) (snd (gammapoisson d (a, b))) (single t) + C.
Proof.
  intros d a b Hw Hmax Hb HF. set (b' := snd (gammapoisson d (a, b))). set (a' := fst (gammapoisson d (a, b))).
  exists (lg a' + a' * ln b' - lg a - a * ln b - Rsumf (fun x => if Req_EM_T x 0 then 0 else lg (x + 1)) (cells d)). intros t Ht.
  eexists. split; [apply poisson_R; auto|]. rewrite !gamma_one_ll by auto.
  assert (Hb' : t / b' = t / b + INR (tsize d) * t).
  { unfold b', gammapoisson. cbn [snd]. rewrite Hmax. pose proof (pos_INR (tsize d)). field. split; [lra|]. nra. }
  assert (Ha' : a' = a + Rsum (cells d)).
  { unfold a', gammapoisson. cbn [fst]. f_equal. unfold cells. rewrite Rsum_app. unfold vsz, vcells, msz1, mcells, vector_sum. f_equal.
    - destruct (vect d) as [[|x v]|]; auto. cbn [length Nat.eqb]. rewrite fold_left_Rplus. lra.
    - destruct (mat d) as [m|] eqn:Em; auto. rewrite C34_matrix_sum. destruct (Nat.eqb_spec (gr m) 0) as [E|]; auto.
      destruct (Hw m Em) as [H1 _]. rewrite E in H1. destruct (ga m); [auto|discriminate]. }
  rewrite Hb', Ha'. lra.
Qed.

(** Normal prior for the mean, the data's variance taken as known; and a single observation of given precision *)
Lemma normal_one mu sd t : 0 < sd -> normal_ll mu sd (single t) = - ((t - mu) ^ 2) / (2 * sd ^ 2) - (ln2pi_half + ln sd).
Proof. intros H. unfold normal_ll. rewrite mapsum_one, tsize_one. lra. Qed.
Lemma sum_sq l t : l <> [] -> Rsumf (fun x => (x - t) ^ 2) l = INR (length l) * central 2 l + INR (length l) * (avg l - t) ^ 2.
Proof.
  intros Hl. pose proof (avg_len l Hl) as Ha. pose proof (len_ne0 l Hl) as Hn.
  assert (HC : INR (length l) * central 2 l = Rsumf (fun x => (x - avg l) ^ 2) l).
  { unfold central. set (h := fun x => (x - avg l) ^ 2). unfold avg. rewrite map_length. unfold Rsumf. field. auto. }
  rewrite HC.
  rewrite (Rsumf_ext (fun x => (x - t) ^ 2) (fun x => ((x - avg l) ^ 2 + 2 * (avg l - t) * x) + (t ^ 2 - avg l ^ 2))) by (intros; ring).
  rewrite Rsumf_plus, Rsumf_plus, Rsumf_scal, Rsumf_const, Rsumf_id, <- Ha. ring.
Qed.
Lemma post_sd P : 0 < P -> 0 < Rpower P (- (1 / 2)) /\ Rpower P (- (1 / 2)) ^ 2 = / P.
Proof.
  intros H. split; [apply exp_pos|]. rewrite <- Rpower_pow by apply exp_pos. rewrite Rpower_mult. replace (- (1 / 2) * INR 2) with (Ropp 1) by (cbn; lra).
  rewrite Rpower_Ropp, Rpower_1 by auto. auto.
Qed.
Theorem C37_normal_normal : forall d m mu0 sd0, vect d = None -> mat d = Some m -> wf_grid m -> 0 < central 2 (concat (ga m)) -> 0 < sd0 ->
  exists mu1 sd1, normnorm (Some d) (mu0, sd0) None = Ok (Some (mu1, sd1)) /\ 0 < sd1 /\
  exists C, forall t, normal_ll mu0 sd0 (single t) + normal_ll t (R_sqrt.sqrt (central 2 (concat (ga m)))) d = normal_ll mu1 sd1 (single t) + C.
Proof.
  intros d m mu0 sd0 Ev Em Hw Hvar Hsd. set (l := concat (ga m)) in *.
  assert (Hl : l <> []). { intros E. unfold central, avg in Hvar. rewrite E in Hvar. cbn in Hvar. rewrite Rsum_nil in Hvar. unfold Rdiv in Hvar. lra. }
  assert (HL : length l = (gr m * gc m)%nat).
  { assert (HC := cells_len d). unfold cells, vcells, mcells, tsize, vsz, msz1, msz2 in HC. rewrite Ev, Em in HC. apply HC. intros m' E'. unfold wf_mat in *. congruence. }
  unfold normnorm. rewrite Em. rewrite (C34_matrix_mean_and_var m Hl). fold l. cbn [rbind].
  destruct (Req_EM_T (sd0 ^ 2) 0) as [E|_]; [nra|]. destruct (Req_EM_T (central 2 l) 0) as [E|_]; [lra|]. rewrite <- HL.
  set (V := central 2 l) in *. set (n := INR (length l)). set (P := 1 / sd0 ^ 2 + n / V).
  assert (Hn : 0 < n) by (apply INR_pos; destruct l; cbn; [congruence|lia]).
  assert (Hs2 : 0 < sd0 ^ 2) by nra.
  assert (HP : 0 < P). { unfold P. apply Rplus_lt_0_compat; apply Rdiv_lt_0_compat; lra. }
  destruct (post_sd P HP) as [Q1 Q2]. do 2 eexists. split; [reflexivity|]. split; [exact Q1|].
  set (mu1 := (mu0 / sd0 ^ 2 + n * avg l / V) / P). set (sd1 := Rpower P (- (1 / 2))) in *.
  exists (- (mu0 ^ 2 / sd0 ^ 2 + n * avg l ^ 2 / V - P * mu1 ^ 2) / 2 - n / 2 - (ln2pi_half + ln sd0) - n * (ln2pi_half + ln (R_sqrt.sqrt V)) + (ln2pi_half + ln sd1)).
  intros t. rewrite !normal_one by auto. unfold normal_ll. rewrite mapsum_R, pow2_sqrt by lra.
  replace (cells d) with l by (unfold cells, vcells, mcells; rewrite Ev, Em; auto).
  rewrite (sum_sq l t Hl). fold V n. replace (INR (tsize d)) with n.
  2:{ unfold n, tsize, vsz, msz1, msz2. rewrite Ev, Em, HL. auto. }
  rewrite Q2. unfold mu1, P. field. repeat split; try lra; try nra.
Qed.
Theorem C37_normal_observation : forall mu0 sd0 x sd, 0 < sd0 -> 0 < sd ->
  exists mu1 sd1, normnorm None (mu0, sd0) (Some (x, sd)) = Ok (Some (mu1, sd1)) /\ 0 < sd1 /\
  exists C, forall t, normal_ll mu0 sd0 (single t) + normal_ll t sd (single x) = normal_ll mu1 sd1 (single t) + C.
Proof.
  intros mu0 sd0 x sd Hsd Hs. unfold normnorm. cbn [rbind].
  assert (Hs2 : 0 < sd0 ^ 2) by nra. assert (Hs3 : 0 < sd ^ 2) by nra.
  destruct (Req_EM_T (sd0 ^ 2) 0) as [E|_]; [nra|]. destruct (Req_EM_T (sd ^ 2) 0) as [E|_]; [nra|].
  set (P := 1 / sd0 ^ 2 + INR 1 / sd ^ 2). assert (HP : 0 < P). { unfold P. cbn [INR]. apply Rplus_lt_0_compat; apply Rdiv_lt_0_compat; lra. }
  destruct (post_sd P HP) as [Q1 Q2]. do 2 eexists. split; [reflexivity|]. split; [exact Q1|].
  set (mu1 := (mu0 / sd0 ^ 2 + INR 1 * x / sd ^ 2) / P). set (sd1 := Rpower P (- (1 / 2))) in *.
  exists (- (mu0 ^ 2 / sd0 ^ 2 + x ^ 2 / sd ^ 2 - P * mu1 ^ 2) / 2 - (ln2pi_half + ln sd0) - (ln2pi_half + ln sd) + (ln2pi_half + ln sd1)).
  intros t. rewrite !normal_one by auto. rewrite Q2. unfold mu1, P. cbn [INR]. field. repeat split; try lra; try nra.
Qed.

(** Binomial data: each row of the matrix is a pair (misses, hits) of whole numbers; for n = 2 the code takes the misses to be 2 - hits *)
Context (lf : nat -> R).
Definition count_rows (n : R) (rows : list (list R)) : Prop :=
  Forall (fun r => exists k0 k1, r = [INR k0; INR k1] /\ (n = 2 -> (k0 + k1 = 2)%nat)) rows.
Lemma mult_term_R q k : 0 < q < 1 -> mult_term lf q k = INR k * ln q - (if (0 <? k)%nat then lf k else 0).
Proof.
  intros Hq. unfold mult_term. replace (1 - q + q) with 1 by lra. replace (q / 1) with q by field. destruct (Nat.ltb_spec 0 k); [lra|]. replace k with 0%nat by lia. cbn [INR]. lra.
Qed.
Lemma hits_INR k : hits (INR k) = k.
Proof. unfold hits. rewrite trunc_INR. apply Nat2Z.id. Qed.
Lemma binom_rows_R n rows : count_rows n rows -> exists C, forall t, 0 < t < 1 ->
  binom_rows lf n t rows = Ok (Some (C + Rsum (omap (fun r => r !! 1%nat) rows) * ln t + Rsum (omap (fun r => r !! 0%nat) rows) * ln (1 - t))).
Proof.
  induction 1 as [|r rows (k0 & k1 & -> & Hk) HF (C & IH)].
  - exists 0. intros t Ht. cbn. rewrite Rsum_nil. do 2 f_equal. lra.
  - exists (C + if Req_EM_T n 2 then lf 2%nat - lf k1 - lf (2 - k1)%nat
              else lf (k0 + k1)%nat - (if (0 <? k0)%nat then lf k0 else 0) - (if (0 <? k1)%nat then lf k1 else 0)).
    intros t Ht. cbn [binom_rows]. rewrite (IH t Ht). unfold binom_row. rewrite !hits_INR. cbn [omap list_omap lookup list_lookup].
    rewrite !Rsum_cons. destruct (Req_EM_T n 2) as [E|E].
    + specialize (Hk E). destruct (Nat.ltb_spec 2 k1); [lia|]. cbn [rbind]. do 2 f_equal. replace (2 - k1)%nat with k0 by lia. lra.
    + cbn [rbind]. do 2 f_equal. rewrite !mult_term_R by lra. lra.
Qed.
Theorem C37_beta_binomial : forall d m n a b, mat d = Some m -> wf_grid m -> gc m = 2%nat -> count_rows n (ga m) -> exists C, forall t, 0 < t < 1 ->
  exists L, binomial_ll lf n t d = Ok (Some L) /\
  beta_ll lg a b (single t) + L = beta_ll lg (fst (betabinom (Some d) (a, b) (Some (n, t)))) (snd (betabinom (Some d) (a, b) (Some (n, t)))) (single t) + C.
Proof.
  intros d m n a b Em Hw Hc HR. destruct (binom_rows_R n (ga m) HR) as [C HC].
  set (s1 := Rsum (omap (fun r => r !! 1%nat) (ga m))) in *. set (s0 := Rsum (omap (fun r => r !! 0%nat) (ga m))) in *.
  exists (C + lnbeta lg (a + s1) (b + s0) - lnbeta lg a b). intros t Ht. eexists. split.
  { unfold binomial_ll. rewrite Em. apply HC. auto. }
  unfold betabinom, col_sum. rewrite Em, Hc. change (1 <? 2)%nat with true. change (0 <? 2)%nat with true. cbn [fst snd]. unfold colv, vector_sum. rewrite !fold_left_Rplus. fold s1 s0.
  rewrite !beta_one_ll by auto. replace (0 + s1) with s1 by lra. replace (0 + s0) with s0 by lra. lra.
Qed.
(** Binomial likelihood with no data but parameters (n, q): like n draws with n*q hits. *)
Theorem C37_beta_binomial_params : forall a b n q, betabinom None (a, b) (Some (n, q)) = (a + n * q, b + n * (1 - q)).
Proof. reflexivity. Qed.
End C37.
Print Assumptions C37_mapsum.
Print Assumptions C37_beta_bernoulli.
Print Assumptions C37_gamma_exponential.
Print Assumptions C37_gamma_poisson.
Print Assumptions C37_normal_normal.
Print Assumptions C37_normal_observation.
Print Assumptions C37_beta_binomial.

(** C37: chaining: updating by one data set and then by another is updating by both together, in any order of the observations. *)
Theorem C37_sequential : forall d1 d2 d12 prior, wf_mat d1 -> wf_mat d2 -> wf_mat d12 -> Permutation (cells d12) (cells d1 ++ cells d2) ->
  betabernie d2 (betabernie d1 prior) = betabernie d12 prior /\
  (maxsize d1 = tsize d1 -> maxsize d2 = tsize d2 -> maxsize d12 = tsize d12 -> 0 < snd prior ->
   gammapoisson d2 (gammapoisson d1 prior) = gammapoisson d12 prior /\
   (Forall (fun x => 0 <= x) (cells d12) -> gammaexpo d2 (gammaexpo d1 prior) = gammaexpo d12 prior)).
Proof.
  intros d1 d2 d12 [a b] W1 W2 W12 HP. cbn [fst snd].
  assert (HS : forall f, Rsumf f (cells d12) = Rsumf f (cells d1) + Rsumf f (cells d2)).
  { intros f. rewrite <- Rsumf_app. clear -HP. unfold Rsumf. apply (Permutation_map f) in HP.
    induction HP; rewrite ?Rsum_cons; auto; lra. }
  assert (HN : INR (tsize d12) = INR (tsize d1) + INR (tsize d2)).
  { rewrite <- plus_INR. f_equal. rewrite <- !cells_len by auto. rewrite (Permutation_length HP), app_length. auto. }
  assert (HT : Rsum (cells d12) = Rsum (cells d1) + Rsum (cells d2)) by (rewrite <- !Rsumf_id; apply HS).
  split.
  - unfold betabernie. cbn [fst snd]. rewrite !mapsum_R, HS, HN. f_equal; lra.
  - intros M1 M2 M12 Hb. pose proof (pos_INR (tsize d1)). pose proof (pos_INR (tsize d2)).
    assert (HG : forall d pr, wf_mat d -> gammapoisson d pr = (fst pr + Rsum (cells d), snd pr / (snd pr * INR (maxsize d) + 1))).
    { intros d pr Hw. unfold gammapoisson. f_equal. f_equal. unfold cells. rewrite Rsum_app. unfold vsz, vcells, msz1, mcells, vector_sum. f_equal.
      - destruct (vect d) as [[|x v]|]; auto. cbn [length Nat.eqb]. rewrite fold_left_Rplus. lra.
      - destruct (mat d) as [m|] eqn:Em; auto. rewrite C34_matrix_sum. destruct (Nat.eqb_spec (gr m) 0) as [E|]; auto.
        destruct (Hw m Em) as [H1 _]. rewrite E in H1. destruct (ga m); [auto|discriminate]. }
    split.
    + rewrite !HG by auto. cbn [fst snd]. rewrite M1, M2, M12, HN, HT. f_equal; [lra|]. assert (0 < b * INR (tsize d1) + 1) by nra. field. repeat split; nra.
    + intros HF. unfold gammaexpo. cbn [fst snd]. rewrite M1, M2, M12, HN.
      assert (HB : forall d, match mat d with Some m => matrix_sum m | None => 0 end + match vect d with Some v => vector_sum v | None => 0 end = Rsum (cells d)) by (intros d; apply both_sum_R).
      rewrite !Rplus_assoc, !HB, HT. f_equal. f_equal. unfold Rdiv. rewrite !Rmult_1_l, Rinv_inv. lra.
Qed.
Print Assumptions C37_sequential.

Example C37_nonvacuous : exists d, wf_mat d /\ maxsize d = tsize d /\ Forall whole (cells d) /\ Forall (fun x => 0 <= x) (cells d) /\
  gammapoisson d (2, 1) = (2 + 5, 1 / 3) /\ 0 < central 2 [1; 3] /\ count_rows 3 [[1; 2]; [3; 0]].
Proof.
  exists (Pg (Some [2; 3]) None None None name_alloc None). split; [intros m [=]|]. split; [reflexivity|]. split; [|split; [|split; [|split]]].
  - constructor; [exists 2%nat; cbn; lra|]. constructor; [exists 3%nat; cbn; lra|constructor].
  - repeat constructor; lra.
  - unfold gammapoisson. cbn. f_equal; field.
  - unfold central, avg. cbn. unfold Rsum. cbn. lra.
  - constructor; [exists 1%nat, 2%nat|constructor; [exists 3%nat, 0%nat|constructor]]; (split; [repeat f_equal; cbn; lra|lra]).
Qed.

(** C37: deviations.  The Gamma updates count rows, not observations: for two observations in one row the posterior is not proportional to prior
    times likelihood. *)
Theorem C37_wide_refuted : forall lg, exists d a b, wf_mat d /\ 0 < b /\ Forall whole (cells d) /\
  ~ exists C, forall t, 0 < t -> exists L, poisson_ll lg t d = Some L /\
    gamma_ll lg a b (single t) + L = gamma_ll lg (fst (gammapoisson d (a, b))) (snd (gammapoisson d (a, b))) (single t) + C.
Proof.
  intros lg. set (d := Pg None (Some (Gr 1 2 [[0; 0]])) None None name_alloc None : page R). exists d, 1, 1.
  assert (Hw : wf_mat d). { intros m [= <-]. split; auto. constructor; auto. }
  assert (HF : Forall whole (cells d)). { unfold d, cells. cbn. constructor; [exists 0%nat; auto|]. constructor; [exists 0%nat; auto|constructor]. }
  split; auto. split; [lra|]. split; auto. intros (C & H).
  assert (HT : forall t, 0 < t -> - t - 2 * t = - t / (1 / 2) + (C + (lg 1 + 1 * ln 1) - (lg 1 + 1 * ln (1 / 2)))).
  { intros t Ht. destruct (H t Ht) as (L & H1 & H2). rewrite (poisson_R lg t d Hw HF) in H1. injection H1 as <-. rewrite !gamma_one_ll in H2 by auto.
    unfold gammapoisson, d in H2. cbn [vsz msz1 maxsize vect mat gr gc txt tsz1 length fst snd Nat.eqb Nat.max INR vcells mcells cells ga concat app tsize msz2 Nat.add Nat.mul] in H2.
    unfold Rsumf in H2. cbn [map] in H2. rewrite !Rsum_cons, Rsum_nil in H2. destruct (Req_EM_T 0 0); [|congruence].
    unfold matrix_sum in H2. cbn [ga fold_left] in H2.
    replace (1 + (0 + (0 + 0 + 0))) with 1 in H2 by lra. replace (1 / (1 * 1 + 1)) with (1 / 2) in H2 by lra. unfold Rdiv in *. lra. }
  pose proof (HT 1 ltac:(lra)). pose proof (HT 2 ltac:(lra)). lra.
Qed.
Print Assumptions C37_wide_refuted.
(** Normal data in the vector: NULL is dereferenced. *)
Theorem C37_vector_refuted : forall d prior like, mat d = None -> normnorm (Some d) prior like = UB.
Proof. intros d [mu sd] like H. unfold normnorm. rewrite H. reflexivity. Qed.
Print Assumptions C37_vector_refuted.
