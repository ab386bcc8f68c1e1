(** C108: the multinomial's estimates and their covariance. *)
From Coq Require Import Reals Lra.
From Verif Require Import Base StatsSpec StatsProofs SearchModel KlProps MultiModel MultiProps.
Local Open Scope list_scope.
Local Open Scope R_scope.

(** the balls in bin [j] over all rows, all balls, and the bins' shares *)
Definition in_bin (rows : list (list nat)) (j : nat) : R := Rsum (map (fun r => INR (nth j r 0%nat)) rows).
Definition balls (rows : list (list nat)) : R := Rsum (map (fun r => INR (list_sum r)) rows).
Definition bin_shares (k : nat) (rows : list (list nat)) : list R := map (fun j => in_bin rows j / balls rows) (seq 0 k).
Definition table (k : nat) (rows : list (list nat)) : Prop := (1 <= k)%nat /\ Forall (fun r => length r = k) rows.

Lemma col_sums_eq k rows : col_sums k rows = map (in_bin rows) (seq 0 k).
Proof. unfold col_sums, in_bin. apply map_ext. intros j. rewrite fold_left_Rplus. lra. Qed.
Lemma row_sum r : Rsum (map (fun j => INR (nth j r 0%nat)) (seq 0 (length r))) = INR (list_sum r).
Proof.
  induction r as [|x r IH]; cbn [length seq map list_sum fold_right]; rewrite ?Rsum_nil, ?Rsum_cons; [reflexivity|]. rewrite <- seq_shift, map_map. cbn [nth]. rewrite IH, plus_INR. reflexivity.
Qed.
Lemma sum_zero {A} (l : list A) : Rsum (map (fun _ => 0) l) = 0.
Proof. induction l; cbn [map]; rewrite ?Rsum_nil, ?Rsum_cons; lra. Qed.
Lemma sum_plus {A} (f g : A -> R) l : Rsum (map (fun x => f x + g x) l) = Rsum (map f l) + Rsum (map g l).
Proof. induction l as [|x l IH]; cbn [map]; rewrite ?Rsum_nil, ?Rsum_cons; lra. Qed.
Lemma total_eq k rows : table k rows -> Rsum (map (in_bin rows) (seq 0 k)) = balls rows.
Proof.
  intros [_ H]. unfold in_bin, balls. induction H as [|r rows Hr H IH]; cbn [map].
  - rewrite (map_ext _ (fun _ => 0)) by reflexivity. exact (sum_zero (seq 0 k)).
  - rewrite Rsum_cons, <- IH, <- Hr, <- row_sum, <- sum_plus. reflexivity.
Qed.
Lemma shares_sum k rows : table k rows -> balls rows <> 0 -> Rsum (bin_shares k rows) = 1.
Proof.
  intros Ht Hb. unfold bin_shares. change (fun j => in_bin rows j / balls rows) with (fun j => (fun x => x * / balls rows) (in_bin rows j)). rewrite <- (map_map (in_bin rows) (fun x => x * / balls rows)). rewrite Rsum_scale, total_eq by auto. field. auto.
Qed.
Lemma in_bin_nonneg rows j : 0 <= in_bin rows j.
Proof. unfold in_bin. induction rows as [|r rows IH]; cbn [map]; rewrite ?Rsum_nil, ?Rsum_cons; [lra|]. pose proof (pos_INR (nth j r 0%nat)). lra. Qed.
(** C108: the estimated probabilities are the bins' shares of the balls, n the whole part of the mean of the rows' sums: that sum if it is the same for all. *)
Theorem C108_shares : forall k rows, table k rows -> 0 < balls rows -> exists n q, fst (estimate k rows) = IZR n :: q /\ bins q = bin_shares k rows /\ probabilities (bin_shares k rows) /\
  IZR n <= balls rows / INR (length rows) < IZR n + 1 /\ forall N, Forall (fun r => list_sum r = N) rows -> n = Z.of_nat N.
Proof.
  intros k rows Ht Hb. unfold estimate. cbv zeta. rewrite col_sums_eq, fold_left_Rplus, total_eq, Rplus_0_l by auto. destruct (Req_EM_T (balls rows) 0); [lra|]. cbn [fst].
  assert (map (fun x => x * (1 / balls rows)) (map (in_bin rows) (seq 0 k)) = bin_shares k rows) as ->. { unfold bin_shares. rewrite map_map. apply map_ext. intros j. field. auto. }
  pose proof (shares_sum k rows Ht n) as Hs. destruct (bin_shares k rows) as [|x q] eqn:E. { rewrite Rsum_nil in Hs. lra. }
  exists (Int_part (balls rows / INR (length rows))), q. split; [reflexivity|]. rewrite Rsum_cons in Hs. split; [unfold bins; f_equal; lra|]. split; [|split].
  - split; [|rewrite Rsum_cons; auto]. rewrite <- E. unfold bin_shares. apply List.Forall_forall. intros y Hy. apply in_map_iff in Hy as (j & <- & _). apply Rmult_le_pos; [apply in_bin_nonneg|apply Rlt_le, Rinv_0_lt_compat; auto].
  - destruct (base_Int_part (balls rows / INR (length rows))). lra.
  - intros N HN. assert (balls rows = INR (length rows) * INR N) as EN. { clear - HN. unfold balls. induction HN as [|r rows Hr H IH]; cbn [map length]; rewrite ?Rsum_nil, ?Rsum_cons, ?S_INR, ?IH, ?Hr; [cbn; lra|lra]. }
    assert (0 < INR (length rows)) as Hn. { pose proof (pos_INR (length rows)) as Hp. destruct (Rle_lt_or_eq_dec _ _ Hp) as [|Z]; auto. rewrite <- Z in EN. lra. }
    replace (balls rows / INR (length rows)) with (INR N) by (rewrite EN; field; lra). rewrite INR_IZR_INZ. apply Int_part_IZR.
Qed.
Print Assumptions C108_shares.

(** the logarithm of the likelihood of the rows, but for the coefficients: the balls of each bin times the logarithm of its probability *)
Lemma ln_mpmf p r : Forall (Rle 0) p -> length r = length p -> 0 < mpmf p r -> ln (mpmf p r) = lnfact (list_sum r) - Rsum (map lnfact r) + Rsum (zip_with (fun q k => if (0 <? k)%nat then INR k * ln q else 0) p r) /\ Forall2 (fun q k => (0 < k)%nat -> 0 < q) p r.
Proof.
  intros Hp Hl H. unfold mpmf in *. pose proof (fact_pos (list_sum r)) as Hf. assert (0 < product (zip_with (fun q k => q ^ k / INR (fact k)) p r)) as Hpos.
  { destruct (Rle_lt_or_eq_dec _ _ (product_nonneg p r Hp)) as [|E]; auto. rewrite <- E in H. lra. } rewrite ln_mult by auto. fold (lnfact (list_sum r)).
  enough (ln (product (zip_with (fun q k => q ^ k / INR (fact k)) p r)) = - Rsum (map lnfact r) + Rsum (zip_with (fun q k => if (0 <? k)%nat then INR k * ln q else 0) p r) /\ Forall2 (fun q k => (0 < k)%nat -> 0 < q) p r) as [E F] by (rewrite E; split; [lra|auto]).
  clear H Hf. revert r Hl Hpos. induction Hp as [|x p Hx Hp IH]; intros [|k r] Hl Hpos; try discriminate; cbn [zip_with product fold_right map] in *; rewrite ?Rsum_nil, ?Rsum_cons; [rewrite ln_1; split; [lra|constructor]|].
  fold (product (zip_with (fun q k => q ^ k / INR (fact k)) p r)) in *. pose proof (product_nonneg p r Hp) as Hn. pose proof (fact_pos k) as Hk.
  assert (0 < product (zip_with (fun q k => q ^ k / INR (fact k)) p r)) as H1. { destruct (Rle_lt_or_eq_dec _ _ Hn) as [|E]; auto. rewrite <- E in Hpos. lra. }
  assert (0 < x ^ k / INR (fact k)) as H2. { apply (Rmult_lt_reg_r (product (zip_with (fun q k => q ^ k / INR (fact k)) p r))); [auto|lra]. }
  destruct (IH r ltac:(cbn in Hl; lia) H1) as [E F]. rewrite ln_mult, E by auto. clear E IH. destruct k as [|k].
  - split; [|constructor; [lia|auto]]. change (0 <? 0)%nat with false. cbv iota. replace (x ^ 0 / INR (fact 0)) with 1 by (cbn; field). unfold lnfact at 2. change (fact 0) with 1%nat. change (INR 1) with 1. rewrite ln_1. lra.
  - assert (0 < x) as Hxp. { destruct (Rle_lt_or_eq_dec _ _ Hx) as [|E]; auto. rewrite <- E, pow_i in H2 by lia. lra. } split; [|constructor; auto]. change (0 <? S k)%nat with true. cbv iota. rewrite ln_div by (auto; apply pow_lt; auto). rewrite ln_pow by auto. unfold lnfact at 2. lra.
Qed.
(** Gibbs' inequality for counts *)
Lemma sum_swap k (p : list R) rows : length p = k -> Forall (fun r => length r = k) rows -> Rsum (map (fun r => Rsum (zip_with (fun q n => if (0 <? n)%nat then INR n * ln q else 0) p r)) rows) = Rsum (zip_with (fun q c => c * ln q) p (map (in_bin rows) (seq 0 k))).
Proof.
  intros Hp H. assert (forall c : list R, length c = k -> forall r, length r = k -> Rsum (zip_with (fun q n => if (0 <? n)%nat then INR n * ln q else 0) p r) + Rsum (zip_with (fun q c => c * ln q) p c) = Rsum (zip_with (fun q c => c * ln q) p (zip_with Rplus (map INR r) c))) as Hadd.
  { subst k. clear H. induction p as [|x p IH]; intros [|y c] Hc [|n r] Hr; try discriminate; cbn [zip_with map]; rewrite ?Rsum_nil, ?Rsum_cons; [lra|]. rewrite <- IH by (cbn in *; lia). destruct n; [change (0 <? 0)%nat with false; cbn [INR]; lra|change (0 <? S n)%nat with true; lra]. }
  induction H as [|r rows Hr H IH]; cbn [map].
  - rewrite Rsum_nil. symmetry. clear - Hp. assert (forall s, Rsum (zip_with (fun q c => c * ln q) p (map (in_bin []) s)) = 0) as H; [|apply H]. clear Hp. induction p as [|x p IH]; intros [|j s]; cbn [zip_with map]; rewrite ?Rsum_nil, ?Rsum_cons; try lra. rewrite IH. unfold in_bin. cbn. lra.
  - rewrite Rsum_cons, IH. rewrite (Hadd (map (in_bin rows) (seq 0 k))) by (auto; rewrite map_length, seq_length; auto). do 2 f_equal.
    rewrite <- Hr. clear. apply list_eq. intros i. rewrite lookup_zip_with. change (map (in_bin (r :: rows)) (seq 0 (length r))) with (in_bin (r :: rows) <$> seq 0 (length r)). change (map (in_bin rows) (seq 0 (length r))) with (in_bin rows <$> seq 0 (length r)). change (map INR r) with (INR <$> r). rewrite !list_lookup_fmap.
    destruct (r !! i) as [n|] eqn:E.
    + rewrite lookup_seq_lt by (eapply lookup_lt_Some; eauto). pose proof (nth_lookup_Some _ _ 0%nat _ E) as En. change (Some (INR n + in_bin rows i) = Some (in_bin (r :: rows) i)). unfold in_bin. cbn [map]. rewrite Rsum_cons, En. reflexivity.
    + rewrite lookup_seq_ge by (apply lookup_ge_None; auto). reflexivity.
Qed.
Lemma gibbs_counts p : forall q c, length p = length c -> length q = length c -> Forall (Rle 0) c -> (exists T, 0 < T /\ p = map (fun x => x / T) c) -> Forall2 (fun x y => 0 < y -> 0 < x) q c -> Forall (Rle 0) q -> Rsum q <= Rsum p ->
  Rsum (zip_with (fun q c => c * ln q) q c) <= Rsum (zip_with (fun q c => c * ln q) p c).
Proof.
  intros q c Lp Lq Hc (T & HT & ->) HF Hq Hs. destruct (kl_bound (map (fun x => x / T) c) q) as [B _].
  - rewrite map_length. auto.
  - apply List.Forall_forall. intros y Hy. apply in_map_iff in Hy as (x & <- & Hx). rewrite List.Forall_forall in Hc. apply Rmult_le_pos; [apply Hc; auto|apply Rlt_le, Rinv_0_lt_compat; auto].
  - clear - HF Hq HT. induction HF as [|x y q c Hxy HF IH]; cbn [map]; constructor; inversion Hq; subst; auto. split; auto. intros H. apply Hxy. apply (Rmult_lt_compat_r T) in H; auto. unfold Rdiv in H. rewrite Rmult_assoc, Rinv_l in H by lra. lra.
  - assert (Rsum (zip_with (fun q c => c * ln q) (map (fun x => x / T) c) c) - Rsum (zip_with (fun q c => c * ln q) q c) = T * kl (map (fun x => x / T) c) q) as E.
    { clear - HF Hc HT. unfold kl. induction HF as [|x y q c Hxy HF IH]; cbn [map zip_with]; rewrite ?Rsum_nil, ?Rsum_cons; [lra|]. inversion Hc as [|? ? Hy Hc']; subst. specialize (IH Hc'). rewrite Rmult_plus_distr_l, <- IH. clear IH.
      destruct (Req_EM_T (y / T) 0) as [Z|Z].
      - assert (y = 0) as ->. { apply (f_equal (fun v => v * T)) in Z. unfold Rdiv in Z. rewrite Rmult_assoc, Rinv_l in Z by lra. lra. } lra.
      - assert (0 < y) as Hy'. { destruct (Rle_lt_or_eq_dec _ _ Hy) as [|<-]; auto. exfalso. apply Z. unfold Rdiv. lra. } specialize (Hxy Hy'). assert (0 < y / T) by (apply Rdiv_lt_0_compat; auto). rewrite (ln_div (y / T)) by auto. replace (T * (y / T * (ln (y / T) - ln x))) with (y * (ln (y / T) - ln x)) by (field; lra). lra. }
    assert (0 <= T * kl (map (fun x => x / T) c) q) by (apply Rmult_le_pos; lra). lra.
Qed.
(** C108: of all probabilities of the bins, the estimated ones make the rows the most likely. *)
Theorem C108_mle : forall k rows p, table k rows -> 0 < balls rows -> probabilities p -> length p = k -> Forall (fun r => 0 < mpmf p r) rows ->
  Forall (fun r => 0 < mpmf (bin_shares k rows) r) rows /\ Rsum (map (fun r => ln (mpmf p r)) rows) <= Rsum (map (fun r => ln (mpmf (bin_shares k rows) r)) rows).
Proof.
  intros k rows p Ht Hb [Hp0 Hp1] Lp Hpos. pose proof (shares_sum k rows Ht ltac:(lra)) as Hs. set (s := bin_shares k rows) in *. assert (length s = k) as Ls by (unfold s, bin_shares; rewrite map_length, seq_length; auto).
  assert (Forall (Rle 0) s) as Hs0. { unfold s, bin_shares. apply List.Forall_forall. intros y Hy. apply in_map_iff in Hy as (j & <- & _). apply Rmult_le_pos; [apply in_bin_nonneg|apply Rlt_le, Rinv_0_lt_compat; auto]. }
  destruct Ht as [Hk HF]. assert (Forall (fun r => 0 < mpmf s r) rows) as Hpos'.
  { apply List.Forall_forall. intros r Hr. unfold mpmf. apply Rmult_lt_0_compat; [apply fact_pos|]. assert (length r = k) as Lr by (rewrite List.Forall_forall in HF; auto).
    assert (forall j, (j < k)%nat -> 0 < INR (nth j r 0%nat) -> 0 < nth j s 0) as Hj.
    { intros j Hj Hn. assert (nth j s 0 = in_bin rows j / balls rows) as ->. { apply nth_lookup_Some. unfold s, bin_shares. change (map (fun j => in_bin rows j / balls rows) (seq 0 k)) with ((fun j => in_bin rows j / balls rows) <$> seq 0 k). rewrite list_lookup_fmap, lookup_seq_lt by auto. reflexivity. } apply Rdiv_lt_0_compat; auto. unfold in_bin. clear - Hr Hn. induction rows as [|r' rows IH]; [destruct Hr|]. cbn [map]. rewrite Rsum_cons. fold (in_bin rows j).
      pose proof (in_bin_nonneg rows j). pose proof (pos_INR (nth j r' 0%nat)). destruct Hr as [->|Hr]; [lra|]. specialize (IH Hr). unfold in_bin in *. lra. }
    clearbody s. clear - Lr Ls Hs0 Hj. revert r k Lr Ls Hj. induction Hs0 as [|x s Hx Hs0 IH]; intros [|n r] k Lr Ls Hj; cbn [zip_with product fold_right]; try lra. fold (product (zip_with (fun q k => q ^ k / INR (fact k)) s r)).
    apply Rmult_lt_0_compat.
    - apply Rdiv_lt_0_compat; [|apply fact_pos]. destruct n; [cbn; lra|]. apply pow_lt. apply (Hj 0%nat); [cbn in Lr; lia|]. cbn [nth]. apply lt_0_INR. lia.
    - apply (IH r (length r)); [auto|cbn in *; lia|]. intros j Hjr Hn. apply (Hj (S j)); [cbn in *; lia|auto]. }
  split; auto. assert (forall p, Forall (Rle 0) p -> length p = k -> Forall (fun r => 0 < mpmf p r) rows -> Rsum (map (fun r => ln (mpmf p r)) rows) = Rsum (map (fun r => lnfact (list_sum r) - Rsum (map lnfact r)) rows) + Rsum (map (fun r => Rsum (zip_with (fun q k => if (0 <? k)%nat then INR k * ln q else 0) p r)) rows)) as Hln.
  { intros p' H0 L H. rewrite <- sum_plus. f_equal. apply map_ext_in. intros r Hr. rewrite List.Forall_forall in H, HF. apply ln_mpmf; auto. rewrite L. auto. }
  rewrite (Hln p), (Hln s), !(sum_swap k) by auto. apply Rplus_le_compat_l. apply gibbs_counts; auto.
  - rewrite map_length, seq_length. auto.
  - rewrite map_length, seq_length. auto.
  - apply List.Forall_forall. intros y Hy. apply in_map_iff in Hy as (j & <- & _). apply in_bin_nonneg.
  - exists (balls rows). split; auto. unfold s, bin_shares. rewrite map_map. auto.
  - apply Forall2_lookup. intros i. change (map (in_bin rows) (seq 0 k)) with (in_bin rows <$> seq 0 k). rewrite list_lookup_fmap. destruct (p !! i) as [x|] eqn:E.
    + rewrite lookup_seq_lt by (rewrite <- Lp; eapply lookup_lt_Some; eauto). cbn. constructor. unfold in_bin. intros Hin. clear - Hin HF Hpos E Lp Hp0. induction rows as [|r rows IH]; [cbn in Hin; lra|]. cbn [map] in Hin. rewrite Rsum_cons in Hin. inversion HF; subst. inversion Hpos; subst.
      destruct (Nat.eq_dec (nth i r 0%nat) 0%nat) as [Z|Z]; [rewrite Z in Hin; cbn [INR] in Hin; apply IH; auto; lra|]. destruct (ln_mpmf p r Hp0 ltac:(lia) ltac:(auto)) as [_ F]. assert (i < length r)%nat as Hi. { destruct (lt_dec i (length r)); auto. rewrite nth_overflow in Z by lia. lia. }
      apply lookup_lt_is_Some_2 in Hi as [n En]. pose proof (Forall2_lookup_lr _ _ _ _ _ _ F E En) as G. cbv beta in G. apply G. rewrite (nth_lookup_Some _ _ _ _ En) in Z. lia.
    + rewrite lookup_seq_ge by (rewrite <- Lp; apply lookup_ge_None; auto). constructor.
  - lra.
Qed.
Print Assumptions C108_mle.

(** C108: the covariance page is that of n tosses: symmetric, its rows sum to zero, no combination of the bins has a negative variance; and the parameters are as they were. *)
Theorem C108_covariance : forall N q, Forall (Rle 0) (bins q) -> let c := fst (covar (INR N :: q)) in let k := length (bins q) in
  snd (covar (INR N :: q)) = INR N :: q /\
  (forall i j, c i j = INR N * ((if (i =? j)%nat then nth i (bins q) 0 else 0) - nth i (bins q) 0 * nth j (bins q) 0)) /\ (forall i j, c i j = c j i) /\
  (forall i, (i < k)%nat -> Rsum (map (c i) (seq 0 k)) = 0) /\
  forall x, 0 <= Rsum (map (fun i => Rsum (map (fun j => x i * c i j * x j) (seq 0 k))) (seq 0 k)).
Proof.
  intros N q Hp c k. unfold c, covar. cbn [hd fst snd]. rewrite INR_IZR_INZ, Int_part_IZR, p_vector_bins. rewrite <- INR_IZR_INZ. split; [reflexivity|]. set (p := bins q) in *.
  assert (forall i j, (if (i =? j)%nat then INR N * nth i p 0 * (1 - nth i p 0) else if (i <? j)%nat then - INR N * nth i p 0 * nth j p 0 else - INR N * nth j p 0 * nth i p 0) = INR N * ((if (i =? j)%nat then nth i p 0 else 0) - nth i p 0 * nth j p 0)) as E.
  { intros i j. destruct (Nat.eqb_spec i j) as [->|]; [lra|]. destruct (i <? j)%nat; lra. }
  split; auto. split; [intros i j; rewrite !E, (Nat.eqb_sym j i); destruct (Nat.eqb_spec i j) as [->|]; lra|].
  assert (forall (f : nat -> R) i n a, (a <= i < a + n)%nat -> Rsum (map (fun j => if (i =? j)%nat then f j else 0) (seq a n)) = f i) as Hdelta.
  { intros f i. induction n as [|n IH]; intros a Ha; [lia|]. cbn [seq map]. rewrite Rsum_cons. destruct (Nat.eqb_spec i a) as [->|].
    - assert (Rsum (map (fun j => if (a =? j)%nat then f j else 0) (seq (S a) n)) = 0) as ->; [|lra]. transitivity (Rsum (map (fun _ : nat => 0) (seq (S a) n))); [|apply sum_zero]. f_equal. apply map_ext_in. intros j Hj. apply in_seq in Hj. destruct (Nat.eqb_spec a j); [lia|auto].
    - rewrite IH by lia. lra. }
  assert (forall l : list R, Rsum (map (fun j => nth j l 0) (seq 0 (length l))) = Rsum l) as Hnth.
  { induction l as [|y l IH]; cbn [length seq map]; rewrite ?Rsum_nil, ?Rsum_cons; auto. rewrite <- seq_shift, map_map. cbn [nth]. rewrite IH. auto. }
  assert (Rsum (map (fun j => nth j p 0) (seq 0 k)) = 1) as H1 by (unfold k; rewrite Hnth; apply bins_sum).
  assert (forall A (f : A -> R) a l, Rsum (map (fun x => a * f x) l) = a * Rsum (map f l)) as Hscale. { intros A f a l. induction l as [|y l IH]; cbn [map]; rewrite ?Rsum_nil, ?Rsum_cons; lra. }
  assert (forall A (f g : A -> R) l, Rsum (map (fun x => f x - g x) l) = Rsum (map f l) - Rsum (map g l)) as Hminus. { intros A f g l. induction l as [|y l IH]; cbn [map]; rewrite ?Rsum_nil, ?Rsum_cons; lra. }
  split.
  - intros i Hi. rewrite (map_ext _ (fun j => INR N * ((if (i =? j)%nat then nth i p 0 else 0) - nth i p 0 * nth j p 0))) by (intros; apply E). rewrite Hscale, Hminus, Hscale, H1, (Hdelta (fun _ => nth i p 0)) by lia. lra.
  - intros x. assert (0 <= INR N) as HN by apply pos_INR.
    assert (forall i, In i (seq 0 k) -> Rsum (map (fun j => x i * (if (i =? j)%nat then INR N * nth i p 0 * (1 - nth i p 0) else if (i <? j)%nat then - INR N * nth i p 0 * nth j p 0 else - INR N * nth j p 0 * nth i p 0) * x j) (seq 0 k)) = INR N * (nth i p 0 * (x i * x i) - nth i p 0 * x i * Rsum (map (fun j => nth j p 0 * x j) (seq 0 k)))) as Hrow.
    { intros i Hi. apply in_seq in Hi. rewrite (map_ext _ (fun j => INR N * ((if (i =? j)%nat then nth i p 0 * (x i * x j) else 0) - nth i p 0 * x i * (nth j p 0 * x j)))) by (intros j; rewrite E; destruct (i =? j)%nat; lra). rewrite Hscale, Hminus, Hscale, (Hdelta (fun j => nth i p 0 * (x i * x j))) by lia. lra. }
    rewrite (map_ext_in _ _ _ Hrow), Hscale. apply Rmult_le_pos; auto. rewrite Hminus. set (m := Rsum (map (fun j => nth j p 0 * x j) (seq 0 k))).
    rewrite (map_ext (fun i => nth i p 0 * x i * m) (fun i => m * (nth i p 0 * x i))) by (intros; lra). rewrite Hscale. fold m.
    assert (Rsum (map (fun i => nth i p 0 * (x i * x i)) (seq 0 k)) - m * m = Rsum (map (fun i => nth i p 0 * ((x i - m) * (x i - m))) (seq 0 k))) as ->.
    { rewrite (map_ext (fun i => nth i p 0 * ((x i - m) * (x i - m))) (fun i => nth i p 0 * (x i * x i) - (2 * m * (nth i p 0 * x i) - m * m * nth i p 0))) by (intros; lra). rewrite !Hminus, !Hscale, H1. fold m. lra. }
    assert (forall i, 0 <= nth i p 0) as Hpi. { intros i. destruct (nth_in_or_default i p 0) as [Hin| ->]; [rewrite List.Forall_forall in Hp; auto|lra]. }
    clearbody m p. clear - Hpi. induction (seq 0 k) as [|i l IH]; cbn [map]; rewrite ?Rsum_nil, ?Rsum_cons; [lra|]. pose proof (Hpi i). assert (0 <= (x i - m) * (x i - m)) by (apply Rle_0_sqr). assert (0 <= nth i p 0 * ((x i - m) * (x i - m))) by (apply Rmult_le_pos; auto). lra.
Qed.
Print Assumptions C108_covariance.
(** C108, refuted: the estimate's draw size is the number of bins, as the draws need.  It is n. *)
Theorem C108_refuted_dsize : forall k rows N, table k rows -> 0 < balls rows -> Forall (fun r => list_sum r = N) rows -> snd (estimate k rows) = Z.of_nat N.
Proof.
  intros k rows N Ht Hb HN. destruct (C108_shares k rows Ht Hb) as (n & q & E & _ & _ & _ & H). rewrite <- (H N HN). unfold estimate in *. cbn [fst snd] in *. destruct (put_back _ _) as [|a l] eqn:Ep; [discriminate|]. unfold put_back in Ep.
  destruct (if Req_EM_T _ 0 then _ else _) as [|b l']; [discriminate|]. injection Ep as <- <-. injection E as E _. apply eq_IZR in E. auto.
Qed.
Print Assumptions C108_refuted_dsize.
Example C108_nonvacuous : exists rows p, table 3 rows /\ 0 < balls rows /\ probabilities p /\ length p = 3%nat /\ Forall (fun r => 0 < mpmf p r) rows /\ bin_shares 3 rows <> p.
Proof.
  exists [[1; 2; 0]; [2; 0; 1]]%nat, [1 / 4; 1 / 4; 1 / 2]. assert (balls [[1; 2; 0]; [2; 0; 1]]%nat = 6) as E by (unfold balls; cbn; lra). split; [|split; [|split; [|split; [|split]]]].
  - split; [lia|]. repeat (apply List.Forall_cons || apply List.Forall_nil); reflexivity.
  - lra.
  - split; [repeat (apply List.Forall_cons || apply List.Forall_nil); lra|]. cbn. lra.
  - reflexivity.
  - repeat (apply List.Forall_cons || apply List.Forall_nil); unfold mpmf; cbn; lra.
  - unfold bin_shares. rewrite E. cbn. intros [= H _ _]. lra.
Qed.
