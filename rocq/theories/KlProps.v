(** C101: Kullback-Leibler divergence. *)
From Coq Require Import Reals Lra.
From Verif Require Import Base StatsSpec StatsProofs SearchModel KlModel.
Local Open Scope list_scope.
Local Open Scope R_scope.

(** the definition: the sum of p ln (p / q) over the rows with p > 0 *)
Definition kl (p q : list R) : R := Rsum (zip_with (fun a b => if Req_EM_T a 0 then 0 else a * ln (a / b)) p q).
(** the rows' shares of the weight; equal ones without weights *)
Definition shares {D} (l : list D) (w : option (list R)) : list R := match w with Some w => map (fun x => x / Rsum w) w | None => map (fun _ => 1 / INR (length l)) l end.
(** weights that make a distribution over the rows: as many as rows, none negative, not all zero *)
Definition proper {D} (l : list D) (w : option (list R)) : Prop := l <> [] /\ forall v, w = Some v -> length v = length l /\ Forall (Rle 0) v /\ 0 < Rsum v.

Lemma xadd_0 x : xadd (Fin 0) x = x. Proof. destruct x; cbn; auto. f_equal. lra. Qed.
Lemma step_ok p q d : 0 <= p -> (0 < p -> 0 < q) -> kl_step (Fin p) q (Fin d) = Fin (d + (if Req_EM_T p 0 then 0 else p * ln (p / q))).
Proof.
  intros Hp Hq. unfold kl_step. cbn [truthy]. destruct (Req_EM_T p 0) as [->|Hn]; [f_equal; lra|]. assert (0 < p) as Hp' by lra. specialize (Hq Hp'). destruct (Req_EM_T q 0); [lra|].
  unfold xquot. destruct (Req_EM_T q 0); [lra|]. assert (0 < p / q) as H by (apply Rdiv_lt_0_compat; auto). cbn [xlog]. destruct (Rlt_dec (p / q) 0); [lra|]. destruct (Rlt_dec 0 (p / q)); [|lra]. reflexivity.
Qed.
Lemma loop_ok {D} (rp : nat -> xr) (q : D -> R) (l : list D) : forall p i d, length p = length l -> (forall k x, p !! k = Some x -> rp (i + k)%nat = Fin x /\ 0 <= x) -> Forall2 (fun p x => 0 < p -> 0 < q x) p l ->
  fold_left (fun div '(i, x) => kl_step (rp i) (q x) div) (combine (seq i (length l)) l) (Fin d) = Fin (d + kl p (map q l)).
Proof.
  induction l as [|x l IH]; intros [|a p] i d Hl Hrp HF; try discriminate; cbn [length seq combine fold_left]; [unfold kl; cbn; f_equal; lra|]. inversion HF; subst.
  destruct (Hrp 0%nat a eq_refl) as [E Ha]. rewrite Nat.add_0_r in E. rewrite E, step_ok by auto. rewrite (IH p); auto.
  - f_equal. unfold kl. cbn [map zip_with]. rewrite Rsum_cons. lra.
  - intros k y Hk. replace (S i + k)%nat with (i + S k)%nat by lia. apply Hrp. auto.
Qed.
Lemma shares_length {D} (l : list D) w : proper l w -> length (shares l w) = length l.
Proof. intros [_ H]. destruct w as [v|]; cbn; rewrite map_length; auto. apply H. auto. Qed.
Lemma shares_rows {D} (l : list D) w : proper l w -> forall k x, shares l w !! k = Some x -> row_p (estim l w) k = Fin x /\ 0 <= x.
Proof.
  intros [Hne H] k x Hk. unfold row_p, estim. cbn [wts rows tw]. destruct w as [v|]; cbn [shares] in Hk.
  - destruct (H v eq_refl) as (Hl & Hv & Ht). rewrite fold_left_Rplus, Rplus_0_l. change (map (fun x => x / Rsum v) v) with ((fun x => x / Rsum v) <$> v) in Hk. rewrite list_lookup_fmap in Hk. destruct (v !! k) as [y|] eqn:E; [|discriminate]. injection Hk as <-.
    rewrite (nth_lookup_Some _ _ _ _ E). unfold xquot. destruct (Req_EM_T (Rsum v) 0); [lra|]. split; auto. apply Rmult_le_pos; [|apply Rlt_le, Rinv_0_lt_compat; auto]. rewrite List.Forall_forall in Hv. apply Hv. apply elem_of_list_In. eapply elem_of_list_lookup_2; eauto.
  - assert (0 < INR (length l)) as Hn by (apply lt_0_INR; destruct l; [congruence|cbn; lia]). assert (x = 1 / INR (length l)) as ->. { apply elem_of_list_lookup_2, elem_of_list_In, in_map_iff in Hk as (? & <- & _). auto. }
    unfold xquot. destruct (Req_EM_T (INR (length l)) 0); [lra|]. split; auto. apply Rmult_le_pos; [lra|apply Rlt_le, Rinv_0_lt_compat; auto].
Qed.
(** C101: from a PMF: the documented sum, if no row that has probability has none under the other model. *)
Theorem C101_value : forall D (l : list D) w (q : D -> R), proper l w -> Forall2 (fun p x => 0 < p -> 0 < q x) (shares l w) l -> kl_pmf (estim l w) q = Ok (Fin (kl (shares l w) (map q l))).
Proof.
  intros D l w q Hp HF. unfold kl_pmf. cbn [estim wts rows]. replace (match w with Some w => (length l <=? length w)%nat | None => true end) with true.
  2: { destruct w as [v|]; auto. destruct Hp as [_ H]. destruct (H v eq_refl) as (-> & _). symmetry. apply Nat.leb_refl. }
  rewrite (loop_ok (row_p (estim l w)) q l (shares l w)); auto; [rewrite Rplus_0_l; auto|apply shares_length; auto|]. intros k x Hk. apply shares_rows; auto.
Qed.
Print Assumptions C101_value.

Lemma ln_lower x : 0 < x -> 1 - 1 / x <= ln x /\ (ln x = 1 - 1 / x -> x = 1).
Proof.
  intros Hx. assert (0 < 1 / x) as Hi by (apply Rdiv_lt_0_compat; lra). assert (ln (1 / x) = - ln x) as E by (unfold Rdiv; rewrite Rmult_1_l; apply ln_Rinv; auto).
  assert (1 / x = 1 \/ ln (1 / x) < 1 / x - 1) as [H|H].
  { destruct (Req_EM_T (1 / x) 1); [auto|right]. assert (ln (1 / x) <> 0) as Hn. { intros Hz. apply n. rewrite <- (exp_ln (1 / x)) by auto. rewrite Hz. apply exp_0. } pose proof (exp_ineq1 _ Hn) as He. rewrite exp_ln in He by auto. lra. }
  - assert (x = 1) as -> by (apply (f_equal (fun y => y * x)) in H; unfold Rdiv in H; rewrite !Rmult_1_l, Rinv_l in H by lra; lra). rewrite ln_1. split; [lra|auto].
  - split; [lra|]. intros He. exfalso. lra.
Qed.
Lemma kl_bound p : forall q, length p = length q -> Forall (Rle 0) p -> Forall2 (fun p q => 0 <= q /\ (0 < p -> 0 < q)) p q -> Rsum p - Rsum q <= kl p q /\ (kl p q = Rsum p - Rsum q -> p = q).
Proof.
  induction p as [|a p IH]; intros [|b q] Hl Hp HF; try discriminate; unfold kl; cbn [zip_with]; rewrite ?Rsum_nil, ?Rsum_cons; [split; [lra|auto]|]. inversion Hp as [|? ? Ha Hp']; subst. inversion HF as [|? ? ? ? [Hb Hab] HF']; subst.
  destruct (IH q ltac:(cbn in Hl; lia) Hp' HF') as [B E]. unfold kl in B, E. destruct (Req_EM_T a 0) as [->|Hn].
  - split; [lra|]. intros H. assert (b = 0) as -> by lra. f_equal. apply E. lra.
  - assert (0 < a) as Ha' by lra. specialize (Hab Ha'). destruct (ln_lower (a / b)) as [L1 L2]; [apply Rdiv_lt_0_compat; auto|]. replace (1 / (a / b)) with (b / a) in * by (field; lra).
    assert (a - b <= a * ln (a / b)) as H1. { replace (a - b) with (a * (1 - b / a)) by (field; lra). apply Rmult_le_compat_l; lra. }
    split; [lra|]. intros H. assert (a * ln (a / b) = a - b) as H2 by lra. assert (a / b = 1) as H3. { apply L2. apply (Rmult_eq_reg_l a); [|lra]. rewrite H2. field. lra. }
    assert (a = b) as ->. { apply (f_equal (fun x => x * b)) in H3. unfold Rdiv in H3. rewrite Rmult_assoc, Rinv_l in H3 by lra. lra. } f_equal. apply E. lra.
Qed.
Lemma shares_sum {D} (l : list D) w : proper l w -> Rsum (shares l w) = 1.
Proof.
  intros [Hne H]. destruct w as [v|]; cbn [shares].
  - destruct (H v eq_refl) as (_ & _ & Ht). change (fun x => x / Rsum v) with (fun x => x * / Rsum v). rewrite Rsum_scale. apply Rinv_r. lra.
  - assert (0 < INR (length l)) as Hn by (apply lt_0_INR; destruct l; [congruence|cbn; lia]). assert (forall k (l : list D), Rsum (map (fun _ => k) l) = INR (length l) * k) as ->; [|field; lra].
    intros k l0. induction l0 as [|x l0 IH]; cbn [map length]; rewrite ?Rsum_nil, ?Rsum_cons, ?S_INR, ?IH; [cbn; lra|lra].
Qed.
(** C101: it is not negative if the other model's probabilities of the rows sum to at most one, and zero only if they are the same. *)
Theorem C101_gibbs : forall D (l : list D) w (q : D -> R) d, proper l w -> Forall2 (fun p x => 0 <= q x /\ (0 < p -> 0 < q x)) (shares l w) l -> Rsum (map q l) <= 1 -> kl_pmf (estim l w) q = Ok (Fin d) ->
  0 <= d /\ (d = 0 <-> shares l w = map q l).
Proof.
  intros D l w q d Hp HF Hq H. assert (Forall2 (fun p x => 0 < p -> 0 < q x) (shares l w) l) as HF1 by (eapply Forall2_impl; [exact HF|]; cbn; tauto).
  rewrite C101_value in H by auto. injection H as <-. pose proof (shares_sum l w Hp) as Hs.
  assert (Forall (Rle 0) (shares l w)) as Hpos. { apply List.Forall_forall. intros x Hx. apply elem_of_list_In, elem_of_list_lookup in Hx as (k & Hk). apply (shares_rows l w Hp) in Hk. tauto. }
  assert (Forall2 (fun p b => 0 <= b /\ (0 < p -> 0 < b)) (shares l w) (map q l)) as HF2. { clear - HF. induction HF; cbn [map]; constructor; auto. }
  destruct (kl_bound (shares l w) (map q l)) as [B E]; auto; [rewrite map_length, shares_length; auto|]. split; [lra|]. split.
  - intros Hz. apply E. rewrite Hz, Hs in *. lra.
  - intros He. rewrite <- He. unfold kl. clear. induction (shares l w) as [|a p IH]; cbn [zip_with]; rewrite ?Rsum_nil, ?Rsum_cons; auto. rewrite IH. destruct (Req_EM_T a 0); [lra|]. unfold Rdiv. rewrite Rinv_r by auto. rewrite ln_1. lra.
Qed.
Print Assumptions C101_gibbs.
(** C101: a PMF without repeated rows does not diverge from itself. *)
Theorem C101_self : forall D (eqb : D -> D -> bool) (l : list D) w, (forall x y, eqb x y = true <-> x = y) -> proper l w -> List.NoDup l ->
  kl_pmf (estim l w) (pmf_p1 eqb (estim l w)) = Ok (Fin 0) /\ map (pmf_p1 eqb (estim l w)) l = shares l w.
Proof.
  intros D eqb l w He Hp Hn.
  assert (forall pre l0, l = pre ++ l0 -> forall k x, l0 !! k = Some x -> find_from eqb x l0 (length pre) = Some (length pre + k)%nat) as Hfind.
  { intros pre l0. revert pre. induction l0 as [|y l0 IH]; intros pre Hl k x Hk; [destruct k; discriminate|]. cbn [find_from]. destruct k as [|k].
    - injection Hk as ->. rewrite (proj2 (He x x) eq_refl). f_equal. lia.
    - cbn in Hk. destruct (eqb x y) eqn:E.
      + apply He in E. subst y. exfalso. rewrite Hl in Hn. apply NoDup_remove_2 in Hn. apply Hn. apply in_or_app. right. apply elem_of_list_In. eapply elem_of_list_lookup_2; eauto.
      + replace (S (length pre)) with (length (pre ++ [y])) by (rewrite app_length; cbn; lia). rewrite (IH (pre ++ [y])) with (k := k); auto; [rewrite app_length; cbn; f_equal; lia|rewrite <- app_assoc; auto]. }
  assert (map (pmf_p1 eqb (estim l w)) l = shares l w) as E.
  { apply list_eq. intros k. change (map (pmf_p1 eqb (estim l w)) l) with (pmf_p1 eqb (estim l w) <$> l). rewrite list_lookup_fmap. destruct (l !! k) as [x|] eqn:Ek; cbn [fmap option_fmap option_map].
    - unfold pmf_p1. cbn [estim rows wts tw]. rewrite (Hfind [] l eq_refl k x Ek : find_from eqb x l 0 = Some k). destruct w as [v|]; cbn [shares].
      + destruct Hp as [_ H]. destruct (H v eq_refl) as (Hl & _ & _). rewrite fold_left_Rplus, Rplus_0_l. change (map (fun x => x / Rsum v) v) with ((fun x => x / Rsum v) <$> v). rewrite list_lookup_fmap.
        assert (k < length v)%nat as Hkv by (rewrite Hl; eapply lookup_lt_Some; eauto). apply lookup_lt_is_Some_2 in Hkv as [z Hz]. rewrite Hz, (nth_lookup_Some _ _ _ _ Hz). reflexivity.
      + change (map (fun _ => 1 / INR (length l)) l) with ((fun _ => 1 / INR (length l)) <$> l). rewrite list_lookup_fmap, Ek. reflexivity.
    - symmetry. apply lookup_ge_None. rewrite shares_length by auto. apply lookup_ge_None. auto. }
  split; auto. pose proof (C101_gibbs D l w (pmf_p1 eqb (estim l w))) as G. 
  assert (Forall2 (fun p x => 0 <= pmf_p1 eqb (estim l w) x /\ (0 < p -> 0 < pmf_p1 eqb (estim l w) x)) (shares l w) l) as HF.
  { assert (Forall (Rle 0) (shares l w)) as Hpos. { apply List.Forall_forall. intros x Hx. apply elem_of_list_In, elem_of_list_lookup in Hx as (k & Hk). apply (shares_rows l w Hp) in Hk. tauto. }
    revert Hpos. rewrite <- E. generalize (pmf_p1 eqb (estim l w)) as g. clear. intros g Hpos. induction l as [|x l IH]; cbn [map] in *; constructor; inversion Hpos; subst; auto. }
  assert (kl_pmf (estim l w) (pmf_p1 eqb (estim l w)) = Ok (Fin (kl (shares l w) (map (pmf_p1 eqb (estim l w)) l)))) as V. { apply C101_value; auto. eapply Forall2_impl; [exact HF|]. cbn. tauto. }
  destruct (G _ Hp HF ltac:(rewrite E, shares_sum by auto; lra) V) as [_ Z]. rewrite V. do 2 f_equal. apply Z. auto.
Qed.
Print Assumptions C101_self.
(** refuted: so with repeated rows.  Of two PMFs that are the same distribution, rows repeated in one and counted by weights in the other, the divergence is negative. *)
Theorem C101_refuted_repeated : kl_pmf (estim [0%nat; 0%nat] None) (pmf_p1 Nat.eqb (estim [0%nat] (Some [2]))) = Ok (Fin (- ln 2)) /\ - ln 2 < 0.
Proof.
  split; [|pose proof ln_lt_2; lra]. assert (proper [0%nat; 0%nat] None) as Hp by (split; [discriminate|discriminate]).
  assert (forall x, x = 0%nat -> pmf_p1 Nat.eqb (estim [0%nat] (Some [2])) x = 1) as E. { intros x ->. unfold pmf_p1, estim. cbn. field. }
  rewrite C101_value; auto. 2: { cbn [shares map]. repeat (apply List.Forall2_cons || apply List.Forall2_nil); rewrite E by auto; lra. }
  do 2 f_equal. unfold kl. cbn [shares map zip_with length]. rewrite !E by auto. replace (1 / INR 2) with (/ 2) by (cbn; field). destruct (Req_EM_T (/ 2) 0); [lra|]. unfold Rdiv. rewrite Rinv_1, Rmult_1_r, ln_Rinv by lra. cbn. lra.
Qed.
Print Assumptions C101_refuted_repeated.

Lemma step_nan p q : kl_step p q NaN = NaN.
Proof. unfold kl_step. destruct (truthy p); auto. destruct (Req_EM_T q 0); destruct p; reflexivity. Qed.
Lemma nan_stays {D} (rp : nat -> xr) (q : D -> R) l : fold_left (fun div '(i, x) => kl_step (rp i) (q x) div) l NaN = NaN.
Proof. induction l as [|[i x] l IH]; cbn [fold_left]; auto. rewrite step_nan. apply IH. Qed.
(** C101, refuted: minus infinity if a row that has probability has none under the other model, as documented.  It is NaN: the break is caught by the macro it is in, and the term itself, plus infinity,
    is added to the minus infinity. *)
Theorem C101_refuted_unsynced : forall D (l : list D) w (q : D -> R), proper l w -> (forall x, In x l -> 0 <= q x) -> (exists k p x, shares l w !! k = Some p /\ l !! k = Some x /\ 0 < p /\ q x = 0) ->
  kl_pmf (estim l w) q = Ok NaN.
Proof.
  intros D l w q Hp Hq (k & p & x & Hk & Hx & Hpp & Hqx). unfold kl_pmf. cbn [estim wts rows]. replace (match w with Some w => (length l <=? length w)%nat | None => true end) with true.
  2: { destruct w as [v|]; auto. destruct Hp as [_ H]. destruct (H v eq_refl) as (-> & _). symmetry. apply Nat.leb_refl. }
  f_equal. fold (estim l w). pose proof (shares_rows l w Hp) as Hr. pose proof (shares_length l w Hp) as Hl. revert Hr Hl Hk. generalize (shares l w) as ps. generalize (row_p (estim l w)) as rp. intros rp ps Hr Hl Hk.
  assert (forall l ps i k div, (forall x, In x l -> 0 <= q x) -> length ps = length l -> (forall k y, ps !! k = Some y -> rp (i + k)%nat = Fin y /\ 0 <= y) -> ps !! k = Some p -> l !! k = Some x ->
    (exists d, div = Fin d) \/ div = NaN -> fold_left (fun div '(i, x) => kl_step (rp i) (q x) div) (combine (seq i (length l)) l) div = NaN) as H.
  { clear - Hpp Hqx. induction l as [|y l IH]; intros [|a ps] i k div Hq Hl Hr Hk Hx Hd; try discriminate. cbn [length seq combine fold_left].
    destruct Hd as [[d ->]| ->]; [|rewrite step_nan; apply nan_stays].
    destruct (Hr 0%nat a eq_refl) as [E Ha]. rewrite Nat.add_0_r in E. rewrite E. destruct k as [|k].
    - injection Hk as ->. injection Hx as ->. assert (kl_step (Fin p) (q x) (Fin d) = NaN) as ->; [|apply nan_stays]. unfold kl_step. cbn [truthy]. destruct (Req_EM_T p 0); [lra|]. rewrite Hqx. destruct (Req_EM_T 0 0); [|congruence].
      unfold xquot. destruct (Req_EM_T 0 0); [|congruence]. destruct (Rlt_dec 0 p); [|lra]. cbn [xlog xscale]. destruct (Rlt_dec 0 p); [|lra]. reflexivity.
    - cbn in Hk, Hx. apply (IH ps (S i) k); auto; [intros z Hz; apply Hq; cbn; auto|intros j z Hz; replace (S i + j)%nat with (i + S j)%nat by lia; apply Hr; auto|].
      assert (0 <= q y) as Hy by (apply Hq; cbn; auto). destruct (Rle_lt_or_eq_dec 0 a Ha) as [Hpa|<-].
      + destruct (Rle_lt_or_eq_dec 0 (q y) Hy) as [Hy'|Hy'].
        * left. rewrite step_ok by auto. eauto.
        * right. unfold kl_step. cbn [truthy]. destruct (Req_EM_T a 0); [lra|]. rewrite <- Hy'. destruct (Req_EM_T 0 0); [|congruence]. unfold xquot. destruct (Req_EM_T 0 0); [|congruence]. destruct (Rlt_dec 0 a); [|lra]. cbn [xlog xscale]. destruct (Rlt_dec 0 a); [|lra]. reflexivity.
      + left. rewrite step_ok by lra. eauto. }
  apply (H l ps 0%nat k (Fin 0)); auto. left. eauto.
Qed.
Print Assumptions C101_refuted_unsynced.

(** C101: by draws: the mean of ln (p / q) over the draws; plus infinity if one of them has no probability under the other model. *)
Theorem C101_draws : forall D (draws : list D) p q, draws <> [] -> (forall x, In x draws -> 0 < p x /\ 0 <= q x) ->
  ((forall x, In x draws -> 0 < q x) -> kl_draws draws p q = Fin (avg (map (fun x => ln (p x / q x)) draws))) /\ ((exists x, In x draws /\ q x = 0) -> kl_draws draws p q = PInf).
Proof.
  intros D draws p q Hne Hpq. assert (0 < INR (length draws)) as Hn by (apply lt_0_INR; destruct draws; [congruence|cbn; lia]). unfold kl_draws.
  assert (forall x, In x draws -> (if Req_EM_T (p x) 0 then Fin 0 else xlog (xquot (p x) (q x))) = if Req_EM_T (q x) 0 then PInf else Fin (ln (p x / q x))) as Hterm.
  { intros x Hx. destruct (Hpq x Hx) as [A B]. destruct (Req_EM_T (p x) 0); [lra|]. unfold xquot. destruct (Req_EM_T (q x) 0); [destruct (Rlt_dec 0 (p x)); [reflexivity|lra]|].
    assert (0 < p x / q x) by (apply Rdiv_lt_0_compat; lra). cbn [xlog]. destruct (Rlt_dec (p x / q x) 0); [lra|]. destruct (Rlt_dec 0 (p x / q x)); [auto|lra]. }
  split.
  - intros Hq. assert (forall l d, (forall x, In x l -> In x draws) -> fold_left (fun div x => xadd div (if Req_EM_T (p x) 0 then Fin 0 else xlog (xquot (p x) (q x)))) l (Fin d) = Fin (d + Rsum (map (fun x => ln (p x / q x)) l))) as H.
    { induction l as [|x l IH]; intros d Hl; cbn [fold_left map]; rewrite ?Rsum_nil, ?Rsum_cons; [f_equal; lra|]. rewrite Hterm by (apply Hl; cbn; auto). pose proof (Hq x (Hl x (or_introl eq_refl))). destruct (Req_EM_T (q x) 0); [lra|]. cbn [xadd]. rewrite IH by (intros; apply Hl; cbn; auto). f_equal. lra. }
    rewrite H by auto. cbn [xscale]. f_equal. unfold avg. rewrite map_length. field. lra.
  - intros (x & Hx & Hqx). assert (forall l, (forall x, In x l -> In x draws) -> fold_left (fun div x => xadd div (if Req_EM_T (p x) 0 then Fin 0 else xlog (xquot (p x) (q x)))) l PInf = PInf) as Hstay.
    { induction l as [|y l IH]; intros Hl; cbn [fold_left]; auto. rewrite Hterm by (apply Hl; cbn; auto). destruct (Req_EM_T (q y) 0); cbn [xadd]; apply IH; intros; apply Hl; cbn; auto. }
    assert (forall l d, (forall x, In x l -> In x draws) -> In x l -> fold_left (fun div x => xadd div (if Req_EM_T (p x) 0 then Fin 0 else xlog (xquot (p x) (q x)))) l (Fin d) = PInf) as H.
    { induction l as [|y l IH]; intros d Hl Hin; [destruct Hin|]. cbn [fold_left]. rewrite Hterm by (apply Hl; cbn; auto). destruct (Req_EM_T (q y) 0) as [e|e]; cbn [xadd]; [apply Hstay; intros; apply Hl; cbn; auto|].
      apply IH; [intros; apply Hl; cbn; auto|]. destruct Hin as [->|]; [congruence|auto]. }
    rewrite H by auto. cbn [xscale]. destruct (Rlt_dec 0 (1 / INR (length draws))) as [|HH]; auto. exfalso. apply HH. apply Rdiv_lt_0_compat; lra.
Qed.
Print Assumptions C101_draws.
Example C101_nonvacuous : exists (l : list nat) w (q : nat -> R), proper l w /\ List.NoDup l /\ Forall2 (fun p x => 0 <= q x /\ (0 < p -> 0 < q x)) (shares l w) l /\ Rsum (map q l) <= 1 /\ shares l w <> map q l.
Proof.
  exists [3%nat; 5%nat; 6%nat], (Some [1; 3; 0]), (fun x => 1 / 3). assert (Rsum [1; 3; 0] = 4) as E by (cbn; lra). split; [|split; [|split; [|split]]].
  - split; [discriminate|]. intros v [= <-]. rewrite E. split; auto. split; [repeat (apply List.Forall_cons || apply List.Forall_nil); lra|lra].
  - repeat (apply List.NoDup_cons; [cbn; lia|]). apply List.NoDup_nil.
  - cbn [shares map]. repeat (apply List.Forall2_cons || apply List.Forall2_nil); lra.
  - cbn. lra.
  - cbn [shares map]. rewrite E. intros [= H _ _]. lra.
Qed.
