(** C23, C24: draws from a PMF, its p and cdf.  Doubles are taken as real numbers. *)
From Coq Require Import Reals Lra.
From Verif Require Import DataModel PmfModel.
Local Open Scope list_scope.
Local Open Scope nat_scope.

(** -------- the binary search -------- *)
Section S.
Variable size : nat.
Variable below : nat -> bool.
Hypothesis mono : forall i j, i <= j -> j < size -> below j = true -> below i = true.
Hypothesis top_ok : below (size - 1) = false.

Lemma search_spec : forall fuel top bottom current,
  top - bottom < fuel -> bottom < current -> current <= top -> top < size -> below top = false ->
  (bottom = 0 \/ below bottom = true) -> (current = top -> below (top - 1) = true) ->
  exists k, search size below fuel top bottom current = Ok k /\ k < size /\ below k = false /\ (k = 0 \/ below (k - 1) = true).
Proof.
  induction fuel as [|fuel IH]; intros top bottom current Hf Hbc Hct Hts Htop Hbot Hcur; [lia|].
  cbn [search]. unfold rd at 1. destruct (Nat.ltb_spec current size); [|lia]. cbn [rbind].
  destruct current as [|prev]; [lia|]. unfold rd at 1. destruct (Nat.ltb_spec prev size); [|lia]. cbn [rbind].
  destruct (below (S prev)) eqn:Ec.
  - cbn [negb andb]. assert (S prev <> top) as Hne by congruence.
    destruct (Nat.eqb_spec (S prev) (top - 1)) as [E1|E1].
    + destruct (Nat.eqb_spec (S (S prev)) 0); [lia|]. apply IH; auto; try lia. intros _. replace (top - 1) with (S prev) by lia. auto.
    + assert (S prev < (S prev + top) / 2 < top) as Hmid by (split; [apply Nat.div_le_lower_bound; lia|apply Nat.div_lt_upper_bound; lia]).
      destruct (Nat.eqb_spec ((S prev + top) / 2) 0); [lia|]. apply IH; auto; lia.
  - cbn [negb andb]. destruct (below prev) eqn:Ep.
    + exists (S prev). split; [auto|]. split; [auto|]. split; [auto|]. right. replace (S prev - 1) with prev by lia. auto.
    + cbn [negb]. assert (S prev <> top) as Hne.
      { intros E. specialize (Hcur E). replace (top - 1) with prev in Hcur by lia. congruence. }
      destruct (Nat.eqb_spec (S prev) (S bottom)) as [E1|E1].
      * assert (bottom = prev) as -> by lia. destruct Hbot as [->|Hb]; [|congruence].
        replace (1 - 1) with 0 by lia. destruct (Nat.eqb_spec 0 0); [|lia]. unfold rd.
        destruct (Nat.ltb_spec 0 size); [|lia]. cbn [rbind]. rewrite Ep. cbn. exists 0. split; [auto|]. split; [lia|]. auto.
      * assert (bottom < (bottom + S prev) / 2 < S prev) as Hmid by (split; [apply Nat.div_le_lower_bound; lia|apply Nat.div_lt_upper_bound; lia]).
        destruct (Nat.eqb_spec ((bottom + S prev) / 2) 0); [lia|]. apply IH; auto; lia.
Qed.

Lemma draw_index_spec fuel : 0 < size -> size <= fuel ->
  exists k, draw_index size below fuel = Ok k /\ k < size /\ below k = false /\ (k = 0 \/ below (k - 1) = true).
Proof.
  intros Hs Hf. unfold draw_index. destruct (Nat.eqb_spec ((size - 1) / 2) 0) as [E0|E0].
  - assert (size <= 2) as Hle.
    { destruct (decide (size <= 2)); [auto|]. exfalso. assert (1 <= (size - 1) / 2); [apply Nat.div_le_lower_bound; lia|lia]. }
    destruct (Nat.eqb_spec size 1) as [->|]; cbn [negb].
    + exists 0. split; [auto|]. split; [lia|]. split; [exact top_ok|auto].
    + assert (size = 2) by lia. subst size. unfold rd. cbn. destruct (below 0) eqn:E.
      * exists 1. auto.
      * exists 0. auto.
  - assert (3 <= size) as Hge.
    { destruct (decide (3 <= size)); [auto|]. exfalso. apply E0. apply Nat.div_small. lia. }
    assert ((size - 1) / 2 < size - 1) by (apply Nat.div_lt_upper_bound; lia).
    apply search_spec; auto; try lia.
Qed.
Lemma index_unique k k' : k < size -> k' < size -> below k = false -> below k' = false ->
  (k = 0 \/ below (k - 1) = true) -> (k' = 0 \/ below (k' - 1) = true) -> k = k'.
Proof.
  intros H1 H2 H3 H4 H5 H6. destruct (lt_eq_lt_dec k k') as [[Hlt|]|Hlt]; auto.
  - destruct H6 as [->|H6]; [lia|]. rewrite (mono k (k' - 1)) in H3; auto; [discriminate|lia|lia].
  - destruct H5 as [->|H5]; [lia|]. rewrite (mono k' (k - 1)) in H4; auto; [discriminate|lia|lia].
Qed.
End S.

Local Open Scope R_scope.
(** -------- the cumulative mass -------- *)
(** specification: the total of the first k weights *)
Definition mass (w : list R) (k : nat) : R := fold_right Rplus 0 (take k w).

Lemma mass_0 w : mass w 0 = 0. Proof. destruct w; reflexivity. Qed.
Lemma running_length acc w : length (running acc w) = length w.
Proof. revert acc; induction w; intros; cbn; auto. Qed.
Lemma running_nth w : forall acc k, (k < length w)%nat -> nth k (running acc w) 0 = acc + mass w (S k).
Proof.
  induction w as [|x w IH]; intros acc k Hk; cbn in *; [lia|]. destruct k as [|k].
  - unfold mass. cbn. destruct w; cbn; lra.
  - rewrite IH by lia. unfold mass. cbn. lra.
Qed.
Lemma last_nth (l : list R) : l <> [] -> rlast l = nth (length l - 1) l 0.
Proof.
  intros Hl. unfold rlast. induction l as [|x l IH]; [congruence|]. cbn [length]. replace (S (length l) - 1)%nat with (length l) by lia.
  destruct l as [|y l]; [auto|]. cbn [length]. change (List.last (x :: y :: l) 0) with (List.last (y :: l) 0).
  rewrite IH by discriminate. cbn [length nth]. replace (S (length l) - 1)%nat with (length l) by lia. auto.
Qed.
Definition total (w : list R) : R := mass w (length w).
Lemma running_last w : w <> [] -> rlast (running 0 w) = total w.
Proof.
  intros Hw. rewrite last_nth.
  - rewrite running_length, running_nth.
    + unfold total. replace (S (length w - 1)) with (length w); [lra|]. destruct w; [congruence|cbn; lia].
    + destruct w; [congruence|cbn; lia].
  - destruct w; [congruence|discriminate].
Qed.
Lemma setup_spec w : w <> [] -> total w <> 0 ->
  exists cdf, setup_cmf w = Some cdf /\ length cdf = length w /\
  forall k, (k < length w)%nat -> nth k cdf 0 = mass w (S k) / total w.
Proof.
  intros Hw Ht. unfold setup_cmf. rewrite running_last by auto. destruct (Req_EM_T (total w) 0); [congruence|].
  eexists. split; [reflexivity|]. rewrite map_length, running_length. split; [auto|]. intros k Hk.
  rewrite (nth_indep _ 0 ((fun x => x * (1 / total w)) 0)) by (rewrite map_length, running_length; auto).
  rewrite (map_nth (fun x => x * (1 / total w))), running_nth by auto. unfold Rdiv. lra.
Qed.
Lemma mass_S w k x : w !! k = Some x -> mass w (S k) = mass w k + x.
Proof.
  revert k; induction w as [|y w IH]; intros [|k] H; try discriminate.
  - cbn in H. injection H as Hyx. subst y. unfold mass. cbn [take fold_right]. rewrite !firstn_O. cbn [fold_right]. lra.
  - unfold mass in *. cbn in *. rewrite (IH k H). lra.
Qed.
Lemma mass_mono w : Forall (Rle 0) w -> forall i j, (i <= j)%nat -> mass w i <= mass w j.
Proof.
  intros HF i j Hij. induction Hij as [|j Hij IH]; [lra|]. eapply Rle_trans; [exact IH|].
  destruct (w !! j) as [x|] eqn:Ex.
  - rewrite (mass_S w j x Ex). rewrite Forall_lookup in HF. specialize (HF _ _ Ex). lra.
  - unfold mass. apply lookup_ge_None in Ex. rewrite !take_ge by lia. lra.
Qed.
Lemma rltb_true a b : rltb a b = true <-> a < b.
Proof. unfold rltb. destruct (Rlt_dec a b); intuition congruence. Qed.
Lemma rltb_false a b : rltb a b = false <-> b <= a.
Proof. unfold rltb. destruct (Rlt_dec a b); split; intros; try discriminate; auto; lra. Qed.

Lemma draw_spec w u fuel : w <> [] -> Forall (Rle 0) w -> 0 < total w -> u <= 1 -> (length w <= fuel)%nat ->
  exists k, pmf_draw fuel w u = Ok (Some k) /\ (k < length w)%nat /\
    u * total w <= mass w (S k) /\ (k = 0%nat \/ mass w k < u * total w).
Proof.
  intros Hw HF Ht Hu Hfuel. unfold pmf_draw.
  destruct (setup_spec w Hw ltac:(lra)) as (cdf & -> & Hl & Hc).
  assert (0 < length w)%nat as Hpos by (destruct w; [congruence|cbn; lia]).
  assert (forall k, (k < length w)%nat -> nth k cdf 0 < u <-> mass w (S k) < u * total w) as Hb.
  { intros k Hk. rewrite Hc by auto. split; intros H.
    - apply (Rmult_lt_compat_r (total w)) in H; auto. unfold Rdiv in H. rewrite Rmult_assoc, Rinv_l, Rmult_1_r in H by lra. auto.
    - apply (Rmult_lt_reg_r (total w)); auto. unfold Rdiv. rewrite Rmult_assoc, Rinv_l, Rmult_1_r by lra. auto. }
  destruct (draw_index_spec (length w) (fun k => rltb (nth k cdf 0) u)) with (fuel := fuel) as (k & -> & Hk & H1 & H2); auto.
  - intros i j Hij Hj Hr. apply rltb_true in Hr. apply rltb_true. apply Hb in Hr; auto. apply Hb; [lia|].
    eapply Rle_lt_trans; [|exact Hr]. apply mass_mono; auto. lia.
  - apply rltb_false. rewrite Hc by lia. replace (S (length w - 1)) with (length w) by lia. fold (total w).
    unfold Rdiv. rewrite Rinv_r by lra. auto.
  - exists k. split; [auto|]. split; [auto|]. split.
    + apply rltb_false in H1. apply Rnot_lt_le. intros H. apply Hb in H; auto. lra.
    + destruct H2 as [H2|H2]; [auto|]. destruct k as [|k]; [auto|]. right. apply rltb_true in H2.
      replace (S k - 1)%nat with k in H2 by lia. apply Hb; auto. lia.
Qed.

(** C23: the row drawn is the one whose cumulative-weight interval holds the uniform draw; in particular the
    search terminates and stays inside the array. *)
Lemma C23_aux w u fuel : w <> [] -> Forall (Rle 0) w -> 0 < total w -> 0 < u <= 1 -> (length w <= fuel)%nat ->
  exists k, pmf_draw fuel w u = Ok (Some k) /\ (k < length w)%nat /\ mass w k < u * total w <= mass w (S k) /\
    (forall k', (k' < length w)%nat -> mass w k' < u * total w <= mass w (S k') -> k' = k).
Proof.
  intros Hw HF Ht [Hu0 Hu] Hf. destruct (draw_spec w u fuel Hw HF Ht Hu Hf) as (k & H1 & H2 & H3 & H4).
  exists k. split; [auto|]. split; [auto|].
  assert (mass w k < u * total w) as Hlow.
  { destruct H4 as [->|]; auto. unfold mass. cbn. apply Rmult_lt_0_compat; auto. }
  split; [auto|]. intros k' Hk' [A B].
  destruct (lt_eq_lt_dec k' k) as [[Hlt|]|Hlt]; auto.
  - pose proof (mass_mono w HF (S k') k ltac:(lia)). lra.
  - pose proof (mass_mono w HF (S k) k' ltac:(lia)). lra.
Qed.
Theorem C23_draw_follows_weights : forall w u fuel, w <> [] -> Forall (Rle 0) w -> 0 < total w -> 0 < u <= 1 -> (length w <= fuel)%nat ->
  exists k, pmf_draw fuel w u = Ok (Some k) /\ (k < length w)%nat /\ mass w k < u * total w <= mass w (S k) /\
    (forall k', (k' < length w)%nat -> mass w k' < u * total w <= mass w (S k') -> k' = k).
Proof. exact C23_aux. Qed.
Print Assumptions C23_draw_follows_weights.
(** A row of weight zero is never drawn (except possibly the first, by a draw of exactly zero). *)
Lemma C23_zero_aux w u fuel k : w <> [] -> Forall (Rle 0) w -> 0 < total w -> 0 < u <= 1 -> (length w <= fuel)%nat ->
  pmf_draw fuel w u = Ok (Some k) -> exists x, w !! k = Some x /\ 0 < x.
Proof.
  intros Hw HF Ht Hu Hf Hd. destruct (C23_aux w u fuel Hw HF Ht Hu Hf) as (k' & H1 & H2 & [H3 H4] & _).
  rewrite Hd in H1. injection H1 as <-. destruct (lookup_lt_is_Some_2 w k H2) as [x Hx]. exists x. split; [auto|].
  rewrite (mass_S w k x Hx) in H4. lra.
Qed.
Theorem C23_zero_weight_never_drawn : forall w u fuel k, w <> [] -> Forall (Rle 0) w -> 0 < total w -> 0 < u <= 1 -> (length w <= fuel)%nat ->
  pmf_draw fuel w u = Ok (Some k) -> exists x, w !! k = Some x /\ 0 < x.
Proof. exact C23_zero_aux. Qed.
Print Assumptions C23_zero_weight_never_drawn.
(** A uniform draw of exactly 0 (which gsl_rng_uniform can return) gives the first row. *)
Lemma C23_u0_aux w fuel : w <> [] -> Forall (Rle 0) w -> 0 < total w -> (length w <= fuel)%nat -> pmf_draw fuel w 0 = Ok (Some 0%nat).
Proof.
  intros Hw HF Ht Hf. destruct (draw_spec w 0 fuel Hw HF Ht ltac:(lra) Hf) as (k & H1 & H2 & H3 & H4).
  destruct H4 as [->|H4]; [auto|]. exfalso. pose proof (mass_mono w HF 0 k ltac:(lia)) as H. rewrite mass_0 in H. lra.
Qed.
Theorem C23_draw_zero : forall w fuel, w <> [] -> Forall (Rle 0) w -> 0 < total w -> (length w <= fuel)%nat ->
  pmf_draw fuel w 0 = Ok (Some 0%nat).
Proof. exact C23_u0_aux. Qed.
Print Assumptions C23_draw_zero.
Theorem C23_zero_weight_drawn_refuted : exists w fuel, Forall (Rle 0) w /\ 0 < total w /\ w !! 0%nat = Some 0 /\ pmf_draw fuel w 0 = Ok (Some 0%nat).
Proof.
  exists [0; 1], 2%nat. assert (Forall (Rle 0) [0; 1]) by (repeat constructor; lra). assert (0 < total [0; 1]) by (unfold total, mass; cbn; lra).
  split; [auto|]. split; [auto|]. split; [auto|]. apply C23_u0_aux; auto.
Qed.
Print Assumptions C23_zero_weight_drawn_refuted.
Theorem C23_bad_density : forall w u fuel, w <> [] -> total w = 0 -> pmf_draw fuel w u = Ok None.
Proof.
  intros w u fuel Hw Ht. unfold pmf_draw, setup_cmf. rewrite running_last by auto. destruct (Req_EM_T (total w) 0); [auto|congruence].
Qed.
Print Assumptions C23_bad_density.
Example C23_nonvacuous : exists w, w <> [] /\ Forall (Rle 0) w /\ 0 < total w /\ pmf_draw 3 w (1/2) = Ok (Some 2%nat).
Proof.
  exists [1; 0; 3]. assert (Forall (Rle 0) [1; 0; 3]) as HF by (repeat constructor; lra).
  assert (total [1; 0; 3] = 4) as Ht by (unfold total, mass; cbn; lra).
  split; [discriminate|]. split; [auto|]. split; [lra|].
  destruct (C23_aux [1; 0; 3] (1/2) 3 ltac:(discriminate) HF ltac:(lra) ltac:(lra) ltac:(cbn; lia)) as (k & H1 & H2 & H3 & H4).
  rewrite H1. rewrite <- (H4 2%nat); [auto|cbn; lia|]. rewrite Ht. unfold mass; cbn. lra.
Qed.

(** Without weights: the last of several rows is never drawn. *)
Lemma trunc_bound x n : 0 <= x -> x < INR n -> (trunc x < n)%nat.
Proof.
  intros H0 Hx. unfold trunc. pose proof (base_Int_part x) as [H1 H2].
  apply INR_lt. apply Rle_lt_trans with x; [|auto].
  rewrite INR_IZR_INZ. rewrite Z2Nat.id; [lra|].
  assert (IZR (-1) < IZR (Int_part x)) as H3 by (cbn; lra). apply lt_IZR in H3. lia.
Qed.
Lemma C23_last_aux n u : (2 <= n)%nat -> 0 <= u < 1 -> (pmf_draw_unweighted n u < n - 1)%nat.
Proof.
  intros Hn [H0 H1]. unfold pmf_draw_unweighted. apply trunc_bound.
  - apply Rmult_le_pos; [auto|apply pos_INR].
  - assert (0 < INR (n - 1)) by (apply lt_0_INR; lia). rewrite <- (Rmult_1_l (INR (n - 1))) at 2. apply Rmult_lt_compat_r; auto.
Qed.
Theorem C23_unweighted_last_row_refuted : forall n u, (2 <= n)%nat -> 0 <= u < 1 -> (pmf_draw_unweighted n u < n - 1)%nat.
Proof. exact C23_last_aux. Qed.
Print Assumptions C23_unweighted_last_row_refuted.

(** What is written out: the whole row if it lies in the vector or in the matrix alone. *)
Theorem C23_draw_output : forall E (x : E) (r : list E), draw_out (Some x) None = [x] /\ draw_out None (Some r) = r.
Proof. intros; split; reflexivity. Qed.
Print Assumptions C23_draw_output.
(** With both, the first matrix column is lost. *)
Theorem C23_vector_and_matrix_refuted : exists (x : nat) r, draw_out (Some x) (Some r) <> x :: r.
Proof. exists 1%nat, [2%nat; 3%nat]. discriminate. Qed.
Print Assumptions C23_vector_and_matrix_refuted.

(** -------- C24 -------- *)
Lemma cmf_first w x : w !! 0%nat = Some x -> total w <> 0 -> cmf_at (Some w) (length w) (Some 0%nat) = Some (x / total w).
Proof.
  intros Hx Ht. assert (w <> []) as Hw by (destruct w; [discriminate|discriminate]).
  unfold cmf_at. destruct (setup_spec w Hw Ht) as (cdf & -> & Hl & Hc). f_equal.
  specialize (Hc 0%nat). assert (0 < length w)%nat by (destruct w; [congruence|cbn; lia]). specialize (Hc ltac:(auto)).
  destruct cdf as [|c cdf]; [cbn in Hl; lia|]. cbn in *. unfold rsum. cbn. replace (take 0 cdf) with (@nil R) by auto. cbn.
  rewrite (mass_S w 0 x Hx) in Hc. rewrite mass_0 in Hc. rewrite Hc. unfold Rdiv. lra.
Qed.
(** What the code does satisfy: an observation that is not there has cdf 0, and the first has its own share. *)
Theorem C24_cdf_first_and_absent : forall w x, w !! 0%nat = Some x -> total w <> 0 ->
  cmf_at (Some w) (length w) (Some 0%nat) = Some (x / total w) /\ forall ow n, cmf_at ow n None = Some 0.
Proof. intros w x H1 H2. exact (conj (cmf_first w x H1 H2) (fun _ _ => eq_refl)). Qed.
Print Assumptions C24_cdf_first_and_absent.
(** Exactly what it computes: the cumulative masses are summed once more. *)
Lemma rsum_fold l : rsum l = fold_right Rplus 0 l.
Proof.
  unfold rsum. assert (forall (l : list R) a, fold_left Rplus l a = a + fold_right Rplus 0 l) as H.
  { clear. induction l as [|x k IH]; intros a; cbn [fold_left fold_right]; [lra|]. rewrite IH. lra. }
  rewrite H. lra.
Qed.
Lemma fold_take_map (f : nat -> R) : forall n (l : list R), (n <= length l)%nat -> (forall k, (k < n)%nat -> nth k l 0 = f k) ->
  fold_right Rplus 0 (take n l) = fold_right Rplus 0 (map f (seq 0 n)).
Proof.
  intros n l Hn H. f_equal. apply list_eq; intros i. rewrite lookup_map. destruct (decide (i < n)%nat).
  - rewrite lookup_take by auto. rewrite lookup_seq_lt by auto. cbn. rewrite <- H by auto.
    destruct (lookup_lt_is_Some_2 l i ltac:(lia)) as [x Hx]. rewrite Hx. f_equal. symmetry. apply nth_lookup_Some. auto.
  - rewrite lookup_take_ge by lia. rewrite (proj2 (lookup_ge_None (seq 0 n) i)) by (rewrite seq_length; lia). auto.
Qed.
Lemma C24_exact_aux w k : w <> [] -> total w <> 0 -> (k < length w)%nat ->
  cmf_at (Some w) (length w) (Some k) = Some (fold_right Rplus 0 (map (fun i => mass w (S i) / total w) (seq 0 (S k)))).
Proof.
  intros Hw Ht Hk. unfold cmf_at. destruct (setup_spec w Hw Ht) as (cdf & -> & Hl & Hc). f_equal. rewrite rsum_fold.
  replace (k + 1)%nat with (S k) by lia. apply fold_take_map; [lia|]. intros i Hi. apply Hc. lia.
Qed.
Theorem C24_cdf_computes_double_sum : forall w k, w <> [] -> total w <> 0 -> (k < length w)%nat ->
  cmf_at (Some w) (length w) (Some k) = Some (fold_right Rplus 0 (map (fun i => mass w (S i) / total w) (seq 0 (S k)))).
Proof. exact C24_exact_aux. Qed.
Print Assumptions C24_cdf_computes_double_sum.
(** So it exceeds one, *)
Theorem C24_cdf_exceeds_one_refuted : exists w k, w <> [] /\ Forall (Rle 0) w /\ (k < length w)%nat /\
  exists c, cmf_at (Some w) (length w) (Some k) = Some c /\ 1 < c.
Proof.
  exists [1; 1], 1%nat. split; [discriminate|]. split; [repeat constructor; lra|]. split; [cbn; lia|].
  rewrite C24_exact_aux; [|discriminate|unfold total, mass; cbn; lra|cbn; lia].
  eexists. split; [reflexivity|]. unfold total, mass. cbn. lra.
Qed.
Print Assumptions C24_cdf_exceeds_one_refuted.
(** and without weights it is short by the observation's own mass, never reaching 1. *)
Theorem C24_unweighted_cdf_below_one_refuted : forall n k c, (k < n)%nat -> cmf_at None n (Some k) = Some c -> c = INR k / INR n /\ c < 1.
Proof.
  intros n k c Hk [= <-]. split; [auto|]. apply lt_INR in Hk. pose proof (pos_INR k).
  apply (Rmult_lt_reg_r (INR n)); [lra|]. unfold Rdiv. rewrite Rmult_assoc, Rinv_l by lra. lra.
Qed.
Print Assumptions C24_unweighted_cdf_below_one_refuted.

(** Probabilities: the rows' probabilities are their shares; over all rows they add up to one. *)
Lemma C24_p_aux w k x : w !! k = Some x -> p_of (Some w) (total w) (length w) [Some k] = x / total w.
Proof. intros Hx. cbn. rewrite (nth_lookup_Some w k 0 x Hx). lra. Qed.
Lemma fold_scale (l : list R) t : fold_right Rplus 0 (map (fun x => x / t) l) = fold_right Rplus 0 l / t.
Proof. induction l as [|x l IH]; cbn; [lra|]. rewrite IH. lra. Qed.
Lemma C24_p_sum_aux w : total w <> 0 ->
  fold_right Rplus 0 (map (fun k => p_of (Some w) (total w) (length w) [Some k]) (seq 0 (length w))) = 1.
Proof.
  intros Ht. assert (map (fun k => p_of (Some w) (total w) (length w) [Some k]) (seq 0 (length w)) = map (fun x => x / total w) w) as ->.
  { apply list_eq; intros i. rewrite !lookup_map. destruct (decide (i < length w)%nat).
    - rewrite lookup_seq_lt by auto. destruct (lookup_lt_is_Some_2 w i) as [x Hx]; auto. rewrite Hx. cbn [option_map]. f_equal.
      apply C24_p_aux. auto.
    - rewrite (proj2 (lookup_ge_None (seq 0 _) i)), (proj2 (lookup_ge_None w i)) by (rewrite ?seq_length; lia). auto. }
  rewrite fold_scale. unfold total at 1 in Ht. unfold mass in Ht. rewrite firstn_all in Ht. unfold total, mass. rewrite firstn_all. field. auto.
Qed.
Theorem C24_probabilities : forall w, total w <> 0 ->
  (forall k x, w !! k = Some x -> p_of (Some w) (total w) (length w) [Some k] = x / total w) /\
  fold_right Rplus 0 (map (fun k => p_of (Some w) (total w) (length w) [Some k]) (seq 0 (length w))) = 1.
Proof. intros w Ht. exact (conj (C24_p_aux w) (C24_p_sum_aux w Ht)). Qed.
Print Assumptions C24_probabilities.
(** independent observations multiply; an unknown observation has probability zero *)
Lemma C24_p_prod_aux ow t n a b : p_of ow t n (a ++ b) = p_of ow t n a * p_of ow t n b.
Proof. induction a as [|[k|] a IH]; cbn; [lra|rewrite IH; lra|lra]. Qed.
Theorem C24_probabilities_multiply : forall ow t n a b, p_of ow t n (a ++ b) = p_of ow t n a * p_of ow t n b /\ p_of ow t n [None] = 0.
Proof. intros. exact (conj (C24_p_prod_aux ow t n a b) eq_refl). Qed.
Print Assumptions C24_probabilities_multiply.
Example C24_nonvacuous : total [1; 2; 1] <> 0 /\ p_of (Some [1; 2; 1]) (total [1; 2; 1]) 3 [Some 1%nat] = / 2.
Proof. unfold total, mass; cbn. split; [lra|]. field. Qed.
