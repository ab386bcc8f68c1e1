(** C52: entropy of a vector; C53: apop_data_summarize. *)
From Coq Require Import Reals Lra Psatz Sorting.Permutation.
From Verif Require Import DataModel NamesProofs StatsModel StatsSpec StatsProofs StatsMatProofs StatsProps DistProofs NormProofs DistProps.
Local Notation sqrt := R_sqrt.sqrt.
Local Open Scope list_scope.
Local Open Scope R_scope.
Local Arguments Rsum : simpl never.

(** Shannon entropy of the frequencies v/sum(v), with 0 ln 0 = 0 *)
Definition xlnx (p : R) : R := if Req_EM_T p 0 then 0 else ln p * p.
Definition shannon (v : list R) : R := - Rsumf (fun x => xlnx (x / Rsum v)) v.

Lemma ent_loop_ok l s : forall out, Forall (fun x => 0 <= x) l -> 0 < s -> ent_loop l s out = Some (out - Rsumf (fun x => xlnx (x / s)) l).
Proof.
  induction l as [|x l IH]; intros out Hf Hs; cbn [ent_loop].
  - unfold Rsumf. cbn. rewrite Rsum_nil. f_equal. lra.
  - apply List.Forall_cons_iff in Hf as [Hx Hf]. assert (0 <= x / s) by (apply Rmult_le_pos; [auto|left; apply Rinv_0_lt_compat; auto]).
    destruct (Rlt_dec (x / s) 0); [lra|]. rewrite Rsumf_cons. unfold xlnx at 1. destruct (Req_EM_T (x / s) 0); rewrite IH by auto; f_equal; lra.
Qed.
Lemma ent_pos v : Forall (fun x => 0 <= x) v -> 0 < Rsum v -> vector_entropy v = Some (shannon v).
Proof.
  intros Hf Hs. unfold vector_entropy. destruct (Nat.eqb_spec (length v) 0) as [E|E]; [destruct v; [rewrite Rsum_nil in Hs; lra|discriminate]|].
  unfold vector_sum. rewrite fold_left_Rplus, Rplus_0_l. destruct (Rlt_dec (Rsum v) 0); [lra|]. destruct (Req_EM_T (Rsum v) 0); [lra|].
  rewrite ent_loop_ok by auto. unfold shannon. f_equal. lra.
Qed.
(** C52: for nonnegative weights with a positive sum the entropy is Shannon's, of the normalized weights. *)
Theorem C52_shannon : forall v, Forall (fun x => 0 <= x) v -> 0 < Rsum v -> vector_entropy v = Some (shannon v).
Proof. exact ent_pos. Qed.
Print Assumptions C52_shannon.

Lemma ent_scale_aux v k : Forall (fun x => 0 <= x) v -> 0 < Rsum v -> 0 < k -> vector_entropy (map (fun x => x * k) v) = vector_entropy v.
Proof.
  intros Hf Hs Hk. rewrite !ent_pos; auto.
  - f_equal. unfold shannon. f_equal. unfold Rsumf. rewrite map_map, Rsum_scale. f_equal. apply map_ext. intros x. f_equal. field. lra.
  - rewrite Forall_map. refine (List.Forall_impl _ _ Hf). intros; cbn in *; nra.
  - rewrite Rsum_scale. nra.
Qed.
(** C52: counts and frequencies give the same entropy. *)
Theorem C52_scale : forall v k, Forall (fun x => 0 <= x) v -> 0 < Rsum v -> 0 < k -> vector_entropy (map (fun x => x * k) v) = vector_entropy v.
Proof. exact ent_scale_aux. Qed.
Print Assumptions C52_scale.

Lemma in_le_sum v x : Forall (fun x => 0 <= x) v -> In x v -> x <= Rsum v.
Proof.
  induction 1 as [|y v Hy Hf IH]; intros Hin; [inversion Hin|]. rewrite Rsum_cons. pose proof (Rsum_nonneg v Hf).
  destruct Hin as [->|Hin]; [lra|]. pose proof (IH Hin). lra.
Qed.
Lemma ent_bounds_aux v h : Forall (fun x => 0 <= x) v -> 0 < Rsum v -> vector_entropy v = Some h -> 0 <= h <= ln (INR (length v)).
Proof.
  intros Hf Hs. rewrite ent_pos by auto. intros [= <-]. assert (v <> []) as Hne by (intros ->; rewrite Rsum_nil in Hs; lra).
  assert (0 < INR (length v)) as Hn by (pose proof (len_ne0 v Hne); pose proof (pos_INR (length v)); lra). set (n := INR (length v)) in *. set (s := Rsum v) in *.
  assert (forall x, In x v -> 0 <= x / s <= 1) as HP.
  { intros x Hx. rewrite List.Forall_forall in Hf. pose proof (Hf x Hx). pose proof (in_le_sum v x ltac:(apply List.Forall_forall; auto) Hx). fold s in H0.
    split; [apply Rmult_le_pos; [auto|left; apply Rinv_0_lt_compat; auto]|]. apply Rmult_le_reg_r with s; auto. unfold Rdiv. rewrite Rmult_assoc, Rinv_l by lra. lra. }
  unfold shannon. fold s. split.
  - assert (Rsumf (fun x => xlnx (x / s)) v <= Rsumf (fun _ => 0) v) as HL; [|rewrite Rsumf_const in HL; lra].
    apply Rsumf_le. intros x Hx. pose proof (HP x Hx). unfold xlnx. destruct (Req_EM_T (x / s) 0); [lra|].
    assert (ln (x / s) <= 0) by (pose proof (ln_le_sub (x / s)); lra). nra.
  - assert (Rsumf (fun x => x / s - / n - ln n * (x / s)) v <= Rsumf (fun x => xlnx (x / s)) v) as HL.
    { apply Rsumf_le. intros x Hx. pose proof (HP x Hx). set (p := x / s) in *. unfold xlnx. destruct (Req_EM_T p 0) as [->|Hp].
      - assert (0 < / n) by (apply Rinv_0_lt_compat; auto). lra.
      - assert (0 < p) by lra. assert (0 < / (n * p)) by (apply Rinv_0_lt_compat; nra).
        pose proof (ln_le_sub (/ (n * p)) H1) as HH. rewrite ln_Rinv, ln_mult in HH by nra.
        assert (p * (- (ln n + ln p)) <= p * (/ (n * p) - 1)) as H2 by (apply Rmult_le_compat_l; lra).
        replace (p * (/ (n * p) - 1)) with (/ n - p) in H2 by (field; lra). lra. }
    rewrite (Rsumf_ext _ (fun x => ((1 - ln n) * / s) * x + - / n)) in HL by (intros; unfold Rdiv; ring).
    rewrite Rsumf_plus, Rsumf_scal, Rsumf_const, Rsumf_id in HL. fold n s in HL.
    replace ((1 - ln n) * / s * s + n * - / n) with (- ln n) in HL by (field; lra). lra.
Qed.
(** C52: entropy lies between 0 and ln n; the upper bound is attained by equal weights. *)
Theorem C52_bounds : forall v h, Forall (fun x => 0 <= x) v -> 0 < Rsum v -> vector_entropy v = Some h -> 0 <= h <= ln (INR (length v)).
Proof. exact ent_bounds_aux. Qed.
Lemma ent_unif_aux (n : nat) c : (0 < n)%nat -> 0 < c -> vector_entropy (replicate n c) = Some (ln (INR n)).
Proof.
  intros Hn Hc. assert (0 < INR n) as Hp by (apply lt_0_INR; auto).
  assert (Rsum (replicate n c) = INR n * c) as Es by apply Rsum_replicate.
  rewrite ent_pos; [|apply Forall_lookup; intros i x Hx; apply lookup_replicate in Hx as [-> _]; lra|rewrite Es; nra].
  f_equal. unfold shannon. rewrite Es, Rsumf_replicate. replace (c / (INR n * c)) with (/ INR n) by (field; lra).
  unfold xlnx. assert (0 < / INR n) by (apply Rinv_0_lt_compat; auto). destruct (Req_EM_T (/ INR n) 0); [lra|]. rewrite ln_Rinv by auto. field. lra.
Qed.
Theorem C52_uniform : forall (n : nat) c, (0 < n)%nat -> 0 < c -> vector_entropy (replicate n c) = Some (ln (INR n)).
Proof. exact ent_unif_aux. Qed.
Print Assumptions C52_bounds. Print Assumptions C52_uniform.

Lemma ent_loop_neg l s : forall out x, In x l -> x < 0 -> 0 < s -> ent_loop l s out = None.
Proof.
  induction l as [|y l IH]; intros out x Hin Hx Hs; [inversion Hin|]. cbn [ent_loop]. destruct (Rlt_dec (y / s) 0) as [|Hy]; auto.
  destruct Hin as [->|Hin].
  - exfalso. apply Hy. unfold Rdiv. assert (0 < / s) by (apply Rinv_0_lt_compat; auto). nra.
  - destruct (Req_EM_T (y / s) 0); eapply IH; eauto.
Qed.
Lemma ent_neg_aux v x : In x v -> x < 0 -> Rsum v <> 0 -> vector_entropy v = None.
Proof.
  intros Hin Hx Hs. unfold vector_entropy. destruct (Nat.eqb_spec (length v) 0) as [E|E]; [destruct v; [inversion Hin|discriminate]|].
  unfold vector_sum. rewrite fold_left_Rplus, Rplus_0_l. destruct (Rlt_dec (Rsum v) 0); [auto|]. destruct (Req_EM_T (Rsum v) 0); [congruence|].
  eapply ent_loop_neg; eauto. lra.
Qed.
(** C52: a negative element gives NaN, unless the vector sums to zero ... *)
Theorem C52_negative : forall v x, In x v -> x < 0 -> Rsum v <> 0 -> vector_entropy v = None.
Proof. exact ent_neg_aux. Qed.
(** C52: ... when it gives 0 although NaN is documented. *)
Theorem C52_negative_zero_sum_refuted : vector_entropy [1; -1] = Some 0.
Proof. unfold vector_entropy. cbn [length Nat.eqb]. unfold vector_sum. cbn. destruct (Rlt_dec _ 0); [lra|]. destruct (Req_EM_T _ 0); [auto|lra]. Qed.
(** C52: the empty vector has entropy zero. *)
Theorem C52_empty : vector_entropy [] = Some 0.
Proof. reflexivity. Qed.
Print Assumptions C52_negative. Print Assumptions C52_negative_zero_sum_refuted.
Example C52_nonvacuous : Forall (fun x => 0 <= x) [1; 0; 3] /\ 0 < Rsum [1; 0; 3].
Proof. split; [repeat constructor; lra|]. unfold Rsum. cbn. lra. Qed.

(** ================ C53 ================ *)
Lemma colv_length m j : wf_grid m -> (j < gc m)%nat -> length (@colv R m j) = gr m.
Proof.
  destruct m as [r c a]. intros [H1 H2] Hj. unfold colv. cbn in *. rewrite <- H1. clear H1. revert H2.
  induction a as [|x a IH]; intros H2; [reflexivity|]. apply List.Forall_cons_iff in H2 as [Hx H2].
  destruct (x !! j) eqn:E; [|apply lookup_ge_None in E; lia]. cbn. rewrite E. cbn. f_equal. apply IH; auto.
Qed.
Lemma summ_var_plain v : v <> [] -> vector_var_m v (avg v) = vector_var v None.
Proof. intros Hne. unfold vector_var. rewrite check_ok by auto. cbn [negb]. unfold gsl_mean. rewrite running_avg by auto. reflexivity. Qed.
(** the summary of one column: mean, std dev, variance, min, a median, max *)
Definition is_summary (v : list R) (w : option (list R)) (row : list (option R)) : Prop :=
  exists mn md mx,
    row = [vector_mean v w; match vector_var v w with Some x => csqrt x | None => None end; vector_var v w; Some mn; Some md; Some mx] /\
    In mn v /\ In mx v /\ (forall x, In x v -> mn <= x <= mx) /\
    In md v /\ (length v <= 2 * count_le v md)%nat /\ (length v <= 2 * count_ge v md)%nat.
Lemma pct_median v p x : v <> [] -> vector_percentiles v "d" = Ok p -> p !! 50%nat = Some x ->
  In x v /\ (length v <= 2 * count_le v x)%nat /\ (length v <= 2 * count_ge v x)%nat.
Proof.
  intros Hne Hp Hx. assert (length (rsort v) = length v) as HL by (apply Permutation_length, rsort_perm).
  assert (0 < length v)%nat as Hpos by (destruct v; [congruence|cbn; lia]).
  destruct (pct_aux v "d" Hne) as (p' & E & Hlen & HP & HS). assert (p' = p) as -> by congruence.
  destruct (HS 50%nat x Hx ltac:(lia)) as (a & b & Ha & Hb & [[? _]|[[? _]|(_ & _ & ->)]]); try congruence.
  split; [apply (Permutation_in _ (rsort_perm v)), elem_of_list_In; eapply elem_of_list_lookup_2; eauto|].
  pose proof (count_le_sorted (rsort v) _ _ (rsort_sorted v) Ha) as H1. pose proof (count_ge_sorted (rsort v) _ _ (rsort_sorted v) Ha) as H2.
  assert (count_le (rsort v) a = count_le v a) as E1 by apply filter_perm_len, rsort_perm.
  assert (count_ge (rsort v) a = count_ge v a) as E2 by apply filter_perm_len, rsort_perm. rewrite E1 in H1. rewrite E2, HL in H2.
  unfold pidx in *. cbn [Ascii.eqb Bool.eqb andb] in *. pose proof (div_bounds (50 * (length v - 1))). lia.
Qed.
Lemma summary_row_ok d v : v <> [] -> exists row, summary_row d v = Ok row /\ length row = 6%nat /\ is_summary v (wts d) row.
Proof.
  intros Hne. unfold summary_row. destruct (pct_main v "d" Hne) as (p & E & Hlen & (mn & Hmn & Imn & Lmn) & (mx & Hmx & Imx & Lmx) & _ & _).
  destruct (lookup_lt_is_Some_2 p 50) as [md Hmd]; [lia|]. destruct (pct_median v p md Hne E Hmd) as (I1 & I2 & I3).
  set (mv := match wts d with Some w => _ | None => _ end).
  assert (mv = (vector_mean v (wts d), vector_var v (wts d))) as ->.
  { unfold mv. destruct (wts d); [reflexivity|]. rewrite mean_plain by auto. rewrite summ_var_plain by auto. reflexivity. }
  rewrite E. cbn [rbind]. rewrite Hmn, Hmd, Hmx. eexists. split; [reflexivity|]. split; [reflexivity|].
  exists mn, md, mx. split; [reflexivity|]. split; [auto|]. split; [auto|]. split; [split; auto|]. auto.
Qed.
Lemma summarize_aux d m : mat d = Some m -> wf_grid m -> (0 < gr m)%nat ->
  exists out nm, data_summarize d = Ok (Some (out, nm)) /\ gr out = gc m /\ gc out = 6%nat /\ wf_grid out /\
    rown nm = coln (nms d) /\ coln nm = ["mean"; "std dev"; "variance"; "min"; "median"; "max"]%string /\
    title nm = match title (nms d) with Some t => if String.eqb t "" then None else Some ("summary for " ++ t)%string | None => None end /\
    forall j row, ga out !! j = Some row -> is_summary (colv m j) (wts d) row.
Proof.
  intros Hm Hwf Hg. unfold data_summarize. rewrite Hm.
  assert (forall j, In j (seq 0 (gc m)) -> exists row, summary_row d (colv m j) = Ok row /\ length row = 6%nat /\ is_summary (colv m j) (wts d) row) as HR.
  { intros j Hj. apply in_seq in Hj. apply summary_row_ok. intros E. pose proof (colv_length m j Hwf ltac:(lia)) as L. rewrite E in L. cbn in L. lia. }
  destruct (rmapM_ok (fun j => summary_row d (colv m j)) (seq 0 (gc m))) as (rows & Er & Hlen & HH).
  { intros j Hj. destruct (HR j Hj) as (row & H & _). eauto. }
  rewrite Er. cbn [rbind]. eexists _, _. split; [reflexivity|]. cbn [gr gc ga]. rewrite seq_length in Hlen. split; [auto|]. split; [auto|].
  assert (forall j row, rows !! j = Some row -> length row = 6%nat /\ is_summary (colv m j) (wts d) row) as HX.
  { intros j row Hj. pose proof (lookup_lt_Some _ _ _ Hj) as Hlt. destruct (HH j j) as (y & Hy & E); [rewrite lookup_seq; lia|].
    destruct (HR j) as (row' & E' & L & S); [apply in_seq; lia|]. assert (row' = row) as -> by congruence. auto. }
  split; [split; cbn; [auto|apply Forall_lookup; intros j row Hj; apply (HX j row Hj)]|].
  set (base := fold_left _ _ name_alloc).
  destruct (add_all_row base (coln (nms d))) as (B1 & B2 & _ & B3 & _). cbn zeta in *.
  unfold name_stack. cbn [Ascii.eqb Bool.eqb].
  destruct (title (nms d)) as [t|]; [destruct (String.eqb t "")|]; cbn [add1 name_add fst rown coln title Ascii.eqb Bool.eqb]; rewrite ?B1, ?B2, ?B3; repeat split; auto; intros j row Hj; apply (HX j row Hj).
Qed.
(** C53: one row per column of the input, named after it: mean, standard deviation, variance, minimum, a median (at least half of
    the column on either side), maximum. *)
Theorem C53_summarize : forall d m, mat d = Some m -> wf_grid m -> (0 < gr m)%nat ->
  exists out nm, data_summarize d = Ok (Some (out, nm)) /\ gr out = gc m /\ gc out = 6%nat /\ wf_grid out /\
    rown nm = coln (nms d) /\ coln nm = ["mean"; "std dev"; "variance"; "min"; "median"; "max"]%string /\
    title nm = match title (nms d) with Some t => if String.eqb t "" then None else Some ("summary for " ++ t)%string | None => None end /\
    forall j row, ga out !! j = Some row -> is_summary (colv m j) (wts d) row.
Proof. exact summarize_aux. Qed.
Print Assumptions C53_summarize.
Theorem C53_no_matrix : forall d, mat d = None -> data_summarize d = Ok None.
Proof. intros d H. unfold data_summarize. rewrite H. reflexivity. Qed.
Print Assumptions C53_no_matrix.
Example C53_nonvacuous : let m := Gr 3 2 [[1; 2]; [3; 4]; [5; 6]] in wf_grid m /\ (0 < gr m)%nat /\ colv m 1 = [2; 4; 6].
Proof. cbn. split; [split; [reflexivity|repeat constructor]|]. split; [lia|reflexivity]. Qed.
