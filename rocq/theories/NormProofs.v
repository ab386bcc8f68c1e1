(** Lemmas for normalization (C36), percentiles (C30) and entropy (C52). *)
From Coq Require Import Reals Lra Psatz Sorting.Sorted Sorting.Permutation.
From Verif Require Import DataModel StatsModel StatsSpec StatsProofs.
Local Notation sqrt := R_sqrt.sqrt.
Local Open Scope list_scope.
Local Open Scope R_scope.
Local Arguments Rsum : simpl never.

(** -------- min and max -------- *)
Lemma minmax_loop l : forall mn mx : R, mn <= mx ->
  exists mn' mx', fold_left (fun '(mn, mx) y => (if Rlt_dec y mn then y else mn, if Rlt_dec mx y then y else mx)) l (mn, mx) = (mn', mx') /\
  mn' <= mn /\ mx <= mx' /\ (forall x, In x l -> mn' <= x <= mx') /\ (mn' = mn \/ In mn' l) /\ (mx' = mx \/ In mx' l).
Proof.
  induction l as [|y l IH]; intros mn mx H; cbn [fold_left].
  - exists mn, mx. split; [auto|]. split; [lra|]. split; [lra|]. split; [cbn; tauto|auto].
  - destruct (Rlt_dec y mn) as [H1|H1], (Rlt_dec mx y) as [H2|H2]; try lra.
    + destruct (IH y mx) as (a & b & -> & Ha & Hb & Hc & Hd & He); [lra|]. exists a, b. split; [auto|]. split; [lra|]. split; [lra|].
      split; [intros x [->|Hx]; [lra|auto]|]. split; [destruct Hd as [->|]; right; [left|right]; auto|]. destruct He as [->|]; auto. right; right; auto.
    + destruct (IH mn y) as (a & b & -> & Ha & Hb & Hc & Hd & He); [lra|]. exists a, b. split; [auto|]. split; [lra|]. split; [lra|].
      split; [intros x [->|Hx]; [lra|auto]|]. split; [destruct Hd as [->|]; auto; right; right; auto|]. destruct He as [->|]; right; [left|right]; auto.
    + destruct (IH mn mx) as (a & b & -> & Ha & Hb & Hc & Hd & He); [lra|]. exists a, b. split; [auto|]. split; [lra|]. split; [lra|].
      split; [intros x [->|Hx]; [lra|auto]|]. split; [destruct Hd as [->|]; auto; right; right; auto|]. destruct He as [->|]; auto; right; right; auto.
Qed.
Lemma minmax_spec v : v <> [] -> exists mn mx, minmax v = Some (mn, mx) /\ In mn v /\ In mx v /\ forall x, In x v -> mn <= x <= mx.
Proof.
  intros H. destruct v as [|x0 v]; [congruence|]. unfold minmax.
  destruct (minmax_loop (x0 :: v) x0 x0) as (a & b & -> & Ha & Hb & Hc & Hd & He); [lra|].
  exists a, b. split; [auto|]. split; [destruct Hd as [->|]; [left|]; auto|]. split; [destruct He as [->|]; [left|]; auto|auto].
Qed.

(** -------- normalization -------- *)
Lemma norm_p v : Rsum v <> 0 -> exists out, vector_normalize v "p" = Ok (inl out) /\ out = map (fun x => x / Rsum v) v /\ Rsum out = 1.
Proof.
  intros H. unfold vector_normalize. cbn [Ascii.eqb Bool.eqb]. unfold vector_sum. rewrite fold_left_Rplus, Rplus_0_l.
  destruct (Req_EM_T (Rsum v) 0); [congruence|]. rewrite cdiv_ok by auto. eexists. split; [reflexivity|]. split.
  - apply map_ext. intros. field. auto.
  - rewrite Rsum_scale. field. auto.
Qed.
Lemma norm_p0 v : Rsum v = 0 -> vector_normalize v "p" = Ok (inl v).
Proof.
  intros H. unfold vector_normalize. cbn [Ascii.eqb Bool.eqb]. unfold vector_sum. rewrite fold_left_Rplus, Rplus_0_l.
  destruct (Req_EM_T (Rsum v) 0); [auto|congruence].
Qed.
Lemma norm_r v mn mx : In mn v -> In mx v -> (forall x, In x v -> mn <= x <= mx) -> mn <> mx ->
  exists out, vector_normalize v "r" = Ok (inl out) /\ out = map (fun x => (x - mn) / (mx - mn)) v /\
    In 0 out /\ In 1 out /\ forall y, In y out -> 0 <= y <= 1.
Proof.
  intros H1 H2 H3 Hne. unfold vector_normalize. cbn [Ascii.eqb Bool.eqb].
  destruct (minmax_spec v) as (a & b & -> & Ha & Hb & Hab); [intros ->; inversion H1|].
  assert (a = mn) as -> by (pose proof (Hab mn H1); pose proof (H3 a Ha); lra).
  assert (b = mx) as -> by (pose proof (Hab mx H2); pose proof (H3 b Hb); lra).
  pose proof (H3 mx H2). rewrite cdiv_ok by lra. eexists. split; [reflexivity|].
  assert (map (fun x => x * (1 / (mx - mn))) (map (fun x => x + - mn) v) = map (fun x => (x - mn) / (mx - mn)) v) as E.
  { rewrite map_map. apply map_ext. intros. field. lra. }
  split; [exact E|]. rewrite E. split; [|split].
  - apply in_map_iff. exists mn. split; [field; lra|auto].
  - apply in_map_iff. exists mx. split; [field; lra|auto].
  - intros y Hy. apply in_map_iff in Hy as (x & <- & Hx). pose proof (H3 x Hx). assert (0 < / (mx - mn)) by (apply Rinv_0_lt_compat; lra).
    split; [apply Rmult_le_pos; lra|]. apply Rmult_le_reg_r with (mx - mn); [lra|]. unfold Rdiv. rewrite Rmult_assoc, Rinv_l by lra. lra.
Qed.
Lemma norm_r_const v c : v <> [] -> (forall x, In x v -> x = c) -> vector_normalize v "r" = Ok (inr tt).
Proof.
  intros H HC. unfold vector_normalize. cbn [Ascii.eqb Bool.eqb].
  destruct (minmax_spec v H) as (a & b & -> & Ha & Hb & Hab). rewrite (HC a Ha), (HC b Hb).
  replace (c - c) with 0 by lra. rewrite cdiv_0. reflexivity.
Qed.
Lemma avg_shift v k : v <> [] -> avg (map (fun x => x + k) v) = avg v + k.
Proof. intros H. unfold avg. rewrite Rsum_add_const, map_length. field. apply len_ne0; auto. Qed.
Lemma norm_m v : v <> [] -> exists out, vector_normalize v "m" = Ok (inl out) /\ out = map (fun x => x - avg v) v /\ avg out = 0.
Proof.
  intros H. unfold vector_normalize. cbn [Ascii.eqb Bool.eqb]. unfold gsl_mean. rewrite running_avg by auto.
  eexists. split; [reflexivity|]. split; [reflexivity|]. rewrite avg_shift by auto. lra.
Qed.
Lemma norm_s v : (2 <= length v)%nat -> svar v <> 0 ->
  exists out, vector_normalize v "s" = Ok (inl out) /\ out = map (fun x => (x - avg v) / sqrt (svar v)) v /\ avg out = 0 /\ svar out = 1.
Proof.
  intros H Hv. destruct (len2 v H) as (Hn & Hp & Hne). unfold vector_normalize. cbn [Ascii.eqb Bool.eqb].
  unfold gsl_mean. rewrite running_avg by auto. set (o := map (fun x => x + - avg v) v).
  assert (length o = length v) as Lo by (unfold o; apply map_length).
  assert (o <> []) as Hno by (intros E; rewrite E in Lo; cbn in Lo; lia).
  assert (vector_var_m o 0 = Some (svar v)) as E.
  { unfold vector_var_m, gsl_variance_m. rewrite Lo, cdiv_ok by auto. f_equal.
    rewrite running_avg by (destruct o; [auto|discriminate]). unfold svar, avg at 1. rewrite map_length, Lo.
    unfold o. rewrite map_map, (map_ext (fun x => (x + - avg v - 0) * (x + - avg v - 0)) (fun x => (x - avg v) ^ 2)) by (intros; ring).
    field. split; auto. apply len_ne0; auto. }
  rewrite E. pose proof (svar_nonneg v H) as Pv. unfold csqrt. destruct (Rlt_dec (svar v) 0); [lra|].
  assert (0 < sqrt (svar v)) as Ps by (apply sqrt_lt_R0; lra). rewrite cdiv_ok by lra.
  eexists. split; [reflexivity|].
  assert (map (fun x => x * (1 / sqrt (svar v))) o = map (fun x => (x - avg v) / sqrt (svar v)) v) as E2.
  { unfold o. rewrite map_map. apply map_ext. intros. field. lra. }
  split; [exact E2|]. assert (avg (map (fun x => x * (1 / sqrt (svar v))) o) = 0) as EA.
  { unfold avg at 1. rewrite Rsum_scale. unfold o. rewrite Rsum_add_const, <- (avg_len v) by auto. unfold Rdiv. ring. }
  split; [exact EA|]. unfold svar at 1. rewrite EA, !map_length, Lo.
  rewrite (map_ext (fun x => (x - 0) ^ 2) (fun x => x ^ 2)) by (intros; ring).
  rewrite map_map. unfold o. rewrite map_map.
  rewrite (map_ext (fun x => ((x + - avg v) * (1 / sqrt (svar v))) ^ 2) (fun x => (x - avg v) ^ 2 * / svar v)).
  2:{ intros x. pose proof (sqrt_sqrt (svar v) Pv) as Q. rewrite <- Q at 2. field. lra. }
  rewrite <- (map_map (fun x => (x - avg v) ^ 2) (fun y => y * / svar v)), Rsum_scale.
  assert (Rsum (map (fun x => (x - avg v) ^ 2) v) <> 0) as HZ by (intros Z; apply Hv; unfold svar; rewrite Z; unfold Rdiv; ring).
  unfold svar. field. auto.
Qed.
Lemma norm_s_const v c : v <> [] -> (forall x, In x v -> x = c) -> vector_normalize v "s" = Ok (inl (map (fun _ => 0) v)).
Proof.
  intros H HC. unfold vector_normalize. cbn [Ascii.eqb Bool.eqb]. unfold gsl_mean. rewrite running_avg by auto.
  assert (avg v = c) as ->.
  { unfold avg. rewrite <- Rsumf_id, (Rsumf_ext _ (fun _ => c)) by auto. rewrite Rsumf_const. field. apply len_ne0; auto. }
  assert (map (fun x => x + - c) v = map (fun _ => 0) v) as E.
  { apply map_ext_in. intros x Hx. rewrite (HC x Hx). lra. }
  rewrite E. unfold vector_var_m, gsl_variance_m. destruct (cdiv _ _) as [r|]; [|reflexivity].
  rewrite running_avg by (destruct v; [auto|discriminate]).
  rewrite map_map. assert (avg (map (fun _ => (0 - 0) * (0 - 0)) v) = 0) as ->.
  { unfold avg. fold (Rsumf (fun _ : R => (0 - 0) * (0 - 0)) v). rewrite Rsumf_const. unfold Rdiv. ring. }
  rewrite Rmult_0_l. unfold csqrt. destruct (Rlt_dec 0 0); [lra|]. rewrite sqrt_0, cdiv_0. reflexivity.
Qed.

(** -------- sorting -------- *)
Lemma rinsert_perm x l : Permutation (rinsert x l) (x :: l).
Proof. induction l as [|y l IH]; cbn; auto. destruct (Rle_dec x y); auto. rewrite IH. apply perm_swap. Qed.
Lemma rsort_perm l : Permutation (rsort l) l.
Proof. induction l as [|x l IH]; cbn; auto. rewrite rinsert_perm. auto. Qed.
Lemma rinsert_sorted x l : StronglySorted Rle l -> StronglySorted Rle (rinsert x l).
Proof.
  induction 1 as [|y l H IH HF]; cbn; [repeat constructor|]. destruct (Rle_dec x y) as [Hx|Hx].
  - constructor; [constructor; auto|]. constructor; auto. refine (List.Forall_impl _ _ HF). intros; cbn in *; lra.
  - constructor; auto. rewrite rinsert_perm. constructor; [lra|auto].
Qed.
Lemma rsort_sorted l : StronglySorted Rle (rsort l).
Proof. induction l; cbn; [constructor|]. apply rinsert_sorted; auto. Qed.
Lemma sorted_le l : StronglySorted Rle l -> forall (i j : nat) x y, l !! i = Some x -> l !! j = Some y -> (i <= j)%nat -> x <= y.
Proof.
  induction 1 as [|z l H IH HF]; intros i j x y Hi Hj Hij; [discriminate|].
  destruct i as [|i], j as [|j]; cbn in *.
  - assert (x = y) by congruence. lra.
  - assert (z = x) by congruence. subst. rewrite List.Forall_forall in HF. apply HF. apply elem_of_list_In. eapply elem_of_list_lookup_2; eauto.
  - lia.
  - apply (IH i j); auto; lia.
Qed.

(** -------- percentiles -------- *)
Definition count_le (v : list R) (y : R) : nat := length (List.filter (fun x => if Rle_dec x y then true else false) v).
Definition count_ge (v : list R) (y : R) : nat := length (List.filter (fun x => if Rle_dec y x then true else false) v).
Lemma filter_perm_len {A} (f : A -> bool) a b : Permutation a b -> length (List.filter f a) = length (List.filter f b).
Proof.
  induction 1; cbn; auto; try lia.
  - destruct (f x); cbn; lia.
  - destruct (f x), (f y); cbn; lia.
Qed.
Lemma filter_all {A} (f : A -> bool) a : (forall x, In x a -> f x = true) -> length (List.filter f a) = length a.
Proof. induction a as [|x a IH]; intros H; cbn; auto. rewrite (H x) by (left; auto). cbn. rewrite IH; auto. intros; apply H; right; auto. Qed.
Lemma count_le_sorted s (k : nat) y : StronglySorted Rle s -> s !! k = Some y -> (S k <= count_le s y)%nat.
Proof.
  intros HS Hk. unfold count_le. pose proof (lookup_lt_Some _ _ _ Hk) as Hl.
  rewrite <- (firstn_skipn (S k) s), List.filter_app, app_length. rewrite filter_all; [rewrite firstn_length; lia|].
  intros x Hx. destruct (Rle_dec x y) as [|n]; auto. exfalso. apply n. apply elem_of_list_In in Hx. apply elem_of_list_lookup in Hx as (i & Hi).
  rewrite lookup_take_Some in Hi. destruct Hi as [Hi Hlt]. eapply (sorted_le s HS i k); eauto; lia.
Qed.
Lemma count_ge_sorted s (k : nat) y : StronglySorted Rle s -> s !! k = Some y -> (length s - k <= count_ge s y)%nat.
Proof.
  intros HS Hk. unfold count_ge. pose proof (lookup_lt_Some _ _ _ Hk) as Hl.
  rewrite <- (firstn_skipn k s) at 2. rewrite List.filter_app, app_length. rewrite (filter_all _ (skipn k s)); [rewrite skipn_length; lia|].
  intros x Hx. destruct (Rle_dec y x) as [|n]; auto. exfalso. apply n. apply elem_of_list_In in Hx. apply elem_of_list_lookup in Hx as (i & Hi).
  rewrite lookup_drop in Hi. eapply (sorted_le s HS k (k + i)); eauto; lia.
Qed.

(** the index used for i: round down / up of i(n-1)/100 *)
Definition pidx (n i : nat) (rounding : ascii) : nat :=
  let q := (i * (n - 1) / 100)%nat in
  if Ascii.eqb rounding "u" && negb (q * 100 =? i * (n - 1))%nat then S q else q.
Lemma div_bounds m : (m / 100 * 100 <= m < m / 100 * 100 + 100)%nat.
Proof. pose proof (Nat.div_mod m 100 ltac:(lia)). pose proof (Nat.mod_upper_bound m 100 ltac:(lia)). lia. Qed.
Lemma pidx_lt n i r : (0 < n)%nat -> (i <= 100)%nat -> (pidx n i r < n)%nat.
Proof.
  intros Hn Hi. unfold pidx. pose proof (div_bounds (i * (n - 1))). set (q := (i * (n - 1) / 100)%nat) in *.
  destruct (Ascii.eqb r "u"); cbn [andb]; [|nia]. destruct (Nat.eqb_spec (q * 100) (i * (n - 1))); cbn [negb]; nia.
Qed.
Lemma pctile_not_a s r i : Ascii.eqb r "a" = false -> (0 < length s)%nat -> (i <= 100)%nat ->
  exists x, pctile s r i = Ok x /\ s !! pidx (length s) i r = Some x.
Proof.
  intros Hr Hn Hi. pose proof (pidx_lt (length s) i r Hn Hi) as Hlt. apply lookup_lt_is_Some in Hlt as [x Hx].
  exists x. split; auto. unfold pctile. rewrite Hr. cbn [andb]. unfold pidx in Hx. rewrite Hx. reflexivity.
Qed.
(** rounding 'a' *)
Lemma pctile_a s i : (0 < length s)%nat -> (i <= 100)%nat ->
  exists x, pctile s "a" i = Ok x /\
  exists a b, s !! (pidx (length s) i "d"%char) = Some a /\ s !! (pidx (length s) i "u"%char) = Some b /\ x = (a + b) / 2.
Proof.
  intros Hn Hi. pose proof (pidx_lt (length s) i "d" Hn Hi) as H1. pose proof (pidx_lt (length s) i "u" Hn Hi) as H2.
  apply lookup_lt_is_Some in H1 as [a Ha]. apply lookup_lt_is_Some in H2 as [b Hb].
  unfold pctile. cbn [Ascii.eqb Bool.eqb andb]. unfold pidx in Ha, Hb. cbn [Ascii.eqb Bool.eqb andb] in Ha, Hb.
  set (q := (i * (length s - 1) / 100)%nat) in *.
  destruct (q * 100 =? i * (length s - 1))%nat eqn:E; cbn [negb] in *.
  - exists a. rewrite Ha. split; auto. exists a, b. unfold pidx. fold q. cbn [Ascii.eqb Bool.eqb andb]. rewrite E. cbn [negb].
    split; auto. split; auto. assert (a = b) as -> by congruence. lra.
  - exists ((a + b) / 2). rewrite Ha, Hb. split; auto. exists a, b. unfold pidx. fold q. cbn [Ascii.eqb Bool.eqb andb]. rewrite E. cbn [negb]. auto.
Qed.
Lemma rmapM_ok {A B} (f : A -> res B) l : (forall x, In x l -> exists y, f x = Ok y) ->
  exists ys, rmapM f l = Ok ys /\ length ys = length l /\ forall i x, l !! i = Some x -> exists y, ys !! i = Some y /\ f x = Ok y.
Proof.
  induction l as [|x l IH]; intros H; cbn.
  - exists []. split; auto. split; auto. intros i x Hx. discriminate.
  - destruct (H x) as [y Hy]; [left; auto|]. destruct IH as (ys & -> & Hl & HH); [intros; apply H; right; auto|].
    rewrite Hy. exists (y :: ys). split; auto. split; [cbn; lia|]. intros [|i] z Hz; cbn in *; [|auto]. exists y. split; auto. congruence.
Qed.
Lemma pidx_mono n i j r : (i <= j)%nat -> (pidx n i r <= pidx n j r)%nat.
Proof.
  intros H. unfold pidx. pose proof (div_bounds (i * (n - 1))). pose proof (div_bounds (j * (n - 1))).
  set (q := (i * (n - 1) / 100)%nat) in *. set (q' := (j * (n - 1) / 100)%nat) in *.
  assert (i * (n - 1) <= j * (n - 1))%nat by nia.
  destruct (Ascii.eqb r "u"); cbn [andb]; [|lia].
  destruct (Nat.eqb_spec (q * 100) (i * (n - 1))), (Nat.eqb_spec (q' * 100) (j * (n - 1))); cbn [negb]; lia.
Qed.
Lemma pidx_0 n r : pidx n 0 r = 0%nat.
Proof. unfold pidx. cbn. destruct (Ascii.eqb r "u"); reflexivity. Qed.
Lemma pidx_100 n r : pidx n 100 r = (n - 1)%nat.
Proof.
  unfold pidx. rewrite (Nat.mul_comm 100), Nat.div_mul by lia. rewrite Nat.eqb_refl. destruct (Ascii.eqb r "u"); reflexivity.
Qed.
(** index facts for the coverage claims *)
Lemma pidx_d n i : (pidx n i "d"%char * 100 <= i * (n - 1))%nat.
Proof. unfold pidx. cbn [Ascii.eqb Bool.eqb andb]. pose proof (div_bounds (i * (n - 1))). lia. Qed.
Lemma pidx_u n i : (i * (n - 1) <= pidx n i "u"%char * 100)%nat.
Proof.
  unfold pidx. cbn [Ascii.eqb Bool.eqb andb]. pose proof (div_bounds (i * (n - 1))).
  destruct (Nat.eqb_spec (i * (n - 1) / 100 * 100) (i * (n - 1))); cbn [negb]; lia.
Qed.
