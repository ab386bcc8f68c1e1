(** C69: the SQL aggregates (apop_db_sqlite.c). *)
From Coq Require Import Reals Lra List String Lia Ascii.
From Verif Require Import StatsModel StatsSpec StatsProofs StatsMatProofs StatsProps DataModel DbModel.
Local Open Scope list_scope.
Local Open Scope R_scope.

(** sums of powers *)
Definition psum (k : nat) (l : list R) : R := Rsumf (fun x => x ^ k) l.
Lemma psum_cons k x l : psum k (x :: l) = x ^ k + psum k l.
Proof. reflexivity. Qed.
Lemma fold_two l : forall p, let q := fold_left two_step (map Some l) p in
  cnt q = (cnt p + length l)%nat /\ INR (cnt q) * a1 q = INR (cnt p) * a1 p + psum 1 l /\ INR (cnt q) * a2 q = INR (cnt p) * a2 p + psum 2 l.
Proof.
  induction l as [|x l IH]; intros p; cbn [map fold_left length].
  - cbv zeta. unfold psum, Rsumf. cbn [map]. rewrite Rsum_nil. split; [lia|]. lra.
  - destruct (IH (two_step p (Some x))) as (H1 & H2 & H3). cbv zeta in *. rewrite H2, H3, H1. unfold two_step. cbn [cnt a1 a2 value_double]. rewrite !psum_cons. split; [lia|]. pose proof (pos_INR (cnt p)). rewrite S_INR. split; field; lra.
Qed.
Lemma fold_three l : forall p, let q := fold_left three_step (map Some l) p in
  cnt q = (cnt p + length l)%nat /\ INR (cnt q) * a1 q = INR (cnt p) * a1 p + psum 1 l /\ INR (cnt q) * a2 q = INR (cnt p) * a2 p + psum 2 l /\ INR (cnt q) * a3 q = INR (cnt p) * a3 p + psum 3 l.
Proof.
  induction l as [|x l IH]; intros p; cbn [map fold_left length].
  - cbv zeta. unfold psum, Rsumf. cbn [map]. rewrite Rsum_nil. split; [lia|]. lra.
  - destruct (IH (three_step p (Some x))) as (H1 & H2 & H3 & H4). cbv zeta in *. rewrite H2, H3, H4, H1. unfold three_step. cbn [cnt a1 a2 a3 value_double]. rewrite !psum_cons. split; [lia|]. pose proof (pos_INR (cnt p)). rewrite S_INR. repeat split; field; lra.
Qed.
Lemma fold_four l : forall p, let q := fold_left four_step (map Some l) p in
  cnt q = (cnt p + length l)%nat /\ INR (cnt q) * a1 q = INR (cnt p) * a1 p + psum 1 l /\ INR (cnt q) * a2 q = INR (cnt p) * a2 p + psum 2 l /\ INR (cnt q) * a3 q = INR (cnt p) * a3 p + psum 3 l
  /\ INR (cnt q) * a4 q = INR (cnt p) * a4 p + psum 4 l.
Proof.
  induction l as [|x l IH]; intros p; cbn [map fold_left length].
  - cbv zeta. unfold psum, Rsumf. cbn [map]. rewrite Rsum_nil. split; [lia|]. lra.
  - destruct (IH (four_step p (Some x))) as (H1 & H2 & H3 & H4 & H5). cbv zeta in *. rewrite H2, H3, H4, H5, H1. unfold four_step. cbn [cnt a1 a2 a3 a4 value_double]. rewrite !psum_cons. split; [lia|]. pose proof (pos_INR (cnt p)). rewrite S_INR. repeat split; field; lra.
Qed.
Lemma central_psum l m : Rsumf (fun x => (x - m) ^ 2) l = psum 2 l - 2 * m * psum 1 l + INR (length l) * m ^ 2 /\
  Rsumf (fun x => (x - m) ^ 3) l = psum 3 l - 3 * m * psum 2 l + 3 * m ^ 2 * psum 1 l - INR (length l) * m ^ 3 /\
  Rsumf (fun x => (x - m) ^ 4) l = psum 4 l - 4 * m * psum 3 l + 6 * m ^ 2 * psum 2 l - 4 * m ^ 3 * psum 1 l + INR (length l) * m ^ 4.
Proof.
  induction l as [|x l IH]; [unfold psum, Rsumf; cbn [map length]; rewrite Rsum_nil; cbn [INR]; lra|]. destruct IH as (H1 & H2 & H3). rewrite !Rsumf_cons, !psum_cons, H1, H2, H3. cbn [length]. rewrite S_INR. repeat split; ring.
Qed.
Lemma psum1 l : psum 1 l = Rsum l.
Proof. unfold psum, Rsumf. f_equal. rewrite <- (map_id l) at 2. apply map_ext. intros x. lra. Qed.
Lemma two_values l : l <> [] -> let q := fold_left two_step (map Some l) agg0 in cnt q = length l /\ a2 q - a1 q * a1 q = central 2 l.
Proof.
  intros H q. destruct (fold_two l agg0) as (H1 & H2 & H3). fold q in H1, H2, H3. cbn [cnt a1 a2 agg0 Nat.add INR] in *. split; auto. rewrite H1 in *. pose proof (len_ne0 _ H) as Hn.
  assert (E1 : a1 q = avg l) by (unfold avg; rewrite <- psum1; apply Rmult_eq_reg_l with (INR (length l)); auto; rewrite H2; field; auto).
  assert (E2 : a2 q = psum 2 l / INR (length l)) by (apply Rmult_eq_reg_l with (INR (length l)); auto; rewrite H3; field; auto).
  rewrite E1, E2. unfold central, avg at 3. rewrite map_length. fold (Rsumf (fun x => (x - avg l) ^ 2) l). rewrite (proj1 (central_psum l (avg l))), psum1. unfold avg. field. auto.
Qed.
Lemma svar_central l : l <> [] -> svar l * (INR (length l) - 1) = central 2 l * INR (length l) \/ INR (length l) - 1 = 0.
Proof. intros H. destruct (Req_dec (INR (length l) - 1) 0); auto. left. unfold svar, central, avg at 2. rewrite map_length. field. split; auto. apply len_ne0; auto. Qed.

(** C69: for a group of at least two numbers: var and var_samp are the sample variance, var_pop and variance the population variance, stddev, stddev_samp, std and stddev_pop their roots *)
Theorem C69_variance : forall l, (2 <= length l)%nat ->
  aggregate "var" (map Some l) = Some (Some (svar l)) /\ aggregate "var_samp" (map Some l) = Some (Some (svar l)) /\
  aggregate "var_pop" (map Some l) = Some (Some (central 2 l)) /\ aggregate "variance" (map Some l) = Some (Some (central 2 l)) /\
  aggregate "stddev" (map Some l) = Some (Some (R_sqrt.sqrt (svar l))) /\ aggregate "stddev_samp" (map Some l) = Some (Some (R_sqrt.sqrt (svar l))) /\
  aggregate "std" (map Some l) = Some (Some (R_sqrt.sqrt (central 2 l))) /\ aggregate "stddev_pop" (map Some l) = Some (Some (R_sqrt.sqrt (central 2 l))).
Proof.
  intros l Hl. assert (Hne : l <> []) by (destruct l; [cbn in Hl; lia|discriminate]). destruct (two_values l Hne) as [Hc Hv]. cbv zeta in *. unfold aggregate. cbv zeta. set (q := fold_left two_step (map Some l) agg0) in *.
  assert (Hn : INR (length l) - 1 <> 0) by (apply le_INR in Hl; cbn in Hl; lra).
  assert (E1 : var_samp q = Some (svar l)). { unfold var_samp, final. rewrite Hc, Hv. destruct (Nat.ltb_spec 1 (length l)); [|lia]. rewrite cdiv_ok by auto. f_equal. destruct (svar_central l Hne) as [E|E]; [|contradiction]. rewrite <- E. field. auto. }
  assert (E2 : var_pop q = Some (central 2 l)). { unfold var_pop, final. rewrite Hc, Hv. destruct (Nat.ltb_spec 1 (length l)); [|lia]. auto. }
  assert (P1 : 0 <= central 2 l). { unfold central, avg at 1. rewrite map_length. apply Rmult_le_pos; [|left; apply Rinv_0_lt_compat; apply le_INR in Hl; cbn in Hl; lra]. apply Rsumf_nonneg. intros. apply pow2_ge_0. }
  assert (P2 : 0 <= svar l). { destruct (svar_central l Hne) as [E|E]; [|contradiction]. apply le_INR in Hl. cbn in Hl. apply Rmult_le_reg_r with (INR (length l) - 1); [lra|]. rewrite E. nra. }
  assert (E3 : std_samp q = Some (R_sqrt.sqrt (svar l))). { unfold std_samp, final. unfold var_samp, final in E1. rewrite Hc in *. destruct (Nat.ltb_spec 1 (length l)); [|lia]. rewrite E1. unfold csqrt. destruct (Rlt_dec (svar l) 0); [lra|auto]. }
  assert (E4 : std_pop q = Some (R_sqrt.sqrt (central 2 l))). { unfold std_pop, final. rewrite Hc, Hv. destruct (Nat.ltb_spec 1 (length l)); [|lia]. unfold csqrt. destruct (Rlt_dec (central 2 l) 0); [lra|auto]. }
  rewrite E1, E2, E3, E4. repeat split.
Qed.
(** C69: so they agree with the functions on vectors; skew does for at least three numbers *)
Theorem C69_var_vector : forall l, (2 <= length l)%nat -> aggregate "var" (map Some l) = Some (vector_var l None).
Proof. intros l H. rewrite (proj1 (C69_variance l H)), C34_var by auto. auto. Qed.
Theorem C69_skew : forall l, (3 <= length l)%nat -> aggregate "skew" (map Some l) = Some (vector_skew l).
Proof.
  intros l Hl. assert (Hne : l <> []) by (destruct l; [cbn in Hl; lia|discriminate]). pose proof (len_ne0 _ Hne) as Hn. unfold aggregate. cbv zeta. f_equal. destruct (fold_three l agg0) as (H1 & H2 & H3 & H4). cbn [cnt a1 a2 a3 agg0 Nat.add INR] in *.
  set (q := fold_left three_step (map Some l) agg0) in *. rewrite H1 in *. unfold skew_fin, final. rewrite H1. destruct (Nat.ltb_spec 1 (length l)); [|lia]. assert (Hl' : 3 <= INR (length l)) by (apply le_INR in Hl; cbn in Hl; lra).
  unfold vector_skew. rewrite C34_skew_pop by auto. rewrite !cdiv_ok by (apply Rmult_integral_contrapositive; lra). f_equal. unfold Rdiv. f_equal.
  unfold central, avg at 1. rewrite map_length. fold (Rsumf (fun x => (x - avg l) ^ 3) l). rewrite (proj1 (proj2 (central_psum l (avg l)))).
  assert (E1 : a1 q = avg l) by (unfold avg; rewrite <- psum1; apply Rmult_eq_reg_l with (INR (length l)); auto; rewrite H2; field; auto).
  assert (E2 : psum 2 l = INR (length l) * a2 q) by (rewrite H3; lra). assert (E3 : psum 3 l = INR (length l) * a3 q) by (rewrite H4; lra). assert (E4 : psum 1 l = INR (length l) * a1 q) by (rewrite H2; lra).
  rewrite E2, E3, E4, <- E1. field. auto.
Qed.
(** C69: the kurtosis: the exact value; see below *)
Theorem C69_kurtosis : forall l, (2 <= length l)%nat -> let n := INR (length l) in
  aggregate "kurt" (map Some l) = Some (Some (1 / (n * (n ^ 2 - 3 * n + 3)) * ((n * (n - 1) ^ 2 + (6 * n - 9)) * central 4 l + n * (6 * n - 9) * central 2 l ^ 2))) /\ aggregate "kurtosis" (map Some l) = aggregate "kurt" (map Some l).
Proof.
  intros l Hl n. split; [|reflexivity]. assert (Hne : l <> []) by (destruct l; [cbn in Hl; lia|discriminate]). pose proof (len_ne0 _ Hne) as Hn. unfold aggregate. cbv zeta. f_equal. destruct (fold_four l agg0) as (H1 & H2 & H3 & H4 & H5). cbn [cnt a1 a2 a3 a4 agg0 Nat.add INR] in *.
  set (q := fold_left four_step (map Some l) agg0) in *. rewrite H1 in *. unfold kurt_fin, final. rewrite H1. destruct (Nat.ltb_spec 1 (length l)); [|lia]. assert (Hl' : 2 <= n) by (apply le_INR in Hl; cbn in Hl; unfold n; lra). change (INR (length l)) with n in H2, H3, H4, H5, Hn |- *.
  assert (Hq : n * n - 3 * n + 3 <> 0) by nra. rewrite cdiv_ok by (apply Rmult_integral_contrapositive; split; [nra|auto]). f_equal.
  assert (E1 : a1 q = avg l) by (unfold avg; rewrite <- psum1; apply Rmult_eq_reg_l with n; auto; rewrite H2; unfold n; field; auto).
  assert (E2 : psum 2 l = n * a2 q) by (rewrite H3; lra). assert (E3 : psum 3 l = n * a3 q) by (rewrite H4; lra). assert (E4 : psum 1 l = n * a1 q) by (rewrite H2; lra). assert (E5 : psum 4 l = n * a4 q) by (rewrite H5; lra).
  unfold central, avg at 1 3. rewrite !map_length. fold (Rsumf (fun x => (x - avg l) ^ 4) l). fold (Rsumf (fun x => (x - avg l) ^ 2) l). destruct (central_psum l (avg l)) as (S2 & _ & S4). rewrite S2, S4, E2, E3, E4, E5, <- E1. fold n. field; repeat split; auto; nra.
Qed.
(** C69: one row gives 0, none NULL; NULLs and texts are counted, as zeros *)
Theorem C69_small : forall name r x, aggregate name [x] = Some r -> r = Some 0 /\ aggregate name [] = Some None.
Proof.
  intros name r x. unfold aggregate. cbn [fold_left]. cbv zeta. unfold std_samp, std_pop, var_samp, var_pop, skew_fin, kurt_fin, final, two_step, three_step, four_step. cbn [cnt agg0].
  change (1 <? 1)%nat with false. change (1 <? 0)%nat with false. cbn [Nat.eqb].
  repeat (match goal with |- context [match ?s with EmptyString => _ | String _ _ => _ end] => destruct s end; try discriminate);
  repeat (match goal with |- context [match ?a with Ascii _ _ _ _ _ _ _ _ => _ end] => destruct a end);
  repeat (match goal with |- context [if ?b then _ else _] => destruct b end); try discriminate; intros [= <-]; auto.
Qed.
Lemma fold_null (step : agg -> option R -> agg) : (forall p v, step p v = step p (Some (value_double v))) -> forall l p, fold_left step l p = fold_left step (map Some (map value_double l)) p.
Proof. intros H l. induction l as [|x l IH]; intros p; cbn [fold_left map]; auto. rewrite (H p x). apply IH. Qed.
Theorem C69_nulls : forall name l, aggregate name l = aggregate name (map Some (map value_double l)).
Proof. intros name l. unfold aggregate. rewrite <- (fold_null two_step), <- (fold_null three_step), <- (fold_null four_step); auto. Qed.
(** C69: the order of the rows does not matter *)
Lemma psum_perm k l l' : Permutation l l' -> psum k l = psum k l'.
Proof. intros H. unfold psum, Rsumf. induction H; cbn [map]; rewrite ?Rsum_cons; lra. Qed.
Lemma fold_same (step : agg -> option R -> agg) p : (forall q v, a3 (step q v) = a3 q /\ a4 (step q v) = a4 q) -> forall l, a3 (fold_left step l p) = a3 p /\ a4 (fold_left step l p) = a4 p.
Proof. intros H l. revert p. induction l as [|x l IH]; intros p; cbn [fold_left]; auto. destruct (IH (step p x)) as [-> ->]. apply H. Qed.
Lemma fold_same4 (step : agg -> option R -> agg) p : (forall q v, a4 (step q v) = a4 q) -> forall l, a4 (fold_left step l p) = a4 p.
Proof. intros H l. revert p. induction l as [|x l IH]; intros p; cbn [fold_left]; auto. rewrite IH. apply H. Qed.
Lemma agg_eq p q : cnt p = cnt q -> a1 p = a1 q -> a2 p = a2 q -> a3 p = a3 q -> a4 p = a4 q -> p = q.
Proof. destruct p, q. cbn. intros; subst; auto. Qed.
Theorem C69_order : forall name l l', Permutation l l' -> aggregate name l = aggregate name l'.
Proof.
  intros name l l' Hp. rewrite (C69_nulls name l), (C69_nulls name l'). assert (Hq : Permutation (map value_double l) (map value_double l')) by (apply Permutation_map; auto).
  generalize dependent (map value_double l). generalize (map value_double l'). clear l l' Hp. intros l' l Hp. pose proof (Permutation_length Hp) as Hlen.
  destruct l as [|x l]; [apply Permutation_nil in Hp; subst; auto|]. set (m := x :: l) in *. assert (Hne : m <> []) by discriminate. clearbody m. pose proof (len_ne0 _ Hne) as Hn.
  assert (D : forall a b s, INR (length m) * a = s -> INR (length m) * b = s -> a = b) by (intros a b s H1 H2; apply Rmult_eq_reg_l with (INR (length m)); auto; congruence).
  assert (E2 : fold_left two_step (map Some m) agg0 = fold_left two_step (map Some l') agg0).
  { destruct (fold_two m agg0) as (A1 & A2 & A3). destruct (fold_two l' agg0) as (B1 & B2 & B3). cbn [cnt a1 a2 agg0 Nat.add INR] in *. rewrite A1 in *. rewrite B1, <- Hlen in *. rewrite <- (psum_perm 1 _ _ Hp), <- (psum_perm 2 _ _ Hp) in *.
    apply agg_eq; [congruence|eapply D; eassumption|eapply D; eassumption| |]; rewrite ?(proj1 (fold_same two_step agg0 ltac:(auto) _)), ?(proj2 (fold_same two_step agg0 ltac:(auto) _)); auto. }
  assert (E3 : fold_left three_step (map Some m) agg0 = fold_left three_step (map Some l') agg0).
  { destruct (fold_three m agg0) as (A1 & A2 & A3 & A4). destruct (fold_three l' agg0) as (B1 & B2 & B3 & B4). cbn [cnt a1 a2 a3 agg0 Nat.add INR] in *. rewrite A1 in *. rewrite B1, <- Hlen in *. rewrite <- (psum_perm 1 _ _ Hp), <- (psum_perm 2 _ _ Hp), <- (psum_perm 3 _ _ Hp) in *.
    apply agg_eq; [congruence|eapply D; eassumption|eapply D; eassumption|eapply D; eassumption|]; rewrite ?(fold_same4 three_step agg0 ltac:(auto)); auto. }
  assert (E4 : fold_left four_step (map Some m) agg0 = fold_left four_step (map Some l') agg0).
  { destruct (fold_four m agg0) as (A1 & A2 & A3 & A4 & A5). destruct (fold_four l' agg0) as (B1 & B2 & B3 & B4 & B5). cbn [cnt a1 a2 a3 a4 agg0 Nat.add INR] in *. rewrite A1 in *. rewrite B1, <- Hlen in *. rewrite <- (psum_perm 1 _ _ Hp), <- (psum_perm 2 _ _ Hp), <- (psum_perm 3 _ _ Hp), <- (psum_perm 4 _ _ Hp) in *.
    apply agg_eq; [congruence|eapply D; eassumption..]. }
  unfold aggregate. rewrite E2, E3, E4. auto.
Qed.
Print Assumptions C69_nulls.
Print Assumptions C69_order.
Print Assumptions C69_variance.
Print Assumptions C69_var_vector.
Print Assumptions C69_skew.
Print Assumptions C69_kurtosis.
Print Assumptions C69_small.
Example C69_nonvacuous : aggregate "var" (map Some [1; 2; 6]) = Some (Some 7) /\ aggregate "variance" (map Some [1; 2; 6]) = Some (Some (14 / 3)).
Proof.
  destruct (C69_variance [1; 2; 6]) as (H1 & _ & _ & H2 & _); [cbn; lia|]. rewrite H1, H2. unfold svar, central, avg. cbn. split; do 2 f_equal; field.
Qed.
(** Deviation: NULL is counted as zero (sqlite's own aggregates, and the documentation of missing data, leave it out). *)
Theorem C69_null_refuted : aggregate "var" [Some 2; None] = Some (Some 2) /\ aggregate "var" [Some 2] = Some (Some 0).
Proof. split; [|reflexivity]. change (aggregate "var" [Some 2; None]) with (aggregate "var" (map Some [2; 0])). rewrite (proj1 (C69_variance [2; 0] ltac:(cbn; lia))). unfold svar, avg. cbn. do 2 f_equal. field. Qed.
(** Deviation: the kurtosis is not apop_vector_kurtosis: n^3 stands for (n-1)^3, plus for minus. *)
Theorem C69_kurtosis_refuted : aggregate "kurt" (map Some [1; -1]) = Some (Some (11 / 2)) /\ vector_kurtosis [1; -1] = Some (- 4).
Proof.
  split.
  - rewrite (proj1 (C69_kurtosis [1; -1] ltac:(cbn; lia))). unfold central, avg. cbn. do 2 f_equal. field.
  - unfold vector_kurtosis. rewrite C34_kurtosis_pop by discriminate. rewrite C34_var by (cbn; lia). cbn [length INR]. rewrite !cdiv_ok by lra. unfold svar, central, avg. cbn. f_equal. field.
Qed.
Print Assumptions C69_null_refuted.
Print Assumptions C69_kurtosis_refuted.
