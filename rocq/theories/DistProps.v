(** C35: distances between vectors; C36: normalization; C30: percentiles; C52: entropy. *)
From Coq Require Import Reals Lra Psatz Sorting.Permutation.
From Verif Require Import DataModel StatsModel StatsSpec StatsProofs DistProofs NormProofs.
Local Notation sqrt := R_sqrt.sqrt.
Local Open Scope list_scope.
Local Open Scope R_scope.

(** the supported metrics; for 'l' the norm must be at least one to have a metric *)
Definition is_metric (c : ascii) (p : R) : Prop :=
  In c ["e"; "E"; "m"; "M"; "d"; "D"; "s"; "S"]%char \/ (In c ["l"; "L"]%char /\ 1 <= p).

(** what each letter stands for *)
Definition metric_value (c : ascii) (p : R) (a b : list R) (d : R) : Prop :=
  let sum f := Rsum (zip_with f a b) in
  (In c ["e"; "E"]%char -> d = sqrt (sum (fun x y => (x - y) ^ 2))) /\
  (In c ["m"; "M"]%char -> d = sum (fun x y => Rabs (x - y))) /\
  (In c ["d"; "D"]%char -> (a = b /\ d = 0) \/ (a <> b /\ d = 1)) /\
  (In c ["s"; "S"]%char -> Forall (fun z => z <= d) (zip_with (fun x y => Rabs (x - y)) a b) /\
                           (In d (zip_with (fun x y => Rabs (x - y)) a b) \/ (a = [] /\ d = 0))) /\
  (In c ["l"; "L"]%char -> d = cpow (sum (fun x y => cpow (Rabs (x - y)) p)) (1 / p)).

Ltac letters H := repeat (destruct H as [H|H]; [subst|]); try tauto.
Lemma dist_e a b c p : In c ["e"; "E"]%char -> length b = length a ->
  vector_distance a (Some b) c p = Some (sqrt (Rsumf (fun t => (fst t - snd t) ^ 2) (combine a b))).
Proof.
  intros Hc Hl. unfold vector_distance. rewrite Hl, Nat.eqb_refl. cbn [negb].
  replace (char_in c ["e"%char; "E"%char]) with true by (letters Hc; reflexivity).
  rewrite (fold_add (fun x y => (x - y) * (x - y))), Rplus_0_l. do 2 f_equal. apply Rsumf_ext. intros; ring.
Qed.
Lemma dist_m a b c p : In c ["m"; "M"]%char -> length b = length a ->
  vector_distance a (Some b) c p = Some (Rsumf (fun t => Rabs (fst t - snd t)) (combine a b)).
Proof.
  intros Hc Hl. unfold vector_distance. rewrite Hl, Nat.eqb_refl. cbn [negb].
  replace (char_in c ["e"%char; "E"%char]) with false by (letters Hc; reflexivity).
  replace (char_in c ["m"%char; "M"%char]) with true by (letters Hc; reflexivity).
  rewrite (fold_add (fun x y => Rabs (x - y))), Rplus_0_l. reflexivity.
Qed.
Lemma dist_d a b c p : In c ["d"; "D"]%char -> length b = length a ->
  exists d, vector_distance a (Some b) c p = Some d /\ ((a = b /\ d = 0) \/ (a <> b /\ d = 1)).
Proof.
  intros Hc Hl. unfold vector_distance. rewrite Hl, Nat.eqb_refl. cbn [negb].
  replace (char_in c ["e"%char; "E"%char]) with false by (letters Hc; reflexivity).
  replace (char_in c ["m"%char; "M"%char]) with false by (letters Hc; reflexivity).
  replace (char_in c ["d"%char; "D"%char]) with true by (letters Hc; reflexivity).
  eexists. split; [reflexivity|]. clear Hc. revert b Hl.
  induction a as [|x a IH]; intros [|y b] Hl; try discriminate; [left; auto|]. cbn [combine fold_right].
  destruct (Req_EM_T x y) as [->|Hne]; [|right; split; [congruence|auto]].
  destruct (IH b) as [[-> H]|[H H2]]; [cbn in Hl; lia|left; auto|right]. split; [congruence|auto].
Qed.
Lemma dist_s a b c p : In c ["s"; "S"]%char -> length b = length a ->
  exists d, vector_distance a (Some b) c p = Some d /\ 0 <= d /\
    (forall x y, In (x, y) (combine a b) -> Rabs (x - y) <= d) /\ (d = 0 \/ exists x y, In (x, y) (combine a b) /\ d = Rabs (x - y)).
Proof.
  intros Hc Hl. unfold vector_distance. rewrite Hl, Nat.eqb_refl. cbn [negb].
  replace (char_in c ["e"%char; "E"%char]) with false by (letters Hc; reflexivity).
  replace (char_in c ["m"%char; "M"%char]) with false by (letters Hc; reflexivity).
  replace (char_in c ["d"%char; "D"%char]) with false by (letters Hc; reflexivity).
  replace (char_in c ["s"%char; "S"%char]) with true by (letters Hc; reflexivity).
  destruct (sup_loop (combine a b) 0) as (m & -> & H1 & H2 & H3). exists m. auto.
Qed.
Lemma dist_l a b c p : In c ["l"; "L"]%char -> length b = length a ->
  vector_distance a (Some b) c p = Some (cpow (Rsumf (fun t => cpow (Rabs (fst t - snd t)) p) (combine a b)) (1 / p)).
Proof.
  intros Hc Hl. unfold vector_distance. rewrite Hl, Nat.eqb_refl. cbn [negb].
  replace (char_in c ["e"%char; "E"%char]) with false by (letters Hc; reflexivity).
  replace (char_in c ["m"%char; "M"%char]) with false by (letters Hc; reflexivity).
  replace (char_in c ["d"%char; "D"%char]) with false by (letters Hc; reflexivity).
  replace (char_in c ["s"%char; "S"%char]) with false by (letters Hc; reflexivity).
  replace (char_in c ["l"%char; "L"%char]) with true by (letters Hc; reflexivity).
  rewrite (fold_add (fun x y => cpow (Rabs (x - y)) p)), Rplus_0_l. reflexivity.
Qed.
Lemma metric_cases c p : is_metric c p -> In c ["e"; "E"]%char \/ In c ["m"; "M"]%char \/ In c ["d"; "D"]%char \/ In c ["s"; "S"]%char \/ (In c ["l"; "L"]%char /\ 1 <= p).
Proof. unfold is_metric. cbn. tauto. Qed.

Ltac nope H := let H' := fresh in intros H'; exfalso; cbn in H, H'; repeat destruct H as [H|H]; repeat destruct H' as [H'|H']; subst; first [discriminate|contradiction].
Lemma value_aux c p a b : In c ["e"; "E"; "m"; "M"; "d"; "D"; "s"; "S"; "l"; "L"]%char -> length b = length a ->
  exists d, vector_distance a (Some b) c p = Some d /\ metric_value c p a b d.
Proof.
  intros Hc Hl. unfold metric_value. rewrite !zip_combine.
  assert (In c ["e"; "E"]%char \/ In c ["m"; "M"]%char \/ In c ["d"; "D"]%char \/ In c ["s"; "S"]%char \/ In c ["l"; "L"]%char) as [H|[H|[H|[H|H]]]] by (cbn in *; tauto).
  - eexists. split; [apply dist_e; auto|]. split; [auto|]. repeat (split; [nope H|]); nope H.
  - eexists. split; [apply dist_m; auto|]. split; [nope H|]. split; [auto|].
    repeat (split; [nope H|]); nope H.
  - destruct (dist_d a b c p H Hl) as (d & E & Hd). exists d. split; [auto|]. split; [nope H|].
    split; [nope H|]. split; [auto|]. split; nope H.
  - destruct (dist_s a b c p H Hl) as (d & E & H0 & H1 & H2). exists d. split; [auto|]. split; [nope H|].
    split; [nope H|]. split; [nope H|].
    split; [intros _|nope H]. split.
    + rewrite Forall_map. apply List.Forall_forall. intros [x y] Hin. cbn. auto.
    + destruct H2 as [->|(x & y & Hin & ->)].
      * destruct a as [|x a], b as [|y b]; try discriminate; [right; auto|]. left. cbn [combine map]. left. cbn.
        pose proof (H1 x y (or_introl eq_refl)). pose proof (Rabs_pos (x - y)). lra.
      * left. apply in_map_iff. exists (x, y). auto.
  - eexists. split; [apply dist_l; auto|]. repeat (split; [nope H|]). auto.
Qed.
(** C35: each letter computes the distance the documentation names. *)
Theorem C35_values : forall c p a b, In c ["e"; "E"; "m"; "M"; "d"; "D"; "s"; "S"; "l"; "L"]%char -> length b = length a ->
  exists d, vector_distance a (Some b) c p = Some d /\ metric_value c p a b d.
Proof. exact value_aux. Qed.
Print Assumptions C35_values.

Lemma Rabs_sub_0 x y : Rabs (x - y) = 0 <-> x = y.
Proof. split; [|intros ->; rewrite Rminus_diag_eq, Rabs_R0; auto]. intros H. destruct (Req_dec x y); auto. assert (x - y <> 0) by lra. apply Rabs_no_R0 in H1. congruence. Qed.
Lemma metric_aux c p a b : is_metric c p -> length b = length a ->
  exists d, vector_distance a (Some b) c p = Some d /\ vector_distance b (Some a) c p = Some d /\ 0 <= d /\ (d = 0 <-> a = b).
Proof.
  intros Hc Hl. apply metric_cases in Hc as [H|[H|[H|[H|[H Hp]]]]].
  - rewrite !dist_e by auto. eexists. split; [reflexivity|].
    rewrite (sum_flip (fun x y => (x - y) ^ 2) b a) by (auto; intros; ring). split; [reflexivity|]. split; [apply sqrt_pos|].
        pose proof (sum_zero_iff (fun x y => (x - y) ^ 2) a b ltac:(intros; apply pow2_ge_0) ltac:(intros; split; [nra|intros ->; ring]) Hl) as HZ.
    assert (0 <= Rsumf (fun t => (fst t - snd t) ^ 2) (combine a b)) by (apply Rsumf_nonneg; intros; apply pow2_ge_0).
    rewrite <- HZ. split; [apply sqrt_eq_0; auto|intros ->; apply sqrt_0].
  - rewrite !dist_m by auto. eexists. split; [reflexivity|].
    rewrite (sum_flip (fun x y => Rabs (x - y)) b a) by (auto using Rabs_minus_sym). split; [reflexivity|].
    split; [apply Rsumf_nonneg; intros; apply Rabs_pos|].     apply (sum_zero_iff (fun x y => Rabs (x - y))); auto using Rabs_pos, Rabs_sub_0.
  - destruct (dist_d a b c p H Hl) as (d & E & Hd). destruct (dist_d b a c p H (eq_sym Hl)) as (d' & E' & Hd').
    exists d. split; [auto|]. assert (d' = d) as <- by (destruct Hd as [[? ->]|[? ->]], Hd' as [[? ->]|[? ->]]; congruence).
    split; [auto|]. destruct Hd as [[-> ->]|[? ->]]; [split; [lra|tauto]|]. split; [lra|]. split; [lra|]. tauto.
  - destruct (dist_s a b c p H Hl) as (d & E & H0 & H1 & H2). destruct (dist_s b a c p H (eq_sym Hl)) as (d' & E' & H0' & H1' & H2').
    assert (forall x y, In (x, y) (combine a b) <-> In (y, x) (combine b a)) as HF.
    { clear - Hl. revert b Hl. induction a as [|u a IH]; intros [|v b] Hl x y; try discriminate; [reflexivity|]. cbn.
      rewrite IH by (cbn in Hl; lia). split; (intros [[= -> ->]|]; auto). }
    exists d. split; [auto|]. assert (d' = d) as ->.
    { apply Rle_antisym.
      - destruct H2' as [->|(x & y & Hin & ->)]; [auto|]. apply HF in Hin. rewrite Rabs_minus_sym. auto.
      - destruct H2 as [->|(x & y & Hin & ->)]; [auto|]. apply HF in Hin. rewrite Rabs_minus_sym. auto. }
    split; [auto|]. split; [auto|]. split.
    + intros ->. apply combine_eq; auto. intros x y Hin. apply Rabs_sub_0. pose proof (H1 x y Hin). pose proof (Rabs_pos (x - y)). lra.
    + intros ->. destruct H2 as [|(x & y & Hin & ->)]; auto. apply combine_self in Hin. subst. apply Rabs_sub_0. auto.
  - rewrite !dist_l by auto. eexists. split; [reflexivity|].
    rewrite (sum_flip (fun x y => cpow (Rabs (x - y)) p) b a) by (auto; intros; rewrite Rabs_minus_sym; auto). split; [reflexivity|].
    split; [apply cpow_nonneg|]. rewrite cpow_zero.
    apply (sum_zero_iff (fun x y => cpow (Rabs (x - y)) p)); auto using cpow_nonneg. intros. rewrite cpow_zero. apply Rabs_sub_0.
Qed.
(** C35: nonnegative, symmetric, zero exactly on equal vectors. *)
Theorem C35_metric : forall c p a b, is_metric c p -> length b = length a ->
  exists d, vector_distance a (Some b) c p = Some d /\ vector_distance b (Some a) c p = Some d /\ 0 <= d /\ (d = 0 <-> a = b).
Proof. exact metric_aux. Qed.
Print Assumptions C35_metric.

Lemma triangle_aux c p a b e x y z : is_metric c p -> length b = length a -> length e = length a ->
  vector_distance a (Some b) c p = Some x -> vector_distance b (Some e) c p = Some y -> vector_distance a (Some e) c p = Some z -> z <= x + y.
Proof.
  intros Hc H1 H2. assert (length e = length b) as H3 by lia. set (T := combine a (combine b e)).
  apply metric_cases in Hc as [H|[H|[H|[H|[H Hp]]]]].
  - rewrite !dist_e by auto. intros E1 E2 E3. apply (inj Some) in E1, E2, E3. subst x y z.
    rewrite (trip_12 (fun x y => (x - y) ^ 2) a b e), (trip_23 (fun x y => (x - y) ^ 2) a b e), (trip_13 (fun x y => (x - y) ^ 2) a b e) by auto.
    eapply Rle_trans; [|apply minkowski2]. right. f_equal. apply Rsumf_ext. intros; ring.
  - rewrite !dist_m by auto. intros [= <-] [= <-] [= <-].
    rewrite (trip_12 (fun x y => Rabs (x - y)) a b e), (trip_23 (fun x y => Rabs (x - y)) a b e), (trip_13 (fun x y => Rabs (x - y)) a b e) by auto.
    rewrite <- Rsumf_plus. apply Rsumf_le. intros t _. eapply Rle_trans; [|apply Rabs_triang]. right. f_equal. ring.
  - destruct (dist_d a b c p H H1) as (d1 & -> & D1). destruct (dist_d b e c p H H3) as (d2 & -> & D2). destruct (dist_d a e c p H H2) as (d3 & -> & D3).
    intros [= <-] [= <-] [= <-]. destruct D1 as [[-> ->]|[? ->]], D2 as [[-> ->]|[? ->]], D3 as [[? ->]|[? ->]]; try congruence; lra.
  - destruct (dist_s a b c p H H1) as (d1 & -> & P1 & D1 & _). destruct (dist_s b e c p H H3) as (d2 & -> & P2 & D2 & _). destruct (dist_s a e c p H H2) as (d3 & -> & _ & _ & D3).
    intros [= <-] [= <-] [= <-]. destruct D3 as [->|(u & w & Hin & ->)]; [lra|].
    assert (exists v, In (u, v) (combine a b) /\ In (v, w) (combine b e)) as (v & I1 & I2).
    { clear - Hin H1 H2. revert b e H1 H2 Hin. induction a as [|x a IH]; intros [|y b] [|z e] H1 H2 Hin; try discriminate; [inversion Hin|].
      cbn in Hin. destruct Hin as [[= -> ->]|Hin]; [exists y; cbn; auto|]. destruct (IH b e) as (v & ? & ?); [cbn in *; lia..|auto|]. exists v. cbn. auto. }
    pose proof (D1 _ _ I1). pose proof (D2 _ _ I2). eapply Rle_trans with (Rabs (u - v) + Rabs (v - w)); [|lra].
    eapply Rle_trans; [|apply Rabs_triang]. right. f_equal. ring.
  - rewrite !dist_l by auto. intros [= <-] [= <-] [= <-].
    rewrite (trip_12 (fun x y => cpow (Rabs (x - y)) p) a b e), (trip_23 (fun x y => cpow (Rabs (x - y)) p) a b e), (trip_13 (fun x y => cpow (Rabs (x - y)) p) a b e) by auto.
    eapply Rle_trans; [|apply (minkowski (fun t : R * (R * R) => Rabs (fst t - fst (snd t))) (fun t => Rabs (fst (snd t) - snd (snd t)))); auto; intros; apply Rabs_pos].
    apply cpow_le; [|apply Rdiv_lt_0_compat; lra]. split; [apply Rsumf_nonneg; intros; apply cpow_nonneg|].
    apply Rsumf_le. intros t _. apply cpow_le; [|lra]. split; [apply Rabs_pos|]. eapply Rle_trans; [|apply Rabs_triang]. right. f_equal. ring.
Qed.
(** C35: the triangle inequality, for every metric (for 'l' with norm >= 1: Minkowski's inequality). *)
Theorem C35_triangle : forall c p a b e x y z, is_metric c p -> length b = length a -> length e = length a ->
  vector_distance a (Some b) c p = Some x -> vector_distance b (Some e) c p = Some y -> vector_distance a (Some e) c p = Some z -> z <= x + y.
Proof. exact triangle_aux. Qed.
Print Assumptions C35_triangle.

Lemma lp_aux a b : length b = length a ->
  vector_distance a (Some b) "l" 2 = vector_distance a (Some b) "e" 2 /\ vector_distance a (Some b) "l" 1 = vector_distance a (Some b) "m" 1.
Proof.
  intros Hl. split.
  - rewrite dist_l, dist_e by (cbn; auto). f_equal. rewrite cpow_half by (apply Rsumf_nonneg; intros; apply cpow_nonneg). f_equal.
    apply Rsumf_ext. intros t _. rewrite cpow_2 by apply Rabs_pos. rewrite <- (Rsqr_pow2 (Rabs _)), <- Rsqr_abs, Rsqr_pow2. reflexivity.
  - rewrite dist_l, dist_m by (cbn; auto). f_equal. replace (1 / 1) with 1 by field. rewrite cpow_1 by (apply Rsumf_nonneg; intros; apply cpow_nonneg).
    apply Rsumf_ext. intros t _. apply cpow_1. apply Rabs_pos.
Qed.
(** C35: the L2 norm is the Euclidean distance, L1 the Manhattan distance. *)
Theorem C35_lp_special : forall a b, length b = length a ->
  vector_distance a (Some b) "l" 2 = vector_distance a (Some b) "e" 2 /\ vector_distance a (Some b) "l" 1 = vector_distance a (Some b) "m" 1.
Proof. exact lp_aux. Qed.
Print Assumptions C35_lp_special.

(** C35: no second vector means the zero vector; sizes that differ, or an unknown letter, give NaN. *)
Theorem C35_default_zero : forall a c p, vector_distance a None c p = vector_distance a (Some (replicate (length a) 0)) c p.
Proof. reflexivity. Qed.
Lemma bad_aux a b c p : length b <> length a \/ ~ In c ["e"; "E"; "m"; "M"; "d"; "D"; "s"; "S"; "l"; "L"]%char -> vector_distance a (Some b) c p = None.
Proof.
  intros H. unfold vector_distance. destruct (Nat.eqb_spec (length a) (length b)) as [E|E]; [|reflexivity]. cbn [negb].
  destruct H as [H|H]; [congruence|]. unfold char_in. cbn [existsb].
  assert (forall x, In x ["e"; "E"; "m"; "M"; "d"; "D"; "s"; "S"; "l"; "L"]%char -> Ascii.eqb x c = false) as HN.
  { intros x Hx. apply Ascii.eqb_neq. intros ->. auto. }
  rewrite !HN by (cbn; tauto). reflexivity.
Qed.
Theorem C35_bad_input : forall a b c p, length b <> length a \/ ~ In c ["e"; "E"; "m"; "M"; "d"; "D"; "s"; "S"; "l"; "L"]%char ->
  vector_distance a (Some b) c p = None.
Proof. exact bad_aux. Qed.
Print Assumptions C35_bad_input.
Example C35_nonvacuous : is_metric "l" 3 /\ exists x y z : list R, length y = length x /\ length z = length x /\ x <> y.
Proof. split; [right; split; [cbn; auto|lra]|]. exists [1; 2], [3; 4], [5; 6]. repeat split; auto. intros [= H]. lra. Qed.

(** C35: the Manhattan length of a vector is not its sum (as documented) when it has negative elements. *)
Theorem C35_manhattan_sum_refuted : vector_distance [-1; 1] None "m" 2 = Some 2 /\ vector_sum [-1; 1] = 0.
Proof.
  split; [|unfold vector_sum; cbn; lra]. rewrite C35_default_zero. cbn [length replicate]. rewrite dist_m by (cbn; auto). f_equal. unfold Rsumf, Rsum. cbn.
  unfold Rabs. repeat destruct (Rcase_abs _); lra.
Qed.
Print Assumptions C35_manhattan_sum_refuted.
(** C35: with norm below one the 'l' distance breaks the triangle inequality. *)
Theorem C35_small_norm_refuted : exists x y z,
  vector_distance [1; 0] (Some [0; 0]) "l" (1/2) = Some x /\ vector_distance [0; 0] (Some [0; 1]) "l" (1/2) = Some y /\
  vector_distance [1; 0] (Some [0; 1]) "l" (1/2) = Some z /\ x + y < z.
Proof.
  rewrite !dist_l by (cbn; auto). eexists _, _, _. split; [reflexivity|]. split; [reflexivity|]. split; [reflexivity|].
  unfold Rsumf, Rsum. cbn [map combine fold_right fst snd].
  replace (Rabs (1 - 0)) with 1 by (unfold Rabs; destruct (Rcase_abs _); lra). replace (Rabs (0 - 0)) with 0 by (unfold Rabs; destruct (Rcase_abs _); lra).
  replace (Rabs (0 - 1)) with 1 by (unfold Rabs; destruct (Rcase_abs _); lra). replace (1 / (1 / 2)) with 2 by field.
  rewrite !cpow_half, sqrt_1, sqrt_0, !cpow_2 by lra. lra.
Qed.
Print Assumptions C35_small_norm_refuted.

(** ================ C36 ================ *)
(** C36: 'p' scales the vector to sum to one (a vector summing to zero is left alone). *)
Theorem C36_p : forall v, Rsum v <> 0 ->
  exists out, vector_normalize v "p" = Ok (inl out) /\ out = map (fun x => x / Rsum v) v /\ Rsum out = 1.
Proof. exact norm_p. Qed.
Theorem C36_p_zero : forall v, Rsum v = 0 -> vector_normalize v "p" = Ok (inl v).
Proof. exact norm_p0. Qed.
(** C36: 'r' maps linearly onto [0,1], both ends attained. *)
Theorem C36_r : forall v mn mx, In mn v -> In mx v -> (forall x, In x v -> mn <= x <= mx) -> mn <> mx ->
  exists out, vector_normalize v "r" = Ok (inl out) /\ out = map (fun x => (x - mn) / (mx - mn)) v /\
    In 0 out /\ In 1 out /\ forall y, In y out -> 0 <= y <= 1.
Proof. exact norm_r. Qed.
(** C36: 'm' makes the mean zero. *)
Theorem C36_m : forall v, v <> [] -> exists out, vector_normalize v "m" = Ok (inl out) /\ out = map (fun x => x - avg v) v /\ avg out = 0.
Proof. exact norm_m. Qed.
(** C36: 's' makes the mean zero and the sample variance one. *)
Theorem C36_s : forall v, (2 <= length v)%nat -> svar v <> 0 ->
  exists out, vector_normalize v "s" = Ok (inl out) /\ out = map (fun x => (x - avg v) / sqrt (svar v)) v /\ avg out = 0 /\ svar out = 1.
Proof. exact norm_s. Qed.
(** C36: a constant vector: 's' returns zeros, 'r' divides by zero. *)
Theorem C36_s_const : forall v c, v <> [] -> (forall x, In x v -> x = c) -> vector_normalize v "s" = Ok (inl (map (fun _ => 0) v)).
Proof. exact norm_s_const. Qed.
Theorem C36_r_const : forall v c, v <> [] -> (forall x, In x v -> x = c) -> vector_normalize v "r" = Ok (inr tt).
Proof. exact norm_r_const. Qed.
Print Assumptions C36_p. Print Assumptions C36_r. Print Assumptions C36_s. Print Assumptions C36_r_const.
Example C36_nonvacuous : Rsum [1; 2] <> 0 /\ svar [1; 2] <> 0 /\ In 1 [1; 2] /\ In 2 [1; 2] /\ 1 <> 2.
Proof. unfold svar, avg, Rsum. cbn. repeat split; auto; lra. Qed.

(** ================ C30 ================ *)
Lemma pct_aux v r : v <> [] ->
  exists p, vector_percentiles v r = Ok p /\ length p = 101%nat /\
  (forall i x, p !! i = Some x -> pctile (rsort v) r i = Ok x) /\
  (forall i x, p !! i = Some x -> (i <= 100)%nat -> exists a b, rsort v !! pidx (length v) i "d"%char = Some a /\ rsort v !! pidx (length v) i "u"%char = Some b /\
     ((r = "u"%char /\ x = b) \/ (r = "a"%char /\ x = (a + b) / 2) \/ (r <> "u"%char /\ r <> "a"%char /\ x = a))).
Proof.
  intros Hne. assert (length (rsort v) = length v) as HL by (apply Permutation_length, rsort_perm).
  assert (0 < length v)%nat as Hpos by (destruct v; [congruence|cbn; lia]).
  assert (forall i, (i <= 100)%nat -> exists x, pctile (rsort v) r i = Ok x) as HE.
  { intros i Hi. destruct (Ascii.eqb r "a") eqn:Er.
    - apply Ascii.eqb_eq in Er as ->. destruct (pctile_a (rsort v) i ltac:(lia) Hi) as (x & H & _). eauto.
    - destruct (pctile_not_a (rsort v) r i Er ltac:(lia) Hi) as (x & H & _). eauto. }
  unfold vector_percentiles. replace (length v =? 0)%nat with false by (symmetry; apply Nat.eqb_neq; lia).
  destruct (rmapM_ok (pctile (rsort v) r) (seq 0 101)) as (p & -> & Hlen & HH).
  { intros i Hi. apply in_seq in Hi. apply HE. lia. }
  exists p. split; [auto|]. split; [auto|].
  assert (forall i x, p !! i = Some x -> pctile (rsort v) r i = Ok x) as HP.
  { intros i x Hx. pose proof (lookup_lt_Some _ _ _ Hx) as Hlt. rewrite Hlen, seq_length in Hlt.
    destruct (HH i i) as (y & Hy & E); [rewrite lookup_seq; lia|]. congruence. }
  split; [auto|]. intros i x Hx Hi. specialize (HP i x Hx).
  pose proof (pidx_lt (length v) i "d" Hpos Hi) as H1. pose proof (pidx_lt (length v) i "u" Hpos Hi) as H2.
  rewrite <- HL in H1 at 2. rewrite <- HL in H2 at 2.
  apply lookup_lt_is_Some in H1 as [a Ha]. apply lookup_lt_is_Some in H2 as [b Hb]. exists a, b. split; [auto|]. split; [auto|].
  destruct (Ascii.eqb r "a") eqn:Er.
  - apply Ascii.eqb_eq in Er as ->. destruct (pctile_a (rsort v) i ltac:(lia) Hi) as (x' & H & a' & b' & Ha' & Hb' & ->). rewrite HL in *.
    right; left. split; [auto|]. assert (a' = a) as -> by congruence. assert (b' = b) as -> by congruence. congruence.
  - destruct (pctile_not_a (rsort v) r i Er ltac:(lia) Hi) as (x' & H & Hx'). rewrite HL in *. assert (x' = x) as -> by congruence.
    apply Ascii.eqb_neq in Er. destruct (Ascii.eqb r "u") eqn:Eu.
    + apply Ascii.eqb_eq in Eu as ->. left. split; [auto|]. congruence.
    + right; right. split; [apply Ascii.eqb_neq; auto|]. split; [auto|]. unfold pidx in Hx', Ha. rewrite Eu in Hx'. cbn [andb Ascii.eqb Bool.eqb] in *. congruence.
Qed.
Lemma sort_ends v a b : rsort v !! 0%nat = Some a -> rsort v !! (length v - 1)%nat = Some b ->
  In a v /\ In b v /\ forall x, In x v -> a <= x <= b.
Proof.
  intros Ha Hb. assert (length (rsort v) = length v) as HL by (apply Permutation_length, rsort_perm).
  split; [apply (Permutation_in _ (rsort_perm v)), elem_of_list_In; eapply elem_of_list_lookup_2; eauto|].
  split; [apply (Permutation_in _ (rsort_perm v)), elem_of_list_In; eapply elem_of_list_lookup_2; eauto|].
  intros x Hx. apply (Permutation_in _ (Permutation_sym (rsort_perm v))), elem_of_list_In, elem_of_list_lookup in Hx as (i & Hi).
  pose proof (lookup_lt_Some _ _ _ Hi). split.
  - eapply (sorted_le _ (rsort_sorted v) 0 i); eauto; lia.
  - eapply (sorted_le _ (rsort_sorted v) i (length v - 1)); eauto; lia.
Qed.
Lemma pct_main v r : v <> [] ->
  exists p, vector_percentiles v r = Ok p /\ length p = 101%nat /\
    (exists mn, p !! 0%nat = Some mn /\ In mn v /\ forall x, In x v -> mn <= x) /\
    (exists mx, p !! 100%nat = Some mx /\ In mx v /\ forall x, In x v -> x <= mx) /\
    (forall (i j : nat) x y, p !! i = Some x -> p !! j = Some y -> (i <= j)%nat -> x <= y) /\
    (r <> "a"%char -> Forall (fun x => In x v) p).
Proof.
  intros Hne. destruct (pct_aux v r Hne) as (p & E & Hlen & HP & HS). exists p. split; [auto|]. split; [auto|].
  assert (forall (i j : nat) x y, p !! i = Some x -> p !! j = Some y -> (i <= j)%nat -> x <= y) as HM.
  { intros i j x y Hi Hj Hij. pose proof (lookup_lt_Some _ _ _ Hi). pose proof (lookup_lt_Some _ _ _ Hj).
    destruct (HS i x Hi ltac:(lia)) as (a & b & Ha & Hb & Hx). destruct (HS j y Hj ltac:(lia)) as (a' & b' & Ha' & Hb' & Hy).
    assert (a <= a') by (eapply (sorted_le _ (rsort_sorted v)); [exact Ha|exact Ha'|apply pidx_mono; auto]).
    assert (b <= b') by (eapply (sorted_le _ (rsort_sorted v)); [exact Hb|exact Hb'|apply pidx_mono; auto]).
    destruct Hx as [[-> ->]|[[-> ->]|(? & ? & ->)]], Hy as [[? ->]|[[? ->]|(? & ? & ->)]]; try congruence; lra. }
  destruct (lookup_lt_is_Some_2 p 0) as [x0 H0]; [lia|]. destruct (lookup_lt_is_Some_2 p 100) as [x1 H1]; [lia|].
  destruct (HS 0%nat x0 H0 ltac:(lia)) as (a & b & Ha & Hb & Hx). rewrite pidx_0 in Ha, Hb.
  destruct (HS 100%nat x1 H1 ltac:(lia)) as (a' & b' & Ha' & Hb' & Hx'). rewrite pidx_100 in Ha', Hb'.
  assert (a = b) as <- by congruence. assert (a' = b') as <- by congruence.
  assert (x0 = a) as -> by (destruct Hx as [[? ->]|[[? ->]|(? & ? & ->)]]; lra). assert (x1 = a') as -> by (destruct Hx' as [[? ->]|[[? ->]|(? & ? & ->)]]; lra).
  destruct (sort_ends v a a' Ha Ha') as (I1 & I2 & I3).
  split; [exists a; split; [auto|]; split; [auto|]; intros; apply I3; auto|].
  split; [exists a'; split; [auto|]; split; [auto|]; intros; apply I3; auto|]. split; [auto|].
  intros Hr. apply Forall_lookup. intros i x Hi. pose proof (lookup_lt_Some _ _ _ Hi). destruct (HS i x Hi ltac:(lia)) as (u & w & Hu & Hw & Hc).
  assert (forall k z, rsort v !! k = Some z -> In z v) as HI.
  { intros k z Hk. apply (Permutation_in _ (rsort_perm v)), elem_of_list_In. eapply elem_of_list_lookup_2; eauto. }
  destruct Hc as [[? ->]|[[? ->]|(? & ? & ->)]]; eauto. congruence.
Qed.
(** C30: 101 values, non-decreasing, the first the minimum and the last the maximum; without averaging each is an element. *)
Theorem C30_percentiles : forall v r, v <> [] ->
  exists p, vector_percentiles v r = Ok p /\ length p = 101%nat /\
    (exists mn, p !! 0%nat = Some mn /\ In mn v /\ forall x, In x v -> mn <= x) /\
    (exists mx, p !! 100%nat = Some mx /\ In mx v /\ forall x, In x v -> x <= mx) /\
    (forall (i j : nat) x y, p !! i = Some x -> p !! j = Some y -> (i <= j)%nat -> x <= y) /\
    (r <> "a"%char -> Forall (fun x => In x v) p).
Proof. exact pct_main. Qed.
Print Assumptions C30_percentiles.

Lemma cover_aux v : v <> [] ->
  (exists p, vector_percentiles v "u" = Ok p /\ forall (i : nat) x, p !! i = Some x -> (i * length v <= 100 * count_le v x)%nat) /\
  (exists p, vector_percentiles v "d" = Ok p /\ forall (i : nat) x, p !! i = Some x -> ((100 - i) * length v <= 100 * count_ge v x)%nat).
Proof.
  intros Hne. assert (length (rsort v) = length v) as HL by (apply Permutation_length, rsort_perm).
  assert (0 < length v)%nat as Hpos by (destruct v; [congruence|cbn; lia]).
  split.
  - destruct (pct_aux v "u" Hne) as (p & E & Hlen & HP & HS). exists p. split; [auto|]. intros i x Hx. pose proof (lookup_lt_Some _ _ _ Hx).
    destruct (HS i x Hx ltac:(lia)) as (a & b & Ha & Hb & [[_ ->]|[[? _]|(? & _)]]); try congruence.
    pose proof (count_le_sorted (rsort v) _ _ (rsort_sorted v) Hb) as HC.
    assert (count_le (rsort v) b = count_le v b) as EQ by apply filter_perm_len, rsort_perm. rewrite EQ in HC.
    pose proof (pidx_u (length v) i). nia.
  - destruct (pct_aux v "d" Hne) as (p & E & Hlen & HP & HS). exists p. split; [auto|]. intros i x Hx. pose proof (lookup_lt_Some _ _ _ Hx).
    destruct (HS i x Hx ltac:(lia)) as (a & b & Ha & Hb & [[? _]|[[? _]|(_ & _ & ->)]]); try congruence.
    pose proof (count_ge_sorted (rsort v) _ _ (rsort_sorted v) Ha) as HC.
    assert (count_ge (rsort v) a = count_ge v a) as EQ by apply filter_perm_len, rsort_perm. rewrite EQ, HL in HC.
    pose proof (pidx_d (length v) i). nia.
Qed.
(** C30: rounding up, at least i% of the sample is at or below entry i; rounding down, at least (100-i)% is at or above it. *)
Theorem C30_coverage : forall v, v <> [] ->
  (exists p, vector_percentiles v "u" = Ok p /\ forall (i : nat) x, p !! i = Some x -> (i * length v <= 100 * count_le v x)%nat) /\
  (exists p, vector_percentiles v "d" = Ok p /\ forall (i : nat) x, p !! i = Some x -> ((100 - i) * length v <= 100 * count_ge v x)%nat).
Proof. exact cover_aux. Qed.
Print Assumptions C30_coverage.

Lemma avg_aux v : v <> [] -> exists pu pd pa, vector_percentiles v "u" = Ok pu /\ vector_percentiles v "d" = Ok pd /\ vector_percentiles v "a" = Ok pa /\
  forall (i : nat) x y z, pd !! i = Some x -> pu !! i = Some y -> pa !! i = Some z -> z = (x + y) / 2.
Proof.
  intros Hne. destruct (pct_aux v "u" Hne) as (pu & Eu & _ & _ & Su). destruct (pct_aux v "d" Hne) as (pd & Ed & Ld & _ & Sd). destruct (pct_aux v "a" Hne) as (pa & Ea & _ & _ & Sa).
  exists pu, pd, pa. split; [auto|]. split; [auto|]. split; [auto|]. intros i x y z Hx Hy Hz. pose proof (lookup_lt_Some _ _ _ Hx).
  destruct (Su i y Hy ltac:(lia)) as (a & b & Ha & Hb & [[_ ->]|[[? _]|(? & _)]]); try congruence.
  destruct (Sd i x Hx ltac:(lia)) as (a' & b' & Ha' & Hb' & [[? _]|[[? _]|(_ & _ & ->)]]); try congruence.
  destruct (Sa i z Hz ltac:(lia)) as (a'' & b'' & Ha'' & Hb'' & [[? _]|[[_ ->]|(_ & ? & _)]]); try congruence.
Qed.
(** C30: rounding 'a' is the mean of the two roundings. *)
Theorem C30_average : forall v, v <> [] -> exists pu pd pa,
  vector_percentiles v "u" = Ok pu /\ vector_percentiles v "d" = Ok pd /\ vector_percentiles v "a" = Ok pa /\
  forall (i : nat) x y z, pd !! i = Some x -> pu !! i = Some y -> pa !! i = Some z -> z = (x + y) / 2.
Proof. exact avg_aux. Qed.
Print Assumptions C30_average.

(** C30: with 'a' the documented "i% or more of the sample is below entry i" fails: of (0,1), entry 99 is 1/2, and only half of the
    sample is at or below it. *)
Theorem C30_average_coverage_refuted : exists p, vector_percentiles [0; 1] "a" = Ok p /\ p !! 99%nat = Some (1/2) /\
  (100 * count_le [0; 1]%R (1/2) < 99 * 2)%nat.
Proof.
  destruct (pct_aux [0; 1] "a" ltac:(congruence)) as (p & E & Hlen & HP & HS). exists p. split; [auto|].
  destruct (lookup_lt_is_Some_2 p 99) as [x Hx]; [lia|]. destruct (HS 99%nat x Hx ltac:(lia)) as (a & b & Ha & Hb & Hc).
  assert (rsort [0; 1] = [0; 1]) as ES by (cbn; destruct (Rle_dec 0 1); [auto|lra]). rewrite ES in Ha, Hb.
  change (pidx (length [0;1]) 99 "d") with 0%nat in Ha. change (pidx (length [0;1]) 99 "u") with 1%nat in Hb. cbn in Ha, Hb.
  split.
  - rewrite Hx. f_equal. destruct Hc as [[? _]|[[_ ->]|(_ & ? & _)]]; try congruence. injection Ha as <-. injection Hb as <-. lra.
  - unfold count_le. cbn [List.filter]. destruct (Rle_dec 0 (1/2)); [|lra]. destruct (Rle_dec 1 (1/2)); [lra|]. cbn. lia.
Qed.
Print Assumptions C30_average_coverage_refuted.
