(** C81: the F test.  Vocabulary in TestSpec and OlsSpec. *)
From Coq Require Import Reals Lra.
From Verif Require Import DataModel NamesModel StatsModel StatsSpec StatsProofs StatsMatProofs StatsProps LinModel LinProps ConvModel DbModel OlsModel OlsSpec OlsProofs OlsLikeProps TestModel TestSpec TestProps TestTableProps.
Local Open Scope list_scope.
Local Open Scope R_scope.

Lemma mapM_fun {A B} (f : A -> option B) (h : A -> B) l : (forall x, In x l -> f x = Some (h x)) -> mapM f l = Some (map h l).
Proof. induction l as [|x l IH]; intros H; [reflexivity|]. cbn. rewrite H by (cbn; auto). cbn. rewrite IH by (intros; apply H; cbn; auto). reflexivity. Qed.
Lemma seq_lookup k n i : (i < n)%nat -> seq k n !! i = Some (k + i)%nat.
Proof. intros H. apply lookup_seq. lia. Qed.
Lemma fold_rows (f : list R -> R) rows : forall t, fold_left (fun t r => t + f r) rows t = t + Rsum (map f rows).
Proof. induction rows as [|r rows IH]; intros t; cbn [fold_left map]; [rewrite Rsum_nil; lra|]. rewrite IH, Rsum_cons. lra. Qed.
Lemma centered_ok X : wf_grid X -> (0 < gr X)%nat -> exists M, centered_gram X = Some M /\ wf_grid M /\ gr M = gc X /\ gc M = gc X /\ forall i j, (i < gc X)%nat -> (j < gc X)%nat -> cell M i j = Some (cgram X i j).
Proof.
  intros W Hr. pose proof W as [W1 W2]. unfold centered_gram. set (means := map _ _).
  assert (Em : forall i, (i < gc X)%nat -> means !! i = Some (Some (center X i))).
  { intros i Hi. unfold means. rewrite list_lookup_fmap, seq_lookup by auto. cbn [fmap option_fmap option_map Nat.add]. f_equal. unfold center. destruct (Nat.eqb_spec i 0); auto. rewrite C34_mean.
    - f_equal. unfold avg. rewrite <- (col_sum X i W), C34_vector_sum. unfold get_col. rewrite map_length, W1. auto.
    - unfold get_col. intros E. apply map_eq_nil in E. rewrite E in W1. cbn in W1. lia. }
  set (rows := map (fun i => map (cgram X i) (seq 0 (gc X))) (seq 0 (gc X))).
  assert (E : mapM (fun i => mapM (fun j => match means !! i, means !! j with Some (Some a), Some (Some b) => Some (fold_left (fun t r => t + (nth i r 0 - a) * (nth j r 0 - b)) (ga X) 0) | _, _ => None end) (seq 0 (gc X))) (seq 0 (gc X)) = Some rows).
  { apply mapM_fun. intros i Hi. apply in_seq in Hi. apply mapM_fun. intros j Hj. apply in_seq in Hj. rewrite !Em by lia. f_equal. rewrite (fold_rows (fun r => (nth i r 0 - center X i) * (nth j r 0 - center X j))), Rplus_0_l. rewrite sum_of_list, map_length, W1. unfold cgram. apply sum_to_ext. intros r Hrr.
    destruct (row_nth X r W Hrr) as [L E]. unfold dev. rewrite !E. set (f := fun r0 => _). rewrite (nth_indep _ 0 (f [])) by (rewrite map_length; lia). rewrite map_nth. reflexivity. }
  rewrite E. eexists. split; [reflexivity|]. unfold rows. split. { split; cbn; [rewrite map_length, seq_length; auto|]. apply List.Forall_forall. intros r Hin. apply in_map_iff in Hin as (i & <- & _). rewrite map_length, seq_length. auto. }
  split; [auto|]. split; [auto|]. intros i j Hi Hj. unfold cell. cbn [ga]. rewrite list_lookup_fmap, seq_lookup by auto. cbn. rewrite list_lookup_fmap, seq_lookup by auto. reflexivity.
Qed.
(** all that the report says *)
Theorem C81_f_test g linv X beta Q c sse H K : wf_grid X -> wf_grid Q -> (0 < gr X)%nat -> length beta = gc X -> gc Q = gc X -> gr Q = length c -> sse <> 0 -> (0 < length c)%nat ->
  inverts linv (gc X) (cgram X) H -> inverts linv (gr Q) (qhq Q H) K ->
  let q := INR (length c) in let n := INR (gr X) in let F := (n - q) / (q * sse) * quad (length c) K (gap Q beta c) in exists o, f_test_base g linv X beta Q c sse = Ok (inr o) /\
  elem o "F statistic" = Some F /\ elem o "df1" = Some q /\ elem o "df2" = Some (n - q) /\
  ((length c < gr X)%nat -> elem o "p value" = Some (fQ g F q (n - q)) /\ elem o "confidence" = Some (1 - fQ g F q (n - q))) /\
  ((gr X <= length c)%nat -> elem o "p value" = None /\ elem o "confidence" = None).
Proof.
  intros WX WQ Hr Lb Cq Gq Hs Hc [IH LH] [IK LK] q n F. unfold f_test_base. rewrite (proj2 (Nat.eqb_eq _ _) Gq). cbn [negb].
  destruct (centered_ok X WX Hr) as (M & -> & WM & RM & CM & NM). rewrite (LH M WM RM CM NM). destruct IH as (WH & RH & CH & _). destruct IK as (WK & RK & CK & _).
  destruct (C33_matrix_matrix (of_mat Q) (of_mat H) "m" "m" Q H) as (o1 & m1 & -> & E1 & _ & M1 & W1 & R1 & C1 & N1 & _); auto; try discriminate; [cbn; lia|]. cbn in R1, C1.
  destruct (C33_matrix_matrix o1 (of_mat Q) "m" "t" m1 Q) as (o2 & m2 & -> & E2 & _ & M2 & W2 & R2 & C2 & N2 & _); auto; try discriminate; [cbn; lia|]. cbn in R2, C2. rewrite E1, E2. unfold the_mat. rewrite M2. cbn [rbind].
  rewrite (LK m2) by (auto; try lia; intros i j Hi Hj; rewrite N2 by lia; f_equal; change (snd (shape_of m1 (transposing "m"))) with (gc m1); unfold qhq; rewrite C1, CH, <- Cq; apply sum_to_ext; intros b Hb; f_equal; change (elt m1 (transposing "m") i b) with (elt m1 false i b); rewrite (cell_elt _ _ _ _ (N1 i b ltac:(lia) ltac:(lia))); reflexivity).
  destruct (C33_matrix_vector (of_mat Q) (of_vec beta) "m" "v" Q beta) as (o3 & v3 & -> & E3 & _ & V3 & L3 & N3 & _); auto; try discriminate; [cbn; lia|]. cbn in L3. rewrite E3. unfold the_vec at 1. rewrite V3. cbn [rbind]. unfold vzip. rewrite (proj2 (Nat.eqb_eq _ _)) by lia. cbn [rbind].
  set (dl := zip_with Rminus v3 c). assert (Ld : length dl = length c) by (unfold dl; rewrite zip_with_length; lia).
  destruct (C33_matrix_vector (of_mat K) (of_vec dl) "000" "v" K dl) as (o4 & v4 & -> & E4 & _ & V4 & L4 & N4 & _); auto; try discriminate; [cbn; lia|]. cbn in L4. unfold the_vec. rewrite V4. cbn [rbind].
  assert (Nd : forall i, (i < length c)%nat -> nth i dl 0 = gap Q beta c i). { intros i Hi. unfold dl. rewrite (nth_zip _ _ _ 0 0) by lia. rewrite (nth_of v3 i _ (N3 i ltac:(lia))). unfold gap. rewrite Lb, <- Cq. reflexivity. }
  assert (Eq : ddot_loop dl v4 0 = quad (length c) K (gap Q beta c)). { rewrite ddot_nth by lia. rewrite Rplus_0_l, Ld. apply sum_to_ext. intros i Hi. rewrite Nd by auto. f_equal. rewrite (nth_of v4 i _ (N4 i ltac:(lia))). rewrite Ld. apply sum_to_ext. intros j Hj. rewrite Nd by auto. reflexivity. }
  rewrite Eq. assert (Hq : 0 < q) by (unfold q; apply lt_0_INR; auto). fold q. assert (Edf : IZR (Z.of_nat (gr X) - Z.of_nat (length c)) = n - q) by (rewrite minus_IZR, <- !INR_IZR_INZ; auto). rewrite Edf. unfold cdiv. assert (sse * q <> 0) by (apply Rmult_integral_contrapositive_currified; [auto|lra]). destruct (Req_EM_T (sse * q) 0); [contradiction|].
  assert (EF : quad (length c) K (gap Q beta c) * ((n - q) / (sse * q)) = F) by (unfold F; field; lra). rewrite EF. eexists. split; [reflexivity|]. cbn [elem String.eqb Ascii.eqb Bool.eqb]. rewrite (proj2 (Nat.ltb_lt _ _) Hc). cbn [andb].
  split; [auto|]. split; [auto|]. split; [auto|]. split; intros Hlt.
  - rewrite (proj2 (Z.ltb_lt _ _)) by lia. cbn [omap1]. auto.
  - rewrite (proj2 (Z.ltb_ge _ _)) by lia. auto.
Qed.

(** ** the statistic's sign *)
Lemma sum_ext2 n m f g : (forall i j, (i < n)%nat -> (j < m)%nat -> f i j = g i j) -> sum_to n (fun i => sum_to m (f i)) = sum_to n (fun i => sum_to m (g i)).
Proof. intros H. apply sum_to_ext. intros i Hi. apply sum_to_ext. auto. Qed.
Lemma mul_inv n (A : nat -> nat -> R) (B : nat -> nat -> R) (x : nat -> R) i : (forall i j, (i < n)%nat -> (j < n)%nat -> sum_to n (fun l => A i l * B l j) = delta i j) -> (i < n)%nat -> sum_to n (fun l => A i l * sum_to n (fun j => B l j * x j)) = x i.
Proof.
  intros H Hi. transitivity (sum_to n (fun j => delta i j * x j)); [|apply sum_delta; auto]. transitivity (sum_to n (fun l => sum_to n (fun j => A i l * B l j * x j))). { apply sum_to_ext. intros l Hl. rewrite sum_to_scal. apply sum_to_ext. intros. ring. }
  rewrite sum_to_swap. apply sum_to_ext. intros j Hj. rewrite <- H by auto. rewrite Rmult_comm, sum_to_scal. apply sum_to_ext. intros. ring.
Qed.
Section sign.
  Context (X Q H K : grid R) (k q : nat) (Hk : inverse_of k (cgram X) H) (Cq : gc Q = k) (HK : inverse_of q (qhq Q H) K) (x : nat -> R).
  Let y i := sum_to q (fun j => elt K false i j * x j).
  Let z a := sum_to q (fun i => elt Q false i a * y i).
  Let w a := sum_to k (fun b => elt H false a b * z b).
  Lemma x_of i : (i < q)%nat -> x i = sum_to k (fun a => elt Q false i a * w a).
  Proof.
    intros Hi. destruct HK as (_ & _ & _ & _ & HR). rewrite <- (mul_inv q (qhq Q H) (fun l j => elt K false l j) x i HR Hi). change (fun l => qhq Q H i l * _) with (fun l => qhq Q H i l * y l). unfold w, z.
    transitivity (sum_to q (fun l => sum_to k (fun b => sum_to k (fun a => elt Q false i a * elt H false a b) * elt Q false l b * y l))). { apply sum_to_ext. intros l Hl. unfold qhq. rewrite Cq, Rmult_comm, sum_to_scal. apply sum_to_ext. intros. ring. }
    rewrite sum_to_swap. transitivity (sum_to k (fun b => sum_to k (fun a => elt Q false i a * (elt H false a b * sum_to q (fun l => elt Q false l b * y l))))).
    - apply sum_to_ext. intros b Hb. transitivity (sum_to k (fun a => elt Q false i a * elt H false a b) * sum_to q (fun l => elt Q false l b * y l)). { rewrite sum_to_scal. apply sum_to_ext. intros. ring. } rewrite Rmult_comm, sum_to_scal. apply sum_to_ext. intros. ring.
    - rewrite sum_to_swap. apply sum_to_ext. intros a Ha. rewrite sum_to_scal. auto.
  Qed.
  Lemma z_of a : (a < k)%nat -> z a = sum_to k (fun b => cgram X a b * w b).
  Proof. intros Ha. destruct Hk as (_ & _ & _ & _ & HR). symmetry. apply (mul_inv k (cgram X) (fun l j => elt H false l j) z a HR Ha). Qed.
  Lemma quad_norm : quad q K x = sum_to (gr X) (fun r => sum_to k (fun a => dev X r a * w a) ^ 2).
  Proof.
    transitivity (sum_to k (fun a => w a * z a)).
    - unfold quad. change (fun i => x i * _) with (fun i => x i * y i). transitivity (sum_to q (fun i => sum_to k (fun a => w a * (elt Q false i a * y i)))).
      + apply sum_to_ext. intros i Hi. rewrite (x_of i Hi), Rmult_comm, sum_to_scal. apply sum_to_ext. intros. ring.
      + rewrite sum_to_swap. apply sum_to_ext. intros a Ha. unfold z. rewrite sum_to_scal. auto.
    - transitivity (sum_to k (fun a => sum_to k (fun b => sum_to (gr X) (fun r => w a * (dev X r a * dev X r b) * w b)))).
      + apply sum_to_ext. intros a Ha. rewrite z_of, sum_to_scal by auto. apply sum_to_ext. intros b Hb. unfold cgram. rewrite (Rmult_comm (sum_to _ _)), <- Rmult_assoc, sum_to_scal. apply sum_to_ext. intros. ring.
      + transitivity (sum_to k (fun a => sum_to (gr X) (fun r => dev X r a * w a * sum_to k (fun b => dev X r b * w b)))). { apply sum_to_ext. intros a Ha. rewrite sum_to_swap. apply sum_to_ext. intros r Hr. rewrite sum_to_scal. apply sum_to_ext. intros. ring. }
        rewrite sum_to_swap. apply sum_to_ext. intros r Hr. transitivity (sum_to k (fun b => dev X r b * w b) * sum_to k (fun a => dev X r a * w a)); [|ring]. rewrite sum_to_scal. apply sum_to_ext. intros. ring.
  Qed.
  Lemma quad_nonneg : 0 <= quad q K x.
  Proof. rewrite quad_norm. apply sum_to_nonneg. intros. apply pow2_ge_0. Qed.
  Lemma quad_zero : quad q K x = 0 <-> forall i, (i < q)%nat -> x i = 0.
  Proof.
    split.
    - intros E. rewrite quad_norm in E. assert (S0 : forall r, (r < gr X)%nat -> sum_to k (fun a => dev X r a * w a) = 0). { intros r Hr. pose proof (sum_to_null _ _ (fun r _ => pow2_ge_0 (sum_to k (fun a => dev X r a * w a))) E r Hr) as S. cbv beta in S. nra. }
      assert (Z0 : forall a, (a < k)%nat -> z a = 0). { intros a Ha. rewrite z_of by auto. transitivity (sum_to (gr X) (fun r => dev X r a * sum_to k (fun b => dev X r b * w b))).
        - transitivity (sum_to k (fun b => sum_to (gr X) (fun r => dev X r a * (dev X r b * w b)))). { apply sum_to_ext. intros b Hb. unfold cgram. rewrite Rmult_comm, sum_to_scal. apply sum_to_ext. intros. ring. } rewrite sum_to_swap. apply sum_to_ext. intros r Hr. rewrite sum_to_scal. auto.
        - etransitivity; [|apply sum_zero with (n := gr X)]. apply sum_to_ext. intros r Hr. rewrite S0 by auto. ring. }
      intros i Hi. rewrite (x_of i Hi). etransitivity; [|apply sum_zero with (n := k)]. apply sum_to_ext. intros a Ha. unfold w. assert (W0 : sum_to k (fun b => elt H false a b * z b) = 0) by (etransitivity; [|apply sum_zero with (n := k)]; apply sum_to_ext; intros b Hb; rewrite Z0 by auto; ring). rewrite W0. ring.
    - intros E. unfold quad. etransitivity; [|apply sum_zero with (n := q)]. apply sum_to_ext. intros i Hi. rewrite E by auto. ring.
  Qed.
End sign.
(** with more observations than contrasts and a positive sum of squared errors: F is not negative, and zero just when the estimate fulfils the contrasts *)
Theorem C81_sign g linv X beta Q c sse H K o F : wf_grid X -> wf_grid Q -> (0 < length c < gr X)%nat -> length beta = gc X -> gc Q = gc X -> gr Q = length c -> 0 < sse ->
  inverts linv (gc X) (cgram X) H -> inverts linv (gr Q) (qhq Q H) K -> f_test_base g linv X beta Q c sse = Ok (inr o) -> elem o "F statistic" = Some F ->
  0 <= F /\ (F = 0 <-> forall i, (i < length c)%nat -> sum_to (gc X) (fun j => elt Q false i j * nth j beta 0) = nth i c 0).
Proof.
  intros WX WQ Hc Lb Cq Gq Hs IH IK Eo EF. destruct (C81_f_test g linv X beta Q c sse H K) as (o' & Eo' & EF' & _); auto; try lia; [lra|]. rewrite Eo in Eo'. injection Eo' as <-. rewrite EF in EF'. injection EF' as ->. destruct IH as [IH _]. destruct IK as [IK _]. rewrite Gq in IK.
  pose proof (quad_nonneg X Q H K (gc X) (length c) IH Cq IK (gap Q beta c)) as N. pose proof (quad_zero X Q H K (gc X) (length c) IH Cq IK (gap Q beta c)) as Z.
  assert (Hq : 0 < INR (length c)) by (apply lt_0_INR; lia). assert (Hn : INR (length c) < INR (gr X)) by (apply lt_INR; lia). assert (P : 0 < (INR (gr X) - INR (length c)) / (INR (length c) * sse)) by (apply Rdiv_lt_0_compat; [lra|apply Rmult_lt_0_compat; auto]). split; [apply Rmult_le_pos; lra|].
  split.
  - intros E. apply Rmult_integral in E as [E|E]; [lra|]. intros i Hi. pose proof (proj1 Z E i Hi) as G. unfold gap in G. rewrite Cq in G. lra.
  - intros A. rewrite (proj2 Z); [ring|]. intros i Hi. unfold gap. rewrite Cq, A by auto. ring.
Qed.

(** ** the default contrasts *)
Lemma default_elt k i j : (i < k - 1)%nat -> (j < k)%nat -> elt (default_contrast k) false i j = delta j (S i).
Proof. intros Hi Hj. unfold elt, cell, default_contrast. cbn [ga]. rewrite list_lookup_fmap, seq_lookup by auto. cbn. rewrite list_lookup_fmap, seq_lookup by auto. reflexivity. Qed.
Lemma default_wf k : wf_grid (default_contrast k).
Proof. split; cbn; [rewrite map_length, seq_length; auto|]. apply List.Forall_forall. intros r Hr. apply in_map_iff in Hr as (i & <- & _). rewrite map_length, seq_length. auto. Qed.
Lemma delta_sym i j : delta i j = delta j i.
Proof. unfold delta. rewrite Nat.eqb_sym. auto. Qed.
Lemma sum_default k i f : (i < k - 1)%nat -> sum_to k (fun j => elt (default_contrast k) false i j * f j) = f (S i).
Proof. intros Hi. rewrite <- (sum_delta k (S i) f) by lia. apply sum_to_ext. intros j Hj. rewrite default_elt, delta_sym by auto. auto. Qed.
Lemma qhq_default k H i j : (i < k - 1)%nat -> (j < k - 1)%nat -> qhq (default_contrast k) H i j = elt H false (S i) (S j).
Proof. intros Hi Hj. unfold qhq. cbn [gc default_contrast]. rewrite <- (sum_default k j (fun b => elt H false (S i) b) Hj). apply sum_to_ext. intros b Hb. rewrite (sum_default k i (fun a => elt H false a b) Hi). ring. Qed.
(** K of the default contrasts is the cross product matrix of the columns but the first, if that is constant *)
Lemma cgram_0 X j : (0 < gr X)%nat -> (forall r, (r < gr X)%nat -> elt X false r 0 = 1) -> (0 < j)%nat -> cgram X 0 j = 0.
Proof.
  intros Hr H1 Hj. assert (N : INR (gr X) <> 0) by (apply not_0_INR; lia). unfold cgram. transitivity (sum_to (gr X) (fun r => elt X false r j) - sum_to (gr X) (fun _ => center X j)).
  - rewrite sum_to_minus. apply sum_to_ext. intros r Hrr. unfold dev at 1. rewrite H1 by auto. unfold center at 1. cbn [Nat.eqb]. unfold dev. ring.
  - assert (C : forall n c, sum_to n (fun _ => c) = INR n * c). { induction n as [|n IH]; intros c; [cbn; unfold sum_to; cbn; lra|]. rewrite sum_to_S, IH, S_INR. ring. } rewrite C. unfold center. rewrite (proj2 (Nat.eqb_neq j 0)) by lia. unfold col_total. field. auto.
Qed.
Lemma k_default X H K : (0 < gr X)%nat -> (forall r, (r < gr X)%nat -> elt X false r 0 = 1) -> inverse_of (gc X) (cgram X) H -> inverse_of (gc X - 1) (qhq (default_contrast (gc X)) H) K -> forall i j, (i < gc X - 1)%nat -> (j < gc X - 1)%nat -> elt K false i j = cgram X (S i) (S j).
Proof.
  intros Hr H1 IH IK i j Hi Hj. set (k := gc X) in *. destruct IK as (_ & _ & _ & KL & KR). destruct IH as (_ & _ & _ & HL & HR). assert (Ek : k = S (k - 1)) by lia.
  assert (GH : forall i j, (i < k - 1)%nat -> (j < k - 1)%nat -> sum_to (k - 1) (fun l => qhq (default_contrast k) H i l * cgram X (S l) (S j)) = delta i j).
  { intros a b Ha Hb. transitivity (sum_to k (fun l => elt H false (S a) l * cgram X l (S b))); [|rewrite HL by lia; reflexivity]. transitivity (sum_to (S (k - 1)) (fun l => elt H false (S a) l * cgram X l (S b))); [|f_equal; lia]. rewrite sum_to_cons, (cgram_0 X (S b)) by (auto; lia). rewrite Rmult_0_r, Rplus_0_l. apply sum_to_ext. intros l Hl. rewrite qhq_default by auto. auto. }
  pose proof (mul_inv (k - 1) (fun a b => elt K false a b) (qhq (default_contrast k) H) (fun l => cgram X (S l) (S j)) i KL Hi) as E. rewrite <- E. rewrite <- (sum_delta (k - 1) j (fun l => elt K false i l)) by auto. apply sum_to_ext. intros l Hl. rewrite GH by auto. rewrite (delta_sym l j). ring.
Qed.
(** no contrasts given, a first column of ones: F is (N - q)/q times the sum of squares of the fitted values about their mean over the sum of squared errors *)
Definition mean_fit (X : grid R) (b : list R) : R := sum_to (gr X) (fitted X b) / INR (gr X).
Theorem C81_default g linv X beta sse H K : wf_grid X -> (2 <= gc X)%nat -> (0 < gr X)%nat -> (forall r, (r < gr X)%nat -> elt X false r 0 = 1) -> length beta = gc X -> sse <> 0 ->
  let q := (gc X - 1)%nat in inverts linv (gc X) (cgram X) H -> inverts linv q (qhq (default_contrast (gc X)) H) K -> exists o, f_test g linv X beta sse None = Ok (inr o, None) /\
  elem o "F statistic" = Some ((INR (gr X) - INR q) / INR q * (sum_to (gr X) (fun r => (fitted X beta r - mean_fit X beta) ^ 2) / sse)) /\ elem o "df1" = Some (INR q) /\ elem o "df2" = Some (INR (gr X) - INR q).
Proof.
  intros WX Hc Hr H1 Lb Hs q IH IK. unfold f_test. cbn [c_mat c_vec]. rewrite Lb. cbn [gr default_contrast]. fold q.
  destruct (C81_f_test g linv X beta (default_contrast (gc X)) (replicate q 0) sse H K) as (o & Eo & EF & E1 & E2 & _); auto; try (cbn [gr default_contrast]; rewrite ?replicate_length; fold q; auto; lia); [apply default_wf|]. rewrite replicate_length in *. fold (default_contrast (gc X)) in *. cbn [default_contrast] in Eo. rewrite Eo. cbn [rbind option_map].
  exists o. split; [auto|]. split; [|auto]. rewrite EF. f_equal. assert (Hq : 0 < INR q) by (apply lt_0_INR; unfold q; lia). assert (N0 : INR (gr X) <> 0) by (apply not_0_INR; lia).
  assert (Eg : forall i, (i < q)%nat -> gap (default_contrast (gc X)) beta (replicate q 0) i = nth (S i) beta 0). { intros i Hi. unfold gap. cbn [gc default_contrast]. fold (default_contrast (gc X)). rewrite (sum_default (gc X) i (fun j => nth j beta 0)) by auto. rewrite (nth_of (replicate q 0) i 0) by (apply lookup_replicate; auto). ring. }
  assert (Ef : forall r, (r < gr X)%nat -> fitted X beta r - mean_fit X beta = sum_to q (fun i => dev X r (S i) * nth (S i) beta 0)).
  { assert (Es : forall r, (r < gr X)%nat -> fitted X beta r = nth 0 beta 0 + sum_to q (fun i => elt X false r (S i) * nth (S i) beta 0)). { intros r Hrr. unfold fitted. replace (gc X) with (S q) by (unfold q; lia). rewrite sum_to_cons, H1 by auto. ring. }
    assert (C : forall n c, sum_to n (fun _ => c) = INR n * c). { induction n as [|n IHn]; intros c; [cbn; unfold sum_to; cbn; lra|]. rewrite sum_to_S, IHn, S_INR. ring. }
    assert (Em : mean_fit X beta = nth 0 beta 0 + sum_to q (fun i => center X (S i) * nth (S i) beta 0)).
    { unfold mean_fit. transitivity ((sum_to (gr X) (fun _ => nth 0 beta 0) + sum_to (gr X) (fun r => sum_to q (fun i => elt X false r (S i) * nth (S i) beta 0))) / INR (gr X)). { f_equal. rewrite sum_to_plus. apply sum_to_ext. auto. } rewrite C, sum_to_swap. unfold Rdiv. rewrite Rmult_plus_distr_r. f_equal; [field; auto|]. rewrite Rmult_comm, sum_to_scal. apply sum_to_ext. intros i Hi. unfold center, col_total. cbn [Nat.eqb]. unfold Rdiv. rewrite (Rmult_comm (sum_to _ _ * _)), <- Rmult_assoc, (Rmult_comm (nth _ _ _ * _)). unfold Rdiv. rewrite !sum_to_scal. apply sum_to_ext. intros. ring. }
    intros r Hrr. rewrite Es, Em by auto. match goal with |- ?a + ?b - (?a + ?c) = _ => replace (a + b - (a + c)) with (b - c) by ring end. rewrite sum_to_minus. apply sum_to_ext. intros i Hi. unfold dev. ring. }
  assert (Eq : quad q K (gap (default_contrast (gc X)) beta (replicate q 0)) = sum_to (gr X) (fun r => (fitted X beta r - mean_fit X beta) ^ 2)).
  { destruct IK as [IK _]. destruct IH as [IH _]. pose proof (k_default X H K Hr H1 IH IK) as EK. fold q in EK. unfold quad. transitivity (sum_to q (fun i => sum_to q (fun j => sum_to (gr X) (fun r => nth (S i) beta 0 * (dev X r (S i) * dev X r (S j)) * nth (S j) beta 0)))).
    - apply sum_to_ext. intros i Hi. rewrite Eg, sum_to_scal by auto. apply sum_to_ext. intros j Hj. rewrite Eg, EK by auto. unfold cgram. rewrite (Rmult_comm (sum_to _ _)), <- Rmult_assoc, sum_to_scal. apply sum_to_ext. intros. ring.
    - transitivity (sum_to q (fun i => sum_to (gr X) (fun r => dev X r (S i) * nth (S i) beta 0 * sum_to q (fun j => dev X r (S j) * nth (S j) beta 0)))). { apply sum_to_ext. intros i Hi. rewrite sum_to_swap. apply sum_to_ext. intros r Hrr. rewrite sum_to_scal. apply sum_to_ext. intros. ring. }
      rewrite sum_to_swap. apply sum_to_ext. intros r Hrr. rewrite Ef by auto. transitivity (sum_to q (fun j => dev X r (S j) * nth (S j) beta 0) * sum_to q (fun i => dev X r (S i) * nth (S i) beta 0)); [|ring]. rewrite sum_to_scal. apply sum_to_ext. intros. ring. }
  rewrite Eq. field. lra.
Qed.

(** ** errors *)
Theorem C81_errors g linv X beta Q c sse : (gr Q <> length c -> f_test_base g linv X beta Q c sse = Ok (inl "d"%char)) /\
  (gr Q = length c -> (forall M, linv M = None) -> f_test_base g linv X beta Q c sse = Ok (inl "i"%char)).
Proof.
  unfold f_test_base. split; intros H.
  - rewrite (proj2 (Nat.eqb_neq _ _) H). reflexivity.
  - intros L. rewrite (proj2 (Nat.eqb_eq _ _) H). cbn [negb]. destruct (centered_gram X); auto. rewrite L. auto.
Qed.
(** ** where the code differs from its documentation *)
(** the factor and the second degrees of freedom are N - q, not N - K *)
Theorem C81_refuted_df g linv X beta Q c sse H K : wf_grid X -> wf_grid Q -> (length c < gc X < gr X)%nat -> length beta = gc X -> gc Q = gc X -> gr Q = length c -> 0 < sse -> (0 < length c)%nat ->
  inverts linv (gc X) (cgram X) H -> inverts linv (gr Q) (qhq Q H) K -> let documented := (INR (gr X) - INR (gc X)) / (INR (length c) * sse) * quad (length c) K (gap Q beta c) in
  exists o F df2, f_test_base g linv X beta Q c sse = Ok (inr o) /\ elem o "F statistic" = Some F /\ elem o "df2" = Some df2 /\ INR (gr X) - INR (gc X) < df2 /\ documented <= F /\ ((exists i, (i < length c)%nat /\ gap Q beta c i <> 0) -> documented < F).
Proof.
  intros WX WQ Hn Lb Cq Gq Hs Hc IH IK documented. destruct (C81_f_test g linv X beta Q c sse H K) as (o & Eo & EF & _ & E2 & _); auto; try lia; [lra|]. eexists o, _, _. split; [exact Eo|]. split; [exact EF|]. split; [exact E2|]. destruct IH as [IH _]. destruct IK as [IK _]. rewrite Gq in IK.
  pose proof (quad_nonneg X Q H K (gc X) (length c) IH Cq IK (gap Q beta c)) as N. pose proof (quad_zero X Q H K (gc X) (length c) IH Cq IK (gap Q beta c)) as Z.
  assert (Hq : 0 < INR (length c)) by (apply lt_0_INR; lia). assert (Hk : INR (length c) < INR (gc X)) by (apply lt_INR; lia). split; [lra|]. assert (P : (INR (gr X) - INR (gc X)) / (INR (length c) * sse) < (INR (gr X) - INR (length c)) / (INR (length c) * sse)). { unfold Rdiv. apply Rmult_lt_compat_r; [apply Rinv_0_lt_compat, Rmult_lt_0_compat; auto|lra]. }
  unfold documented. split; [apply Rmult_le_compat_r; lra|]. intros (i & Hi & Ne). apply Rmult_lt_compat_r; auto. destruct (Rle_lt_or_eq_dec _ _ N) as [L|L]; auto. exfalso. apply Ne. apply (proj1 Z); auto.
Qed.
(** contrasts as wide as they should not be: not the error code for dimensions but a NULL pointer *)
Theorem C81_refuted_width g linv X beta Q c sse H : wf_grid X -> (0 < gr X)%nat -> wf_grid Q -> gr Q = length c -> gc Q <> gc X -> inverts linv (gc X) (cgram X) H -> f_test_base g linv X beta Q c sse = UB.
Proof.
  intros WX Hr WQ Gq Hw [IH LH]. unfold f_test_base. rewrite (proj2 (Nat.eqb_eq _ _) Gq). cbn [negb]. destruct (centered_ok X WX Hr) as (M & -> & WM & RM & CM & NM). rewrite (LH M WM RM CM NM). destruct IH as (WH & RH & CH & _).
  unfold apop_dot at 1. unfold choose. cbn [mat vect of_mat Ascii.eqb Bool.eqb negb is_trans orb]. rewrite (proj2 (Nat.eqb_neq _ _)) by lia. cbn [negb set_err]. reflexivity.
Qed.
(** a contrast set without a vector: it comes back holding a freed one, and a second test with it reads that *)
Theorem C81_refuted_reuse g linv X beta sse m o c' : f_test g linv X beta sse (Some (Con m NoVec)) = Ok (o, Some c') -> f_test g linv X beta sse (Some c') = UB.
Proof. unfold f_test. cbn [c_mat c_vec]. destruct (f_test_base _ _ _ _ _ _ _) as [x| |]; cbn [rbind option_map]; [|discriminate|discriminate]. intros [= <- <-]. reflexivity. Qed.
(** with a vector, the contrasts can be used again and again *)
Theorem C81_reuse g linv X beta sse m v o c' : f_test g linv X beta sse (Some (Con m (Vec v))) = Ok (o, Some c') -> f_test g linv X beta sse (Some c') = Ok (o, Some c').
Proof. unfold f_test. cbn [c_mat c_vec]. destruct (f_test_base _ _ _ _ _ _ _) as [x| |] eqn:E; cbn [rbind option_map]; [|discriminate|discriminate]. intros [= <- <-]. cbn [c_mat c_vec]. rewrite E. reflexivity. Qed.
(** the hypotheses can be met: a column of ones, and 0, 1, 2 *)
Example C81_nonvacuous : let X := Gr 3 2 [[1; 0]; [1; 1]; [1; 2]] in let H := Gr 2 2 [[1 / 3; 0]; [0; 1 / 2]] in let K := Gr 1 1 [[2]] in let linv (M : grid R) := if (gr M =? 2)%nat then Some H else if (gr M =? 1)%nat then Some K else None in
  inverts linv 2 (cgram X) H /\ inverts linv 1 (qhq (default_contrast 2) H) K /\ forall g, exists o, f_test g linv X [5; 2] 4 None = Ok (inr o, None) /\ elem o "F statistic" = Some 4 /\ elem o "df2" = Some 2.
Proof.
  intros X H K linv. assert (C0 : center X 0 = 0) by reflexivity. assert (C1 : center X 1 = 1) by (unfold center, col_total, sum_to, elt, Rsum; cbn; lra).
  assert (G : forall i j, (i < 2)%nat -> (j < 2)%nat -> cgram X i j = match i, j with O, O => 3 | 1%nat, 1%nat => 2 | _, _ => 0 end). { intros [|[|i]] [|[|j]] Hi Hj; try lia; unfold cgram, sum_to, dev; cbn [X gr seq map]; fold X; rewrite ?C0, ?C1; unfold elt, Rsum; cbn; lra. }
  assert (I1 : inverts linv 2 (cgram X) H). { split. - split; [split; [reflexivity|repeat constructor]|]. split; [reflexivity|]. split; [reflexivity|]. split; intros [|[|i]] [|[|j]] Hi Hj; try lia; unfold sum_to; cbn [seq map]; rewrite !G by lia; unfold elt, Rsum, delta; cbn; lra. - intros M _ RM _ _. unfold linv. rewrite RM. reflexivity. }
  assert (I2 : inverts linv 1 (qhq (default_contrast 2) H) K). { split. - split; [split; [reflexivity|repeat constructor]|]. split; [reflexivity|]. split; [reflexivity|]. split; intros [|i] [|j] Hi Hj; try lia; unfold sum_to; cbn [seq map]; rewrite !qhq_default by lia; unfold elt, Rsum, delta; cbn; lra. - intros M _ RM _ _. unfold linv. rewrite RM. reflexivity. }
  split; [auto|]. split; [auto|]. intros g. destruct (C81_default g linv X [5; 2] 4 H K) as (o & Eo & EF & _ & E2); try (exact I1 || exact I2 || reflexivity || (cbn; lia)); [split; [reflexivity|repeat constructor]|intros [|[|[|r]]] Hr; cbn in Hr; try lia; reflexivity|lra|].
  exists o. split; [auto|]. rewrite EF, E2. split; f_equal; [|cbn; lra]. unfold mean_fit, fitted, sum_to, elt, Rsum. cbn. lra.
Qed.
Print Assumptions C81_f_test. Print Assumptions C81_sign. Print Assumptions C81_default. Print Assumptions C81_errors. Print Assumptions C81_refuted_df. Print Assumptions C81_refuted_width. Print Assumptions C81_refuted_reuse. Print Assumptions C81_reuse. Print Assumptions C81_nonvacuous.
