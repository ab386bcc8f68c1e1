(** C79, C80: the chi-squared test of a table, and analysis of variance.  Vocabulary in TestSpec. *)
From Coq Require Import Reals Lra.
From Verif Require Import DataModel NamesModel StatsModel StatsSpec StatsProofs StatsMatProofs StatsProps LinModel LinProps ConvModel ConvProofs DbModel AggProps OlsModel OlsProofs OlsLikeProps TestModel TestSpec TestProps.
Local Open Scope list_scope.
Local Open Scope R_scope.

Lemma sum_of_list (l : list R) : Rsum l = sum_to (length l) (fun i => nth i l 0).
Proof. induction l as [|x l IH]; [reflexivity|]. cbn [length]. rewrite sum_to_cons, Rsum_cons, IH. reflexivity. Qed.
Lemma sum_zero n : sum_to n (fun _ => 0) = 0.
Proof. unfold sum_to. induction (seq 0 n) as [|x l IH]; [reflexivity|]. cbn [map]. rewrite Rsum_cons, IH. lra. Qed.
Lemma fold_try (f : nat -> option R) (h : nat -> R) n : forall k t, (forall i, (k <= i < k + n)%nat -> f i = Some (h i)) -> fold_left (fun t i => try s <- t; try x <- f i; Some (s + x)) (seq k n) (Some t) = Some (t + Rsum (map h (seq k n))).
Proof. induction n as [|n IH]; intros k t H; cbn [seq map fold_left]. { f_equal. rewrite Rsum_nil. lra. } rewrite H by lia. rewrite IH by (intros; apply H; lia). f_equal. rewrite Rsum_cons. lra. Qed.
Lemma row_nth (m : grid R) i : wf_grid m -> (i < gr m)%nat -> length (nth i (ga m) []) = gc m /\ forall j, elt m false i j = nth j (nth i (ga m) []) 0.
Proof.
  intros W H. pose proof W as [W1 W2]. destruct (nth_lookup_or_length (ga m) i []) as [E|E]; [|lia]. split; [|apply elt_row; auto]. eapply Forall_lookup_1 in W2; eauto.
Qed.
Lemma row_sum m i : wf_grid m -> (i < gr m)%nat -> vector_sum (nth i (ga m) []) = row_total m i.
Proof. intros W H. destruct (row_nth m i W H) as [L E]. rewrite C34_vector_sum, sum_of_list, L. unfold row_total. apply sum_to_ext. intros j _. rewrite E. auto. Qed.
Lemma col_sum m j : wf_grid m -> vector_sum (get_col m j) = col_total m j.
Proof.
  intros W. pose proof W as [W1 _]. rewrite C34_vector_sum, sum_of_list. unfold get_col. rewrite map_length, W1. apply sum_to_ext. intros i Hi. destruct (row_nth m i W Hi) as [_ E]. rewrite E. rewrite (nth_indep _ 0 (nth j [] 0)) by (rewrite map_length; lia). rewrite (map_nth (fun r => nth j r 0)). auto.
Qed.
Lemma grand_sum m : wf_grid m -> matrix_sum m = grand m.
Proof.
  intros W. pose proof W as [W1 W2]. rewrite C34_matrix_sum. unfold grand. rewrite <- W1. assert (E : Rsum (concat (ga m)) = Rsum (map Rsum (ga m))). { generalize (ga m). intros l. induction l as [|r l IH]; [reflexivity|]. cbn [concat map]. rewrite Rsum_app, Rsum_cons, IH. auto. }
  rewrite E, sum_of_list, map_length. apply sum_to_ext. intros i Hi. rewrite W1 in Hi. rewrite <- (row_sum m i W Hi), C34_vector_sum. change 0 with (Rsum []). rewrite map_nth. auto.
Qed.
Lemma one_ok m i j n : wf_grid m -> (i < gr m)%nat -> IZR n = grand m -> grand m <> 0 -> row_total m i <> 0 -> col_total m j <> 0 ->
  one_chi_sq m i j n = Some ((elt m false i j - expected m i j) ^ 2 / expected m i j).
Proof.
  intros W Hi En Hn Hr Hc. unfold one_chi_sq. rewrite row_sum, col_sum by auto. rewrite !En. unfold cdiv. destruct (Req_EM_T (grand m) 0); [contradiction|]. destruct (row_nth m i W Hi) as [_ E]. rewrite <- E.
  assert (Ee : grand m * (row_total m i / grand m) * (col_total m j / grand m) = expected m i j) by (unfold expected; field; auto). rewrite Ee. assert (expected m i j <> 0). { unfold expected, Rdiv. apply Rmult_integral_contrapositive_currified; [apply Rmult_integral_contrapositive_currified; auto|apply Rinv_neq_0_compat; auto]. }
  destruct (Req_EM_T (expected m i j) 0); [contradiction|]. reflexivity.
Qed.
(** the table's total is a whole number other than zero, and no row or column is empty *)
Definition counts (m : grid R) : Prop := wf_grid m /\ (exists n : Z, (0 < n)%Z /\ grand m = IZR n) /\ (forall i, (i < gr m)%nat -> 0 < row_total m i) /\ (forall j, (j < gc m)%nat -> 0 < col_total m j).
Definition chi_df (m : grid R) : R := if (gr m =? 1)%nat then INR (gc m) - 1 else if (gc m =? 1)%nat then INR (gr m) else (INR (gr m) - 1) * (INR (gc m) - 1).
Lemma chi_ok g d m : mat d = Some m -> counts m -> chi_df m <> 0 -> chi_test g d = Some [("chi squared statistic", Some (pearson m)); ("df", Some (chi_df m)); ("p value", Some (chiQ g (pearson m) (chi_df m)))]%string.
Proof.
  intros Em (W & (n & Hn & En) & Hr & Hc) Hd. unfold chi_test. rewrite Em. fold (chi_df m). destruct (Req_EM_T (chi_df m) 0); [contradiction|]. rewrite grand_sum, En, trunc_IZR by (auto; lia). assert (Hn' : grand m <> 0) by (rewrite En; apply IZR_lt in Hn; lra).
  match goal with |- context [fold_left ?F ?l (Some 0)] => assert (E : fold_left F l (Some 0) = Some (pearson m)) end; [|rewrite E; reflexivity].
  assert (G : forall k l t, (forall i, In i l -> (i < gr m)%nat) -> k = length l -> fold_left (fun t row => fold_left (fun t col => try s <- t; try x <- one_chi_sq m row col n; Some (s + x)) (seq 0 (gc m)) t) l (Some t) = Some (t + Rsum (map (fun i => sum_to (gc m) (fun j => (elt m false i j - expected m i j) ^ 2 / expected m i j)) l))).
  { induction k as [|k IH]; intros [|i l] t Hl L; cbn in L; try lia; cbn [fold_left map]. { rewrite Rsum_nil. f_equal. lra. }
    rewrite (fold_try (fun col => one_chi_sq m i col n) (fun j => (elt m false i j - expected m i j) ^ 2 / expected m i j)). { rewrite IH by (auto; intros; apply Hl; cbn; auto). f_equal. rewrite Rsum_cons. unfold sum_to. cbv beta. ring. }
    intros j Hj. apply one_ok; auto; [apply Hl; cbn; auto|apply Rgt_not_eq, Hr, Hl; cbn; auto|apply Rgt_not_eq, Hc; lia]. }
  rewrite (G (gr m)); [rewrite Rplus_0_l; reflexivity| |rewrite seq_length; auto]. intros i Hi. apply in_seq in Hi. lia.
Qed.
Lemma ge2_df m : (2 <= gr m)%nat -> (2 <= gc m)%nat -> chi_df m = (INR (gr m) - 1) * (INR (gc m) - 1) /\ chi_df m <> 0.
Proof. intros H1 H2. unfold chi_df. rewrite !(proj2 (Nat.eqb_neq _ _)) by lia. split; auto. pose proof (INR2 _ H1). pose proof (INR2 _ H2). nra. Qed.
Lemma expected_pos m i j : counts m -> (i < gr m)%nat -> (j < gc m)%nat -> 0 < expected m i j.
Proof. intros (W & (n & Hn & En) & Hr & Hc) Hi Hj. unfold expected. rewrite En. apply Rdiv_lt_0_compat; [apply Rmult_lt_0_compat; auto|apply IZR_lt in Hn; lra]. Qed.
(** a table of at least two rows and two columns *)
Theorem C79_independence g d m : mat d = Some m -> counts m -> (2 <= gr m)%nat -> (2 <= gc m)%nat -> let df := (INR (gr m) - 1) * (INR (gc m) - 1) in exists o, chi_test g d = Some o /\
  elem o "chi squared statistic" = Some (pearson m) /\ elem o "df" = Some df /\ elem o "p value" = Some (chiQ g (pearson m) df).
Proof. intros Em H H1 H2 df. destruct (ge2_df m H1 H2) as [E N]. rewrite (chi_ok g d m Em H N), E. eexists. split; [reflexivity|]. auto. Qed.
(** the statistic is never negative, and zero just when every cell has the number expected *)
Theorem C79_zero g d m o : mat d = Some m -> counts m -> chi_test g d = Some o -> exists x, elem o "chi squared statistic" = Some x /\ 0 <= x /\ (x = 0 <-> forall i j, (i < gr m)%nat -> (j < gc m)%nat -> elt m false i j = row_total m i * col_total m j / grand m).
Proof.
  intros Em H Ho. assert (N : chi_df m <> 0). { intros N. unfold chi_test in Ho. rewrite Em in Ho. fold (chi_df m) in Ho. destruct (Req_EM_T (chi_df m) 0); [discriminate|contradiction]. } rewrite (chi_ok g d m Em H N) in Ho. injection Ho as <-. exists (pearson m). split; [reflexivity|].
  assert (P : forall i j, (i < gr m)%nat -> (j < gc m)%nat -> 0 <= (elt m false i j - expected m i j) ^ 2 / expected m i j). { intros i j Hi Hj. pose proof (expected_pos m i j H Hi Hj). apply Rmult_le_pos; [apply pow2_ge_0|left; apply Rinv_0_lt_compat; auto]. }
  assert (Q : forall i, (i < gr m)%nat -> 0 <= sum_to (gc m) (fun j => (elt m false i j - expected m i j) ^ 2 / expected m i j)) by (intros; apply sum_to_nonneg; auto). split; [apply sum_to_nonneg; auto|]. split.
  - intros Z i j Hi Hj. pose proof (sum_to_null _ _ Q Z i Hi) as Zi. cbv beta in Zi. pose proof (sum_to_null _ _ (fun j Hj => P i j Hi Hj) Zi j Hj) as Zj. cbv beta in Zj. pose proof (expected_pos m i j H Hi Hj) as Ep. assert ((elt m false i j - expected m i j) ^ 2 = 0). { apply (Rmult_eq_reg_r (/ expected m i j)); [|apply Rgt_not_eq, Rinv_0_lt_compat; auto]. rewrite Rmult_0_l. exact Zj. }
    fold (expected m i j). assert (elt m false i j - expected m i j = 0) by nra. lra.
  - intros A. unfold pearson. transitivity (sum_to (gr m) (fun _ => 0)).
    + apply sum_to_ext. intros i Hi. transitivity (sum_to (gc m) (fun _ => 0)); [apply sum_to_ext; intros j Hj; rewrite (A i j Hi Hj); fold (expected m i j); unfold Rdiv; ring|]. apply sum_zero.
    + apply sum_zero.
Qed.
(** rows and columns exchanged: the same report *)
Definition transposed (m m' : grid R) : Prop := wf_grid m' /\ gr m' = gc m /\ gc m' = gr m /\ forall i j, elt m' false i j = elt m false j i.
Lemma trans_totals m m' : transposed m m' -> (forall i, row_total m' i = col_total m i) /\ (forall j, col_total m' j = row_total m j) /\ grand m' = grand m.
Proof.
  intros (W & R1 & C1 & E). assert (A : forall i, row_total m' i = col_total m i). { intros i. unfold row_total, col_total. rewrite C1. apply sum_to_ext. auto. } assert (B : forall j, col_total m' j = row_total m j). { intros i. unfold row_total, col_total. rewrite R1. apply sum_to_ext. auto. }
  split; [auto|]. split; [auto|]. unfold grand. rewrite R1. transitivity (sum_to (gc m) (fun j => sum_to (gr m) (fun i => elt m false i j))); [apply sum_to_ext; intros; apply A|]. rewrite sum_to_swap. auto.
Qed.
Theorem C79_transpose g d d' m m' : mat d = Some m -> mat d' = Some m' -> transposed m m' -> counts m -> (2 <= gr m)%nat -> (2 <= gc m)%nat -> chi_test g d' = chi_test g d.
Proof.
  intros Em Em' T H H1 H2. destruct (trans_totals m m' T) as (A & B & G). pose proof T as (W & R1 & C1 & E).
  assert (H' : counts m'). { destruct H as (_ & Hn & Hr & Hc). split; [auto|]. rewrite G. split; [auto|]. split; intros i Hi; [rewrite A; apply Hc; lia|rewrite B; apply Hr; lia]. }
  destruct (ge2_df m H1 H2) as [E1 N1]. destruct (ge2_df m') as [E2 N2]; [lia|lia|]. rewrite (chi_ok g d m Em H N1), (chi_ok g d' m' Em' H' N2). assert (P : pearson m' = pearson m).
  { unfold pearson. rewrite R1, C1, sum_to_swap. apply sum_to_ext. intros i Hi. apply sum_to_ext. intros j Hj. assert (X : expected m' j i = expected m i j) by (unfold expected; rewrite A, B, G; unfold Rdiv; ring). rewrite X, E. auto. }
  rewrite P, E1, E2, R1, C1. rewrite (Rmult_comm (INR (gc m) - 1)). auto.
Qed.
(** no matrix, or one cell: NULL *)
Theorem C79_null g d : (mat d = None \/ exists m, mat d = Some m /\ gr m = 1%nat /\ gc m = 1%nat) -> chi_test g d = None.
Proof. intros [E|(m & E & H1 & H2)]; unfold chi_test; rewrite E; auto. rewrite H1, H2. cbn [Nat.eqb INR]. destruct (Req_EM_T (1 - 1) 0); [auto|lra]. Qed.
Theorem C79_refuted_single g d m : mat d = Some m -> counts m -> (gr m = 1%nat /\ (2 <= gc m)%nat \/ gc m = 1%nat /\ (2 <= gr m)%nat) -> exists o, chi_test g d = Some o /\ elem o "chi squared statistic" = Some 0 /\ (gc m = 1%nat -> elem o "df" = Some (INR (gr m))).
Proof.
  intros Em H Hs. assert (N : chi_df m <> 0). { unfold chi_df. destruct Hs as [[-> H2]|[-> H2]]; cbn [Nat.eqb]; [pose proof (INR2 _ H2); lra|]. rewrite (proj2 (Nat.eqb_neq _ _)) by lia. pose proof (INR2 _ H2). lra. }
  destruct (C79_zero g d m _ Em H (chi_ok g d m Em H N)) as (x & Ex & _ & Z). assert (Zx : x = 0). { apply Z. pose proof H as (_ & (n & Hn & En) & _). apply IZR_lt in Hn. assert (G0 : grand m <> 0) by lra. intros i j Hi Hj. destruct Hs as [[Hs _]|[Hs _]].
    - rewrite Hs in Hi. replace i with 0%nat by lia. assert (G : grand m = row_total m 0) by (unfold grand; rewrite Hs; unfold sum_to; cbn; lra). assert (C : col_total m j = elt m false 0 j) by (unfold col_total; rewrite Hs; unfold sum_to; cbn; lra). rewrite C, <- G. field. auto.
    - rewrite Hs in Hj. replace j with 0%nat by lia. assert (C : forall i, row_total m i = elt m false i 0) by (intros k; unfold row_total; rewrite Hs; unfold sum_to; cbn; lra). assert (G : grand m = col_total m 0) by (unfold grand, col_total; apply sum_to_ext; auto). rewrite C, <- G. field. auto. }
  rewrite (chi_ok g d m Em H N) in *. eexists. split; [reflexivity|]. rewrite Ex, Zx. split; [auto|]. intros Hc. cbn. f_equal. unfold chi_df. destruct Hs as [[_ Hs]|[_ Hs]]; [lia|]. rewrite Hc. cbn [Nat.eqb]. rewrite (proj2 (Nat.eqb_neq _ _)) by lia. auto.
Qed.
(** the total is kept in an int: four cells of 0.3 are independent but get 0.04; four cells of 0.1 get no number *)
Lemma same4 x : let m := Gr 2 2 [[x; x]; [x; x]] in wf_grid m /\ (forall i, (i < 2)%nat -> row_total m i = 2 * x) /\ (forall i, (i < 2)%nat -> col_total m i = 2 * x) /\ grand m = 4 * x /\ forall i j, (i < 2)%nat -> (j < 2)%nat -> elt m false i j = x.
Proof.
  intros m. assert (E : forall i j, (i < 2)%nat -> (j < 2)%nat -> elt m false i j = x) by (intros [|[|i]] [|[|j]] Hi Hj; try lia; reflexivity). split; [split; [reflexivity|repeat constructor]|]. unfold grand, row_total, col_total, sum_to. cbn [m gr gc seq map]. unfold Rsum. cbn [fold_right]. fold m.
  split; [intros i Hi; rewrite !E by lia; lra|]. split; [intros i Hi; rewrite !E by lia; lra|]. split; [rewrite !E by lia; lra|auto].
Qed.
Theorem C79_refuted_total g : (let m := Gr 2 2 [[0.3; 0.3]; [0.3; 0.3]] in (forall i j, (i < 2)%nat -> (j < 2)%nat -> elt m false i j = expected m i j) /\ forall d, mat d = Some m -> exists o, chi_test g d = Some o /\ elem o "chi squared statistic" = Some 0.04) /\
  (let m := Gr 2 2 [[0.1; 0.1]; [0.1; 0.1]] in (forall i j, (i < 2)%nat -> (j < 2)%nat -> elt m false i j = expected m i j) /\ forall d, mat d = Some m -> exists o, chi_test g d = Some o /\ elem o "chi squared statistic" = None).
Proof.
  split; intros m.
  - destruct (same4 0.3) as (W & Hr & Hc & Hg & He). fold m in W, Hr, Hc, Hg, He. split; [intros i j Hi Hj; unfold expected; rewrite He, Hr, Hc, Hg by auto; lra|]. intros d Em. unfold chi_test. rewrite Em. fold (chi_df m). destruct (ge2_df m) as [_ N]; [cbn; lia|cbn; lia|]. destruct (Req_EM_T (chi_df m) 0); [contradiction|]. rewrite grand_sum, Hg by auto.
    assert (T : trunc (4 * 0.3) = 1%Z). { unfold trunc. destruct (Rle_dec 0 (4 * 0.3)); [|lra]. destruct (base_Int_part (4 * 0.3)) as [B1 B2]. set (z := Int_part (4 * 0.3)) in *. assert (IZR z < 2) by lra. assert (0 < IZR z) by lra. apply lt_IZR in H, H0. lia. } rewrite T.
    assert (O : forall i j, (i < 2)%nat -> (j < 2)%nat -> one_chi_sq m i j 1 = Some 0.01). { intros i j Hi Hj. unfold one_chi_sq. rewrite row_sum, col_sum, Hr, Hc by auto. unfold cdiv. destruct (Req_EM_T 1 0); [lra|]. destruct (row_nth m i W Hi) as [_ E]. rewrite <- E, He by auto. destruct (Req_EM_T _ 0); [lra|]. f_equal. lra. }
    eexists. split; [reflexivity|]. cbn [elem String.eqb Ascii.eqb Bool.eqb m gr gc seq fold_left]. fold m. rewrite !O by lia. f_equal. lra.
  - destruct (same4 0.1) as (W & Hr & Hc & Hg & He). fold m in W, Hr, Hc, Hg, He. split; [intros i j Hi Hj; unfold expected; rewrite He, Hr, Hc, Hg by auto; lra|]. intros d Em. unfold chi_test. rewrite Em. fold (chi_df m). destruct (ge2_df m) as [_ N]; [cbn; lia|cbn; lia|]. destruct (Req_EM_T (chi_df m) 0); [contradiction|]. rewrite grand_sum, Hg by auto.
    assert (T : trunc (4 * 0.1) = 0%Z). { unfold trunc. destruct (Rle_dec 0 (4 * 0.1)); [|lra]. destruct (base_Int_part (4 * 0.1)) as [B1 B2]. set (z := Int_part (4 * 0.1)) in *. assert (IZR z < 1) by lra. assert (-1 < IZR z) by lra. apply lt_IZR in H, H0. lia. } rewrite T.
    assert (O : one_chi_sq m 0 0 0 = None). { unfold one_chi_sq, cdiv. destruct (Req_EM_T 0 0); [auto|lra]. }
    eexists. split; [reflexivity|]. cbn [elem String.eqb Ascii.eqb Bool.eqb m gr gc seq fold_left]. fold m. rewrite O. auto.
Qed.
(** the hypotheses can be met: rows 1, 2 and 3, 4 *)
Example C79_nonvacuous : let m := Gr 2 2 [[1; 2]; [3; 4]] in counts m /\ forall g d, mat d = Some m -> exists o, chi_test g d = Some o /\ elem o "chi squared statistic" = Some (4 / 100 * (1 / 1.2 + 1 / 1.8 + 1 / 2.8 + 1 / 4.2)) /\ elem o "df" = Some 1.
Proof.
  intros m. assert (R0 : row_total m 0 = 3) by (unfold row_total, sum_to, elt, Rsum; cbn; lra). assert (R1 : row_total m 1 = 7) by (unfold row_total, sum_to, elt, Rsum; cbn; lra). assert (C0 : col_total m 0 = 4) by (unfold col_total, sum_to, elt, Rsum; cbn; lra). assert (C1 : col_total m 1 = 6) by (unfold col_total, sum_to, elt, Rsum; cbn; lra).
  assert (G : grand m = 10) by (unfold grand, sum_to, Rsum; cbn [m gr seq map fold_right]; fold m; lra). assert (K : counts m). { split; [split; [reflexivity|repeat constructor]|]. split; [exists 10%Z; split; [lia|auto]|]. split; intros [|[|i]] Hi; cbn in Hi; try lia; lra. } split; auto.
  intros g d Em. destruct (C79_independence g d m Em K) as (o & Eo & Ex & Ed & _); [cbn; lia|cbn; lia|]. exists o. split; auto. rewrite Ex, Ed. split; f_equal; [|cbn; lra]. unfold pearson, sum_to, Rsum. cbn [m gr gc seq map fold_right]. fold m. unfold expected. rewrite R0, R1, C0, C1, G. unfold elt. cbn. lra.
Qed.
Print Assumptions C79_independence. Print Assumptions C79_zero. Print Assumptions C79_transpose. Print Assumptions C79_null. Print Assumptions C79_refuted_single. Print Assumptions C79_refuted_total. Print Assumptions C79_nonvacuous.

(** ** C80: analysis of variance *)
Lemma pop_ok l : l <> [] -> pop l = Some (central 2 l).
Proof.
  intros H. destruct (le_lt_dec 2 (length l)) as [L|L].
  - unfold pop. destruct (C69_variance l L) as (_ & _ & -> & _). auto.
  - destruct l as [|x [|y l]]; [congruence| |cbn in L; lia]. assert (C : central 2 [x] = 0) by (unfold central, avg; cbn; field). rewrite C. unfold pop. destruct (aggregate "var_pop" (map Some [x])) as [r|] eqn:E; [|cbn in E; discriminate]. destruct (C69_small "var_pop" r (Some x) E) as [-> _]. auto.
Qed.
Lemma central_ss l : l <> [] -> central 2 l * INR (length l) = sum_sq l.
Proof. intros H. unfold central, sum_sq, avg at 1. rewrite map_length. field. apply not_0_INR. destruct l; cbn; [congruence|lia]. Qed.
Definition osum (a b : option R) : option R := match a, b with Some a, Some b => Some (a + b) | _, _ => None end.
(** one way, groups none of them empty, the first row's F and p being numbers: total row; residual row; the group's degrees of freedom; mean squares, F ratio and confidence from the other cells *)
Lemma one_way_eq g first rest : let G := first :: rest in (forall x, In x G -> x <> []) -> let n := INR (length (concat G)) in let k := INR (length rest) in let s := central 2 first * k in let r := sum_sq (concat G) - s in
  let ms1 := cdiv s k in let ms2 := cdiv r (n - k) in let f := opt2 cdiv ms1 ms2 in let p := omap1 (fun x => fP g x k (n - k)) f in
  anova_one_way g G = Some [[Some s; Some k; ms1; f; p; omap1 (fun x => 1 - x) p]; [Some r; Some (n - k); ms2; Some 0; Some 0; Some 0]; [Some (sum_sq (concat G)); Some n; Some 0; Some 0; Some 0; Some 0]].
Proof.
  intros G HG n k s r ms1 ms2 f p. assert (Hf : first <> []) by (apply HG; cbn; auto). assert (Ha : concat G <> []) by (unfold G; cbn; destruct first; [congruence|discriminate]).
  unfold anova_one_way. unfold G at 1. fold G. rewrite !pop_ok by auto. cbn [omap1]. fold n. unfold n at 1 5. rewrite !central_ss by auto. assert (K : INR (length G) - 1 = k) by (unfold G, k; cbn [length]; rewrite S_INR; lra). rewrite K. fold s. cbn [osub opt2]. reflexivity.
Qed.
Theorem C80_one_way g G : G <> [] -> (forall x, In x G -> x <> []) -> let t := anova_one_way g G in
  at_ t 2 0 = Some (sum_sq (concat G)) /\ at_ t 2 1 = Some (INR (length (concat G))) /\ at_ t 0 1 = Some (INR (length G) - 1) /\
  osum (at_ t 0 0) (at_ t 1 0) = at_ t 2 0 /\ osum (at_ t 0 1) (at_ t 1 1) = at_ t 2 1 /\
  (forall i, (i < 2)%nat -> at_ t i 2 = opt2 cdiv (at_ t i 0) (at_ t i 1)) /\ at_ t 0 3 = opt2 cdiv (at_ t 0 2) (at_ t 1 2) /\
  at_ t 0 5 = omap1 (fun x => 1 - x) (at_ t 0 4).
Proof.
  intros Hne HG. destruct G as [|first rest]; [congruence|]. cbv zeta. pose proof (one_way_eq g first rest HG) as E. cbv zeta in E. rewrite E. cbn [at_ nth osum].
  split; [auto|]. split; [auto|]. split; [f_equal; cbn [length]; rewrite S_INR; lra|]. split; [f_equal; lra|]. split; [f_equal; lra|]. split; [intros [|[|i]] Hi; [reflexivity|reflexivity|lia]|]. auto.
Qed.
(** two ways *)
Theorem C80_two_way g G1 G2 G12 : G1 <> [] -> G2 <> [] -> G12 <> [] -> (forall x, In x G1 \/ In x G2 \/ In x G12 -> x <> []) -> let t := anova_two_way g G1 G2 G12 in
  at_ t 4 0 = Some (sum_sq (concat G1)) /\ at_ t 4 1 = Some (INR (length (concat G1))) /\
  at_ t 0 1 = Some (INR (length G1) - 1) /\ at_ t 1 1 = Some (INR (length G2) - 1) /\ at_ t 2 1 = Some (INR (length G12) - 1) /\
  (forall j, (j < 2)%nat -> osum (osum (at_ t 0 j) (at_ t 1 j)) (osum (at_ t 2 j) (at_ t 3 j)) = at_ t 4 j) /\
  (forall i, (i < 4)%nat -> at_ t i 2 = opt2 cdiv (at_ t i 0) (at_ t i 1)) /\ (forall i, (i < 3)%nat -> at_ t i 3 = opt2 cdiv (at_ t i 2) (at_ t 3 2) /\ at_ t i 5 = omap1 (fun x => 1 - x) (at_ t i 4)).
Proof.
  intros H1 H2 H12 HG. destruct G1 as [|a1 r1]; [congruence|]. destruct G2 as [|a2 r2]; [congruence|]. destruct G12 as [|a3 r3]; [congruence|]. cbv zeta. unfold anova_two_way.
  pose proof (one_way_eq g a1 r1 ltac:(auto)) as E1. pose proof (one_way_eq g a2 r2 ltac:(auto)) as E2. pose proof (one_way_eq g a3 r3 ltac:(auto)) as E3. cbv zeta in E1, E2, E3. rewrite E1, E2, E3. cbn [at_ nth osum osub opt2].
  split; [auto|]. split; [auto|]. split; [f_equal; cbn [length]; rewrite S_INR; lra|]. split; [f_equal; cbn [length]; rewrite S_INR; lra|]. split; [f_equal; cbn [length]; rewrite S_INR; lra|].
  split; [intros [|[|j]] Hj; [| |lia]; cbn [osum nth]; f_equal; lra|]. split; [intros [|[|[|[|i]]]] Hi; reflexivity || lia|]. intros [|[|[|i]]] Hi; try lia; split; reflexivity.
Qed.
(** the group's sum of squares looks at the first group only: if that is constant, zero, however the groups differ *)
Theorem C80_refuted_groups g first rest : (forall x, In x (first :: rest) -> x <> []) -> (exists c, first = replicate (length first) c) -> at_ (anova_one_way g (first :: rest)) 0 0 = Some 0 /\ at_ (anova_one_way g (first :: rest)) 1 0 = Some (sum_sq (concat (first :: rest))).
Proof.
  intros HG [c Hc]. pose proof (one_way_eq g first rest HG) as E. cbv zeta in E. rewrite E. cbn [at_ nth]. assert (Z : central 2 first = 0).
  { assert (Hf : first <> []) by (apply HG; cbn; auto). assert (S : sum_sq first = 0). { unfold sum_sq. assert (A : avg first = c). { unfold avg. assert (Rs : forall n, Rsum (replicate n c) = INR n * c). { induction n as [|n IH]; [cbn; lra|]. cbn [replicate]. rewrite Rsum_cons, IH, S_INR. ring. } rewrite Hc at 1. rewrite Rs. field. apply not_0_INR. destruct first; cbn; [congruence|lia]. }
    rewrite A, Hc. generalize (length first). induction n as [|n IH]; [reflexivity|]. cbn [replicate map]. rewrite Rsum_cons, IH. ring. } rewrite <- central_ss in S by auto. apply Rmult_integral in S. destruct S as [S|S]; auto. exfalso. revert S. apply not_0_INR. destruct first; cbn; [congruence|lia]. }
  rewrite Z. split; f_equal; ring.
Qed.
(** the p value is the lower tail, the probability of a smaller F: 1 - p where the distribution functions add up to 1 *)
Theorem C80_refuted_p g G f d1 d2 : at_ (anova_one_way g G) 0 3 = Some f -> at_ (anova_one_way g G) 0 1 = Some d1 -> at_ (anova_one_way g G) 1 1 = Some d2 -> (forall x, fP g x d1 d2 + fQ g x d1 d2 = 1) ->
  at_ (anova_one_way g G) 0 4 = Some (fP g f d1 d2) /\ at_ (anova_one_way g G) 0 5 = Some (fQ g f d1 d2).
Proof.
  destruct G as [|first rest]; [discriminate|]. unfold anova_one_way. cbn [at_ nth]. intros E D1 D2 H. injection D1 as <-. injection D2 as <-. rewrite E. cbn [omap1]. split; auto. f_equal. specialize (H f).
 match goal with H : ?a + ?b = 1 |- 1 - ?c = ?d => change (c + d = 1) in H end. lra.
Qed.
(** two groups, 0 0 and 2 2: all the variation is between them, and the table says none is *)
Example C80_nonvacuous : let G := [[0; 0]; [2; 2]] in let t := anova_one_way soft_cdfs G in between G = 4 /\ sum_sq (concat G) = 4 /\ at_ t 0 0 = Some 0 /\ at_ t 1 0 = Some 4 /\ at_ t 0 1 = Some 1 /\ at_ t 2 1 = Some 4.
Proof.
  intros G t. assert (S : sum_sq (concat G) = 4) by (unfold sum_sq, avg; cbn; lra). assert (HG : forall x, In x G -> x <> []) by (intros x [<-|[<-|[]]]; discriminate). destruct (C80_one_way soft_cdfs G) as (_ & E1 & E2 & _); [discriminate|auto|]. destruct (C80_refuted_groups soft_cdfs [0; 0] [[2; 2]] HG) as [E3 E4]; [exists 0; reflexivity|].
  fold G in E3, E4. unfold t. rewrite E1, E2, E3, E4, S. split; [unfold between, avg; cbn; lra|]. repeat split; f_equal; cbn; lra.
Qed.
Print Assumptions C80_one_way. Print Assumptions C80_two_way. Print Assumptions C80_refuted_groups. Print Assumptions C80_refuted_p. Print Assumptions C80_nonvacuous.
