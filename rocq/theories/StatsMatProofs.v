(** Lemmas: matrix sums and means, covariance and correlation matrices. *)
From Coq Require Import Reals Lra Psatz.
From Verif Require Import DataModel StatsModel StatsSpec StatsProofs.
Local Notation sqrt := R_sqrt.sqrt.
Local Open Scope list_scope.
Local Open Scope R_scope.
Local Arguments Rsum : simpl never.

(** a nested fold is a fold over the concatenation *)
Lemma fold_concat {A B} (f : A -> B -> A) ll : forall acc, fold_left (fun s r => fold_left f r s) ll acc = fold_left f (concat ll) acc.
Proof. induction ll as [|l ll IH]; intros acc; cbn; auto. rewrite IH, List.fold_left_app. reflexivity. Qed.
Lemma matrix_sum_spec m : matrix_sum m = Rsum (concat (ga m)).
Proof. unfold matrix_sum. rewrite fold_concat, fold_left_Rplus. lra. Qed.
Lemma mm_spec l : forall avg0 cnt, exists a, fold_left mm_step l (avg0, cnt) = (a, (cnt + length l)%nat) /\
  INR (cnt + length l) * a = INR cnt * avg0 + Rsum l.
Proof.
  induction l as [|x l IH]; intros a cnt; cbn [fold_left].
  - exists a. cbn [length]. rewrite Nat.add_0_r, Rsum_nil. split; [auto|lra].
  - cbn [mm_step]. destruct (IH (a * (INR cnt / (INR cnt + 1)) + x / INR (S cnt)) (S cnt)) as (b & -> & Hb).
    exists b. cbn [length]. replace (cnt + S (length l))%nat with (S cnt + length l)%nat by lia. split; [auto|].
    rewrite Hb, Rsum_cons, S_INR. field. pose proof (pos_INR cnt). lra.
Qed.
Lemma mv_spec l : forall a0 a20 cnt, exists a a2, fold_left mv_step l (a0, a20, cnt) = (a, a2, (cnt + length l)%nat) /\
  INR (cnt + length l) * a = INR cnt * a0 + Rsum l /\ INR (cnt + length l) * a2 = INR cnt * a20 + Rsumf (fun x => x * x) l.
Proof.
  induction l as [|x l IH]; intros a a2 cnt; cbn [fold_left].
  - exists a, a2. cbn [length]. unfold Rsumf. cbn [map]. rewrite Nat.add_0_r, Rsum_nil. split; [auto|lra].
  - cbn [mv_step]. destruct (IH (a * (INR cnt / (INR cnt + 1)) + x / (INR (S cnt) + 0)) (a2 * (INR cnt / (INR cnt + 1)) + x * x / (INR (S cnt) + 0)) (S cnt)) as (b & b2 & -> & Hb & Hb2).
    exists b, b2. cbn [length]. replace (cnt + S (length l))%nat with (S cnt + length l)%nat by lia. split; [auto|].
    rewrite Hb, Hb2, Rsum_cons, Rsumf_cons, S_INR. pose proof (pos_INR cnt). split; field; lra.
Qed.
Lemma matrix_mean_spec m : concat (ga m) <> [] -> matrix_mean (Some m) = avg (concat (ga m)).
Proof.
  intros H. unfold matrix_mean. rewrite fold_concat. destruct (mm_spec (concat (ga m)) 0 0) as (a & -> & Ha). cbn in Ha. cbn [fst].
  unfold avg. apply Rmult_eq_reg_l with (INR (length (concat (ga m)))); [|apply len_ne0; auto]. rewrite Ha. field. apply len_ne0; auto.
Qed.
Lemma central2 l : l <> [] -> central 2 l = Rsumf (fun x => x * x) l / INR (length l) - avg l * avg l.
Proof.
  intros H. unfold central, avg at 1. rewrite svar_sum, map_length by auto. unfold avg. field. apply len_ne0; auto.
Qed.
Lemma matrix_mv_spec m : concat (ga m) <> [] -> matrix_mean_and_var (Some m) = (avg (concat (ga m)), Some (central 2 (concat (ga m)))).
Proof.
  intros H. unfold matrix_mean_and_var. rewrite fold_concat. destruct (mv_spec (concat (ga m)) 0 0 0) as (a & a2 & -> & Ha & Ha2). cbn [Nat.add] in *.
  pose proof (len_ne0 _ H) as Hn.
  assert (a = avg (concat (ga m))) as ->.
  { unfold avg. apply Rmult_eq_reg_l with (INR (length (concat (ga m)))); [|auto]. rewrite Ha. cbn. field. auto. }
  rewrite central2 by auto. f_equal. f_equal. f_equal.
  apply Rmult_eq_reg_l with (INR (length (concat (ga m)))); [|auto]. rewrite Ha2. cbn. field. auto.
Qed.

(** -------- writing cells -------- *)
Lemma mset_wf {A} (m : grid A) i j x : wf_grid m -> wf_grid (mset m i j x).
Proof.
  intros [H1 H2]. unfold mset. split; cbn.
  - rewrite alter_length. auto.
  - apply Forall_lookup. intros k r Hk. rewrite Forall_lookup in H2. destruct (decide (k = i)) as [->|Hne].
    + rewrite list_lookup_alter in Hk. destruct (ga m !! i) as [r'|] eqn:E; [|discriminate]. injection Hk as <-.
      rewrite insert_length. eapply H2; eauto.
    + rewrite list_lookup_alter_ne in Hk by auto. eapply H2; eauto.
Qed.
Lemma cell_mset {A} (m : grid A) i j x a b : wf_grid m -> (i < gr m)%nat -> (j < gc m)%nat ->
  cell (mset m i j x) a b = if (a =? i)%nat && (b =? j)%nat then Some x else cell m a b.
Proof.
  intros [H1 H2] Hi Hj. unfold cell, mset. cbn [ga]. destruct (Nat.eqb_spec a i) as [->|Hne]; cbn [andb].
  - rewrite list_lookup_alter. destruct (ga m !! i) as [r|] eqn:E.
    + cbn. rewrite Forall_lookup in H2. pose proof (H2 _ _ E). destruct (Nat.eqb_spec b j) as [->|Hb].
      * apply list_lookup_insert. lia.
      * apply list_lookup_insert_ne. auto.
    + apply lookup_ge_None in E. lia.
  - rewrite list_lookup_alter_ne by auto. reflexivity.
Qed.

Section Cov.
Variables (m : grid R) (w : option (list R)).
Let C i j := vector_cov (colv m i) (colv m j) w.
Lemma C_sym i j : C i j = C j i. Proof. apply cov_sym. Qed.

Lemma inner_spec n i js : (i < n)%nat -> (forall j, j ∈ js -> (j < n)%nat) -> forall out, wf_grid out -> gr out = n -> gc out = n ->
  let out' := fold_left (cov_body m w i) js out in
  wf_grid out' /\ gr out' = n /\ gc out' = n /\
  forall a b, (a < n)%nat -> (b < n)%nat ->
    cell out' a b = if bool_decide ((a = i /\ b ∈ js) \/ (b = i /\ a ∈ js)) then Some (C a b) else cell out a b.
Proof.
  intros Hi. induction js as [|j js IH]; intros Hjs out Hwf Hr Hc; cbn [fold_left].
  - split; [auto|]. split; [auto|]. split; [auto|]. intros a b Ha Hb. rewrite bool_decide_eq_false_2; [auto|]. rewrite !elem_of_nil. tauto.
  - assert (j < n)%nat as Hj by (apply Hjs; apply elem_of_cons; auto).
    set (o1 := cov_body m w i out j).
    assert (wf_grid o1 /\ gr o1 = n /\ gc o1 = n /\
      forall a b, cell o1 a b = if bool_decide ((a = i /\ b = j) \/ (a = j /\ b = i)) then Some (C a b) else cell out a b) as (W1 & R1 & C1 & E1).
    { unfold o1, cov_body. destruct (Nat.eqb_spec i j) as [->|Hne].
      - split; [apply mset_wf; auto|]. split; [auto|]. split; [auto|]. intros a b. rewrite cell_mset by (auto; lia).
        destruct (Nat.eqb_spec a j) as [->|], (Nat.eqb_spec b j) as [->|]; cbn [andb];
          [rewrite bool_decide_eq_true_2 by auto; reflexivity|rewrite bool_decide_eq_false_2 by tauto; reflexivity..].
      - split; [apply mset_wf, mset_wf; auto|]. split; [auto|]. split; [auto|]. intros a b.
        rewrite cell_mset by (auto using mset_wf; cbn; lia). rewrite cell_mset by (auto; lia).
        destruct (Nat.eqb_spec a j) as [->|Ha], (Nat.eqb_spec b i) as [->|Hb]; cbn [andb].
        + rewrite bool_decide_eq_true_2 by auto. f_equal. apply cov_sym.
        + destruct (Nat.eqb_spec j i); [lia|]. cbn [andb]. rewrite bool_decide_eq_false_2 by (intros [[]|[]]; lia). reflexivity.
        + destruct (Nat.eqb_spec i j); [lia|]. rewrite Bool.andb_false_r. rewrite bool_decide_eq_false_2 by (intros [[]|[]]; lia). reflexivity.
        + destruct (Nat.eqb_spec a i) as [->|Ha'], (Nat.eqb_spec b j) as [->|Hb']; cbn [andb];
            [rewrite bool_decide_eq_true_2 by auto; reflexivity|rewrite bool_decide_eq_false_2 by (intros [[]|[]]; lia); reflexivity..]. }
    destruct (IH (fun j' H => Hjs j' (elem_of_list_further _ _ _ H)) o1 W1 R1 C1) as (W2 & R2 & C2 & E2). fold o1.
    split; [auto|]. split; [auto|]. split; [auto|]. intros a b Ha Hb. rewrite E2 by auto. rewrite E1.
    repeat case_bool_decide; auto; exfalso; rewrite ?elem_of_cons in *; naive_solver.
Qed.

Lemma outer_spec n is : (forall i, i ∈ is -> (i < n)%nat) -> forall out, wf_grid out -> gr out = n -> gc out = n ->
  let out' := fold_left (fun out i => fold_left (cov_body m w i) (seq i (n - i)) out) is out in
  wf_grid out' /\ gr out' = n /\ gc out' = n /\
  forall a b, (a < n)%nat -> (b < n)%nat -> cell out' a b = if bool_decide ((Nat.min a b) ∈ is) then Some (C a b) else cell out a b.
Proof.
  induction is as [|i is IH]; intros His out Hwf Hr Hc; cbn [fold_left].
  - split; [auto|]. split; [auto|]. split; [auto|]. intros. rewrite bool_decide_eq_false_2; [auto|rewrite elem_of_nil; tauto].
  - assert (i < n)%nat as Hi by (apply His; apply elem_of_cons; auto).
    destruct (inner_spec n i (seq i (n - i)) Hi) with (out := out) as (W1 & R1 & C1 & E1); auto.
    { intros j Hj. apply elem_of_seq in Hj. lia. }
    destruct (IH (fun j' H => His j' (elem_of_list_further _ _ _ H)) _ W1 R1 C1) as (W2 & R2 & C2 & E2).
    split; [auto|]. split; [auto|]. split; [auto|]. intros a b Ha Hb. rewrite E2 by auto. rewrite E1 by auto.
    destruct (decide (Nat.min a b ∈ is)) as [D1|D1].
    + rewrite !(bool_decide_eq_true_2 (_ ∈ _)); auto. apply elem_of_cons; auto.
    + rewrite (bool_decide_eq_false_2 (_ ∈ is)) by auto. destruct (decide (Nat.min a b = i)) as [E|E].
      * rewrite !bool_decide_eq_true_2; auto; [apply elem_of_cons; auto|rewrite !elem_of_seq; lia].
      * rewrite !bool_decide_eq_false_2; auto; [rewrite elem_of_cons; intros [|]; auto|rewrite !elem_of_seq; lia].
Qed.
End Cov.

Lemma new_grid_wf {A} n k (x : A) : wf_grid (Gr n k (replicate n (replicate k x))).
Proof.
  split; cbn; [apply replicate_length|]. apply Forall_lookup. intros i r Hr. apply lookup_replicate in Hr as [-> _]. apply replicate_length.
Qed.
Lemma data_covariance_spec g d m : mat d = Some m ->
  exists out, data_covariance g d = Some (out, name_stack (name_stack name_alloc (nms d) "c" "c") (nms d) "r" "c") /\
    wf_grid out /\ gr out = gc m /\ gc out = gc m /\
    forall i j, (i < gc m)%nat -> (j < gc m)%nat -> cell out i j = Some (vector_cov (colv m i) (colv m j) (wts d)).
Proof.
  intros Hm. unfold data_covariance. rewrite Hm. eexists. split; [reflexivity|].
  destruct (outer_spec m (wts d) (gc m) (seq 0 (gc m))) with (out := Gr (gc m) (gc m) (replicate (gc m) (replicate (gc m) g))) as (W & R1 & C1 & E1); auto.
  { intros i Hi. apply elem_of_seq in Hi. lia. }
  { apply new_grid_wf. }
  split; [auto|]. split; [auto|]. split; [auto|]. intros i j Hi Hj. rewrite E1 by auto. rewrite bool_decide_eq_true_2; auto. apply elem_of_seq. lia.
Qed.

(** -------- the scaling loop of the correlation matrix -------- *)
Lemma oscale_comm k k' x : oscale k (oscale k' x) = oscale k' (oscale k x).
Proof. destruct k, k', x; cbn; auto. f_equal. ring. Qed.
Lemma scale_wf m i k : wf_grid m -> wf_grid (scale_row (scale_col m i k) i k) /\
  gr (scale_row (scale_col m i k) i k) = gr m /\ gc (scale_row (scale_col m i k) i k) = gc m.
Proof.
  intros [H1 H2]. split; [|split; reflexivity]. split; cbn.
  - rewrite alter_length, map_length. auto.
  - rewrite Forall_lookup in H2. apply Forall_lookup. intros j r Hr. destruct (decide (j = i)) as [->|Hne].
    + rewrite list_lookup_alter, lookup_map in Hr. destruct (ga m !! i) eqn:E; [|discriminate]. cbn in Hr. injection Hr as <-.
      rewrite map_length, alter_length. eapply H2; eauto.
    + rewrite list_lookup_alter_ne, lookup_map in Hr by auto. destruct (ga m !! j) eqn:E; [|discriminate]. cbn in Hr. injection Hr as <-.
      rewrite alter_length. eapply H2; eauto.
Qed.
Lemma cell_scale m i k a b : cell (scale_row (scale_col m i k) i k) a b =
  option_map (fun v => let v := if (b =? i)%nat then oscale k v else v in if (a =? i)%nat then oscale k v else v) (cell m a b).
Proof.
  unfold cell, scale_row, scale_col. cbn [ga].
  assert (forall (r : list (option R)), alter (oscale k) i r !! b = option_map (fun v => if (b =? i)%nat then oscale k v else v) (r !! b)) as HR.
  { intros r. destruct (Nat.eqb_spec b i) as [->|Hne]; [rewrite list_lookup_alter|rewrite list_lookup_alter_ne by auto]; destruct (r !! _); reflexivity. }
  destruct (Nat.eqb_spec a i) as [->|Hne].
  - rewrite list_lookup_alter, lookup_map. destruct (ga m !! i) as [r|]; [|reflexivity]. cbn. rewrite lookup_map, HR. destruct (r !! b); reflexivity.
  - rewrite list_lookup_alter_ne, lookup_map by auto. destruct (ga m !! a) as [r|]; [|reflexivity]. cbn. rewrite HR. destruct (r !! b); reflexivity.
Qed.
Lemma scale_fold (K : nat -> option R) is : NoDup is -> forall out,
  let out' := fold_left (fun out i => scale_row (scale_col out i (K i)) i (K i)) is out in
  (wf_grid out -> wf_grid out') /\ gr out' = gr out /\ gc out' = gc out /\
  forall a b, cell out' a b = option_map (fun v =>
    let v := if bool_decide (b ∈ is) then oscale (K b) v else v in if bool_decide (a ∈ is) then oscale (K a) v else v) (cell out a b).
Proof.
  induction is as [|i is IH]; intros Hnd out; cbn [fold_left].
  - split; [auto|]. split; [auto|]. split; [auto|]. intros a b. rewrite !bool_decide_eq_false_2 by (rewrite elem_of_nil; tauto). destruct (cell out a b); reflexivity.
  - apply stdpp.list.NoDup_cons in Hnd as [Hni Hnd].
    destruct (IH Hnd (scale_row (scale_col out i (K i)) i (K i))) as (W & R1 & C1 & E1).
    split; [intros H; apply W; apply scale_wf; auto|]. split; [rewrite R1; reflexivity|]. split; [rewrite C1; reflexivity|]. intros a b. rewrite E1, cell_scale.
    destruct (cell out a b) as [v|]; [|reflexivity]. cbn [option_map]. f_equal.
    assert (forall a, bool_decide (a ∈ i :: is) = (a =? i)%nat || bool_decide (a ∈ is)) as HB.
    { intros a'. destruct (Nat.eqb_spec a' i) as [->|]; cbn [orb]; [apply bool_decide_eq_true_2; apply elem_of_cons; auto|].
      apply bool_decide_ext. rewrite elem_of_cons. split; [intros [|]; [congruence|auto]|auto]. }
    rewrite !HB. assert (bool_decide (i ∈ is) = false) as Hi by (apply bool_decide_eq_false_2; auto).
    destruct (Nat.eqb_spec b i) as [->|Hb], (Nat.eqb_spec a i) as [->|Ha]; cbn [orb]; rewrite ?Hi; auto; repeat case_bool_decide; auto using oscale_comm.
Qed.
Lemma data_correlation_spec g d m : mat d = Some m ->
  exists out nm, data_correlation g d = Some (out, nm) /\ data_covariance g d <> None /\
    wf_grid out /\ gr out = gc m /\ gc out = gc m /\
    forall i j c vi vj, (i < gc m)%nat -> (j < gc m)%nat ->
      vector_cov (colv m i) (colv m j) (wts d) = Some c ->
      vector_var (colv m i) (wts d) = Some vi -> vector_var (colv m j) (wts d) = Some vj -> 0 < vi -> 0 < vj ->
      cell out i j = Some (Some (c / (sqrt vi * sqrt vj))).
Proof.
  intros Hm. destruct (data_covariance_spec g d m Hm) as (out & E & W & R1 & C1 & HC). unfold data_correlation. rewrite E, Hm.
  set (K := fun i => try v <- vector_var (colv m i) (wts d); try s <- csqrt v; cdiv 1 s).
  destruct (scale_fold K (seq 0 (gc m)) (NoDup_seq _ _) out) as (W2 & R2 & C2 & E2). fold K in E2 |- *.
  eexists _, _. split; [reflexivity|]. split; [discriminate|]. split; [apply W2; auto|]. split; [transitivity (gr out); [exact R2|exact R1]|]. split; [transitivity (gc out); [exact C2|exact C1]|].
  intros i j c vi vj Hi Hj Hc Hvi Hvj Pi Pj. etransitivity; [exact (E2 i j)|]. rewrite HC, Hc by auto. cbn [option_map].
  rewrite !bool_decide_eq_true_2 by (apply elem_of_seq; lia).
  assert (forall k v, vector_var (colv m k) (wts d) = Some v -> 0 < v -> K k = Some (1 / sqrt v)) as HK.
  { intros k v Hk Hp. unfold K. rewrite Hk. unfold csqrt. destruct (Rlt_dec v 0); [lra|]. pose proof (sqrt_lt_R0 _ Hp). rewrite cdiv_ok by lra. reflexivity. }
  rewrite (HK i vi), (HK j vj) by auto. cbn. do 2 f_equal. pose proof (sqrt_lt_R0 _ Pi). pose proof (sqrt_lt_R0 _ Pj). field. lra.
Qed.
