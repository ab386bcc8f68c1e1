(** C85: apop_logit. *)
From Coq Require Import Reals Lra.
From Verif Require Import DataModel NamesModel StatsModel StatsSpec StatsProofs StatsProps LinModel LinProps OlsModel OlsProofs OlsLikeProps TestTableProps PmfModel PmfDrawProps LogitModel LogitSpec.
Local Open Scope list_scope.
Local Open Scope R_scope.

Lemma all_res_nth {A} (h : nat -> A) (l : list (res A)) : forall k, (forall i, (i < length l)%nat -> l !! i = Some (Ok (h (k + i)%nat))) -> all_res l = Ok (map h (seq k (length l))).
Proof.
  induction l as [|r l IH]; intros k H; [reflexivity|]. pose proof (H 0%nat ltac:(cbn; lia)) as E. cbn in E. injection E as ->. cbn [all_res rbind length seq map].
  rewrite (IH (S k)); [cbn [rbind]; rewrite Nat.add_0_r; auto|]. intros i Hi. specialize (H (S i) ltac:(cbn; lia)). change (_ !! S i) with (l !! i) in H. rewrite H. rewrite <- Nat.add_succ_comm. auto.
Qed.
Lemma rows_with_ok y rows f h : length y = length rows -> (forall i, (i < length rows)%nat -> f (nth i y 0) (nth i rows []) = Ok (h i)) -> rows_with y rows f = Ok (map h (seq 0 (length rows))).
Proof.
  intros L H. unfold rows_with. set (g := imap _ rows). assert (Lg : length g = length rows) by apply imap_length. rewrite <- Lg. apply all_res_nth. intros i Hi. rewrite Lg in Hi.
  unfold g. rewrite list_lookup_imap. destruct (lookup_lt_is_Some_2 rows i Hi) as [r Hr]. destruct (lookup_lt_is_Some_2 y i ltac:(lia)) as [a Ha]. rewrite Hr. cbn. rewrite Ha. f_equal.
  rewrite <- H by auto. rewrite (nth_lookup_Some y i 0 a Ha), (nth_lookup_Some rows i [] r Hr). auto.
Qed.
Lemma dot_ok d par y X B : choice_data d par y X B ->
  exists out M, apop_dot d par "000" "000" = Some out /\ mat out = Some M /\ wf_grid M /\ gr M = gr X /\ gc M = gc B /\ forall i j, (i < gr X)%nat -> elt M false i j = if (j <? gc B)%nat then utility X B i (S j) else 0.
Proof.
  intros (Hy & HX & HB & WX & WB & Hd & Hp & Ly). destruct (C33_matrix_matrix d par "000" "000" X B HX HB ltac:(discriminate) ltac:(discriminate) WX WB Hd) as (out & M & E & _ & _ & HM & WM & G1 & G2 & Hc & _).
  exists out, M. cbn in G1, G2. split; [auto|]. split; [auto|]. split; [auto|]. split; [auto|]. split; [auto|]. intros i j Hi. destruct (Nat.ltb_spec j (gc B)) as [Hj|Hj].
  - unfold elt, utility. rewrite Hc by lia. reflexivity.
  - unfold elt, cell. destruct (ga M !! i) as [r|] eqn:Er; [|reflexivity]. cbn. rewrite lookup_ge_None_2; [reflexivity|]. erewrite wf_row_len by eauto. lia.
Qed.
(** ---------- the likelihood ---------- *)
Lemma find_ok x cats : List.NoDup cats -> forall c max i, (c < length cats)%nat -> nth c cats 0 = x -> (i + c <= max)%nat -> find_index x cats max i = Ok (i + c)%nat.
Proof.
  induction cats as [|a cats IH]; intros ND c max i Hc Hx Hm; [cbn in Hc; lia|]. apply List.NoDup_cons_iff in ND as [Na ND]. cbn [find_index]. destruct c as [|c].
  - cbn in Hx. subst. destruct (Req_EM_T x x); [f_equal; lia|congruence].
  - cbn in Hx, Hc. destruct (Req_EM_T x a) as [->|N]. { exfalso. apply Na. rewrite <- Hx. apply nth_In. lia. }
    destruct (Nat.ltb_spec i max); [|lia]. rewrite (IH ND c) by (auto; lia). f_equal. lia.
Qed.
Lemma sum_exp_pos n f : 0 < sum_to (S n) (fun l => exp (f l)).
Proof. rewrite sum_to_S. pose proof (sum_to_nonneg n (fun l => exp (f l)) ltac:(intros; left; apply exp_pos)). pose proof (exp_pos (f n)). lra. Qed.
Lemma prob_pos X B i j : 0 < choice_prob X B i j.
Proof. apply Rdiv_lt_0_compat; [apply exp_pos|apply sum_exp_pos]. Qed.
Lemma row_ok cats y row u c : List.NoDup cats -> length cats = S (length row) -> row <> [] -> (c < length cats)%nat -> nth c cats 0 = y ->
  u 0%nat = 0 -> (forall j, (j < length row)%nat -> nth j row 0 = u (S j)) -> one_logit_row y row cats = Ok (ln (exp (u c) / sum_to (S (length row)) (fun l => exp (u l)))).
Proof.
  intros ND L Ne Hc Hy H0 Hu. unfold one_logit_row. rewrite (find_ok y cats ND c) by (auto; lia). cbn [rbind Nat.add].
  assert (N : match c with O => Ok 0 | S j => match row !! j with Some x => Ok x | None => UB end end = Ok (u c)).
  { destruct c as [|c]; [rewrite H0; auto|]. destruct (lookup_lt_is_Some_2 row c ltac:(lia)) as [x Hx]. rewrite Hx, <- Hu by lia. rewrite (nth_lookup_Some row c 0 x Hx). auto. }
  rewrite N. cbn [rbind]. destruct row as [|x row]; [congruence|]. cbn [vector_max rbind]. set (r := x :: row) in *. generalize (max_loop x row). intros m. f_equal.
  assert (E : vector_sum (map (fun x => exp (x - m)) r) + exp (- m) = exp (- m) * sum_to (S (length r)) (fun l => exp (u l))).
  { rewrite C34_vector_sum, sum_of_list, map_length, sum_to_cons, H0, exp_0, Rmult_plus_distr_l, sum_to_scal, Rmult_1_r, Rplus_comm. f_equal. apply sum_to_ext. intros k Hk.
    rewrite (nth_indep _ 0 (exp (0 - m))) by (rewrite map_length; auto). rewrite (map_nth (fun x => exp (x - m))). rewrite Hu by auto. rewrite <- exp_plus. f_equal. lra. }
  rewrite E. pose proof (sum_exp_pos (length r) u) as P. rewrite ln_mult by (auto; apply exp_pos). unfold Rdiv. rewrite ln_mult, ln_Rinv by (auto using Rinv_0_lt_compat; apply exp_pos). rewrite !ln_exp. lra.
Qed.
Lemma ll_ok d par y X B cats c : choice_data d par y X B -> length cats = S (gc B) -> List.NoDup cats -> took cats y (gr X) c ->
  multilogit_ll d par cats = Ok (sum_to (gr X) (fun i => ln (choice_prob X B i (c i)))).
Proof.
  intros H Lc ND T. pose proof H as (Hy & HX & HB & WX & WB & Hd & Hp & Ly). destruct (dot_ok d par y X B H) as (out & M & E & HM & WM & G1 & G2 & Hc). unfold multilogit_ll. rewrite Hy, E. cbn [the_mat]. rewrite HM. cbn [rbind].
  rewrite (rows_with_ok y (ga M) _ (fun i => ln (choice_prob X B i (c i)))).
  - cbn [rbind]. rewrite C34_vector_sum. destruct WM as [-> _]. rewrite G1. reflexivity.
  - destruct WM as [-> _]. lia.
  - intros i Hi. assert (Hi' : (i < gr X)%nat) by (destruct WM as [W _]; lia). destruct (T i Hi') as [T1 T2]. destruct (row_nth M i WM ltac:(lia)) as [L R]. unfold choice_prob.
    rewrite <- G2, <- L. apply (row_ok cats _ _ (utility X B i)); auto; try lia.
    + intros E0. rewrite E0 in L. cbn in L. lia.
    + intros j Hj. rewrite <- R, Hc by auto. destruct (Nat.ltb_spec j (gc B)); [auto|lia].
Qed.
(** C85: the log likelihood is the sum over the observations of the logarithm of the probability of the option taken. *)
Theorem C85_likelihood : forall d par y X B cats c, choice_data d par y X B -> length cats = S (gc B) -> List.NoDup cats -> took cats y (gr X) c ->
  multilogit_ll d par cats = Ok (sum_to (gr X) (fun i => ln (choice_prob X B i (c i)))).
Proof. exact ll_ok. Qed.
Print Assumptions C85_likelihood.

(** ---------- the prediction ---------- *)
Lemma loop_ok x (u : nat -> R) : forall cols j best score row, (forall k, (k < length cols)%nat -> ddot_loop x (nth k cols []) 0 = u (j + k)%nat) ->
  (best < j)%nat -> u best = score -> length row = j -> (forall k, (k < j)%nat -> nth k row 0 = exp (u k) /\ u k <= score /\ ((k < best)%nat -> u k < score)) ->
  exists b r, expected_loop x cols j best score row = (b, r) /\ length r = (j + length cols)%nat /\ (b < j + length cols)%nat /\
    (forall k, (k < j + length cols)%nat -> nth k r 0 = exp (u k) /\ u k <= u b /\ ((k < b)%nat -> u k < u b)).
Proof.
  induction cols as [|c cols IH]; intros j best score row Hc Hb Hs Lr Hk.
  - exists best, row. cbn [expected_loop length]. rewrite Nat.add_0_r. split; [auto|]. split; [auto|]. split; [auto|]. rewrite Hs. auto.
  - cbn [expected_loop length]. pose proof (Hc 0%nat ltac:(cbn; lia)) as E. cbn [nth] in E. rewrite Nat.add_0_r in E. rewrite E. rewrite Nat.add_succ_r.
    assert (HT : forall k, (k < length cols)%nat -> ddot_loop x (nth k cols []) 0 = u (S j + k)%nat). { intros k Hk'. specialize (Hc (S k) ltac:(cbn; lia)). cbn [nth] in Hc. rewrite Hc. f_equal. lia. }
    assert (HN : forall bb sc, u bb = sc -> (bb <= j)%nat -> u j <= sc -> score <= sc -> (bb = j -> score < sc) -> (bb = best \/ bb = j) -> forall k, (k < S j)%nat -> nth k (row ++ [exp (u j)]) 0 = exp (u k) /\ u k <= sc /\ ((k < bb)%nat -> u k < sc)).
    { intros bb sc U1 U2 U3 U4 U5 U6 k Hk'. destruct (Nat.eq_dec k j) as [->|]. { rewrite app_nth2, Lr, Nat.sub_diag by lia. cbn. split; [auto|]. split; [lra|lia]. }
      rewrite app_nth1 by lia. destruct (Hk k ltac:(lia)) as (A & A2 & A3). split; [auto|]. split; [lra|]. intros Hb'. destruct U6 as [->| ->]; [specialize (A3 Hb'); lra|]. specialize (U5 eq_refl). lra. }
    assert (LA : length (row ++ [exp (u j)]) = S j) by (rewrite app_length; cbn; lia).
    destruct (Rlt_dec score (u j)) as [G|G].
    + apply (IH (S j) j (u j) (row ++ [exp (u j)])); auto. apply HN; auto; lra.
    + apply (IH (S j) best score (row ++ [exp (u j)])); auto. apply HN; auto; [lia|lra|lra|lia].
Qed.
Lemma nth_map_in {A B} (f : A -> B) l i da db : (i < length l)%nat -> nth i (map f l) db = f (nth i l da).
Proof. intros H. rewrite (nth_indep _ db (f da)) by (rewrite map_length; auto). apply map_nth. Qed.
Lemma col_elt (B : grid R) j l : wf_grid B -> (l < gr B)%nat -> nth l (get_col B j) 0 = elt B false l j.
Proof.
  intros WB Hl. pose proof WB as [W _]. unfold get_col. rewrite (nth_map_in _ _ _ []) by lia. destruct (row_nth B l WB Hl) as [_ ->]. auto.
Qed.
Lemma expected_row_ok X B i : wf_grid X -> wf_grid B -> gc X = gr B -> (i < gr X)%nat -> exists b r, expected_row (nth i (ga X) []) (map (get_col B) (seq 0 (gc B))) = (b, r) /\ length r = S (gc B) /\ (b <= gc B)%nat /\
  forall k, (k <= gc B)%nat -> nth k r 0 = choice_prob X B i k /\ choice_prob X B i k <= choice_prob X B i b /\ ((k < b)%nat -> choice_prob X B i k < choice_prob X B i b).
Proof.
  intros WX WB Hd Hi. unfold expected_row. destruct (row_nth X i WX Hi) as [L R].
  destruct (loop_ok (nth i (ga X) []) (utility X B i) (map (get_col B) (seq 0 (gc B))) 1 0 0 [1]) as (b & r & E & Lr & Hb & H); auto.
  { intros k Hk. rewrite map_length, seq_length in Hk. rewrite (nth_map_in _ _ _ 0%nat) by (rewrite seq_length; auto). rewrite seq_nth by auto. cbn [Nat.add utility].
    assert (Lc : length (get_col B k) = gr B) by (unfold get_col; rewrite map_length; apply WB). rewrite ddot_nth by lia. rewrite Rplus_0_l, L. apply sum_to_ext. intros l Hl. rewrite R, col_elt by (auto; lia). auto. }
  { intros k Hk. assert (k = 0)%nat as -> by lia. cbn. rewrite exp_0. split; [auto|]. split; [lra|lia]. }
  rewrite E. rewrite map_length, seq_length in *. exists b, (map (fun e => e * (1 / vector_sum r)) r). split; [auto|]. rewrite map_length. split; [auto|]. split; [lia|].
  assert (S : vector_sum r = sum_to (S (gc B)) (fun l => exp (utility X B i l))). { rewrite C34_vector_sum, sum_of_list, Lr. apply sum_to_ext. intros k Hk. apply H. lia. }
  intros k Hk. destruct (H k ltac:(lia)) as (A1 & A2 & A3). pose proof (sum_exp_pos (gc B) (utility X B i)) as P. unfold choice_prob. split.
  - rewrite (nth_map_in _ _ _ 0) by lia. rewrite A1, S. field. lra.
  - unfold Rdiv. split.
    + apply Rmult_le_compat_r; [left; apply Rinv_0_lt_compat; auto|]. destruct A2 as [A2| ->]; [left; apply exp_increasing; auto|lra].
    + intros Hkb. apply Rmult_lt_compat_r; [apply Rinv_0_lt_compat; auto|]. apply exp_increasing. auto.
Qed.
(** C85: the matrix of the prediction has the probabilities of the options for each observation, positive and summing to one, the numeraire first; the vector has the number of the most probable option, the first if there are several. *)
Theorem C85_prediction : forall d par X B, mat d = Some X -> mat par = Some B -> wf_grid X -> wf_grid B -> gc X = gr B ->
  exists v P, multilogit_expected d par = Ok (v, P) /\ wf_grid P /\ gr P = gr X /\ gc P = S (gc B) /\ length v = gr X /\
    forall i, (i < gr X)%nat -> (forall j, (j <= gc B)%nat -> elt P false i j = choice_prob X B i j /\ 0 < elt P false i j) /\ sum_to (S (gc B)) (fun j => elt P false i j) = 1 /\
      exists b, nth i v 0 = INR b /\ (b <= gc B)%nat /\ (forall j, (j <= gc B)%nat -> elt P false i j <= elt P false i b) /\ (forall j, (j < b)%nat -> elt P false i j < elt P false i b).
Proof.
  intros d par X B HX HB WX WB Hd. unfold multilogit_expected. rewrite HX, HB, (proj2 (Nat.eqb_eq _ _) Hd). set (cols := map (get_col B) (seq 0 (gc B))). set (rows := map (fun x => expected_row x cols) (ga X)).
  pose proof WX as [W1 W2]. assert (Lr : length rows = gr X) by (unfold rows; rewrite map_length; auto). eexists _, _. split; [reflexivity|]. set (P := Gr _ _ _).
  assert (WP : wf_grid P).
  { split; cbn [ga gr gc P]; [rewrite map_length; auto|]. apply Forall_forall. intros r Hr. apply in_map_iff in Hr as ([b r'] & <- & Hr). cbn [snd]. unfold rows in Hr. apply in_map_iff in Hr as (x & Hx & Hin).
    apply (In_nth _ _ []) in Hin as (i & Hi & <-). destruct (expected_row_ok X B i WX WB Hd ltac:(lia)) as (b' & r0 & E & L & _). fold cols in E. rewrite E in Hx. congruence. }
  split; [auto|]. split; [auto|]. split; [auto|]. split; [rewrite map_length; auto|]. intros i Hi.
  destruct (expected_row_ok X B i WX WB Hd Hi) as (b & r & E & L & Hb & H). fold cols in E.
  assert (Er : nth i rows (0%nat, []) = (b, r)). { unfold rows. rewrite (nth_map_in _ _ _ []) by lia. auto. }
  assert (EP : forall j, (j <= gc B)%nat -> elt P false i j = choice_prob X B i j).
  { intros j Hj. destruct (row_nth P i WP Hi) as [_ ->]. cbn [ga P]. rewrite (nth_map_in snd _ _ (0%nat, [])) by lia. rewrite Er. apply H. auto. }
  split; [|split].
  - intros j Hj. rewrite EP by auto. split; [auto|apply prob_pos].
  - rewrite (sum_to_ext _ _ (fun j => / sum_to (S (gc B)) (fun l => exp (utility X B i l)) * exp (utility X B i j))).
    + rewrite <- sum_to_scal. apply Rinv_l. apply Rgt_not_eq. apply sum_exp_pos.
    + intros j Hj. rewrite EP by lia. unfold choice_prob, Rdiv. ring.
  - exists b. rewrite (nth_map_in _ _ _ (0%nat, [])) by lia. rewrite Er. split; [auto|]. split; [auto|]. split; intros j Hj; rewrite !EP by lia; apply H; auto; lia.
Qed.
Print Assumptions C85_prediction.

(** ---------- concavity ---------- *)
Lemma exp_convex t a b : 0 <= t <= 1 -> exp ((1 - t) * a + t * b) <= (1 - t) * exp a + t * exp b.
Proof.
  intros Ht. set (m := (1 - t) * a + t * b). assert (T : forall x, exp m * (1 + (x - m)) <= exp x).
  { intros x. replace (exp x) with (exp m * exp (x - m)) by (rewrite <- exp_plus; f_equal; lra). apply Rmult_le_compat_l; [left; apply exp_pos|]. pose proof (exp_ineq1_le (x - m)). lra. }
  pose proof (T a) as Ta. pose proof (T b) as Tb. apply (Rmult_le_compat_l (1 - t)) in Ta; [|lra]. apply (Rmult_le_compat_l t) in Tb; [|lra].
  replace (exp m) with ((1 - t) * (exp m * (1 + (a - m))) + t * (exp m * (1 + (b - m)))); [lra|].
  transitivity (exp m * (1 + ((1 - t) * a + t * b - m))); [ring|]. fold m. ring.
Qed.
Lemma ln_mono a b : 0 < a -> a <= b -> ln a <= ln b.
Proof. intros Ha [H| ->]; [left; apply ln_increasing; auto|lra]. Qed.
Lemma lse_convex n t f g : 0 <= t <= 1 ->
  ln (sum_to (S n) (fun l => exp ((1 - t) * f l + t * g l))) <= (1 - t) * ln (sum_to (S n) (fun l => exp (f l))) + t * ln (sum_to (S n) (fun l => exp (g l))).
Proof.
  intros Ht. set (F := sum_to _ (fun l => exp (f l))). set (G := sum_to _ (fun l => exp (g l))). pose proof (sum_exp_pos n f) as PF. pose proof (sum_exp_pos n g) as PG. fold F in PF. fold G in PG.
  set (L := (1 - t) * ln F + t * ln G). rewrite <- (ln_exp L). apply ln_mono; [apply sum_exp_pos|].
  rewrite (sum_to_ext _ _ (fun l => exp L * exp ((1 - t) * (f l - ln F) + t * (g l - ln G)))) by (intros l _; rewrite <- exp_plus; f_equal; unfold L; ring). rewrite <- sum_to_scal.
  rewrite <- (Rmult_1_r (exp L)) at 2. apply Rmult_le_compat_l; [left; apply exp_pos|].
  assert (LE : forall m p q, (forall l, p l <= q l) -> sum_to m p <= sum_to m q). { intros m p q H. induction m as [|m IH]; [unfold sum_to; cbn; lra|]. rewrite !sum_to_S. specialize (H m). lra. }
  eapply Rle_trans; [apply LE; intros l; apply exp_convex; auto|].
  rewrite <- sum_to_plus, <- !sum_to_scal.
  assert (ONE : forall h, sum_to (S n) (fun l => exp (h l - ln (sum_to (S n) (fun l => exp (h l))))) = 1).
  { intros h. pose proof (sum_exp_pos n h) as P. rewrite (sum_to_ext _ _ (fun l => / sum_to (S n) (fun l => exp (h l)) * exp (h l))).
    - rewrite <- sum_to_scal. apply Rinv_l. lra.
    - intros l _. unfold Rminus. rewrite exp_plus, exp_Ropp, exp_ln by auto. ring. }
  unfold F, G. rewrite !ONE. lra.
Qed.
(** C85: the log likelihood is concave in the coefficients, so that a local maximum is a global one. *)
Theorem C85_concave : forall d par0 par1 part y X B0 B1 B t cats c l0 l1 l, 0 <= t <= 1 -> choice_data d par0 y X B0 -> choice_data d par1 y X B1 -> gc B1 = gc B0 -> between t B0 B1 B -> mat part = Some B ->
  length cats = S (gc B0) -> List.NoDup cats -> took cats y (gr X) c ->
  multilogit_ll d par0 cats = Ok l0 -> multilogit_ll d par1 cats = Ok l1 -> multilogit_ll d part cats = Ok l -> (1 - t) * l0 + t * l1 <= l.
Proof.
  intros d par0 par1 part y X B0 B1 B t cats c l0 l1 l Ht H0 H1 Hg Hb Hm Lc ND T. pose proof H0 as (Hy & HX & HB0 & WX & WB0 & Hd0 & Hp & Ly). pose proof Hb as (G1 & G2 & WB & HE).
  assert (H : choice_data d part y X B) by (split; [auto|]; split; [auto|]; split; [auto|]; split; [auto|]; split; [auto|]; split; [lia|]; split; [lia|auto]).
  rewrite (ll_ok _ _ _ _ _ _ c H0), (ll_ok _ _ _ _ _ _ c H1), (ll_ok _ _ _ _ _ _ c H) by (auto; lia). intros E0 E1 E. injection E0 as <-. injection E1 as <-. injection E as <-.
  rewrite !sum_to_scal, sum_to_plus. set (n := gr X) in *. assert (LE : forall m p q, (forall i, (i < m)%nat -> p i <= q i) -> sum_to m p <= sum_to m q). { intros m p q HL. induction m as [|m IH]; [unfold sum_to; cbn; lra|]. rewrite !sum_to_S. pose proof (HL m ltac:(lia)). specialize (IH ltac:(intros; apply HL; lia)). lra. }
  apply LE. intros i Hi. 
  assert (U : forall j, (j <= gc B0)%nat -> utility X B i j = (1 - t) * utility X B0 i j + t * utility X B1 i j).
  { intros [|j] Hj; cbn [utility]; [lra|]. rewrite !sum_to_scal, sum_to_plus. apply sum_to_ext. intros l Hl. rewrite HE by lia. ring. }
  unfold choice_prob. rewrite Hg, G2. destruct (T i Hi) as [Tc _]. assert (LN : forall u v, 0 < v -> ln (exp u / v) = u - ln v). { intros u v Hv. unfold Rdiv. rewrite ln_mult, ln_Rinv, ln_exp by (auto using Rinv_0_lt_compat; apply exp_pos). lra. }
  rewrite !LN by apply sum_exp_pos. rewrite (U (c i)) by lia.
  pose proof (lse_convex (gc B0) t (utility X B0 i) (utility X B1 i) Ht) as Q.
  rewrite (sum_to_ext _ (fun l => exp (utility X B i l)) (fun l => exp ((1 - t) * utility X B0 i l + t * utility X B1 i l))) by (intros k Hk; rewrite U by lia; auto). lra.
Qed.
Print Assumptions C85_concave.

(** ---------- unlisted outcomes ---------- *)
Lemma find_absent x cats : ~ In x cats -> forall max i, (max < i + length cats)%nat -> (i <= max)%nat -> find_index x cats max i = Ok max.
Proof.
  induction cats as [|a cats IH]; intros Hn max i H1 H2; [cbn in *; lia|]. cbn [find_index]. destruct (Req_EM_T x a) as [->|N]; [exfalso; apply Hn; left; auto|].
  destruct (Nat.ltb_spec i max); [|f_equal; lia]. apply IH; [intros HI; apply Hn; right; auto|cbn in *; lia|lia].
Qed.
(** C85 (the code): an outcome that is none of the options counts as one of the last option; neither an error nor NaN tells. *)
Theorem C85_refuted_unlisted : forall cats y row last, row <> [] -> length cats = S (length row) -> List.NoDup cats -> nth (length row) cats 0 = last -> ~ In y cats ->
  one_logit_row y row cats = one_logit_row last row cats.
Proof.
  intros cats y row last Ne L ND Hl Hn. unfold one_logit_row. rewrite (find_absent y cats Hn) by lia. rewrite (find_ok last cats ND (length row)) by (auto; lia). auto.
Qed.
Print Assumptions C85_refuted_unlisted.
(** ---------- draws ---------- *)
(** C85 (the code): a draw from a logit model writes nothing, whatever the inputs, the parameters and the random numbers: the caller's memory is as before. *)
Theorem C85_refuted_draw : forall x par u out out', logit_draw x par u out = Ok out' -> out' = out.
Proof.
  intros x par u out out'. unfold logit_draw. destruct (the_vec _) as [xb| |]; cbn [rbind]; try discriminate. destruct (pmf_draw _ _ _) as [[k|]| |]; cbn [rbind]; try discriminate; intros E; injection E as <-; reflexivity.
Qed.
Print Assumptions C85_refuted_draw.
Definition ex_d : page R := Pg (Some [1; 0]) (Some (Gr 2 1 [[1]; [2]])) None None name_alloc None.
Definition ex_par : page R := Pg None (Some (Gr 1 1 [[0]])) None None name_alloc None.
Lemma ex_data : choice_data ex_d ex_par [1; 0] (Gr 2 1 [[1]; [2]]) (Gr 1 1 [[0]]).
Proof. split; [reflexivity|]. split; [reflexivity|]. split; [reflexivity|]. split; [split; [reflexivity|repeat constructor]|]. split; [split; [reflexivity|repeat constructor]|]. split; [reflexivity|]. split; [cbn; lia|reflexivity]. Qed.
Lemma ex_took : took [0; 1] [1; 0] 2 (fun i => match i with O => 1%nat | _ => 0%nat end).
Proof. intros [|[|i]] Hi; cbn; [split; [lia|auto]|split; [lia|auto]|lia]. Qed.
Lemma ex_nodup : List.NoDup [0; 1].
Proof. constructor; [intros [H|[]]; lra|]. constructor; [intros []|constructor]. Qed.
Lemma ex_half i j : (j <= 1)%nat -> choice_prob (Gr 2 1 [[1]; [2]]) (Gr 1 1 [[0]]) i j = 1 / 2.
Proof.
  intros Hj. unfold choice_prob. assert (U : forall k, (k <= 1)%nat -> utility (Gr 2 1 [[1]; [2]]) (Gr 1 1 [[0]]) i k = 0).
  { intros [|[|k]] Hk; [reflexivity| |lia]. cbn [utility gc]. unfold sum_to. cbn [seq map]. rewrite Rsum_cons, Rsum_nil. replace (elt (Gr 1 1 [[0]]) false 0 0) with 0 by reflexivity. lra. }
  rewrite U by auto. cbn [gc]. unfold sum_to. cbn [seq map]. rewrite !Rsum_cons, Rsum_nil, !U by lia. rewrite exp_0. lra.
Qed.
(** two observations, two options, coefficient 0: each option has probability one half *)
Example C85_nonvacuous : multilogit_ll ex_d ex_par [0; 1] = Ok (ln (1 / 2) + ln (1 / 2)) /\
  (exists v P, multilogit_expected ex_d ex_par = Ok (v, P) /\ v = [0; 0] /\ elt P false 1 1 = 1 / 2) /\
  between (1 / 2) (Gr 1 1 [[0]]) (Gr 1 1 [[4]]) (Gr 1 1 [[2]]) /\
  one_logit_row 7 [0] [0; 1] = one_logit_row 1 [0] [0; 1] /\ (exists out, logit_draw [1] ex_par (1 / 4) [9; 8] = Ok out).
Proof.
  split; [|split; [|split; [|split]]].
  - rewrite (C85_likelihood _ _ _ _ _ [0; 1] _ ex_data eq_refl ex_nodup ex_took). f_equal. cbn [gr]. unfold sum_to. cbn [seq map]. rewrite !Rsum_cons, Rsum_nil, !ex_half by lia. lra.
  - destruct ex_data as (_ & HX & HB & WX & WB & Hd & _). destruct (C85_prediction _ _ _ _ HX HB WX WB Hd) as (v & P & E & _ & _ & _ & Lv & H). exists v, P. split; [auto|]. cbn [gr gc] in *. split.
    + assert (Z : forall i, (i < 2)%nat -> nth i v 0 = 0). { intros i Hi. destruct (H i Hi) as (A & _ & b & B1 & B2 & _ & B4). rewrite B1. destruct b as [|b]; [reflexivity|exfalso].
        specialize (B4 0%nat ltac:(lia)). rewrite (proj1 (A 0%nat ltac:(lia))), (proj1 (A (S b) B2)), !ex_half in B4 by lia. lra. }
      destruct v as [|a [|b [|]]]; try discriminate. pose proof (Z 0%nat ltac:(lia)) as Z0. pose proof (Z 1%nat ltac:(lia)) as Z1. cbn in Z0, Z1. subst. auto.
    + destruct (H 1%nat ltac:(lia)) as (A & _). rewrite (proj1 (A 1%nat ltac:(lia))). apply ex_half. lia.
  - split; [reflexivity|]. split; [reflexivity|]. split; [split; [reflexivity|repeat constructor]|]. cbn [gr gc]. intros i j Hi Hj. assert (i = 0%nat) as -> by lia. assert (j = 0%nat) as -> by lia. unfold elt, cell. cbn. lra.
  - apply C85_refuted_unlisted; [discriminate|reflexivity|apply ex_nodup|reflexivity|]. intros [E|[E|[]]]; lra.
  - unfold logit_draw. destruct (C33_vector_matrix (of_vec [1]) ex_par "000" "000" [1] (Gr 1 1 [[0]]) eq_refl (or_introl eq_refl) eq_refl ltac:(discriminate)) as (out & w & E & _ & _ & Hw & Lw & Hc & _).
    { split; [reflexivity|repeat constructor]. } { reflexivity. }
    rewrite E. cbn [the_vec]. rewrite Hw. cbn [rbind]. set (e := map exp (0 :: w)). set (ww := map _ e).
    assert (P : forall x, In x ww -> 0 < x). { intros x Hx. apply in_map_iff in Hx as (y & <- & Hy). apply in_map_iff in Hy as (z & <- & _). apply Rmult_lt_0_compat; [apply exp_pos|]. apply Rdiv_lt_0_compat; [lra|].
      rewrite C34_vector_sum. unfold e. cbn [map]. rewrite Rsum_cons. assert (0 <= Rsum (map exp w)). { clear. induction w as [|a w IH]; cbn [map]; [rewrite Rsum_nil; lra|]. rewrite Rsum_cons. pose proof (exp_pos a). lra. } pose proof (exp_pos 0). lra. }
    assert (T : 0 < total ww). { unfold ww, e. unfold total, mass. rewrite take_ge by auto. cbn [map]. set (s := exp 0 * _). set (l := map _ _). assert (Ps : 0 < s) by (apply P; left; reflexivity).
      assert (Pl : forall x, In x l -> 0 < x) by (intros x Hx; apply P; right; auto). clearbody l s. clear - Ps Pl. change (0 < Rsum (s :: l)). rewrite Rsum_cons. assert (0 <= Rsum l); [|lra].
      induction l as [|a l IH]; [rewrite Rsum_nil; lra|]. rewrite Rsum_cons. pose proof (Pl a ltac:(left; auto)). specialize (IH ltac:(intros; apply Pl; right; auto)). lra. }
    destruct (C23_draw_follows_weights ww (1 / 4) (length ww)) as (k & -> & _); try lra; try lia; [discriminate|apply List.Forall_forall; intros x Hx; left; auto|]. cbn [rbind]. eauto.
Qed.
