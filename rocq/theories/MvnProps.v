(** C122: the multivariate Normal model. *)
From Coq Require Import Reals Lra Lia.
From Verif Require Import DataModel StatsModel StatsSpec StatsProofs ConvModel LikeModel LikeProps SearchModel MvnModel.
Local Open Scope list_scope.
Local Open Scope R_scope.
Local Arguments Rsum : simpl never.

(** ---------- specification ---------- *)
Definition delta (i j : nat) : R := if Nat.eq_dec i j then 1 else 0.
(** [inv] is the n by n matrix with sigma inv = 1, and is symmetric *)
Definition inverse_of (n : nat) (sigma inv : grid R) : Prop :=
  gr inv = n /\ gc inv = n /\ (forall i j, (i < n)%nat -> (j < n)%nat -> el inv i j = el inv j i) /\
  forall i j, (i < n)%nat -> (j < n)%nat -> sumn n (fun k => el sigma i k * el inv k j) = delta i j.
(** [c] holds, on and below its diagonal, a Cholesky factor of sigma *)
Definition lower (c : grid R) (i j : nat) : R := if (i <? j)%nat then 0 else el c i j.
Definition cholesky_of (n : nat) (sigma c : grid R) : Prop :=
  (forall i, (i < n)%nat -> 0 < el c i i) /\
  forall i j, (i < n)%nat -> (j < n)%nat -> sumn n (fun k => lower c i k * lower c j k) = el sigma i j.
(** the determinant of a matrix with that factor: the product of the squares of the factor's diagonal *)
Definition det_of (n : nat) (c : grid R) : R := fold_right Rmult 1 (map (fun i => el c i i ^ 2) (seq 0 n)).
Definition one_row (x : list R) : grid R := Gr 1 (length x) [x].

(** ---------- sums ---------- *)
Lemma sumn_R n f : sumn n f = Rsumf f (seq 0 n).
Proof. unfold sumn, vector_sum. rewrite fold_left_Rplus. unfold Rsumf. lra. Qed.
Lemma sumn_ext n f h : (forall i, (i < n)%nat -> f i = h i) -> sumn n f = sumn n h.
Proof. intros H. rewrite !sumn_R. apply Rsumf_ext. intros i Hi. apply in_seq in Hi. apply H. lia. Qed.
Lemma sumn_plus n f h : sumn n (fun i => f i + h i) = sumn n f + sumn n h.
Proof. rewrite !sumn_R. apply Rsumf_plus. Qed.
Lemma sumn_scal n k f : sumn n (fun i => k * f i) = k * sumn n f.
Proof. rewrite !sumn_R. apply Rsumf_scal. Qed.
Lemma sumn_S n f : sumn (S n) f = sumn n f + f n.
Proof. rewrite !sumn_R, seq_S. unfold Rsumf. rewrite map_app, Rsum_app. cbn. rewrite Rsum_cons, Rsum_nil. lra. Qed.
Lemma sumn_0 f : sumn 0 f = 0. Proof. reflexivity. Qed.
Lemma sumn_swap n p f : sumn n (fun i => sumn p (fun j => f i j)) = sumn p (fun j => sumn n (fun i => f i j)).
Proof.
  induction n as [|n IH].
  - rewrite sumn_0. symmetry. transitivity (sumn p (fun _ => 0 * 0)); [apply sumn_ext; intros; rewrite sumn_0; ring|]. rewrite sumn_scal. ring.
  - rewrite sumn_S, IH, <- sumn_plus. apply sumn_ext. intros. rewrite sumn_S. auto.
Qed.
Lemma sumn_single n i f : (i < n)%nat -> (forall j, (j < n)%nat -> j <> i -> f j = 0) -> sumn n f = f i.
Proof.
  revert i. induction n as [|n IH]; intros i Hi H; [lia|]. rewrite sumn_S. destruct (Nat.eq_dec i n) as [->|N].
  - replace (sumn n f) with 0; [lra|]. symmetry. transitivity (sumn n (fun _ => 0 * 0)); [apply sumn_ext; intros j Hj; rewrite H by lia; ring|]. rewrite sumn_scal. ring.
  - rewrite (IH i) by (intros; try apply H; lia). rewrite (H n) by lia. lra.
Qed.
Lemma sumn_delta n i f : (i < n)%nat -> sumn n (fun j => delta i j * f j) = f i.
Proof.
  intros Hi. rewrite (sumn_single n i); auto; unfold delta; [destruct (Nat.eq_dec i i); [lra|congruence]|]. intros j Hj N. destruct (Nat.eq_dec i j); [congruence|lra].
Qed.
(** ---------- the quadratic form ---------- *)
Lemma quad_sym n inv x : length x = n -> (forall i j, (i < n)%nat -> (j < n)%nat -> el inv i j = el inv j i) ->
  x_prime_sigma_x inv x = sumn n (fun i => vel x i * sumn n (fun j => el inv i j * vel x j)).
Proof.
  intros <- H. unfold x_prime_sigma_x. apply sumn_ext. intros i Hi. f_equal. apply sumn_ext. intros j Hj. f_equal. unfold upper. destruct (i <=? j)%nat; auto.
Qed.
Section Chol.
Context (n : nat) (sigma inv c : grid R) (HI : inverse_of n sigma inv) (HC : cholesky_of n sigma c).
Definition Lz (z : nat -> R) (i : nat) : R := sumn n (fun j => lower c i j * z j).
Lemma L_inj v : (forall i, (i < n)%nat -> Lz v i = 0) -> forall i, (i < n)%nat -> v i = 0.
Proof.
  intros H i. induction i as [i IH] using lt_wf_ind. intros Hi. specialize (H i Hi). unfold Lz in H. rewrite (sumn_single n i) in H; auto.
  - unfold lower in H. rewrite Nat.ltb_irrefl in H. pose proof (proj1 HC i Hi). nra.
  - intros j Hj N. unfold lower. destruct (i <? j)%nat eqn:E; [lra|]. apply Nat.ltb_ge in E. rewrite IH by lia. lra.
Qed.
Lemma L_solve y : forall a, (a < n)%nat -> Lz (fun j => sumn n (fun i => lower c i j * sumn n (fun k => el inv i k * y k))) a = y a.
Proof.
  intros a Ha. unfold Lz. rewrite (sumn_ext n _ (fun j => sumn n (fun i => lower c a j * (lower c i j * sumn n (fun k => el inv i k * y k))))) by (intros; rewrite <- sumn_scal; auto).
  rewrite sumn_swap. rewrite (sumn_ext n _ (fun i => sumn n (fun k => (el sigma a i * el inv i k) * y k))).
  - rewrite sumn_swap. rewrite (sumn_ext n _ (fun k => delta a k * y k)); [apply sumn_delta; auto|].
    intros k Hk. rewrite (sumn_ext n _ (fun i => y k * (el sigma a i * el inv i k))) by (intros; ring). rewrite sumn_scal. destruct HI as (_ & _ & _ & E). rewrite E by auto. ring.
  - intros i Hi. destruct HC as [_ E]. rewrite (sumn_ext n _ (fun j => sumn n (fun k => el inv i k * y k) * (lower c a j * lower c i j))) by (intros; ring).
    rewrite sumn_scal, E by auto. rewrite Rmult_comm, <- sumn_scal. apply sumn_ext. intros; ring.
Qed.
Lemma quad_L z : sumn n (fun i => Lz z i * sumn n (fun j => el inv i j * Lz z j)) = sumn n (fun i => z i * z i).
Proof.
  set (p := fun i => sumn n (fun j => el inv i j * Lz z j)). set (w := fun j => sumn n (fun i => lower c i j * p i)).
  assert (W : forall i, (i < n)%nat -> w i = z i).
  { intros i Hi. enough (w i + -1 * z i = 0) by lra. apply (L_inj (fun i => w i + -1 * z i)); auto. intros a Ha. unfold Lz.
    rewrite (sumn_ext n _ (fun j => lower c a j * w j + -1 * (lower c a j * z j))) by (intros; ring). rewrite sumn_plus, sumn_scal. fold (Lz w a). fold (Lz z a).
    unfold w, p. rewrite L_solve by auto. ring. }
  rewrite (sumn_ext n _ (fun i => sumn n (fun j => lower c i j * z j * p i))).
  - rewrite sumn_swap. apply sumn_ext. intros j Hj. transitivity (z j * w j); [|rewrite (W j Hj); reflexivity]. unfold w. rewrite <- sumn_scal. apply sumn_ext. intros; ring.
  - intros i Hi. fold (p i). unfold Lz. rewrite Rmult_comm, <- sumn_scal. apply sumn_ext. intros; ring.
Qed.
End Chol.
Lemma vel_map n (f : nat -> R) i : (i < n)%nat -> vel (map f (seq 0 n)) i = f i.
Proof.
  intros H. unfold vel. rewrite (nth_indep _ 0 (f 0%nat)) by (rewrite map_length, seq_length; auto). rewrite map_nth, seq_nth; auto.
Qed.
Lemma vel_vsub : forall x y i, length x = length y -> (i < length x)%nat -> vel (vsub x y) i = vel x i - vel y i.
Proof.
  induction x as [|a x IH]; intros [|b y] i HL Hi; cbn in *; try lia. destruct i; auto. apply IH; lia.
Qed.
Lemma vsub_len x y : length x = length y -> length (vsub x y) = length x.
Proof. intros H. unfold vsub. rewrite zip_with_length. lia. Qed.
Lemma draw_len chol mu sigma z : length (mvn_draw chol mu sigma z) = length mu.
Proof. unfold mvn_draw. rewrite map_length, seq_length. auto. Qed.
Lemma draw_at chol mu sigma z i : (i < length mu)%nat -> vel (mvn_draw chol mu sigma z) i = Lz (length mu) (chol sigma) (vel z) i + vel mu i.
Proof. intros H. unfold mvn_draw. rewrite vel_map by auto. reflexivity. Qed.
Lemma ll_one det_inv mu sigma x d inv : det_inv sigma = (Some d, inv) -> 0 < d -> inverse_of (length mu) sigma inv -> length x = length mu ->
  mvn_ll det_inv mu sigma (one_row x) = Ok (Fin (- x_prime_sigma_x inv (vsub x mu) / 2 - (ln (2 * PI) * INR (length mu) / 2 + 1 / 2 * ln d))).
Proof.
  intros E Hd (H1 & H2 & _) Hx. unfold mvn_ll. rewrite E. destruct (Req_EM_T d 0); [lra|]. destruct (Rle_dec d 0); [lra|]. unfold one_row. cbn [ga mvn_rows gr gc].
  rewrite H1, H2, Hx, !Nat.eqb_refl. cbn [andb]. apply (f_equal (fun q => Ok (Fin q))). cbn [INR]. ring.
Qed.
Lemma ln2pi : ln (2 * PI) = 2 * ln2pi_half.
Proof. unfold ln2pi_half. rewrite ln_mult by (pose proof PI_RGT_0; lra). field. Qed.
Lemma normal01 z : normal_ll 0 1 (single z) = - (z * z) / 2 - ln2pi_half.
Proof. rewrite normal_one by lra. rewrite ln_1. field. Qed.
Lemma sumn_normal n (z : nat -> R) : sumn n (fun i => normal_ll 0 1 (single (z i))) = - sumn n (fun i => z i * z i) / 2 - INR n * ln2pi_half.
Proof. induction n as [|n IH]; [rewrite !sumn_0; cbn; lra|]. rewrite !sumn_S, IH, normal01, S_INR. lra. Qed.

(** ---------- C122 ---------- *)
Section Thm.
Context (det_inv : grid R -> option R * grid R) (chol : grid R -> grid R).
(** the draws follow the likelihood: the draw made from the standard normal numbers z has, as its log likelihood, the sum of theirs less the log of the
    factor, the square root of sigma's determinant, by which the map from z to the draw changes volumes; and every point is the draw of exactly one z *)
Theorem C122_draw : forall mu sigma d inv z, det_inv sigma = (Some d, inv) -> 0 < d -> inverse_of (length mu) sigma inv ->
  cholesky_of (length mu) sigma (chol sigma) -> length z = length mu ->
  mvn_ll det_inv mu sigma (one_row (mvn_draw chol mu sigma z)) =
  Ok (Fin (sumn (length mu) (fun i => normal_ll 0 1 (single (vel z i))) - ln (R_sqrt.sqrt d))).
Proof.
  intros mu sigma d inv z E Hd HI HC Hz. rewrite (ll_one det_inv mu sigma _ d inv); auto using draw_len. apply (f_equal (fun q => Ok (Fin q))).
  set (n := length mu) in *. set (y := vsub (mvn_draw chol mu sigma z) mu). assert (Ly : length y = n) by (unfold y; rewrite vsub_len; apply draw_len).
  assert (Vy : forall i, (i < n)%nat -> vel y i = Lz n (chol sigma) (vel z) i).
  { intros i Hi. unfold y. rewrite vel_vsub, draw_at by (rewrite ?draw_len; auto). fold n. lra. }
  rewrite (quad_sym n inv y Ly (proj1 (proj2 (proj2 HI)))).
  rewrite (sumn_ext n _ (fun i => Lz n (chol sigma) (vel z) i * sumn n (fun j => el inv i j * Lz n (chol sigma) (vel z) j))).
  - rewrite (quad_L n sigma inv (chol sigma) HI HC), sumn_normal, ln2pi. assert (S : ln d = 2 * ln (R_sqrt.sqrt d)).
    { rewrite <- (R_sqrt.sqrt_sqrt d) at 1 by lra. rewrite ln_mult by (apply R_sqrt.sqrt_lt_R0; auto). ring. } rewrite S. field.
  - intros i Hi. rewrite Vy by auto. f_equal. apply sumn_ext. intros j Hj. rewrite Vy; auto.
Qed.
Lemma det_pos_ln n c : (forall i, (i < n)%nat -> 0 < el c i i) -> 0 < det_of n c /\ ln (R_sqrt.sqrt (det_of n c)) = sumn n (fun i => ln (el c i i)).
Proof.
  intros H. assert (G : 0 < det_of n c /\ ln (det_of n c) = 2 * sumn n (fun i => ln (el c i i))).
  { unfold det_of. induction n as [|n IH]; [rewrite sumn_0; cbn; rewrite ln_1; split; lra|]. destruct IH as [IH1 IH2]; [intros; apply H; lia|].
    rewrite seq_S, map_app, fold_right_app. cbn [map fold_right Nat.add app]. rewrite sumn_S. pose proof (H n ltac:(lia)) as P. set (q := el c n n ^ 2 * 1).
    assert (Q : 0 < q) by (unfold q; cbn; nra). assert (F : forall l : list R, fold_right Rmult q l = fold_right Rmult 1 l * q) by (induction l as [|a l IL]; cbn; rewrite ?IL; ring).
    rewrite F. split; [nra|]. rewrite ln_mult, IH2 by auto. unfold q. cbn. rewrite !Rmult_1_r, ln_mult by auto. ring. }
  destruct G as [G1 G2]. split; auto. pose proof (R_sqrt.sqrt_lt_R0 _ G1). rewrite <- (R_sqrt.sqrt_sqrt (det_of n c)), ln_mult in G2 by (auto; lra). lra.
Qed.
(** that factor is the product of the diagonal of the triangular map from z to the draw *)
Theorem C122_volume : forall mu sigma inv z, let n := length mu in det_inv sigma = (Some (det_of n (chol sigma)), inv) -> inverse_of n sigma inv ->
  cholesky_of n sigma (chol sigma) -> length z = n ->
  mvn_ll det_inv mu sigma (one_row (mvn_draw chol mu sigma z)) =
  Ok (Fin (sumn n (fun i => normal_ll 0 1 (single (vel z i)) - ln (el (chol sigma) i i)))).
Proof.
  intros mu sigma inv z n E HI HC Hz. destruct (det_pos_ln n (chol sigma) (proj1 HC)) as [D1 D2]. rewrite (C122_draw mu sigma _ inv z E D1 HI HC Hz).
  apply (f_equal (fun q => Ok (Fin q))). fold n. rewrite D2. rewrite (sumn_ext n (fun i => _ - _) (fun i => normal_ll 0 1 (single (vel z i)) + -1 * ln (el (chol sigma) i i))) by (intros; ring).
  rewrite sumn_plus, sumn_scal. ring.
Qed.
Lemma vel_ext : forall x y, length x = length y -> (forall i, (i < length x)%nat -> vel x i = vel y i) -> x = y.
Proof.
  induction x as [|a x IH]; intros [|b y] HL H; try discriminate; auto. f_equal; [apply (H 0%nat); cbn; lia|]. apply IH; [cbn in HL; lia|]. intros i Hi. apply (H (S i)). cbn. lia.
Qed.
Theorem C122_onto : forall mu sigma inv x, inverse_of (length mu) sigma inv -> cholesky_of (length mu) sigma (chol sigma) -> length x = length mu ->
  exists z, length z = length mu /\ mvn_draw chol mu sigma z = x /\ forall z', length z' = length mu -> mvn_draw chol mu sigma z' = x -> z' = z.
Proof.
  intros mu sigma inv x HI HC Hx. set (n := length mu) in *. set (c := chol sigma) in *.
  set (f := fun j => sumn n (fun i => lower c i j * sumn n (fun k => el inv i k * (vel x k - vel mu k)))).
  assert (F : forall a, (a < n)%nat -> Lz n c f a = vel x a - vel mu a) by (intros; apply (L_solve n sigma inv c HI HC (fun k => vel x k - vel mu k)); auto).
  exists (map f (seq 0 n)). assert (LL : length (map f (seq 0 n)) = n) by (rewrite map_length, seq_length; auto). split; auto. split.
  - apply vel_ext; rewrite draw_len; [auto|]. intros i Hi. rewrite draw_at by auto. fold n c. replace (Lz n c (vel (map f (seq 0 n))) i) with (Lz n c f i); [rewrite F by auto; lra|].
    unfold Lz. apply sumn_ext. intros j Hj. rewrite vel_map; auto.
  - intros z' Hz' E. apply vel_ext; [congruence|]. intros i Hi. rewrite Hz' in Hi. rewrite vel_map by auto. enough (vel z' i + -1 * f i = 0) by lra.
    apply (L_inj n sigma c HC (fun i => vel z' i + -1 * f i)); auto. intros a Ha. unfold Lz.
    rewrite (sumn_ext n _ (fun j => lower c a j * vel z' j + -1 * (lower c a j * f j))) by (intros; ring). rewrite sumn_plus, sumn_scal. fold (Lz n c (vel z') a). fold (Lz n c f a).
    rewrite F by auto. assert (D : vel (mvn_draw chol mu sigma z') a = vel x a) by (rewrite E; auto). rewrite draw_at in D by auto. fold n c in D. lra.
Qed.
(** the log likelihood of a data set is the sum of its rows' *)
Theorem C122_rows : forall mu sigma d inv m, det_inv sigma = (Some d, inv) -> 0 < d -> inverse_of (length mu) sigma inv -> wf_grid m -> gc m = length mu ->
  exists l1, (forall r, length r = length mu -> mvn_ll det_inv mu sigma (one_row r) = Ok (Fin (l1 r))) /\
    mvn_ll det_inv mu sigma m = Ok (Fin (Rsumf l1 (ga m))).
Proof.
  intros mu sigma d inv m E Hd HI [W1 W2] Hg. exists (fun r => - x_prime_sigma_x inv (vsub r mu) / 2 - (ln (2 * PI) * INR (length mu) / 2 + 1 / 2 * ln d)).
  split; [intros; apply ll_one; auto|]. unfold mvn_ll. rewrite E. destruct (Req_EM_T d 0); [lra|]. destruct (Rle_dec d 0); [lra|].
  assert (G : forall rows a, Forall (fun r => length r = length mu) rows -> mvn_rows mu inv rows a =
    Ok (a + Rsumf (fun r => - x_prime_sigma_x inv (vsub r mu) / 2 - (ln (2 * PI) * INR (length mu) / 2 + 1 / 2 * ln d)) rows + INR (length rows) * (ln (2 * PI) * INR (length mu) / 2 + 1 / 2 * ln d))).
  { destruct HI as (H1 & H2 & _). induction rows as [|r rows IH]; intros a HF; [cbn [mvn_rows length INR]; f_equal; unfold Rsumf; cbn; rewrite Rsum_nil; ring|]. inversion HF as [|? ? Hr Hrs]; subst.
    cbn [mvn_rows]. rewrite H1, H2, Hr, !Nat.eqb_refl. cbn [andb]. rewrite IH by auto. rewrite Rsumf_cons. cbn [length]. rewrite S_INR. f_equal. ring. }
  rewrite G by (rewrite <- Hg; auto). rewrite <- W1, Hg. apply (f_equal (fun q => Ok (Fin q))). ring.
Qed.
(** a diagonal covariance matrix: the sum of the Normal model's log likelihoods, with the roots of the variances; one dimension among them *)
Theorem C122_independent : forall mu sigma sd d inv x, det_inv sigma = (Some d, inv) -> inverse_of (length mu) sigma inv -> length x = length mu ->
  (forall i, (i < length mu)%nat -> 0 < sd i) -> (forall i j, (i < length mu)%nat -> (j < length mu)%nat -> el sigma i j = delta i j * (sd i) ^ 2) ->
  ln d = sumn (length mu) (fun i => ln (sd i ^ 2)) -> 0 < d ->
  mvn_ll det_inv mu sigma (one_row x) = Ok (Fin (sumn (length mu) (fun i => normal_ll (vel mu i) (sd i) (single (vel x i))))).
Proof.
  intros mu sigma sd d inv x E HI Hx Hs HD Hd Pd. rewrite (ll_one det_inv mu sigma x d inv) by auto. apply (f_equal (fun q => Ok (Fin q))). set (n := length mu) in *.
  rewrite (quad_sym n) by (rewrite ?vsub_len; try apply HI; auto; congruence).
  assert (V : forall i j, (i < n)%nat -> (j < n)%nat -> el inv i j = delta i j * / (sd i ^ 2)).
  { intros i j Hi Hj. destruct HI as (_ & _ & _ & R). specialize (R i j Hi Hj). rewrite (sumn_single n i) in R; auto.
    - rewrite HD in R by auto. unfold delta at 1 in R. destruct (Nat.eq_dec i i); [|congruence]. specialize (Hs i Hi). rewrite <- R. field. lra.
    - intros k Hk N. rewrite HD by auto. unfold delta. destruct (Nat.eq_dec i k); [congruence|]. ring. }
  rewrite (sumn_ext n _ (fun i => (vel x i - vel mu i) ^ 2 * / (sd i ^ 2))).
  - rewrite Hd, ln2pi. clear -Hs. induction n as [|n IH]; [rewrite !sumn_0; cbn; lra|]. rewrite !sumn_S, <- IH by (intros; apply Hs; lia). rewrite normal_one by (apply Hs; lia).
    specialize (Hs n ltac:(lia)). replace (ln (sd n ^ 2)) with (2 * ln (sd n)) by (cbn; rewrite Rmult_1_r, ln_mult by auto; ring). rewrite S_INR. field. lra.
  - intros i Hi. rewrite vel_vsub by (try lia; congruence). rewrite (sumn_ext n _ (fun j => / (sd i ^ 2) * (delta i j * (vel x j - vel mu j)))).
    + rewrite sumn_scal, sumn_delta by auto. ring.
    + intros j Hj. rewrite V, vel_vsub by (auto; try congruence; rewrite ?Hx; auto). ring.
Qed.
(** a covariance matrix that is singular, or not even semidefinite *)
Theorem C122_degenerate : forall mu sigma m d inv, det_inv sigma = (d, inv) ->
  ((d = None \/ d = Some 0) -> mvn_ll det_inv mu sigma m = Ok NInf) /\ (forall x, d = Some x -> x < 0 -> mvn_ll det_inv mu sigma m = Ok NaN).
Proof.
  intros mu sigma m d inv E. unfold mvn_ll. rewrite E. split.
  - intros [->| ->]; auto. destruct (Req_EM_T 0 0); auto; lra.
  - intros x -> Hx. destruct (Req_EM_T x 0); [lra|]. destruct (Rle_dec x 0); auto; lra.
Qed.
End Thm.
(** deviation: only the upper triangle of the inverse is read; a covariance matrix that is not symmetric gets another quadratic form than its own *)
Theorem C122_refuted_asymmetric : exists sigma inv x, (forall i j, (i < 2)%nat -> (j < 2)%nat -> sumn 2 (fun k => el sigma i k * el inv k j) = delta i j) /\ length x = 2%nat /\
  x_prime_sigma_x inv x <> sumn 2 (fun i => vel x i * sumn 2 (fun j => el inv i j * vel x j)).
Proof.
  exists (Gr 2 2 [[1; -1]; [0; 1]]), (Gr 2 2 [[1; 1]; [0; 1]]), [1; 1]. split.
  - intros [|[|i]] [|[|j]] Hi Hj; try lia; rewrite !sumn_S, sumn_0; unfold delta, el; cbn; lra.
  - split; auto. unfold x_prime_sigma_x, sumn, vector_sum, upper, el, vel. cbn -[Nat.leb]. cbv [Nat.leb]. lra.
Qed.
Example C122_nonvacuous : let sigma := Gr 2 2 [[4; 2]; [2; 2]] in let inv := Gr 2 2 [[1 / 2; - (1 / 2)]; [- (1 / 2); 1]] in
  inverse_of 2 sigma inv /\ cholesky_of 2 sigma (Gr 2 2 [[2; 1]; [1; 1]]).
Proof.
  split.
  - split; [reflexivity|]. split; [reflexivity|]. split; intros [|[|i]] [|[|j]] Hi Hj; try lia; rewrite ?sumn_S, ?sumn_0; unfold delta, el; cbn [nth ga Nat.eq_dec nat_rec nat_rect]; cbn; cbv [Nat.ltb Nat.leb]; lra.
  - split; [intros [|[|i]] Hi; try lia; unfold el; cbn; lra|]. intros [|[|i]] [|[|j]] Hi Hj; try lia; rewrite ?sumn_S, ?sumn_0; unfold lower;
      repeat match goal with |- context [(?a <? ?b)%nat] => destruct (Nat.ltb_spec a b); try lia end; unfold el; cbn; lra.
Qed.
Print Assumptions C122_draw. Print Assumptions C122_onto. Print Assumptions C122_rows. Print Assumptions C122_independent. Print Assumptions C122_degenerate. Print Assumptions C122_refuted_asymmetric.
