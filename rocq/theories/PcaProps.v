(** C124: principal component analysis. *)
From Coq Require Import Reals Lra Lia.
From Verif Require Import DataModel StatsModel StatsSpec StatsProofs ConvModel MvnModel MvnProps PcaModel.
Local Open Scope list_scope.
Local Open Scope R_scope.
Local Arguments Rsum : simpl never.

(** ---------- specification ---------- *)
Definition dot (n : nat) (f h : nat -> R) : R := sumn n (fun i => f i * h i).
(** the columns 0..k-1 of an n-row matrix are orthogonal and of length one *)
Definition orthonormal (n k : nat) (v : nat -> nat -> R) : Prop :=
  forall i j, (i < k)%nat -> (j < k)%nat -> dot n (fun a => v a i) (fun a => v a j) = delta i j.
(** a singular value decomposition of the square matrix sq: orthogonal u and v, with values that are not negative and do not rise *)
Definition svd_of (n : nat) (sq v : grid R) (s : list R) : Prop :=
  length s = n /\ (forall i, (i < n)%nat -> 0 <= vel s i) /\ (forall i j, (i <= j)%nat -> (j < n)%nat -> vel s j <= vel s i) /\
  exists u : nat -> nat -> R, orthonormal n n u /\ orthonormal n n (el v) /\
    (forall a b, (a < n)%nat -> (b < n)%nat -> sumn n (fun k => el v a k * el v b k) = delta a b) /\
    forall a b, (a < n)%nat -> (b < n)%nat -> el sq a b = sumn n (fun k => u a k * (vel s k * el v b k)).
(** the sum of the squares of the rows' coordinates in the direction w, and of all the numbers *)
Definition variation (m : grid R) (w : nat -> R) : R := sumn (gr m) (fun k => dot (gc m) (el m k) w ^ 2).
Definition total_variation (m : grid R) : R := sumn (gc m) (fun j => sumn (gr m) (fun k => el m k j ^ 2)).

(** ---------- proofs ---------- *)
Lemma sumn_nonneg n f : (forall i, (i < n)%nat -> 0 <= f i) -> 0 <= sumn n f.
Proof. intros H. rewrite sumn_R. apply Rsumf_nonneg. intros i Hi. apply in_seq in Hi. apply H. lia. Qed.
Lemma sumn_zero n f : (forall i, (i < n)%nat -> 0 <= f i) -> sumn n f = 0 -> forall i, (i < n)%nat -> f i = 0.
Proof. intros H E i Hi. rewrite sumn_R in E. apply (Rsumf_zero f (seq 0 n)); auto; [|apply in_seq; lia]. intros x Hx. apply in_seq in Hx. apply H. lia. Qed.
Lemma sumn_le n f h : (forall i, (i < n)%nat -> f i <= h i) -> sumn n f <= sumn n h.
Proof.
  intros H. assert (0 <= sumn n (fun i => h i + -1 * f i)) by (apply sumn_nonneg; intros i Hi; specialize (H i Hi); lra). rewrite sumn_plus, sumn_scal in H0. lra.
Qed.
Lemma sumn_zero_all n f : (forall i, (i < n)%nat -> f i = 0) -> sumn n f = 0.
Proof. intros H. transitivity (sumn n (fun _ => 0 * 0)); [apply sumn_ext; intros; rewrite H by auto; ring|]. rewrite sumn_scal. ring. Qed.
Lemma delta_sym i j : delta i j = delta j i.
Proof. unfold delta. destruct (Nat.eq_dec i j), (Nat.eq_dec j i); congruence. Qed.
Section Gram.
Context (n r : nat) (x : nat -> nat -> R).
Definition gm (a b : nat) : R := sumn r (fun k => x k a * x k b).
Definition app1 (w : nat -> R) (a : nat) : R := sumn n (fun b => gm a b * w b).
Lemma gm_sym a b : gm a b = gm b a.
Proof. unfold gm. apply sumn_ext. intros; ring. Qed.
Lemma quad_gram w : dot n w (app1 w) = sumn r (fun k => dot n (x k) w ^ 2).
Proof.
  unfold dot, app1, gm. rewrite (sumn_ext n _ (fun a => sumn r (fun k => sumn n (fun b => w a * (x k a * x k b * w b))))).
  - rewrite sumn_swap. apply sumn_ext. intros k Hk. rewrite (sumn_ext n _ (fun a => sumn n (fun b => x k b * w b) * (x k a * w a))).
    + rewrite sumn_scal. ring.
    + intros a Ha. rewrite Rmult_comm, <- sumn_scal. apply sumn_ext. intros; ring.
  - intros a Ha. rewrite <- sumn_scal. rewrite sumn_swap. apply sumn_ext. intros b Hb. transitivity (w a * w b * sumn r (fun k => x k a * x k b)); [ring|]. rewrite <- sumn_scal. apply sumn_ext. intros; ring.
Qed.
Context (u v : nat -> nat -> R) (s : nat -> R) (U : orthonormal n n u) (V : orthonormal n n v)
        (D : forall a b, (a < n)%nat -> (b < n)%nat -> gm a b = sumn n (fun k => u a k * (s k * v b k))) (P : forall i, (i < n)%nat -> 0 <= s i).
Lemma app_v i a : (i < n)%nat -> (a < n)%nat -> app1 (fun b => v b i) a = s i * u a i.
Proof.
  intros Hi Ha. unfold app1. rewrite (sumn_ext n _ (fun b => sumn n (fun k => u a k * s k * (v b k * v b i)))).
  - rewrite sumn_swap. rewrite (sumn_ext n _ (fun k => delta i k * (u a k * s k))).
    + rewrite sumn_delta by auto. ring.
    + intros k Hk. rewrite sumn_scal. fold (dot n (fun b => v b k) (fun b => v b i)). rewrite V by auto. rewrite delta_sym. ring.
  - intros b Hb. rewrite D by auto. rewrite Rmult_comm, <- sumn_scal. apply sumn_ext. intros; ring.
Qed.
Lemma app_u i a : (i < n)%nat -> (a < n)%nat -> app1 (fun b => u b i) a = s i * v a i.
Proof.
  intros Hi Ha. unfold app1. rewrite (sumn_ext n _ (fun b => sumn n (fun k => v a k * s k * (u b k * u b i)))).
  - rewrite sumn_swap. rewrite (sumn_ext n _ (fun k => delta i k * (v a k * s k))).
    + rewrite sumn_delta by auto. ring.
    + intros k Hk. rewrite sumn_scal. fold (dot n (fun b => u b k) (fun b => u b i)). rewrite U by auto. rewrite delta_sym. ring.
  - intros b Hb. rewrite gm_sym, D by auto. rewrite Rmult_comm, <- sumn_scal. apply sumn_ext. intros; ring.
Qed.
(** the vectors are eigenvectors *)
Lemma eigen i a : (i < n)%nat -> (a < n)%nat -> app1 (fun b => v b i) a = s i * v a i.
Proof.
  intros Hi Ha. rewrite app_v by auto. set (w := fun b => s i * (u b i + -1 * v b i)). enough (E : w a = 0) by (unfold w in E; lra).
  assert (W : forall b, (b < n)%nat -> app1 w b = - s i * w b).
  { intros b Hb. transitivity (s i * (app1 (fun b => u b i) b + -1 * app1 (fun b => v b i) b)).
    - unfold app1, w. rewrite <- sumn_scal, <- sumn_plus, <- sumn_scal. apply sumn_ext. intros; ring.
    - rewrite app_u, app_v by auto. unfold w. ring. }
  assert (Q : 0 <= dot n w (app1 w)) by (rewrite quad_gram; apply sumn_nonneg; intros; apply pow2_ge_0).
  assert (Q2 : dot n w (app1 w) = - s i * dot n w w).
  { unfold dot. rewrite <- sumn_scal. apply sumn_ext. intros b Hb. rewrite W by auto. ring. }
  assert (N : 0 <= dot n w w) by (apply sumn_nonneg; intros b Hb; pose proof (Rle_0_sqr (w b)); unfold Rsqr in *; auto).
  destruct (Req_dec (s i) 0) as [Z|Z]; [unfold w; rewrite Z; ring|]. pose proof (P i Hi). assert (E : dot n w w = 0) by nra.
  assert (w a * w a = 0) as E2 by (apply (sumn_zero n (fun b => w b * w b)); auto; intros b Hb; pose proof (Rle_0_sqr (w b)); unfold Rsqr in *; auto). nra.
Qed.
Lemma eigen_var i : (i < n)%nat -> sumn r (fun k => dot n (x k) (fun b => v b i) ^ 2) = s i.
Proof.
  intros Hi. rewrite <- quad_gram. unfold dot at 1. rewrite (sumn_ext n _ (fun a => s i * (v a i * v a i))) by (intros a Ha; rewrite eigen by auto; ring).
  rewrite sumn_scal. fold (dot n (fun a => v a i) (fun a => v a i)). rewrite V by auto. unfold delta. destruct (Nat.eq_dec i i); [ring|congruence].
Qed.
Context (VV : forall a b, (a < n)%nat -> (b < n)%nat -> sumn n (fun k => v a k * v b k) = delta a b).
Definition coord (w : nat -> R) (k : nat) : R := dot n w (fun a => v a k).
Lemma expand w a : (a < n)%nat -> w a = sumn n (fun k => coord w k * v a k).
Proof.
  intros Ha. unfold coord, dot. rewrite (sumn_ext n _ (fun k => sumn n (fun b => w b * (v a k * v b k)))).
  - rewrite sumn_swap. rewrite (sumn_ext n _ (fun b => delta a b * w b)); [rewrite sumn_delta; auto|]. intros b Hb. rewrite sumn_scal, VV by auto. ring.
  - intros k Hk. rewrite Rmult_comm, <- sumn_scal. apply sumn_ext. intros; ring.
Qed.
Lemma parseval w : dot n w w = sumn n (fun k => coord w k ^ 2).
Proof.
  unfold dot at 1. rewrite (sumn_ext n _ (fun a => sumn n (fun k => coord w k * (w a * v a k)))).
  - rewrite sumn_swap. apply sumn_ext. intros k Hk. rewrite sumn_scal. unfold coord, dot. ring.
  - intros a Ha. rewrite (expand w a Ha) at 2. rewrite <- sumn_scal. apply sumn_ext. intros; ring.
Qed.
Lemma var_coord w : sumn r (fun k => dot n (x k) w ^ 2) = sumn n (fun i => s i * coord w i ^ 2).
Proof.
  rewrite <- quad_gram. transitivity (sumn n (fun a => sumn n (fun i => s i * coord w i * (w a * v a i)))).
  - unfold dot. apply sumn_ext. intros a Ha. transitivity (w a * sumn n (fun i => s i * coord w i * v a i)).
    + f_equal. transitivity (sumn n (fun i => coord w i * app1 (fun b => v b i) a)).
      * unfold app1. rewrite (sumn_ext n _ (fun b => sumn n (fun i => gm a b * (coord w i * v b i)))) by (intros b Hb; rewrite (expand w b Hb) at 1; rewrite <- sumn_scal; auto).
        rewrite sumn_swap. apply sumn_ext. intros i Hi. rewrite <- sumn_scal. apply sumn_ext. intros; ring.
      * apply sumn_ext. intros i Hi. rewrite eigen by auto. ring.
    + rewrite <- sumn_scal. apply sumn_ext. intros; ring.
  - rewrite sumn_swap. apply sumn_ext. intros i Hi. rewrite sumn_scal. unfold coord at 2, dot. unfold coord, dot. ring.
Qed.
Lemma trace : sumn n (fun j => sumn r (fun k => x k j ^ 2)) = sumn n s.
Proof.
  transitivity (sumn n (fun j => sumn n (fun i => s i * (v j i * v j i)))).
  - apply sumn_ext. intros j Hj. transitivity (sumn r (fun k => dot n (x k) (fun b => delta j b) ^ 2)).
    + apply sumn_ext. intros k Hk. f_equal. unfold dot. rewrite (sumn_ext n _ (fun b => delta j b * x k b)) by (intros; ring). rewrite sumn_delta; auto.
    + rewrite var_coord. apply sumn_ext. intros i Hi. f_equal. unfold coord, dot. rewrite sumn_delta by auto. ring.
  - rewrite sumn_swap. apply sumn_ext. intros i Hi. rewrite sumn_scal. fold (dot n (fun j => v j i) (fun j => v j i)). rewrite V by auto. unfold delta. destruct (Nat.eq_dec i i); [ring|congruence].
Qed.
Lemma best i w : (i < n)%nat -> (forall p q, (p <= q)%nat -> (q < n)%nat -> s q <= s p) -> dot n w w = 1 -> (forall k, (k < i)%nat -> coord w k = 0) ->
  sumn r (fun k => dot n (x k) w ^ 2) <= s i.
Proof.
  intros Hi HD H1 H0. rewrite var_coord. apply Rle_trans with (sumn n (fun k => s i * coord w k ^ 2)).
  - apply sumn_le. intros k Hk. destruct (Nat.lt_ge_cases k i) as [L|L]; [rewrite H0 by auto; lra|]. apply Rmult_le_compat_r; [apply pow2_ge_0|auto].
  - rewrite sumn_scal, <- parseval, H1. lra.
Qed.
End Gram.
Lemma el_table n k f i j : (i < n)%nat -> (j < k)%nat -> el (Gr n k (map (fun a => map (fun b => f a b) (seq 0 k)) (seq 0 n))) i j = f i j.
Proof.
  intros Hi Hj. unfold el. cbn [ga]. rewrite (nth_indep _ [] (map (fun b => f 0%nat b) (seq 0 k))) by (rewrite map_length, seq_length; auto).
  rewrite (map_nth (fun a => map (fun b => f a b) (seq 0 k))), seq_nth by auto. cbn [Nat.add]. apply (vel_map k (f i) j Hj).
Qed.
Lemma lookup_map {A B} (f : A -> B) l i : map f l !! i = f <$> (l !! i).
Proof. exact (list_lookup_fmap f l i). Qed.
Lemma el_gram m i j : (i < gc m)%nat -> (j < gc m)%nat -> el (gram m) i j = gm (gr m) (el m) i j.
Proof. intros Hi Hj. unfold gram. rewrite el_table; auto. Qed.
Lemma el_lookup m i j : wf_grid m -> (i < gr m)%nat -> (j < gc m)%nat -> exists r, ga m !! i = Some r /\ r !! j = Some (el m i j) /\ length r = gc m.
Proof.
  intros [W1 W2] Hi Hj. unfold el. assert (Hi' : (i < length (ga m))%nat) by lia. apply lookup_lt_is_Some in Hi'. destruct Hi' as [r Hr]. exists r. split; auto.
  assert (L : length r = gc m) by (rewrite Forall_lookup in W2; apply (W2 i); auto). split; auto. rewrite (nth_lookup_Some _ _ _ _ Hr).
  assert (Hj' : (j < length r)%nat) by lia. apply lookup_lt_is_Some in Hj'. destruct Hj' as [z Hz]. rewrite (nth_lookup_Some _ _ _ _ Hz). auto.
Qed.
Lemma el_centred m i j : wf_grid m -> (i < gr m)%nat -> (j < gc m)%nat -> el (centred m) i j = el m i j - gsl_mean (colv m j).
Proof.
  intros W Hi Hj. destruct (el_lookup m i j W Hi Hj) as (r & H1 & H2 & H3). unfold el at 1, centred. cbn [ga].
  set (h := fun row => imap (fun j x => x + - gsl_mean (colv m j)) row). assert (E1 : map h (ga m) !! i = Some (h r)) by (rewrite lookup_map, H1; reflexivity).
  rewrite (nth_lookup_Some _ _ _ _ E1). assert (E2 : h r !! j = Some (el m i j + - gsl_mean (colv m j))) by (unfold h; rewrite list_lookup_imap, H2; reflexivity).
  rewrite (nth_lookup_Some _ _ _ _ E2). ring.
Qed.
Lemma sumn_col m j : wf_grid m -> (j < gc m)%nat -> sumn (gr m) (fun i => el m i j) = Rsum (colv m j) /\ length (colv m j) = gr m.
Proof.
  intros [W1 W2] Hj. rewrite sumn_R. unfold el, colv. revert W1. generalize (gr m). induction (ga m) as [|r l IH]; intros n E; cbn in E; subst.
  - split; reflexivity.
  - inversion W2 as [|? ? Hr Hl]; subst. destruct (IH Hl _ eq_refl) as [I1 I2]. cbn [length seq omap list_omap]. rewrite Rsumf_cons. cbn [nth].
    assert (Hj' : (j < length r)%nat) by lia. apply lookup_lt_is_Some in Hj'. destruct Hj' as [z Hz]. rewrite Hz. cbn [length]. rewrite (nth_lookup_Some _ _ _ _ Hz).
    change (omap (λ r0 : list R, r0 !! j) l) with (omap (fun r0 => r0 !! j) l). split; [|f_equal; exact I2]. rewrite Rsum_cons. f_equal. rewrite <- I1.
    unfold Rsumf. rewrite <- seq_shift, map_map. reflexivity.
Qed.

(** ---------- C124 ---------- *)
Section Thm.
Context (svd : grid R -> grid R * list R).
Definition good_svd (m : grid R) : Prop := let '(v, s) := svd (gram (centred m)) in svd_of (gc m) (gram (centred m)) v s.
Definition dims_of (m : grid R) (dims : option nat) : nat := match dims with None | Some O => gc m | Some d => d end.
(** the matrix handed in is left with each column's mean taken off, so that its columns add to zero; the call succeeds for up to as many dimensions as columns *)
Theorem C124_centred : forall m dims, wf_grid m -> (0 < gr m)%nat -> (dims_of m dims <= gc m)%nat ->
  exists c p w, matrix_pca svd m dims = Ok (c, p, w) /\ gr c = gr m /\ gc c = gc m /\ gr p = gc m /\ gc p = dims_of m dims /\ length w = dims_of m dims /\
    forall j, (j < gc m)%nat -> sumn (gr m) (fun i => el c i j) = 0 /\
      forall i, (i < gr m)%nat -> el c i j = el m i j - avg (colv m j).
Proof.
  intros m dims W Hr Hd. unfold matrix_pca. fold (dims_of m dims). destruct (svd (gram (centred m))) as [v s] eqn:ES. rewrite (proj2 (Nat.leb_le _ _) Hd).
  eexists _, _, _. split; [reflexivity|]. do 4 (split; [reflexivity|]). split; [rewrite map_length, seq_length; reflexivity|]. intros j Hj.
  destruct (sumn_col m j W Hj) as [C1 C2]. assert (NE : colv m j <> []) by (intros E; rewrite E in C2; cbn in C2; lia).
  assert (M : gsl_mean (colv m j) = avg (colv m j)) by (apply running_avg; auto).
  split; [|intros i Hi; rewrite el_centred, M by auto; auto].
  rewrite (sumn_ext _ _ (fun i => el m i j + -1 * avg (colv m j))) by (intros i Hi; rewrite el_centred, M by auto; ring).
  rewrite sumn_plus, C1, sumn_scal. rewrite sumn_R, Rsumf_const, seq_length. rewrite <- (avg_len (colv m j) NE), C2. ring.
Qed.
(** the components are orthogonal, of length one, eigenvectors of the matrix of sums of products; each component's weight is its share of the variation *)
Theorem C124_components : forall m dims c p w, wf_grid m -> good_svd m -> matrix_pca svd m dims = Ok (c, p, w) -> total_variation c <> 0 ->
  orthonormal (gc m) (gc p) (el p) /\ length w = gc p /\
  forall i, (i < gc p)%nat -> let lam := variation c (fun a => el p a i) in
    nth i w None = Some (lam / total_variation c) /\
    forall a, (a < gc m)%nat -> sumn (gc m) (fun b => sumn (gr m) (fun k => el c k a * el c k b) * el p b i) = lam * el p a i.
Proof.
  intros m dims c p w W G E T. unfold good_svd in G. unfold matrix_pca in E. fold (dims_of m dims) in E. destruct (svd (gram (centred m))) as [v s] eqn:ES.
  destruct (dims_of m dims <=? gc m)%nat eqn:L; [|discriminate]. apply Nat.leb_le in L. set (d := dims_of m dims) in *. injection E as <- <- <-. cbn [gc].
  destruct G as (G1 & G2 & G3 & u & U & V & VV & D).
  assert (D' : forall a b, (a < gc m)%nat -> (b < gc m)%nat -> gm (gr m) (el (centred m)) a b = sumn (gc m) (fun k => u a k * (vel s k * el v b k))).
  { intros a b Ha Hb. rewrite <- D by auto. symmetry. apply (el_gram (centred m)); auto. }
  assert (EP : forall a i, (a < gc m)%nat -> (i < d)%nat -> el (Gr (gc m) d (map (fun a => map (fun i => el v a i) (seq 0 d)) (seq 0 (gc m)))) a i = el v a i) by (intros; apply el_table; auto).
  split; [|split; [rewrite map_length, seq_length; reflexivity|]].
  - intros i j Hi Hj. rewrite <- (V i j) by lia. unfold dot. apply sumn_ext. intros a Ha. rewrite !EP by auto. auto.
  - intros i Hi. set (lam := variation (centred m) _). assert (Hi' : (i < gc m)%nat) by lia.
    assert (EL : lam = vel s i).
    { unfold lam, variation. rewrite <- (eigen_var (gc m) (gr m) (el (centred m)) u (el v) (vel s) U V D' G2 i Hi'). cbn [gr gc centred]. apply sumn_ext. intros k Hk. f_equal.
      unfold dot. apply sumn_ext. intros a Ha. rewrite EP by auto. auto. }
    assert (ET : total_variation (centred m) = vector_sum s).
    { unfold total_variation. cbn [gr gc centred]. rewrite (trace (gc m) (gr m) (el (centred m)) u (el v) (vel s) U V D' G2 VV).
      unfold sumn. f_equal. apply vel_ext; [rewrite map_length, seq_length; auto|]. intros k Hk. rewrite map_length, seq_length in Hk. rewrite vel_map; auto. }
    split.
    + rewrite (nth_lookup_Some _ _ _ (cdiv (vel s i) (vector_sum s))); [rewrite <- ET, EL; apply cdiv_ok; auto|].
      rewrite lookup_map, lookup_seq_lt by auto. reflexivity.
    + intros a Ha. rewrite EL, EP by auto. rewrite <- (eigen (gc m) (gr m) (el (centred m)) u (el v) (vel s) U V D' G2 i a Hi' Ha). unfold app1, gm. apply sumn_ext. intros b Hb. rewrite EP by auto. auto.
Qed.
(** no direction that is orthogonal to the earlier components has more variation than a component; and the components come in falling order of weight *)
Theorem C124_best : forall m dims c p w, wf_grid m -> good_svd m -> matrix_pca svd m dims = Ok (c, p, w) ->
  forall i x, (i < gc p)%nat -> dot (gc m) x x = 1 -> (forall k, (k < i)%nat -> dot (gc m) x (fun a => el p a k) = 0) ->
  variation c x <= variation c (fun a => el p a i).
Proof.
  intros m dims c p w W G E i x Hi H1 H0. unfold good_svd in G. unfold matrix_pca in E. fold (dims_of m dims) in E. destruct (svd (gram (centred m))) as [v s] eqn:ES.
  destruct (dims_of m dims <=? gc m)%nat eqn:L; [|discriminate]. apply Nat.leb_le in L. set (d := dims_of m dims) in *. injection E as <- <- <-. cbn [gc] in *.
  destruct G as (G1 & G2 & G3 & u & U & V & VV & D).
  assert (D' : forall a b, (a < gc m)%nat -> (b < gc m)%nat -> gm (gr m) (el (centred m)) a b = sumn (gc m) (fun k => u a k * (vel s k * el v b k))).
  { intros a b Ha Hb. rewrite <- D by auto. symmetry. apply (el_gram (centred m)); auto. }
  assert (EP : forall a i, (a < gc m)%nat -> (i < d)%nat -> el (Gr (gc m) d (map (fun a => map (fun i => el v a i) (seq 0 d)) (seq 0 (gc m)))) a i = el v a i) by (intros; apply el_table; auto).
  assert (Hi' : (i < gc m)%nat) by lia. unfold variation. cbn [gr gc centred].
  apply Rle_trans with (vel s i).
  - apply (best (gc m) (gr m) (el (centred m)) u (el v) (vel s) U V D' G2 VV i x Hi' G3 H1). intros k Hk. unfold coord. rewrite <- (H0 k Hk). unfold dot. apply sumn_ext. intros a Ha. rewrite EP by (auto; lia). auto.
  - rewrite <- (eigen_var (gc m) (gr m) (el (centred m)) u (el v) (vel s) U V D' G2 i Hi') at 1. right. apply sumn_ext. intros k Hk. f_equal. unfold dot. apply sumn_ext. intros a Ha. rewrite EP by auto. auto.
Qed.
(** with all the dimensions the weights add to one; with fewer they add to at most one, the share of the variation that the components have *)
Theorem C124_whole : forall m dims c p w, wf_grid m -> good_svd m -> matrix_pca svd m dims = Ok (c, p, w) -> total_variation c <> 0 ->
  exists l, w = map Some l /\ Forall (fun x => 0 <= x) l /\ Rsum l <= 1 /\ (gc p = gc m -> Rsum l = 1).
Proof.
  intros m dims c p w W G E T. pose proof G as G'. unfold good_svd in G. pose proof E as E0. unfold matrix_pca in E. fold (dims_of m dims) in E. destruct (svd (gram (centred m))) as [v s] eqn:ES.
  destruct (dims_of m dims <=? gc m)%nat eqn:L; [|discriminate]. apply Nat.leb_le in L. set (d := dims_of m dims) in *. injection E as <- <- <-. cbn [gc] in *.
  destruct G as (G1 & G2 & G3 & u & U & V & VV & D).
  assert (D' : forall a b, (a < gc m)%nat -> (b < gc m)%nat -> gm (gr m) (el (centred m)) a b = sumn (gc m) (fun k => u a k * (vel s k * el v b k))).
  { intros a b Ha Hb. rewrite <- D by auto. symmetry. apply (el_gram (centred m)); auto. }
  assert (ES2 : sumn (gc m) (vel s) = vector_sum s).
  { unfold sumn. f_equal. apply vel_ext; [rewrite map_length, seq_length; auto|]. intros k Hk. rewrite map_length, seq_length in Hk. rewrite vel_map; auto. }
  assert (ET : total_variation (centred m) = vector_sum s).
  { rewrite <- ES2. unfold total_variation. cbn [gr gc centred]. apply (trace (gc m) (gr m) (el (centred m)) u (el v) (vel s) U V D' G2 VV). }
  rewrite ET in T. assert (TP : 0 < vector_sum s) by (assert (0 <= vector_sum s) by (rewrite <- ES2; apply sumn_nonneg; auto); lra).
  exists (map (fun i => vel s i / vector_sum s) (seq 0 d)). split; [|split; [|]].
  - rewrite map_map. apply map_ext. intros i. apply cdiv_ok. auto.
  - apply Forall_forall. intros y Hy. apply in_map_iff in Hy. destruct Hy as (i & <- & Hi). apply in_seq in Hi. apply Rmult_le_pos; [apply G2; lia|]. left. apply Rinv_0_lt_compat. auto.
  - assert (SP : Rsum (map (fun i => vel s i / vector_sum s) (seq 0 d)) = sumn d (vel s) / vector_sum s).
    { rewrite (sumn_R d (vel s)). change (Rsum (map (fun i => vel s i / vector_sum s) (seq 0 d))) with (Rsumf (fun i => vel s i / vector_sum s) (seq 0 d)).
      rewrite (Rsumf_ext _ (fun i => / vector_sum s * vel s i)) by (intros; unfold Rdiv; ring). rewrite Rsumf_scal. unfold Rdiv. ring. }
    rewrite SP. split.
    + apply (Rmult_le_reg_r (vector_sum s)); auto. unfold Rdiv. rewrite Rmult_assoc, Rinv_l, Rmult_1_r, Rmult_1_l by auto. rewrite <- ES2. clear -L G2.
      revert G2. induction L as [|k L IH]; intros P; [lra|]. rewrite sumn_S. pose proof (P k ltac:(lia)). specialize (IH ltac:(intros; apply P; lia)). lra.
    + intros ->. rewrite ES2. field. auto.
Qed.
(** deviation: columns that do not vary: every weight is zero over zero *)
Theorem C124_refuted_constant : forall m, wf_grid m -> good_svd m -> (0 < gc m)%nat -> total_variation (centred m) = 0 ->
  exists c p w, matrix_pca svd m None = Ok (c, p, w) /\ w = repeat None (gc m).
Proof.
  intros m W G Hc T. unfold good_svd in G. unfold matrix_pca. destruct (svd (gram (centred m))) as [v s] eqn:ES. rewrite Nat.leb_refl.
  destruct G as (G1 & G2 & G3 & u & U & V & VV & D).
  assert (D' : forall a b, (a < gc m)%nat -> (b < gc m)%nat -> gm (gr m) (el (centred m)) a b = sumn (gc m) (fun k => u a k * (vel s k * el v b k))).
  { intros a b Ha Hb. rewrite <- D by auto. symmetry. apply (el_gram (centred m)); auto. }
  assert (ET : vector_sum s = 0).
  { rewrite <- T. unfold total_variation. cbn [gr gc centred]. rewrite (trace (gc m) (gr m) (el (centred m)) u (el v) (vel s) U V D' G2 VV).
    unfold sumn. f_equal. apply vel_ext; [rewrite map_length, seq_length; auto|]. intros k Hk. rewrite G1 in Hk. rewrite vel_map; auto. }
  eexists _, _, _. split; [reflexivity|]. rewrite ET. clear. generalize 0%nat. induction (gc m) as [|n IH]; intros k; cbn; auto. rewrite IH, cdiv_0. auto.
Qed.
(** deviation: more dimensions than columns are not refused: a NULL column is read *)
Theorem C124_refuted_dims : forall m d, (gc m < d)%nat -> matrix_pca svd m (Some d) = UB.
Proof.
  intros m d H. unfold matrix_pca. destruct (svd (gram (centred m))) as [v s]. destruct d as [|d]; [lia|]. destruct (S d <=? gc m)%nat eqn:E; auto. apply Nat.leb_le in E. lia.
Qed.
End Thm.
(** a decomposition as required, of a matrix whose columns vary together *)
Example C124_nonvacuous : let m := Gr 2 2 [[0; 0]; [2; 0]] in let svd (_ : grid R) := (Gr 2 2 [[1; 0]; [0; 1]], [2; 0]) in
  wf_grid m /\ good_svd svd m /\ total_variation (centred m) = 2.
Proof.
  intros m svd. assert (W : wf_grid m) by (split; cbn; auto; repeat constructor). split; auto.
  assert (C : centred m = Gr 2 2 [[-1; 0]; [1; 0]]).
  { unfold centred, m. cbn. unfold gsl_mean. cbn. repeat (f_equal; try lra). all: try field. }
  rewrite C. split.
  - unfold good_svd. rewrite C. cbn [svd gc m]. split; [reflexivity|]. split; [|split].
    + intros [|[|i]] Hi; try lia; unfold vel; cbn; lra.
    + intros [|[|i]] [|[|j]] Hij Hj; try lia; unfold vel; cbn; lra.
    + exists (fun i j => delta i j). assert (A : forall i j, (i < 2)%nat -> (j < 2)%nat -> el (Gr 2 2 [[1; 0]; [0; 1]]) i j = delta i j) by (intros [|[|i]] [|[|j]] Hi Hj; try lia; unfold el, delta; cbn; auto).
      assert (O : orthonormal 2 2 (fun i j => delta i j)).
      { intros i j Hi Hj. unfold dot. rewrite (sumn_ext 2 _ (fun a => delta i a * delta a j)) by (intros; rewrite (delta_sym i); auto). apply (sumn_delta 2 i (fun a => delta a j) Hi). }
      split; auto. split; [|split].
      * intros i j Hi Hj. rewrite <- (O i j) by auto. unfold dot. apply sumn_ext. intros a Ha. rewrite !A by auto. auto.
      * intros a b Ha Hb. rewrite (sumn_ext 2 _ (fun k => delta a k * delta b k)) by (intros k Hk; rewrite !A by auto; auto). rewrite sumn_delta by auto. apply delta_sym.
      * intros a b Ha Hb. rewrite (sumn_ext 2 _ (fun k => delta a k * (vel [2; 0] k * delta b k))) by (intros k Hk; rewrite !A by auto; auto). rewrite sumn_delta by auto. rewrite el_gram by auto.
        unfold gm. cbn [gr]. rewrite !sumn_S, sumn_0. destruct a as [|[|a]], b as [|[|b]]; try lia; unfold el, vel, delta; cbn; lra.
  - unfold total_variation. cbn [gr gc]. unfold sumn, vector_sum, el. cbn. lra.
Qed.
Print Assumptions C124_centred. Print Assumptions C124_components. Print Assumptions C124_best. Print Assumptions C124_whole. Print Assumptions C124_refuted_constant. Print Assumptions C124_refuted_dims.
