(** C47 binning, C48 moving averages, C63 the goodness-of-fit and Kolmogorov-Smirnov statistics (apop_hist.m4.c). *)
From Coq Require Import Reals Lra SpecFloat.
From Verif Require PmfModel.
From Verif Require Import DataModel StatsModel StatsSpec StatsProofs ConvModel LikeModel MleProps HistModel.
Local Open Scope list_scope.
Local Open Scope R_scope.

(** ---------- C47: specification ---------- *)
(** the cell of a data set in row [i] and column [j]; column -1 is the vector *)
Definition dat (p : page R) (i : nat) (j : Z) : option R :=
  if (j =? -1)%Z then match vect p with Some v => v !! i | None => None end else match mat p with Some m => cell m i (Z.to_nat j) | None => None end.
Definition out_at (o : binned) (i : nat) (j : Z) : option (option R) :=
  if (j =? -1)%Z then match ovec o with Some v => v !! i | None => None end else match omat o with Some m => match m !! i with Some r => r !! Z.to_nat j | None => None end | None => None end.
Definition page_at (o : binned) (i : nat) (j : Z) : option (option R) :=
  match opage o with
  | Some (v, m) => if (j =? -1)%Z then match v with Some v => v !! i | None => None end else match m with Some m => match m !! i with Some r => r !! Z.to_nat j | None => None end | None => None end
  | None => None end.
Definition is_col (j : Z) : Prop := (-1 <= j)%Z.
(** all the cells of column [j] *)
Definition column (p : page R) (j : Z) : list R := if (j =? -1)%Z then vcells p else match mat p with Some m => gcol m (Z.to_nat j) | None => [] end.
(** [b] is where the bin of [v] begins, on the grid of bins of width [w] from [o] *)
Definition in_bin (w o v b : R) : Prop := (exists k : Z, b = IZR k * w + o) /\ b <= v < b + w.
(** the specification gives column [j] the width [w] and the offset [o]: one row, and the offset is zero, or two rows *)
Definition spec_for (bs : page R) (j : Z) (w o : R) : Prop := exists h,
  (forall v, vect bs = Some v -> length v = h) /\ (forall m, mat bs = Some m -> gr m = h) /\ dat bs 0 j = Some w /\
  ((h = 1%nat /\ o = 0) \/ (h = 2%nat /\ dat bs 1 j = Some o)).

Lemma floor_spec x : rfloor x <= x < rfloor x + 1.
Proof. unfold rfloor. pose proof (base_Int_part x). lra. Qed.
Lemma floor_int x (k : Z) : IZR k <= x < IZR k + 1 -> rfloor x = IZR k.
Proof.
  intros H. unfold rfloor. f_equal. pose proof (base_Int_part x) as [H1 H2]. assert (IZR (Int_part x) < IZR (k + 1)) as A by (rewrite plus_IZR; lra).
  assert (IZR k < IZR (Int_part x + 1)) as B by (rewrite plus_IZR; lra). apply lt_IZR in A, B. lia.
Qed.
Lemma snap_in w o v : 0 < w -> in_bin w o v (rfloor ((v - o) / w) * w + o).
Proof.
  intros Hw. split; [eexists; reflexivity|]. pose proof (floor_spec ((v - o) / w)) as [H1 H2]. set (f := rfloor _) in *.
  assert (E : (v - o) / w * w = v - o) by (field; lra). split; nra.
Qed.
Lemma cell_imap {A B} (f : nat -> A -> B) (rows : list (list A)) i j :
  match map (imap f) rows !! i with Some r => r !! j | None => None end = match match rows !! i with Some r => r !! j | None => None end with Some x => Some (f j x) | None => None end.
Proof. rewrite list_lookup_fmap. destruct (rows !! i) as [r|]; cbn; auto. rewrite list_lookup_imap. destruct (r !! j); auto. Qed.
(** each cell is snapped by the bin of its column *)
Definition bin_of (d : page R) (spec : option (page R)) (count : Z) (j : Z) : bin :=
  match spec with Some bs => given_bin bs j | None => own_bin count (column d j) end.
Definition closes (spec : option (page R)) (c : option ascii) : bool :=
  match c with Some c => Ascii.eqb c "y"%char | None => match spec with None => true | Some _ => false end end.
Lemma out_dat d spec count c i j : is_col j -> out_at (data_to_bins d spec count c) i j = match dat d i j with Some x => Some (snap (closes spec c) (bin_of d spec count j) x) | None => None end.
Proof.
  intros Hj. unfold is_col in Hj. unfold out_at, dat, data_to_bins, bin_of, column. cbn [ovec omat]. destruct (Z.eqb_spec j (-1)) as [->|Hne].
  - unfold vcells. destruct (vect d) as [v|]; auto. rewrite list_lookup_fmap. destruct (v !! i); cbn; auto.
  - destruct (mat d) as [m|]; auto. rewrite cell_imap. unfold cell. destruct (ga m !! i) as [r|]; auto. destruct (r !! Z.to_nat j); auto.
    replace (Z.of_nat (Z.to_nat j)) with j by lia. reflexivity.
Qed.
(** C47: shapes and weights are those of the input. *)
Theorem C47_shape : forall d spec count c, let o := data_to_bins d spec count c in
  option_map length (ovec o) = option_map length (vect d) /\ option_map (map length) (omat o) = option_map (fun m => map length (ga m)) (mat d) /\ owts o = wts d.
Proof.
  intros d spec count c o. unfold o, data_to_bins. cbn [ovec omat owts]. split; [|split].
  - destruct (vect d); cbn; auto. rewrite map_length. auto.
  - destruct (mat d) as [m|]; cbn; auto. f_equal. rewrite map_map. apply map_ext. intros r. apply imap_length.
  - auto.
Qed.
Print Assumptions C47_shape.
(** C47: with a specification every cell is replaced by the start of its bin. *)
Theorem C47_given : forall d bs count i j v w o, is_col j -> dat d i j = Some v -> spec_for bs j w o -> 0 < w ->
  exists b, out_at (data_to_bins d (Some bs) count None) i j = Some (Some b) /\ in_bin w o v b.
Proof.
  intros d bs count i j v w o Hj Hv (h & H1 & H2 & H3 & H4) Hw. rewrite out_dat, Hv by auto. cbn [closes bin_of].
  exists (rfloor ((v - o) / w) * w + o). split; [|apply snap_in; auto].
  assert (E : given_bin bs j = Bin (Some w) (Some o) 0).
  { unfold given_bin. change (spec_get bs 0 j) with (dat bs 0 j). change (spec_get bs 1 j) with (dat bs 1 j). rewrite H3. f_equal.
    assert (ST : spec_two bs = (h =? 2)%nat).
    { unfold spec_two, dat in *. destruct (vect bs) as [bv|] eqn:Ev, (mat bs) as [bm|] eqn:Em; try rewrite (H1 _ eq_refl); try rewrite (H2 _ eq_refl); rewrite ?orb_false_r, ?orb_diag; auto.
      exfalso. destruct (j =? -1)%Z; discriminate. }
    rewrite ST. destruct H4 as [[-> ->]|[-> H4]]; auto. }
  rewrite E. unfold snap. cbn [bwidth boff bmax andb]. destruct (Req_EM_T w 0); [lra|]. do 4 f_equal. unfold Rdiv. f_equal. lra.
Qed.
Print Assumptions C47_given.
Lemma column_in d i j v : is_col j -> dat d i j = Some v -> (forall m, mat d = Some m -> wf_grid m) -> In v (column d j).
Proof.
  intros Hj H Hw. unfold dat, column in *. destruct (Z.eqb_spec j (-1)).
  - unfold vcells. destruct (vect d); [|discriminate]. apply elem_of_list_In. eapply elem_of_list_lookup_2; eauto.
  - destruct (mat d) as [m|]; [|discriminate]. unfold cell in H. destruct (ga m !! i) as [r|] eqn:Er; [|discriminate]. unfold gcol. apply in_map_iff. exists r. split.
    + apply nth_lookup_Some. auto.
    + apply elem_of_list_In. eapply elem_of_list_lookup_2; eauto.
Qed.
(** how many bins are asked for: the count, or the square root of the number of rows *)
Definition bins_asked (count : Z) (rows : nat) : R := if (count =? 0)%Z then R_sqrt.sqrt (INR rows) else IZR count.
(** C47: without a specification there are at most as many bins as asked for, from the least to the greatest element of the column; the greatest
    is put in the last bin, up to two machine epsilons, and exactly if a count is given.  (The bins must be wider than that.) *)
Theorem C47_own : forall d count i j v lo hi, is_col j -> (forall m, mat d = Some m -> wf_grid m) -> (0 <= count)%Z -> dat d i j = Some v ->
  least lo (column d j) -> greatest hi (column d j) -> let nb := bins_asked count (length (column d j)) in let w := (hi - lo) / nb in eps2 < w ->
  exists k : Z, (0 <= k)%Z /\ IZR k < nb /\ out_at (data_to_bins d None count None) i j = Some (Some (IZR k * w + lo)) /\
    IZR k * w + lo <= v < IZR k * w + lo + w + eps2 /\ (v < hi -> v < IZR k * w + lo + w) /\ ((0 < count)%Z -> v <= IZR k * w + lo + w).
Proof.
  intros d count i j v lo hi Hj Hw Hc Hv Hlo Hhi nb w Heps. rewrite out_dat, Hv by auto. cbn [closes bin_of].
  pose proof (column_in d i j v Hj Hv Hw) as Hin. set (col := column d j) in *.
  assert (He : 0 < eps2). { unfold eps2. apply Rmult_lt_0_compat; [lra|]. apply Rinv_0_lt_compat, pow_lt. lra. }
  assert (Hn : (0 < length col)%nat) by (destruct col; [destruct Hin|cbn; lia]).
  assert (Hnb : 0 < nb). { unfold nb, bins_asked. destruct (Z.eqb_spec count 0); [apply sqrt_lt_R0, lt_0_INR; auto|]. apply IZR_lt. lia. }
  assert (Hvb : lo <= v <= hi) by (split; [apply Hlo|apply Hhi]; auto).
  assert (Hwn : w * nb = hi - lo) by (unfold w; field; lra). assert (Hw0 : 0 < w) by lra. assert (Hlh : lo < hi) by nra.
  assert (OB : own_bin count col = Bin (Some w) (Some lo) hi).
  { unfold own_bin. pose proof (gsl_max_spec col) as MX. pose proof (gsl_min_spec col) as MN. destruct (gsl_max col) as [mx|]; [|rewrite MX in Hn; cbn in Hn; lia].
    destruct (gsl_min col) as [mn|]; [|rewrite MN in Hn; cbn in Hn; lia].
    assert (mx = hi) by (destruct MX as [A B], Hhi as [C D]; apply Rle_antisym; auto). assert (mn = lo) by (destruct MN as [A B], Hlo as [C D]; apply Rle_antisym; auto). subst. auto. }
  rewrite OB. unfold snap. cbn [bwidth boff bmax andb]. destruct (Req_EM_T w 0); [lra|].
  set (adj := if bool_of (Req_EM_T v hi) && negb (bool_of (Req_EM_T v lo)) then eps2 else 0).
  assert (HA : adj = 0 /\ v < hi \/ adj = eps2 /\ v = hi).
  { unfold adj. destruct (Req_EM_T v hi), (Req_EM_T v lo); cbn; try lra. }
  assert (Hnb1 : 1 <= nb). { unfold nb, bins_asked. destruct (Z.eqb_spec count 0); [|apply IZR_le; lia]. rewrite <- sqrt_1. apply sqrt_le_1_alt. apply (le_INR 1). lia. }
  assert (Hwide : w <= w * nb) by nra.
  set (x := (v - lo - adj) / w). assert (Hx : x * w = v - lo - adj) by (unfold x; field; lra).
  assert (Hx0 : 0 <= x). { assert (0 <= x * w) by (rewrite Hx; destruct HA as [[-> ?]|[-> ->]]; nra). nra. }
  assert (Hxn : x < nb). { assert (x * w < nb * w) by (rewrite Hx; destruct HA as [[-> ?]|[-> ->]]; nra). nra. }
  pose proof (floor_spec x) as [F1 F2]. unfold rfloor in *. exists (Int_part x). split; [|split; [|split; [reflexivity|]]].
  - assert (IZR (-1) < IZR (Int_part x)) by lra. apply lt_IZR in H. lia.
  - lra.
  - destruct HA as [[HA ?]|[HA Hvh]]; rewrite HA in Hx.
    + split; [split; nra|]. split; intros; nra.
    + split; [split; nra|]. split; [lra|]. intros Hcount. assert (Enb : nb = IZR count) by (unfold nb, bins_asked; destruct (Z.eqb_spec count 0); [lia|auto]).
      assert (EK : Int_part x = (count - 1)%Z).
      { assert (IZR (Int_part x) < IZR count) as A by lra. assert (x > nb - 1) by (assert (x * w > (nb - 1) * w) by nra; nra).
        assert (IZR (count - 2) < IZR (Int_part x)) as B by (rewrite minus_IZR; lra). apply lt_IZR in A, B. lia. }
      rewrite EK, minus_IZR, <- Enb. nra.
Qed.
Print Assumptions C47_own.
(** C47: the page added to the output holds the width and the offset of each column, so that it bins other data on the same grid. *)
Theorem C47_page : forall d count c j lo hi, is_col j -> column d j <> [] -> (forall m, mat d = Some m -> (Z.to_nat j < gc m)%nat) -> least lo (column d j) -> greatest hi (column d j) ->
  let o := data_to_bins d None count c in
  page_at o 0 j = Some (Some ((hi - lo) / bins_asked count (length (column d j)))) /\ page_at o 1 j = Some (Some lo).
Proof.
  intros d count c j lo hi Hj Hc Hm Hlo Hhi o.
  assert (OB : own_bin count (column d j) = Bin (Some ((hi - lo) / bins_asked count (length (column d j)))) (Some lo) hi).
  { unfold own_bin. pose proof (gsl_max_spec (column d j)) as MX. pose proof (gsl_min_spec (column d j)) as MN. destruct (gsl_max _) as [mx|]; [|congruence].
    destruct (gsl_min _) as [mn|]; [|congruence].
    assert (mx = hi) by (destruct MX as [A B], Hhi as [C D]; apply Rle_antisym; auto). assert (mn = lo) by (destruct MN as [A B], Hlo as [C D]; apply Rle_antisym; auto). subst. auto. }
  unfold o, page_at, data_to_bins. cbn [opage]. unfold column in *. destruct (Z.eqb_spec j (-1)) as [->|Hne].
  - unfold vcells in *. destruct (vect d) as [v|]; [|congruence]. rewrite OB. auto.
  - destruct (mat d) as [m|]; [|congruence]. specialize (Hm m eq_refl). cbn [lookup list_lookup]. rewrite !list_lookup_fmap, !lookup_seq_lt by auto. cbn [fmap option_fmap option_map Nat.add]. rewrite OB. auto.
Qed.
Print Assumptions C47_page.
Definition ten_rows : page R := Pg (Some [0; 1; 2; 10]) None None None name_alloc None.
Example C47_nonvacuous : least 0 (column ten_rows (-1)) /\ greatest 10 (column ten_rows (-1)) /\ eps2 < (10 - 0) / bins_asked 5 4 /\
  spec_for (Pg (Some [2; 1]) None None None name_alloc None) (-1) 2 1.
Proof.
  split; [|split; [|split]].
  - split; [left; auto|]. cbn. intros y. intuition lra.
  - split; [cbn; auto 10|]. cbn. intros y. intuition lra.
  - unfold bins_asked, eps2. cbn [Z.eqb]. assert (/ 2 ^ 52 < / 1). { apply Rinv_lt_contravar; rewrite ?Rmult_1_l; [apply pow_lt; lra|apply Rlt_pow_R1; [lra|lia]]. } rewrite Rinv_1 in *. lra.
  - exists 2%nat. split; [intros v [= <-]; auto|]. split; [discriminate|]. split; [reflexivity|]. right. split; reflexivity.
Qed.
(** Deviations.  A column of equal elements is turned into NaNs. *)
Theorem C47_constant_refuted : forall d count i j v, is_col j -> (forall m, mat d = Some m -> wf_grid m) -> dat d i j = Some v -> (forall x, In x (column d j) -> x = v) ->
  out_at (data_to_bins d None count None) i j = Some None.
Proof.
  intros d count i j v Hj Hw Hv Hall. rewrite out_dat, Hv by auto. cbn [closes bin_of]. pose proof (column_in d i j v Hj Hv Hw) as Hin. do 1 f_equal.
  unfold own_bin. pose proof (gsl_max_spec (column d j)) as MX. pose proof (gsl_min_spec (column d j)) as MN. destruct (gsl_max _) as [mx|]; [|rewrite MX in Hin; destruct Hin].
  destruct (gsl_min _) as [mn|]; [|rewrite MN in Hin; destruct Hin]. rewrite (Hall mx) by apply MX. rewrite (Hall mn) by apply MN.
  unfold snap. cbn [bwidth boff]. destruct (Req_EM_T _ 0) as [_|H]; auto. exfalso. apply H. unfold Rdiv. replace (v - v) with 0 by lra. lra.
Qed.
Print Assumptions C47_constant_refuted.
(** Closing the top bin on a given grid moves the zeros, not the greatest element: here 0 is put into the bin that begins at -1 and 1 into the one that begins at 1. *)
Theorem C47_close_refuted : let d := Pg (Some [-1; 0; 1]) None None None name_alloc None in let bs := Pg (Some [1; -1]) None None None name_alloc None in
  ovec (data_to_bins d (Some bs) 0 (Some "y"%char)) = Some [Some (-1); Some (-1); Some 1].
Proof.
  cbv zeta. unfold data_to_bins. cbn [ovec vect]. change (Ascii.eqb "y" "y") with true. cbn [map]. unfold snap, given_bin, spec_get, spec_two. cbn [vect mat bwidth boff bmax length Z.eqb Nat.eqb orb lookup list_lookup Pos.eqb].
  assert (He : 0 < eps2 < 1). { unfold eps2. assert (0 < / 2 ^ 52) by (apply Rinv_0_lt_compat, pow_lt; lra). assert (/ 2 ^ 52 < / 2); [|lra].
    apply Rinv_lt_contravar; [apply Rmult_lt_0_compat; [lra|apply pow_lt; lra]|]. rewrite <- (pow_1 2) at 1. apply Rlt_pow; [lra|lia]. }
  destruct (Req_EM_T 1 0); [lra|]. repeat (match goal with |- context [Req_EM_T ?x ?y] => destruct (Req_EM_T x y); try lra end). cbn [bool_of andb negb].
  rewrite (floor_int ((-1 - -1 - 0) / 1) 0) by lra. rewrite (floor_int ((0 - -1 - eps2) / 1) 0) by lra. rewrite (floor_int ((1 - -1 - 0) / 1) 2) by lra.
  do 2 f_equal; [f_equal; lra|]. f_equal; [f_equal; lra|]. do 2 f_equal. lra.
Qed.
Print Assumptions C47_close_refuted.
(** In double arithmetic the adjustment is lost as soon as the range is large: 10 - 0 - 2*GSL_DBL_EPSILON is 10 (SpecFloat is Coq's definition of IEEE
    arithmetic), so that with bins of width 1 from 0 to 10 the greatest element 10 gets a bin of its own. *)
Definition f10 : spec_float := S754_finite false 5629499534213120 (-49).
Definition f2eps : spec_float := S754_finite false 4503599627370496 (-103).
Theorem C47_rounding_refuted : SFsub 53 1024 (SFsub 53 1024 f10 (S754_zero false)) f2eps = f10.
Proof. reflexivity. Qed.

(** ---------- C48 ---------- *)
Lemma average_ok v half i : (i + 2 * half < length v)%nat -> average_at v half i = Ok (avg (take (2 * half + 1) (drop i v))).
Proof.
  intros H. unfold average_at.
  assert (G : forall k acc, (k <= 2 * half + 1)%nat -> fold_left (fun r j => do acc <- r; match v !! Z.to_nat (j + Z.of_nat i + Z.of_nat half) with Some x => Ok (acc + x) | None => UB end)
            (map (fun k => (Z.of_nat k - Z.of_nat half)%Z) (seq 0 k)) (Ok acc) = Ok (acc + Rsum (take k (drop i v)))).
  { induction k as [|k IH]; intros acc Hk.
    - change (take 0 (drop i v)) with (@nil R). rewrite Rsum_nil. cbn. f_equal. lra.
    - rewrite seq_S, map_app, fold_left_app, IH by lia. cbn [map fold_left rbind Nat.add]. replace (Z.to_nat (Z.of_nat k - Z.of_nat half + Z.of_nat i + Z.of_nat half)) with (i + k)%nat by lia.
      destruct (v !! (i + k)%nat) as [x|] eqn:E; [|apply lookup_ge_None in E; lia].
      rewrite (take_S_r (drop i v) k x) by (rewrite lookup_drop; auto). rewrite Rsum_app, Rsum_cons, Rsum_nil. f_equal. lra. }
  rewrite G by lia. cbn [rbind]. f_equal. unfold avg. rewrite take_length, drop_length. replace ((2 * half + 1) `min` (length v - i))%nat with (half * 2 + 1)%nat by lia. f_equal. lra.
Qed.
(** C48: for a band of at least one element and at most the length of the vector (even bands: less) the output has (band/2)*2 elements fewer, and
    element i is the mean of the elements i to i + (band/2)*2; for odd bands these are exactly [band] elements. *)
Theorem C48_average : forall v band, (1 <= band)%nat -> (band / 2 * 2 < length v)%nat ->
  exists out, moving_average (Some v) band = Ok (Some out) /\ length out = (length v - band / 2 * 2)%nat /\
    (forall i, (i < length out)%nat -> out !! i = Some (avg (take (band / 2 * 2 + 1) (drop i v)))) /\ (Nat.odd band = true -> (band / 2 * 2 + 1 = band)%nat).
Proof.
  intros v band Hb Hl. unfold moving_average. destruct (Nat.eqb_spec band 0); [lia|]. set (h := (band / 2)%nat) in *. destruct (Nat.eqb_spec (length v) (h * 2)); [lia|].
  destruct (Nat.ltb_spec (length v) (h * 2)); [lia|].
  assert (S : forall k s, (s + k <= length v - h * 2)%nat -> sequence (map (average_at v h) (seq s k)) = Ok (map (fun i => avg (take (2 * h + 1) (drop i v))) (seq s k))).
  { induction k as [|k IH]; intros s Hs; cbn [seq map sequence]; auto. rewrite average_ok by lia. cbn [rbind]. rewrite IH by lia. auto. }
  rewrite S by lia. cbn [rbind]. eexists. split; [reflexivity|]. rewrite map_length, seq_length. split; [auto|]. split.
  - intros i Hi. rewrite list_lookup_fmap, lookup_seq_lt by auto. cbn. do 3 f_equal. lia.
  - intros Ho. apply Nat.odd_spec in Ho as [k Hk]. assert (h = k) by (unfold h; subst band; rewrite Nat.add_comm, Nat.mul_comm, Nat.div_add by lia; auto). lia.
Qed.
Print Assumptions C48_average.
Theorem C48_other : forall v, moving_average None v = Ok None /\ (forall w, moving_average (Some w) 0 = Ok (Some w)).
Proof. auto. Qed.
Example C48_nonvacuous : moving_average (Some [1; 2; 6; 4]) 3 = Ok (Some [(0 + 1 + 2 + 6) / INR 3; (0 + 2 + 6 + 4) / INR 3]).
Proof. reflexivity. Qed.
(** Deviations: an even band averages one element more than asked for, and a band wider than the vector is not refused as it should be. *)
Theorem C48_even_refuted : forall v k out x, (1 <= k)%nat -> moving_average (Some v) (2 * k) = Ok (Some (x :: out)) -> x = avg (take (2 * k + 1) v).
Proof.
  intros v k out x Hk H. assert (E : (2 * k / 2 = k)%nat) by (rewrite Nat.mul_comm; apply Nat.div_mul; lia). assert (Hl : (k * 2 < length v)%nat).
  { unfold moving_average in H. destruct (Nat.eqb_spec (2 * k) 0); [lia|]. rewrite E in H. destruct (Nat.eqb_spec (length v) (k * 2)); [discriminate|]. destruct (Nat.ltb_spec (length v) (k * 2)); [discriminate|]. lia. }
  destruct (C48_average v (2 * k)) as (o & E1 & _ & E3 & _); [lia|rewrite E; auto|]. rewrite E1 in H. injection H as ->. specialize (E3 0%nat). rewrite E in E3. cbn [lookup list_lookup length] in E3.
  assert (Some x = Some (avg (take (k * 2 + 1) (drop 0 v)))) as [= ->] by (apply E3; lia). rewrite drop_0. do 2 f_equal. lia.
Qed.
Theorem C48_wide_refuted : forall v band, (length v < band / 2 * 2)%nat -> moving_average (Some v) band = UB.
Proof. intros v band H. unfold moving_average. destruct (Nat.eqb_spec band 0); [subst; cbn in H; lia|]. destruct (Nat.eqb_spec (length v) (band / 2 * 2)); [lia|]. destruct (Nat.ltb_spec (length v) (band / 2 * 2)); [auto|lia]. Qed.

(** ---------- C63 ---------- *)
Local Instance R_eq_dec : EqDecision R := Req_EM_T.
(** C63: the chi-squared statistic is the sum of (o-e)^2/e over the rows with nonzero observed weight, its degrees of freedom one less than their
    number; if a row has expected probability zero it is infinite. *)
Lemma gof_loop_ok l : forall df diff, Forall (fun p => snd p <> 0) l ->
  gof_loop l df diff = (Some (diff + Rsumf (fun p => (fst p - snd p) ^ 2 / snd p) (filter (fun p => fst p <> 0) l)), (df - Z.of_nat (length l) + Z.of_nat (length (filter (fun p => fst p <> 0%R) l)))%Z).
Proof.
  induction l as [|[o e] l IH]; intros df diff HF; cbn [gof_loop].
  - rewrite filter_nil. cbn. f_equal; [|lia]. f_equal. unfold Rsumf, Rsum. cbn. lra.
  - inversion HF as [|? ? H1 H2]; subst. cbn in H1. destruct (Req_EM_T e 0); [congruence|]. rewrite filter_cons. cbn [fst]. destruct (Req_EM_T o 0) as [Eo|Eo].
    + destruct (decide _) as [nn|_]; [exfalso; exact (nn Eo)|]. rewrite IH by auto. f_equal. cbn [length]. lia.
    + destruct (decide _) as [_|nn]; [|exfalso; apply nn; exact Eo]. rewrite IH by auto. rewrite Rsumf_cons. cbn [fst snd]. f_equal; [f_equal; lra|]. cbn [length]. lia.
Qed.
Theorem C63_fit : forall l, Forall (fun p => snd p <> 0) l ->
  gof l = (Some (Rsumf (fun p => (fst p - snd p) ^ 2 / snd p) (filter (fun p => fst p <> 0) l)), (Z.of_nat (length (filter (fun p => fst p <> 0%R) l)) - 1)%Z).
Proof. intros l H. unfold gof. rewrite gof_loop_ok by auto. f_equal; [f_equal; lra|lia]. Qed.
Print Assumptions C63_fit.
Theorem C63_impossible : forall l o, In (o, 0) l -> fst (gof l) = None.
Proof.
  intros l o H. unfold gof. assert (G : forall l df diff, In (o, 0) l -> fst (gof_loop l df diff) = None).
  { clear. induction l as [|[a e] l IH]; intros df diff H; [destruct H|]. cbn [gof_loop]. destruct (Req_EM_T e 0); [auto|]. destruct H as [H|H]; [congruence|]. destruct (Req_EM_T a 0); auto. }
  specialize (G l (Z.of_nat (length l)) 0 H). destruct (gof_loop _ _ _) as [d df]. auto.
Qed.
Print Assumptions C63_impossible.
(** the distances at the rows: running sum of the weights (or of 1/n) against the other model's cdf *)
Fixpoint gaps (n : nat) (rows : list (option R * R)) (sum : R) : list R :=
  match rows with [] => [] | (w, c) :: r => let s := sum + match w with Some x => x | None => 1 / INR n end in Rabs (s - c) :: gaps n r s end.
Lemma ks_loop_ok n rows : forall sum worst, let r := ks_loop n rows sum worst in worst <= r /\ (forall x, In x (gaps n rows sum) -> x <= r) /\ (r = worst \/ In r (gaps n rows sum)).
Proof.
  induction rows as [|[w c] rows IH]; intros sum worst; cbn [ks_loop gaps]; cbv zeta; [split; [lra|]; split; [intros x []|auto]|].
  set (s := sum + _). specialize (IH s (Rmax worst (Rabs (s - c)))). cbv zeta in IH. destruct IH as (A & B & C).
  pose proof (Rmax_l worst (Rabs (s - c))). pose proof (Rmax_r worst (Rabs (s - c))). split; [lra|]. split.
  - intros x [<-|Hx]; [lra|auto].
  - destruct C as [C|C]; [|right; right; auto]. rewrite C. destruct (Rmax_case_strong worst (Rabs (s - c)) (fun r => r = worst \/ r = Rabs (s - c))); auto. rewrite H1. right; left; auto.
Qed.
(** C63: against a model that is not a PMF the distance is the greatest of these. *)
Theorem C63_distance : forall rows, rows <> [] -> greatest (ks_distance rows None) (gaps (length rows) rows 0).
Proof.
  intros rows H. unfold ks_distance. destruct rows as [|[w c] rows]; [congruence|]. set (start := Rabs _).
  pose proof (ks_loop_ok (length ((w, c) :: rows)) ((w, c) :: rows) 0 start) as (A & B & C). cbv zeta in *. split; [|auto].
  destruct C as [C|C]; [|auto]. rewrite C. left. unfold start. f_equal. destruct w; lra.
Qed.
Print Assumptions C63_distance.

(** C63: against a PMF the distance also takes in the distances between the running sums of the second data set and the cdf of that same set. *)
Theorem C63_distance_two : forall rows rows2, rows <> [] -> greatest (ks_distance rows (Some rows2)) (gaps (length rows) rows 0 ++ gaps (length rows2) rows2 0).
Proof.
  intros rows rows2 H. pose proof (C63_distance rows H) as [A1 A2]. unfold ks_distance in *. cbv zeta in *. set (d := ks_loop (length rows) rows 0 _) in *.
  pose proof (ks_loop_ok (length rows2) rows2 0 d) as (B1 & B2 & B3). cbv zeta in *. split.
  - apply in_or_app. destruct B3 as [B3|B3]; [rewrite B3|]; auto.
  - intros y Hy. apply in_app_or in Hy as [Hy|Hy]; [|auto]. apply Rle_trans with d; auto.
Qed.
Print Assumptions C63_distance_two.
Example C63_nonvacuous : gof [(1, 2); (0, 1); (3, 3)] = (Some (0 + (1 - 2) ^ 2 / 2 + (3 - 3) ^ 2 / 3), 1%Z) /\ ks_distance [(None, / 4); (None, 1)] None = / 4.
Proof.
  split.
  - unfold gof. cbn [length gof_loop]. repeat (match goal with |- context [Req_EM_T ?x ?y] => destruct (Req_EM_T x y); try lra end). reflexivity.
  - destruct (C63_distance [(None, / 4); (None, 1)]) as [A _]; [discriminate|]. cbn [gaps length] in A. cbn [In] in A.
    assert (G1 : Rabs (0 + 1 / INR 2 - / 4) = / 4) by (rewrite Rabs_right; cbn; lra). assert (G2 : Rabs (0 + 1 / INR 2 + 1 / INR 2 - 1) = 0) by (rewrite Rabs_right; cbn; lra).
    destruct A as [A|[A|[]]]; [congruence|]. rewrite G2 in A. destruct (C63_distance [(None, / 4); (None, 1)]) as [_ B]; [discriminate|].
    specialize (B (/ 4)). cbn [gaps length In] in B. rewrite G1, <- A in B. exfalso. assert (/ 4 <= 0) by (apply B; left; auto). lra.
Qed.
(** Deviation: the cdf of a PMF without weights at its row k is k/n (PmfModel.cmf_at), not (k+1)/n, so that a set of n rows is at distance 1/n from
    itself and not 0. *)
Definition self_rows (n : nat) : list (option R * R) := map (fun k => (@None R, match PmfModel.cmf_at None n (Some k) with Some c => c | None => 0 end)) (seq 0 n).
Theorem C63_self_refuted : forall n, (1 <= n)%nat -> ks_distance (self_rows n) (Some (self_rows n)) = / INR n.
Proof.
  intros n Hn. assert (Hp : 0 < INR n) by (apply lt_0_INR; lia). assert (HL : length (self_rows n) = n) by (unfold self_rows; rewrite map_length, seq_length; auto).
  assert (HC : forall k, PmfModel.cmf_at None n (Some k) = Some (INR k / INR n)) by (intros k; reflexivity).
  assert (G : forall k s, gaps n (map (fun k => (@None R, match PmfModel.cmf_at None n (Some k) with Some c => c | None => 0 end)) (seq s k)) (INR s / INR n) = replicate k (/ INR n)).
  { induction k as [|k IH]; intros s; [reflexivity|]. cbn [seq map gaps replicate]. rewrite HC. replace (INR s / INR n + 1 / INR n) with (INR (S s) / INR n) by (rewrite S_INR; field; lra).
    rewrite IH. f_equal. rewrite S_INR. replace ((INR s + 1) / INR n - INR s / INR n) with (/ INR n) by (field; lra). apply Rabs_right. left. apply Rinv_0_lt_compat. auto. }
  destruct (C63_distance_two (self_rows n) (self_rows n)) as [A _]. { intros E. rewrite E in HL. cbn in HL. lia. }
  rewrite HL in A. unfold self_rows in A at 3 4. replace 0 with (INR 0 / INR n) in A by (cbn; field; lra). rewrite G in A. apply in_app_or in A.
  assert (HR : forall x, In x (replicate n (/ INR n)) -> x = / INR n). { intros x Hx. apply elem_of_list_In, elem_of_replicate in Hx. tauto. }
  destruct A as [A|A]; apply HR in A; auto.
Qed.
Print Assumptions C63_self_refuted.
