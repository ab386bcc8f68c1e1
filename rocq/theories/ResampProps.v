(** C38 jackknife, C56 bootstrap. *)
From Coq Require Import Reals Lra.
From Verif Require Import DataModel StatsModel StatsSpec StatsProofs StatsProps ResampModel.
Local Open Scope list_scope.
Local Open Scope nat_scope.
Local Arguments Rsum : simpl never.
Local Arguments INR : simpl never.

(** ---------- C38 ---------- *)
Section C38.
Context {A : Type}.
(** the data without its row i *)
Definition without (i : nat) (rows : list A) : list A := take i rows ++ drop (S i) rows.
Lemma without_step i r rows : rows !! i = Some r -> S i < length rows -> <[i := r]> (without i rows) = without (S i) rows.
Proof.
  intros Hi Hl. unfold without. assert (i < length rows) by lia. destruct (lookup_lt_is_Some_2 rows (S i) Hl) as [r2 H2].
  rewrite (take_S_r _ _ _ Hi). rewrite (drop_S _ _ _ H2).
  rewrite insert_app_r_alt by (rewrite take_length; lia). rewrite take_length, Nat.min_l by lia. rewrite Nat.sub_diag. cbn.
  rewrite <- app_assoc. auto.
Qed.
Lemma jack_turns_spec rows k : forall i, S i + k = length rows -> jack_turns k i rows (without i rows) = map (fun j => without j rows) (seq (S i) k).
Proof.
  induction k as [|k IH]; intros i Hi; cbn [jack_turns]; auto. destruct (lookup_lt_is_Some_2 rows i) as [r Hr]; [lia|]. rewrite Hr.
  rewrite without_step by (auto; lia). cbn [seq map]. f_equal. apply IH. lia.
Qed.
Lemma jack_sets_spec rows : rows <> [] -> jack_sets rows = map (fun j => without j rows) (seq 0 (length rows)).
Proof.
  intros H. unfold jack_sets. replace (drop 1 rows) with (without 0 rows) by reflexivity.
  rewrite jack_turns_spec; destruct rows; cbn [length]; try congruence; [|lia]. cbn [Nat.sub seq map]. rewrite Nat.sub_0_r. auto.
Qed.
End C38.
(** C38: the model is estimated on n data sets; the i-th is the input without its i-th row. *)
Theorem C38_leave_one_out : forall A (rows : list A), rows <> [] ->
  length (jack_sets rows) = length rows /\ forall i, i < length rows -> jack_sets rows !! i = Some (without i rows).
Proof.
  intros A rows H. rewrite jack_sets_spec by auto. split; [rewrite map_length, seq_length; auto|].
  intros i Hi. rewrite list_lookup_fmap, lookup_seq_lt by auto. auto.
Qed.
Print Assumptions C38_leave_one_out.

(** component a of the estimates without row 0, 1, ... *)
Definition left_out {A} (est : list A -> list R) (rows : list A) (a : nat) : list R :=
  map (fun i => nth a (est (without i rows)) 0%R) (seq 0 (length rows)).
(** sum of products of deviations from the mean *)
Definition codev (u v : list R) : R := Rsum (zip_with (fun x y => ((x - avg u) * (y - avg v))%R) u v).

Lemma avg_affine c k u : u <> [] -> avg (map (fun x => (c - k * x)%R) u) = (c - k * avg u)%R.
Proof.
  intros H. unfold avg. rewrite map_length. assert (HS : Rsum (map (fun x => (c - k * x)%R) u) = (INR (length u) * c - k * Rsum u)%R).
  { clear H. induction u as [|x u IH]; [unfold Rsum, INR; cbn; lra|]. cbn [map length]. rewrite S_INR. unfold Rsum in *. cbn [fold_right]. rewrite IH. lra. }
  rewrite HS. field. apply not_0_INR. destruct u; cbn; [congruence|lia].
Qed.
Lemma codev_affine c c' k u v : u <> [] -> v <> [] -> length u = length v ->
  codev (map (fun x => (c - k * x)%R) u) (map (fun x => (c' - k * x)%R) v) = (k * k * codev u v)%R.
Proof.
  intros Hu Hv Hl. unfold codev. rewrite !avg_affine by auto. generalize (avg u), (avg v). intros mu mv. clear Hu Hv. revert v Hl.
  induction u as [|x u IH]; intros [|y v] Hl; try discriminate; [unfold Rsum; cbn; lra|]. cbn [map zip_with].
  unfold Rsum in *. cbn [fold_right]. rewrite IH by (cbn in Hl; lia). ring.
Qed.
Lemma colv_map {B} (f : B -> list R) p l a : Forall (fun x => length (f x) = p) l -> a < p ->
  omap (fun r : list R => r !! a) (map f l) = map (fun x => nth a (f x) 0%R) l.
Proof.
  intros HF Ha. induction HF as [|x l Hx HF IH]; cbn; auto. destruct (lookup_lt_is_Some_2 (f x) a) as [y Hy]; [lia|]. rewrite Hy.
  rewrite (nth_lookup_Some _ _ _ _ Hy). f_equal. exact IH.
Qed.
(** C38: the result's (a,b) entry is the sum over the rows of the product of the deviations of the leave-one-out estimates of parameters a and b
    from their means. *)
Theorem C38_covariance : forall A (est : list A -> list R) given rows p, 2 <= length rows ->
  (forall i, i < length rows -> length (est (without i rows)) = p) -> length (match given with Some q => q | None => est rows end) = p ->
  exists out, jackknife_cov est given rows = Ok out /\ gr out = p /\ gc out = p /\
    forall a b, a < p -> b < p -> cell out a b = Some (Some (codev (left_out est rows a) (left_out est rows b))).
Proof.
  intros A est given rows p Hn Hp Ho. unfold jackknife_cov. destruct (Nat.leb_spec (length rows) 1); [lia|].
  set (overall := match given with Some q => q | None => est rows end) in *.
  rewrite jack_sets_spec by (destruct rows; cbn in *; [lia|discriminate]). set (n := length rows) in *.
  set (pv := fun i => zip_with Rminus (map (fun x => (x * INR n)%R) overall) (map (fun x => (x * (INR n - 1))%R) (est (without i rows)))).
  assert (HM : mapM (fun s => pseudoval n overall (est s)) (map (fun j => without j rows) (seq 0 n)) = Some (map pv (seq 0 n))).
  { apply mapM_Some_2. rewrite Forall2_fmap. apply Forall_Forall2_diag. apply List.Forall_forall. intros i Hi. apply in_seq in Hi.
    unfold pseudoval. rewrite Hp by lia. rewrite Ho, Nat.eqb_refl. auto. }
  rewrite HM. set (m := Gr n (length overall) (map pv (seq 0 n))).
  destruct (C34_covariance_matrix None (Pg None (Some m) None None name_alloc None) m eq_refl) as (out & nm & E & W & R1 & C1 & _ & _ & HC).
  rewrite E. cbn in R1, C1. eexists. split; [reflexivity|]. cbn [gr gc]. split; [lia|]. split; [lia|].
  intros a b Ha Hb. specialize (HC a b). cbn [wts] in HC. change (gc m) with (length overall) in HC. specialize (HC ltac:(lia) ltac:(lia)).
  unfold cell in HC |- *. cbn [ga]. rewrite list_lookup_fmap. destruct (ga out !! a) as [r|] eqn:Er; [|discriminate]. cbn [option_fmap fmap option_map]. rewrite list_lookup_fmap, HC. cbn [option_fmap fmap option_map]. f_equal.
  assert (HV : forall c, c < p -> colv m c = map (fun x => (nth c overall 0 * INR n - (INR n - 1) * x)%R) (left_out est rows c)).
  { intros c Hc. unfold colv, m. cbn [ga]. rewrite (colv_map pv p); auto.
    - unfold left_out. fold n. rewrite map_map. apply map_ext_in. intros i Hi. apply in_seq in Hi. unfold pv.
      destruct (lookup_lt_is_Some_2 overall c) as [o Eo]; [lia|].
      destruct (lookup_lt_is_Some_2 (est (without i rows)) c) as [e Ee]; [rewrite Hp; lia|].
      rewrite (nth_lookup_Some _ _ _ _ Eo), (nth_lookup_Some _ _ _ _ Ee). apply nth_lookup_Some.
      rewrite lookup_zip_with, !list_lookup_fmap, Eo, Ee. cbn. f_equal. lra.
    - apply List.Forall_forall. intros i Hi. apply in_seq in Hi. unfold pv. rewrite zip_with_length, !map_length, Hp by lia. lia. }
  assert (HLn : forall c, length (left_out est rows c) = n) by (intros; unfold left_out; rewrite map_length, seq_length; auto).
  assert (HNE : forall c, left_out est rows c <> []) by (intros c Hc; pose proof (HLn c) as X; rewrite Hc in X; cbn in X; lia).
  rewrite C34_cov; [|rewrite HV, map_length, HLn by auto; lia|rewrite !HV, !map_length, !HLn by auto; auto].
  rewrite !HV by auto. unfold scov. fold (codev (map (fun x => (nth a overall 0 * INR n - (INR n - 1) * x)%R) (left_out est rows a)) (map (fun x => (nth b overall 0 * INR n - (INR n - 1) * x)%R) (left_out est rows b))).
  rewrite codev_affine by (auto; rewrite !HLn; auto). rewrite map_length, HLn. unfold oscale. cbn. f_equal. field.
  assert (INR 2 <= INR n)%R by (apply le_INR; auto). unfold INR in H0 at 1. lra.
Qed.
Print Assumptions C38_covariance.
Example C38_nonvacuous : without 1 [10; 20; 30] = [10; 30] /\ jack_sets [10; 20; 30] = [[20; 30]; [10; 30]; [10; 20]].
Proof. split; reflexivity. Qed.

(** C38: the usual jackknife variance is (n-1)/n times this; for the mean of {0, 2} it is s^2/n = 1, but the code gives 2. *)
Theorem C38_scale_refuted : exists out, jackknife_cov (fun l : list R => [avg l]) None [0; 2]%R = Ok out /\
  cell out 0 0 = Some (Some 2%R) /\ (svar [0; 2] / 2 = 1)%R.
Proof.
  destruct (C38_covariance R (fun l => [avg l]) None [0; 2]%R 1) as (out & H1 & _ & _ & H2); auto.
  exists out. split; auto. rewrite H2 by lia. split.
  - f_equal. f_equal. unfold codev, left_out, avg, Rsum, INR. cbn. lra.
  - unfold svar, avg, Rsum, INR. cbn. lra.
Qed.
Print Assumptions C38_scale_refuted.

(** ---------- C56 ---------- *)
(** the k-th resampled data set, given the random row numbers *)
Definition kth_sample {A} (rows : list A) (tape : list nat) (k : nat) : list A :=
  resample rows (take (length rows) (drop (k * length rows) tape)).
(** C56: with row numbers in range, each resampled data set has the height of the data and consists of its rows, the j-th being the one drawn. *)
Theorem C56_resample : forall A (rows : list A) tape k, Forall (fun i => i < length rows) tape -> S k * length rows <= length tape ->
  length (kth_sample rows tape k) = length rows /\
  forall j, j < length rows -> exists i, tape !! (k * length rows + j) = Some i /\ kth_sample rows tape k !! j = rows !! i /\ i < length rows.
Proof.
  intros A rows tape k HF Hl. unfold kth_sample, resample.
  assert (HO : forall idx, Forall (fun i => i < length rows) idx -> length (omap (fun i => rows !! i) idx) = length idx /\
     forall j i, idx !! j = Some i -> omap (fun i => rows !! i) idx !! j = rows !! i).
  { induction 1 as [|i idx Hi HI IH]; [split; auto; intros; discriminate|]. destruct (lookup_lt_is_Some_2 rows i Hi) as [r Hr].
    destruct IH as [I1 I2]. split; [cbn; rewrite Hr; cbn; f_equal; exact I1|]. intros [|j] i' Hj; cbn in Hj |- *; rewrite Hr; cbn.
    - congruence.
    - apply I2. auto. }
  destruct (HO (take (length rows) (drop (k * length rows) tape))) as [H1 H2].
  { apply Forall_take. apply Forall_drop. auto. }
  split; [rewrite H1, take_length, drop_length; lia|]. intros j Hj.
  destruct (lookup_lt_is_Some_2 tape (k * length rows + j)) as [i Hi]; [lia|]. exists i. split; auto. split.
  - apply H2. rewrite lookup_take, lookup_drop by auto. auto.
  - rewrite Forall_lookup in HF. eapply HF; eauto.
Qed.
Print Assumptions C56_resample.

Section C56.
Context {A : Type} (est : list A -> option (list R)) (rows : list A) (it : nat).
Lemma omap_snoc tape K : omap (fun k => est (kth_sample rows tape k)) (seq 0 (S K)) =
  omap (fun k => est (kth_sample rows tape k)) (seq 0 K) ++ match est (kth_sample rows tape K) with Some x => [x] | None => [] end.
Proof. rewrite seq_S, omap_app. cbn. destruct (est _); auto. Qed.
Definition state_of (g : list (list R)) : option (list (option (list R))) :=
  match g with [] => None | _ => Some (map Some g ++ replicate (it - length g) None) end.
Lemma state_snoc (g : list (list R)) x : length g < it ->
  match (if length g =? 0 then Some (replicate it None) else state_of g) with
  | Some b => Some (<[length g := Some x]> b) | None => None end = state_of (g ++ [x]).
Proof.
  intros Hl. destruct g as [|y g].
  - cbn [length Nat.eqb app]. unfold state_of. cbn [map length]. destruct it as [|n]; [lia|]. cbn. rewrite Nat.sub_0_r. auto.
  - cbn [length Nat.eqb]. unfold state_of. cbn [app]. change (y :: g ++ [x]) with ((y :: g) ++ [x]).
    rewrite map_app, app_length. cbn [length map]. rewrite <- app_assoc. f_equal.
    rewrite insert_app_r_alt by (cbn; rewrite map_length; lia). f_equal.
    cbn [length]. rewrite map_length, Nat.sub_diag.
    replace (it - S (length g)) with (S (it - (S (length g) + 1))) by (cbn in Hl; lia). auto.
Qed.
Lemma boot_ignore tape : (2 * it) * length rows <= length tape -> forall fuel K g,
  g = omap (fun k => est (kth_sample rows tape k)) (seq 0 K) -> length g <= it -> K - length g <= it -> length g <= K -> 2 * it < K + fuel ->
  (length g = it -> K - length g < it) ->
  exists K' g', g' = omap (fun k => est (kth_sample rows tape k)) (seq 0 K') /\ length g' <= K' /\
    boot_loop fuel est rows it true (drop (K * length rows) tape) (length g) (K - length g) (state_of g) = Ok (length g', K' - length g', state_of g') /\
    ((length g' = it /\ K' - length g' < it) \/ (K' - length g' = it /\ length g' < it)).
Proof.
  intros Ht. induction fuel as [|fuel IH]; intros K g Hg H1 H2 H3 H4 H5; [lia|]. cbn [boot_loop].
  destruct ((length g <? it) && (K - length g <? it)) eqn:Eb.
  - apply andb_true_iff in Eb as [E1 E2]. apply Nat.ltb_lt in E1, E2.
    destruct (Nat.ltb_spec (length (drop (K * length rows) tape)) (length rows)) as [Hs|Hs]; [rewrite drop_length in Hs; nia|].
    fold (kth_sample rows tape K). pose proof (omap_snoc tape K) as HS. rewrite <- Hg in HS.
    rewrite drop_drop. replace (K * length rows + length rows) with (S K * length rows) by lia.
    change (resample rows (take (length rows) (drop (K * length rows) tape))) with (kth_sample rows tape K).
    destruct (est (kth_sample rows tape K)) as [x|] eqn:Ex.
    + pose proof (state_snoc g x E1) as HT.
      destruct (if length g =? 0 then Some (replicate it None) else state_of g) as [b|]; [|destruct g; discriminate].
      injection HT as HT || idtac. rewrite HT.
      replace (S (length g)) with (length (g ++ [x])) by (rewrite app_length; cbn; lia).
      replace (K - length g) with (S K - length (g ++ [x])) by (rewrite app_length; cbn; lia).
      apply IH; auto; rewrite ?app_length; cbn [length]; lia.
    + rewrite app_nil_r in HS. replace (S (K - length g)) with (S K - length g) by lia. apply IH; auto; lia.
  - exists K, g. split; auto. split; auto. split; auto. apply andb_false_iff in Eb. rewrite !Nat.ltb_ge in Eb. lia.
Qed.
End C56.

(** C56: ignoring NaNs: the rows summarised are the NaN-free estimates of consecutive samples, in order, up to the requested number, or, if as many
    samples gave a NaN, those obtained by then, with error 'N'. *)
Theorem C56_ignore_nans : forall A (est : list A -> option (list R)) rows it tape fuel, 0 < it -> 2 * it * length rows <= length tape -> 2 * it < fuel ->
  exists K, let good := omap (fun k => est (kth_sample rows tape k)) (seq 0 K) in
    (length good = it /\ K - it < it /\ bootstrap fuel est rows it true tape = Ok (None, Some (map Some good))) \/
    (length good < it /\ K = length good + it /\ bootstrap fuel est rows it true tape = Ok (Some "N"%char, match good with [] => None | _ => Some (map Some good) end)).
Proof.
  intros A est rows it tape fuel Hi Ht Hf.
  destruct (boot_ignore est rows it tape Ht fuel 0 []) as (K & g & Hg & Hk & HB & HC); cbn; auto; try lia.
  exists K. rewrite <- Hg. cbn zeta. unfold bootstrap. cbn in HB. rewrite drop_0 in HB. rewrite HB. cbn [rbind].
  destruct HC as [[H1 H2]|[H1 H2]].
  - left. split; auto. split; [lia|]. rewrite (proj2 (Nat.eqb_neq (length g) 0)) by lia. cbn [andb].
    rewrite (proj2 (Nat.eqb_neq (K - length g) it)) by lia. unfold state_of. destruct g as [|x g]; [cbn in H1; lia|].
    rewrite H1, Nat.sub_diag. cbn [replicate]. rewrite app_nil_r. auto.
  - right. split; auto. split; [lia|]. rewrite H1, Nat.eqb_refl, andb_true_r. destruct g as [|x g]; cbn [length Nat.eqb]; auto.
    unfold state_of. cbn [option_map]. do 3 f_equal. apply take_app_alt. rewrite map_length. auto.
Qed.
Print Assumptions C56_ignore_nans.

(** C56: without NaNs, one row per requested iteration, the estimates of the first samples in order, no error, whatever ignore_nans. *)
Theorem C56_plain : forall A (est : list A -> option (list R)) rows it ign tape fuel, 0 < it -> it * length rows <= length tape -> it < fuel ->
  (forall k, k < it -> est (kth_sample rows tape k) <> None) ->
  bootstrap fuel est rows it ign tape = Ok (None, Some (map (fun k => est (kth_sample rows tape k)) (seq 0 it))).
Proof.
  intros A est rows it ign tape fuel Hi Ht Hf HN.
  assert (HL : forall fuel K g, map Some g = map (fun k => est (kth_sample rows tape k)) (seq 0 K) -> K <= it -> it < K + fuel ->
    exists g', map Some g' = map (fun k => est (kth_sample rows tape k)) (seq 0 it) /\
      boot_loop fuel est rows it ign (drop (K * length rows) tape) K 0 (state_of it g) = Ok (it, 0, state_of it g')).
  { induction fuel0 as [|fuel0 IH]; intros K g Hg Hk Hf0; [lia|]. cbn [boot_loop].
    assert (Hlg : length g = K) by (apply (f_equal length) in Hg; rewrite !map_length, seq_length in Hg; auto).
    destruct (Nat.ltb_spec K it) as [E1|E1]; cbn [andb].
    - destruct (Nat.ltb_spec 0 it); [|lia].
      destruct (Nat.ltb_spec (length (drop (K * length rows) tape)) (length rows)) as [Hs|Hs]; [rewrite drop_length in Hs; nia|].
      change (resample rows (take (length rows) (drop (K * length rows) tape))) with (kth_sample rows tape K).
      destruct (est (kth_sample rows tape K)) as [x|] eqn:Ex; [|exfalso; apply (HN K); auto].
      rewrite drop_drop. replace (K * length rows + length rows) with (S K * length rows) by lia.
      pose proof (state_snoc est rows it g x ltac:(lia)) as HT. rewrite Hlg in HT.
      destruct (if K =? 0 then Some (replicate it None) else state_of it g) as [b|]; [|destruct g; discriminate].
      rewrite HT. apply IH; [|lia|lia]. rewrite map_app, Hg. rewrite seq_S, map_app. cbn. rewrite Ex. auto.
    - assert (K = it) by lia. subst K. exists g. rewrite H in *. split; auto. }
  destruct (HL fuel 0 []) as (g & Hg & HB); auto; [lia|]. rewrite drop_0 in HB. unfold bootstrap. cbn [state_of] in HB. rewrite HB. cbn [rbind].
  rewrite (proj2 (Nat.eqb_neq it 0)) by lia. cbn [andb]. rewrite (proj2 (Nat.eqb_neq 0 it)) by lia.
  assert (Hlg : length g = it) by (apply (f_equal length) in Hg; rewrite !map_length, seq_length in Hg; auto).
  unfold state_of. destruct g as [|x g]; [cbn in Hlg; lia|]. rewrite Hlg, Nat.sub_diag. cbn [replicate]. rewrite app_nil_r, Hg. auto.
Qed.
Print Assumptions C56_plain.
Example C56_nonvacuous : bootstrap 9 (fun l : list nat => if 3 <? list_max l then None else Some (map INR l)) [1; 2; 5] 2 true [0; 1; 0;  2; 0; 0;  1; 1; 0; 0; 0; 0]
  = Ok (None, Some [Some [INR 1; INR 2; INR 1]; Some [INR 2; INR 2; INR 1]]).
Proof. reflexivity. Qed.

(** C56: without ignore_nans (documented: NaN estimates are written to the list) a NaN estimate in the first sample leaves no array to write the next
    estimate to; one in a later sample leaves its row unwritten. *)
Theorem C56_first_nan_refuted : forall A (est : list A -> option (list R)) (rows : list A) it tape fuel, 2 <= it -> 2 * length rows <= length tape ->
  est (kth_sample rows tape 0) = None -> est (kth_sample rows tape 1) <> None -> bootstrap (S (S fuel)) est rows it false tape = UB.
Proof.
  intros A est rows it tape fuel Hi Ht H0 H1. unfold bootstrap. cbn [boot_loop].
  destruct (Nat.ltb_spec 0 it); [|lia]. cbn [andb]. destruct (Nat.ltb_spec (length tape) (length rows)); [lia|].
  unfold kth_sample in H0, H1. cbn [Nat.mul] in H0. rewrite drop_0 in H0. rewrite H0.
  destruct (Nat.ltb_spec 1 it); [|lia]. cbn [andb]. destruct (Nat.ltb_spec (length (drop (length rows) tape)) (length rows)) as [X|_]; [rewrite drop_length in X; lia|].
  rewrite Nat.mul_1_l in H1. destruct (est (resample rows (take (length rows) (drop (length rows) tape)))) as [x|] eqn:Ex; [reflexivity|congruence].
Qed.
Print Assumptions C56_first_nan_refuted.
Theorem C56_nan_row_refuted : exists (est : list nat -> option (list R)) rows tape x,
  bootstrap 9 est rows 2 false tape = Ok (None, Some [Some x; None]).
Proof.
  exists (fun l => if 3 <? list_max l then None else Some (map INR l)), [1; 5], [0; 0; 1; 1], [INR 1; INR 1]. reflexivity.
Qed.
Print Assumptions C56_nan_row_refuted.
