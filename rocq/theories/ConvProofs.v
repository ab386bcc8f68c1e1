(** Proofs about rank format, crosstabs and filling (ConvModel.v). *)
From Coq Require Import Reals Lra Sorting.Sorted Sorting.Permutation.
From Verif Require Import DataModel StatsModel StatsSpec ConvModel StatsProofs.
Local Open Scope list_scope.
Local Open Scope nat_scope.

(** the positions 0, 1, 2, ... listed as often as the counts say *)
Fixpoint listed_from (k : nat) (counts : list nat) : list nat :=
  match counts with [] => [] | n :: l => replicate n k ++ listed_from (S k) l end.
Definition listed := listed_from 0.

Lemma IP_INR n : Int_part (INR n) = Z.of_nat n.
Proof. apply Int_part_INR. Qed.
Lemma IP_opp_INR n : Int_part (- INR n) = (- Z.of_nat n)%Z.
Proof.
  unfold Int_part. rewrite INR_IZR_INZ, <- opp_IZR.
  rewrite <- (up_tech (IZR (- Z.of_nat n)) (- Z.of_nat n)); [lia|lra|]. rewrite plus_IZR. lra.
Qed.
Lemma trunc_INR n : trunc (INR n) = Z.of_nat n.
Proof. unfold trunc. destruct (Rle_dec 0 (INR n)) as [|H]; [apply IP_INR|]. exfalso. apply H, pos_INR. Qed.
Lemma trunc_IZR z : (0 <= z)%Z -> trunc (IZR z) = z.
Proof. intros H. rewrite <- (Z2Nat.id z H) at 1. rewrite <- INR_IZR_INZ, trunc_INR. lia. Qed.
Lemma turns_INR n : turns (INR n) = n.
Proof. unfold turns. rewrite IP_opp_INR. lia. Qed.

Lemma bumps_ok ns : forall row, Forall (fun n => n < length row) ns ->
  exists row', bumps row (map INR ns) = Ok row' /\ length row' = length row /\
    forall k, row' !! k = option_map (fun c => (c + INR (count_occ Nat.eq_dec ns k))%R) (row !! k).
Proof.
  induction ns as [|n ns IH]; intros row HF; cbn.
  - exists row. split; auto. split; auto. intros k. destruct (row !! k); cbn; auto. f_equal. lra.
  - inversion HF as [|? ? Hn HF']; subst. unfold bump. rewrite trunc_INR.
    rewrite (proj2 (Z.leb_le _ _)), (proj2 (Z.ltb_lt _ _)) by lia. cbn [andb rbind]. rewrite Nat2Z.id.
    destruct (IH (alter (fun c => (c + 1)%R) n row)) as (row' & H1 & H2 & H3); [rewrite alter_length; auto|].
    rewrite H1. exists row'. split; auto. rewrite alter_length in H2. split; auto.
    intros k. rewrite H3. destruct (Nat.eq_dec n k) as [->|Hne].
    + rewrite list_lookup_alter. destruct (row !! k); cbn; auto. f_equal. 
      destruct (count_occ Nat.eq_dec ns k); cbn [INR]; lra.
    + rewrite list_lookup_alter_ne by auto. auto.
Qed.

Lemma list_max_cons a l : list_max (a :: l) = Nat.max a (list_max l).
Proof. reflexivity. Qed.
Lemma maxfold_INR ns n : fold_left (fun m y => if Rlt_dec m y then y else m) (map INR ns) (INR n) = INR (Nat.max n (list_max ns)).
Proof.
  revert n. induction ns as [|a ns IH]; intros n; cbn [map fold_left]; [f_equal; cbn; lia|]. rewrite list_max_cons.
  destruct (Rlt_dec (INR n) (INR a)) as [H|H].
  - apply INR_lt in H. rewrite IH. f_equal. lia.
  - assert (~ n < a) by (intros Hc; apply H, lt_INR; auto). rewrite IH. f_equal. lia.
Qed.
Lemma gsl_max_INR ns : ns <> [] -> gsl_max (map INR ns) = Some (INR (list_max ns)).
Proof. destruct ns as [|n ns]; [congruence|]. intros _. cbn [map gsl_max]. f_equal. change (INR n :: map INR ns) with (map INR (n :: ns)). rewrite maxfold_INR, list_max_cons. f_equal. lia. Qed.
Lemma list_max_app a b : list_max (a ++ b) = Nat.max (list_max a) (list_max b).
Proof. induction a; [reflexivity|]. cbn [app]. rewrite !list_max_cons. lia. Qed.

Definition bins (o1 o2 : option (list nat)) (min_bins : nat) : nat :=
  Nat.max (match o1 with Some l => list_max l | None => min_bins end) (match o2 with Some l => list_max l | None => min_bins end).
Definition obs (o : option (list nat)) : list nat := match o with Some l => l | None => [] end.

Lemma compress_ok (d : page R) (mb : nat) o1 o2 :
  option_map (fun m => concat (ga m)) (mat d) = option_map (map INR) o1 -> vect d = option_map (map INR) o2 -> o1 <> Some [] -> o2 <> Some [] ->
  exists row, rank_compress d (Z.of_nat mb) = Ok (Pg None (Some (Gr 1 (S (bins o1 o2 mb)) [row])) None None name_alloc None) /\
    length row = S (bins o1 o2 mb) /\
    forall k, k <= bins o1 o2 mb -> row !! k = Some (INR (count_occ Nat.eq_dec (obs o1 ++ obs o2) k)).
Proof.
  intros Hm Hv N1 N2. unfold rank_compress.
  assert (HA : forall o, o <> Some [] -> part_max (option_map (map INR) o) (Z.of_nat mb) = Ok (INR (match o with Some l => list_max l | None => mb end))).
  { intros [l|] Hne; cbn; [rewrite gsl_max_INR by congruence; auto|]. rewrite INR_IZR_INZ; auto. }
  rewrite Hm, Hv, !HA by auto. cbn [rbind].
  set (a := match o1 with Some l => list_max l | None => mb end). set (b := match o2 with Some l => list_max l | None => mb end).
  assert (HM : (if Rlt_dec (INR b) (INR a) then INR a else INR b) = INR (Nat.max a b)).
  { destruct (Rlt_dec (INR b) (INR a)) as [H|H].
    - apply INR_lt in H. f_equal. lia.
    - f_equal. assert (~ b < a) by (intros Hc; apply H, lt_INR; auto). lia. }
  rewrite HM, trunc_INR.
  destruct (Z.leb_spec (Z.of_nat (Nat.max a b) + 1) 0); [lia|].
  assert (Ho : (match mat d with Some m => concat (ga m) | None => [] end ++ match option_map (map INR) o2 with Some v => v | None => [] end) = map INR (obs o1 ++ obs o2)).
  { rewrite map_app. f_equal; [|destruct o2; auto]. destruct (mat d), o1; cbn in *; congruence. }
  rewrite Ho. replace (Z.to_nat (Z.of_nat (Nat.max a b) + 1)) with (S (Nat.max a b)) by lia.
  destruct (bumps_ok (obs o1 ++ obs o2) (replicate (S (Nat.max a b)) 0%R)) as (row & H1 & H2 & H3).
  { rewrite replicate_length. apply List.Forall_forall. intros n Hn.
    assert (n <= list_max (obs o1 ++ obs o2)). { pose proof (proj1 (list_max_le (obs o1 ++ obs o2) _) (le_n _)) as HF. rewrite List.Forall_forall in HF. auto. }
    rewrite list_max_app in H0. unfold a, b. assert (Hnil : list_max [] = 0) by reflexivity. destruct o1, o2; cbn [obs] in *; rewrite ?Hnil in *; lia. }
  rewrite H1. cbn [rbind]. exists row. unfold bins. fold a b. split; auto. split; [rewrite H2; apply replicate_length|].
  intros k Hk. rewrite H3, lookup_replicate_2 by lia. cbn [option_map]. f_equal. lra.
Qed.

Lemma put_n_ok n : forall v posn k, posn + n <= length v ->
  put_n n v posn k = Ok (take posn v ++ replicate n (Some (INR k)) ++ drop (posn + n) v, posn + n).
Proof.
  induction n as [|n IH]; intros v posn k H; cbn.
  - rewrite Nat.add_0_r, take_drop. auto.
  - destruct (Nat.ltb_spec posn (length v)); [|lia]. rewrite IH by (rewrite insert_length; lia).
    f_equal. f_equal; [|lia].
    assert (Hs : <[posn:=Some (INR k)]> v = take posn v ++ Some (INR k) :: drop (S posn) v) by (apply insert_take_drop; auto).
    assert (Hlt : length (take posn v) = posn) by (rewrite take_length; lia).
    rewrite Hs. rewrite firstn_app, Hlt. replace (S posn - posn) with 1 by lia.
    rewrite (firstn_all2 (take posn v)) by lia. cbn [firstn]. change (take 0 (drop (S posn) v)) with (@nil (option R)).
    rewrite skipn_app, Hlt. rewrite (skipn_all2 (take posn v)) by lia. cbn [app].
    replace (S posn + n - posn) with (S n) by lia. cbn [skipn].
    rewrite drop_drop, <- app_assoc. cbn [app]. do 4 f_equal. lia.
Qed.
Definition written (v : list (option R)) (posn : nat) (L : list nat) : list (option R) :=
  take posn v ++ map (fun k => Some (INR k)) L ++ drop (posn + length L) v.
Lemma written_app v posn L1 L2 : posn + length L1 + length L2 <= length v ->
  written (written v posn L1) (posn + length L1) L2 = written v posn (L1 ++ L2).
Proof.
  intros H. unfold written. assert (Hlt : length (take posn v) = posn) by (rewrite take_length; lia).
  assert (Hl2 : length (take posn v ++ map (fun k => Some (INR k)) L1) = posn + length L1) by (rewrite app_length, map_length; lia).
  rewrite (app_assoc (take posn v)). rewrite firstn_app, Hl2, Nat.sub_diag. cbn [firstn]. rewrite app_nil_r.
  rewrite firstn_all2 by lia. rewrite skipn_app, Hl2. rewrite skipn_all2 by lia. cbn [app].
  rewrite drop_drop, map_app, app_length, <- !app_assoc. do 4 f_equal. lia.
Qed.
Lemma written_len v posn L : posn + length L <= length v -> length (written v posn L) = length v.
Proof. intros H. unfold written. rewrite !app_length, take_length, map_length, drop_length. lia. Qed.
Lemma put_row_ok row : forall k v posn, posn + length (listed_from k row) <= length v ->
  put_row (map INR row) k v posn = Ok (written v posn (listed_from k row), posn + length (listed_from k row)).
Proof.
  induction row as [|n row IH]; intros k v posn H; cbn in *.
  - unfold written. cbn. rewrite Nat.add_0_r, take_drop. auto.
  - rewrite app_length, replicate_length in *. rewrite turns_INR, put_n_ok by lia. cbn [rbind].
    assert (Hw : take posn v ++ replicate n (Some (INR k)) ++ drop (posn + n) v = written v posn (replicate n k)).
    { unfold written. rewrite replicate_length. do 2 f_equal. clear. induction n; cbn; congruence. }
    rewrite Hw. assert (length (replicate n k) = n) by apply replicate_length.
    rewrite IH by (rewrite written_len; lia). f_equal. f_equal; [|lia].
    rewrite <- H0 at 2. rewrite written_app by lia. auto.
Qed.
Lemma put_rows_ok rows : forall v posn, posn + length (concat (map listed rows)) <= length v ->
  put_rows (map (map INR) rows) v posn = Ok (written v posn (concat (map listed rows)), posn + length (concat (map listed rows))).
Proof.
  induction rows as [|r rows IH]; intros v posn H; cbn in *.
  - unfold written. cbn. rewrite Nat.add_0_r, take_drop. auto.
  - rewrite app_length in *. change (put_row (map INR r) 0 v posn) with (put_row (map INR r) 0 v posn).
    rewrite (put_row_ok r 0 v posn) by (unfold listed in H; lia). cbn [rbind]. change (listed_from 0 r) with (listed r).
    rewrite IH by (rewrite written_len; lia). f_equal. f_equal; [|lia].
    rewrite written_app by lia. auto.
Qed.
Lemma listed_length counts : forall k, length (listed_from k counts) = total counts.
Proof. induction counts as [|n l IH]; intros k; cbn; auto. rewrite app_length, replicate_length, IH. auto. Qed.
Lemma total_cons a l : total (a :: l) = a + total l.
Proof. reflexivity. Qed.
Lemma total_app a b : total (a ++ b) = total a + total b.
Proof. induction a; [reflexivity|]. cbn [app]. rewrite !total_cons. lia. Qed.
Lemma listed_total rows : length (concat (map listed rows)) = total (concat rows).
Proof. induction rows as [|r rows IH]; cbn; auto. rewrite app_length, total_app, IH. unfold listed. rewrite listed_length. auto. Qed.
Lemma fold_INR ns x : fold_left Rplus (map INR ns) x = (x + INR (total ns))%R.
Proof. revert x. induction ns as [|n ns IH]; intros x; [cbn; lra|]. cbn [map fold_left]. rewrite IH, total_cons, plus_INR. lra. Qed.
Lemma matrix_sum_INR rows r c : matrix_sum (Gr r c (map (map INR) rows)) = INR (total (concat rows)).
Proof.
  unfold matrix_sum. cbn [ga]. replace (INR (total (concat rows))) with (0 + INR (total (concat rows)))%R by lra.
  generalize 0%R. induction rows as [|a rows IH]; intros x; cbn; [lra|]. rewrite IH, fold_INR, total_app, plus_INR. lra.
Qed.
Lemma expand_ok (d : page R) rows : (exists r c, mat d = Some (Gr r c (map (map INR) rows))) -> vect d = None ->
  rank_expand d = Ok (if total (concat rows) =? 0 then None else Some (map (fun k => Some (INR k)) (concat (map listed rows)))).
Proof.
  intros (r & c & Hm) Hv. unfold rank_expand. rewrite Hm, Hv, matrix_sum_INR.
  replace (INR (total (concat rows)) + 0)%R with (INR (total (concat rows))) by lra. rewrite trunc_INR.
  destruct (Nat.eqb_spec (total (concat rows)) 0) as [E|E].
  - rewrite E. auto.
  - destruct (Z.eqb_spec (Z.of_nat (total (concat rows))) 0); [lia|]. destruct (Z.ltb_spec (Z.of_nat (total (concat rows))) 0); [lia|].
    cbn [ga]. rewrite Nat2Z.id. rewrite put_rows_ok by (rewrite replicate_length, listed_total; lia). cbn [rbind].
    do 2 f_equal. unfold written. cbn [firstn app]. rewrite skipn_all2; [apply app_nil_r|].
    rewrite replicate_length, listed_total. lia.
Qed.

Lemma count_replicate n (k x : nat) : count_occ Nat.eq_dec (replicate n k) x = if Nat.eq_dec k x then n else 0.
Proof. induction n as [|n IH]; cbn; destruct (Nat.eq_dec k x); auto. Qed.
Lemma count_listed counts : forall k x, count_occ Nat.eq_dec (listed_from k counts) x =
  if x <? k then 0 else match counts !! (x - k) with Some n => n | None => 0 end.
Proof.
  induction counts as [|n l IH]; intros k x; cbn.
  - destruct (x <? k); auto.
  - rewrite count_occ_app, count_replicate, IH. destruct (Nat.eq_dec k x) as [->|Hne].
    + rewrite Nat.sub_diag. destruct (Nat.ltb_spec x x); [lia|]. destruct (Nat.ltb_spec x (S x)); [cbn; lia|lia].
    + destruct (Nat.ltb_spec x (S k)), (Nat.ltb_spec x k); try lia. replace (x - k) with (S (x - S k)) by lia. auto.
Qed.
Lemma listed_sorted counts : forall k, StronglySorted le (listed_from k counts) /\ Forall (fun x => k <= x) (listed_from k counts).
Proof.
  induction counts as [|n l IH]; intros k; cbn; [split; constructor|]. destruct (IH (S k)) as [H1 H2].
  assert (Hf : Forall (fun x => k <= x) (listed_from (S k) l)) by (eapply List.Forall_impl; [|exact H2]; cbn; lia).
  induction n as [|n IHn]; cbn; auto. destruct IHn as [I1 I2]. split; constructor; auto.
Qed.
