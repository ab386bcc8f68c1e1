(** Lemmas for OlsProps.v *)
From Coq Require Import Reals Lra.
From Verif Require Import DataModel NamesModel StatsModel StatsSpec LinModel LinProps FactModel LikeModel OlsModel OlsSpec.
Local Open Scope list_scope.
Local Open Scope R_scope.

(** ---------- algebra ---------- *)
Lemma sum_delta k j f : (j < k)%nat -> sum_to k (fun l => delta j l * f l) = f j.
Proof.
  induction k as [|k IH]; intros H; [lia|]. rewrite sum_to_S. unfold delta at 2. destruct (Nat.eqb_spec j k) as [->|Hne].
  - rewrite (sum_to_ext k _ (fun _ => 0)), sum_to_zero by (intros l Hl; unfold delta; destruct (Nat.eqb_spec k l); [lia|lra]). lra.
  - rewrite IH by lia. lra.
Qed.
Lemma sum_to_minus n f g : sum_to n f - sum_to n g = sum_to n (fun k => f k - g k).
Proof. induction n as [|n IH]; [unfold sum_to; cbn; lra|]. rewrite !sum_to_S, <- IH. lra. Qed.
Lemma sum_to_nonneg n f : (forall k, (k < n)%nat -> 0 <= f k) -> 0 <= sum_to n f.
Proof. induction n as [|n IH]; intros H; [unfold sum_to; cbn; lra|]. rewrite sum_to_S. specialize (IH ltac:(intros; apply H; lia)). pose proof (H n ltac:(lia)). lra. Qed.
Lemma sum_to_null n f : (forall k, (k < n)%nat -> 0 <= f k) -> sum_to n f = 0 -> forall k, (k < n)%nat -> f k = 0.
Proof.
  induction n as [|n IH]; intros H E k Hk; [lia|]. rewrite sum_to_S in E. pose proof (sum_to_nonneg n f ltac:(intros; apply H; lia)). pose proof (H n ltac:(lia)).
  destruct (Nat.eq_dec k n) as [->|]; [lra|]. apply IH; [intros; apply H; lia|lra|lia].
Qed.
Section algebra.
  Context (n k : nat) (w : nat -> R) (X : nat -> nat -> R) (y : nat -> R) (Z : nat -> nat -> R) (H : nat -> nat -> R).
  Let fit (b : nat -> R) (r : nat) := sum_to k (fun j => X r j * b j).
  (** [Z] are the instruments, [X] itself for least squares *)
  Let G i j := sum_to n (fun l => w l * Z l i * X l j).
  Let c i := sum_to n (fun l => w l * Z l i * y l).
  Context (HL : forall i j, (i < k)%nat -> (j < k)%nat -> sum_to k (fun l => H i l * G l j) = delta i j).
  Context (HR : forall i j, (i < k)%nat -> (j < k)%nat -> sum_to k (fun l => G i l * H l j) = delta i j).
  Let b i := sum_to k (fun l => H i l * c l).
  Lemma gfit b' j : sum_to n (fun r => w r * Z r j * fit b' r) = sum_to k (fun i => G j i * b' i).
  Proof using.
    unfold fit, G. transitivity (sum_to n (fun r => sum_to k (fun i => w r * Z r j * X r i * b' i))).
    - apply sum_to_ext. intros r _. rewrite sum_to_scal. apply sum_to_ext. intros i _. ring.
    - rewrite sum_to_swap. apply sum_to_ext. intros i _. rewrite Rmult_comm, sum_to_scal. apply sum_to_ext. intros r _. ring.
  Qed.
  Lemma normal j : (j < k)%nat -> sum_to n (fun r => w r * Z r j * (y r - fit b r)) = 0.
  Proof using HR.
    intros Hj. rewrite (sum_to_ext n _ (fun r => w r * Z r j * y r - w r * Z r j * fit b r)) by (intros; ring). rewrite <- sum_to_minus, gfit. fold (c j).
    assert (E : sum_to k (fun i => G j i * b i) = c j); [|lra]. unfold b. transitivity (sum_to k (fun i => sum_to k (fun l => G j i * H i l * c l))).
    - apply sum_to_ext. intros i _. rewrite sum_to_scal. apply sum_to_ext. intros l _. ring.
    - rewrite sum_to_swap. transitivity (sum_to k (fun l => delta j l * c l)); [|apply sum_delta; auto]. apply sum_to_ext. intros l Hl. rewrite <- HR by auto. rewrite Rmult_comm, sum_to_scal. apply sum_to_ext. intros i _. ring.
  Qed.
  (** whoever meets the normal equations is [b] *)
  Lemma only b' : (forall j, (j < k)%nat -> sum_to n (fun r => w r * Z r j * (y r - fit b' r)) = 0) -> forall i, (i < k)%nat -> b' i = b i.
  Proof using HL.
    intros Hn i Hi. unfold b. assert (E : forall j, (j < k)%nat -> c j = sum_to k (fun i => G j i * b' i)).
    { intros j Hj. specialize (Hn j Hj). rewrite (sum_to_ext n _ (fun r => w r * Z r j * y r - w r * Z r j * fit b' r)) in Hn by (intros; ring). rewrite <- sum_to_minus, gfit in Hn. fold (c j) in Hn. lra. }
    transitivity (sum_to k (fun l => sum_to k (fun j => H i l * G l j * b' j))).
    - rewrite sum_to_swap. transitivity (sum_to k (fun j => delta i j * b' j)); [symmetry; apply sum_delta; auto|]. apply sum_to_ext. intros j Hj. rewrite <- HL by auto. rewrite Rmult_comm, sum_to_scal. apply sum_to_ext. intros l _. ring.
    - apply sum_to_ext. intros l Hl. rewrite E by auto. rewrite sum_to_scal. apply sum_to_ext. intros j _. ring.
  Qed.
End algebra.
Section least.
  Context (n k : nat) (w : nat -> R) (X : nat -> nat -> R) (y : nat -> R) (b : nat -> R).
  Let fit (b : nat -> R) (r : nat) := sum_to k (fun j => X r j * b j).
  Context (HN : forall j, (j < k)%nat -> sum_to n (fun r => w r * X r j * (y r - fit b r)) = 0).
  Let sse b' := sum_to n (fun r => w r * (y r - fit b' r) ^ 2).
  Lemma split_sse b' : sse b' = sse b + sum_to n (fun r => w r * (fit b r - fit b' r) ^ 2).
  Proof using HN.
    unfold sse. rewrite sum_to_plus.
    assert (E : sum_to n (fun r => w r * (y r - fit b r) * (fit b r - fit b' r)) = 0).
    { transitivity (sum_to k (fun j => (b j - b' j) * sum_to n (fun r => w r * X r j * (y r - fit b r)))).
      - transitivity (sum_to n (fun r => sum_to k (fun j => w r * (y r - fit b r) * (X r j * (b j - b' j))))).
        + apply sum_to_ext. intros r _. rewrite <- sum_to_scal. f_equal. unfold fit. rewrite sum_to_minus. apply sum_to_ext. intros j _. ring.
        + rewrite sum_to_swap. apply sum_to_ext. intros j _. rewrite sum_to_scal. apply sum_to_ext. intros r _. ring.
      - rewrite (sum_to_ext k _ (fun _ => 0)); [apply sum_to_zero|]. intros j Hj. rewrite HN by auto. lra. }
    transitivity (sum_to n (fun r => w r * (y r - fit b r) ^ 2 + w r * (fit b r - fit b' r) ^ 2) + 2 * sum_to n (fun r => w r * (y r - fit b r) * (fit b r - fit b' r))); [|lra].
    rewrite sum_to_scal, sum_to_plus. apply sum_to_ext. intros r _. ring.
  Qed.
  Context (Hw : forall r, (r < n)%nat -> 0 <= w r).
  Lemma least b' : sse b <= sse b' /\ (sse b' = sse b -> forall j, (j < k)%nat -> sum_to n (fun r => w r * X r j * (y r - fit b' r)) = 0).
  Proof using HN Hw.
    pose proof (split_sse b') as SP. assert (N : forall r, (r < n)%nat -> 0 <= w r * (fit b r - fit b' r) ^ 2) by (intros r Hr; apply Rmult_le_pos; [apply Hw; auto|apply pow2_ge_0]). pose proof (sum_to_nonneg n _ N) as N1. split; [lra|].
    intros E j Hj. assert (E0 : sum_to n (fun r => w r * (fit b r - fit b' r) ^ 2) = 0) by lra. pose proof (sum_to_null n _ N E0) as Z0.
    rewrite <- (HN j Hj). apply sum_to_ext. intros r Hr. specialize (Z0 r Hr). cbv beta in Z0.
    apply Rmult_integral in Z0 as [->|Z0]; [ring|]. assert (fit b r - fit b' r = 0) by (apply Rsqr_0_uniq; unfold Rsqr; lra). replace (fit b' r) with (fit b r) by lra. auto.
  Qed.
End least.
(** ---------- the computation ---------- *)
Definition sq (w : option (list R)) (i : nat) : R := match w with Some w => R_sqrt.sqrt (nth i w 0) | None => 1 end.
Lemma sq_sq d y X i : regression d y X -> (i < gr X)%nat -> sq (wts d) i * sq (wts d) i = weight (wts d) i /\ 0 <= weight (wts d) i.
Proof.
  intros (_ & _ & _ & _ & Hw) Hi. unfold sq, weight. destruct (wts d) as [w|]; [|lra]. destruct (Hw w eq_refl) as [Hl Hp]. assert (0 <= nth i w 0) by (apply Hp, nth_In; lia). split; auto. apply sqrt_sqrt. auto.
Qed.
Lemma elt_row (m : grid R) i r : ga m !! i = Some r -> forall j, elt m false i j = nth j r 0.
Proof. intros H j. symmetry. apply row_elt. auto. Qed.
Lemma nth_zip {A B} (f : A -> B -> R) a b da db i : (i < length a)%nat -> (i < length b)%nat -> nth i (zip_with f a b) 0 = f (nth i a da) (nth i b db).
Proof.
  revert b i. induction a as [|x a IH]; intros [|y b] [|i] H1 H2; cbn in *; try lia; auto. apply IH; lia.
Qed.
Definition set_of (d : page R) (s : lm) : res (page R) := match wts d with
  | None => Ok d
  | Some w => match vect d, mat d with
    | Some y, Some m => let q := map R_sqrt.sqrt w in
        do y' <- vzip Rmult y q;
        if (length q =? gr m)%nat then Ok (set_wts (set_mat (set_vec d (Some y')) (Some (scale_rows q m))) (Some (if destroy s then q else w))) else UB
    | _, _ => UB end
  end.
Lemma set_ok d y X s : regression d y X -> exists set y' X', set_of d s = Ok set /\ vect set = Some y' /\ mat set = Some X' /\ wf_grid X' /\ gr X' = gr X /\ gc X' = gc X /\ length y' = gr X /\
  (forall i, (i < gr X)%nat -> nth i y' 0 = nth i y 0 * sq (wts d) i) /\ (forall i j, (i < gr X)%nat -> elt X' false i j = elt X false i j * sq (wts d) i) /\ (wts d = None -> set = d /\ y' = y /\ X' = X).
Proof.
  intros (Hy & HX & WX & Ly & Hw). unfold set_of, sq. destruct (wts d) as [w|].
  - rewrite Hy, HX. cbv zeta. destruct (Hw w eq_refl) as [Hl _]. unfold vzip. rewrite map_length. rewrite (proj2 (Nat.eqb_eq _ _)) by lia. cbn [rbind]. rewrite (proj2 (Nat.eqb_eq _ _)) by lia.
    eexists _, _, _. split; [reflexivity|]. split; [reflexivity|]. split; [reflexivity|]. destruct WX as [W1 W2].
    assert (Lz : length (zip_with (fun c r => map (fun x => x * c) r) (map R_sqrt.sqrt w) (ga X)) = gr X) by (rewrite zip_with_length, map_length; lia).
    split; [split; cbn; [exact Lz|]|].
    { apply List.Forall_forall. intros r Hr. apply elem_of_list_In, elem_of_list_lookup in Hr as (i & Hi). rewrite lookup_zip_with in Hi. destruct (map R_sqrt.sqrt w !! i); [|discriminate]. cbn in Hi. destruct (ga X !! i) as [rr|] eqn:Err; [|discriminate]. cbn in Hi. injection Hi as <-. rewrite map_length. rewrite Forall_lookup in W2. eauto. }
    split; [reflexivity|]. split; [reflexivity|]. split; [rewrite zip_with_length, map_length; lia|]. split; [|split; [|discriminate]].
    + intros i Hi. rewrite (nth_zip _ _ _ 0 (R_sqrt.sqrt 0)) by (rewrite ?map_length; lia). rewrite map_nth. auto.
    + intros i j Hi. destruct (lookup_lt_is_Some_2 (ga X) i) as [r Er]; [lia|]. destruct (lookup_lt_is_Some_2 w i) as [x Ex]; [lia|]. rewrite (elt_row X i r Er).
      rewrite (elt_row _ i (map (fun z => z * R_sqrt.sqrt x) r)); [|cbn; rewrite lookup_zip_with, list_lookup_fmap, Ex; cbn; rewrite Er; auto].
      rewrite <- (Rmult_0_l (R_sqrt.sqrt x)) at 1. rewrite (map_nth (fun z => z * R_sqrt.sqrt x)). f_equal. f_equal. symmetry. apply nth_lookup_Some. auto.
  - exists d, y, X. repeat (split; auto). intros i Hi. lra. intros; lra.
Qed.
Definition the_beta (w : option (list R)) (X : grid R) (y : list R) (H : grid R) : nat -> R := fun i => sum_to (gc X) (fun l => elt H false i l * sum_to (gr X) (fun r => weight w r * elt X false r l * nth r y 0)).
Definition skips (s : lm) : bool := match parts s with Some p => negb (pwc p) && negb (pwp p) | None => negb (want_cov s) && negb (want_exp s) end.
Definition has_pred (s : lm) : bool := match parts s with Some _ => true | None => want_exp s end.
Lemma nth_of (l : list R) i x : l !! i = Some x -> nth i l 0 = x.
Proof. apply nth_lookup_Some. Qed.
Lemma cell_elt (m : grid R) i j x : cell m i j = Some x -> elt m false i j = x.
Proof. unfold elt. intros ->. auto. Qed.
Lemma ddot_self l : ddot_loop l l 0 = sum_to (length l) (fun i => nth i l 0 ^ 2).
Proof. rewrite ddot_nth by auto. rewrite Rplus_0_l. apply sum_to_ext. intros. ring. Qed.
Lemma xpx_ok d y X s set : regression d y X -> set_of d s = Ok set -> exists M v, the_mat (apop_dot set set "t" "000") = Ok M /\ the_vec (apop_dot set set "t" "v") = Ok v /\ wf_grid M /\ gr M = gc X /\ gc M = gc X /\ length v = gc X /\
  (forall i j, (i < gc X)%nat -> (j < gc X)%nat -> cell M i j = Some (gram (wts d) X i j)) /\ (forall i, (i < gc X)%nat -> nth i v 0 = sum_to (gr X) (fun r => weight (wts d) r * elt X false r i * nth r y 0)).
Proof.
  intros Hr Hset. destruct (set_ok d y X s Hr) as (set' & y' & X' & E & Vy & VX & WX & G1 & G2 & Ly & Ny & NX & _). rewrite Hset in E. injection E as <-.
  destruct (C33_matrix_matrix set set "t" "000" X' X' VX VX) as (o1 & M & D1 & _ & _ & M1 & WM & RM & CM & CellM & _); auto; try discriminate.
  destruct (C33_matrix_vector set set "t" "v" X' y' VX) as (o2 & v & D2 & _ & _ & V2 & Lv & NV & _); auto; try discriminate. { cbn. lia. }
  cbn in RM, CM, Lv. exists M, v. rewrite D1, D2. unfold the_mat, the_vec. rewrite M1, V2. split; [auto|]. split; [auto|]. split; [auto|]. split; [lia|]. split; [lia|]. split; [lia|]. split.
  - intros i j Hi Hj. rewrite CellM by lia. f_equal. change (snd (shape_of X' (transposing "t"))) with (gr X'). rewrite G1. unfold gram. apply sum_to_ext. intros l Hl. change (transposing "t") with true. change (transposing "000") with false. change (elt X' true i l) with (elt X' false l i). rewrite !NX by lia. destruct (sq_sq d y X l Hr Hl) as [<- _]. ring.
  - intros i Hi. rewrite (nth_of v i _ (NV i ltac:(lia))). rewrite Ly. apply sum_to_ext. intros l Hl. change (elt X' (transposing "t") i l) with (elt X' false l i). rewrite NX, Ny by lia. destruct (sq_sq d y X l Hr Hl) as [<- _]. ring.
Qed.
Lemma estimate_ok linv hh d y X s H : regression d y X -> inverts linv (gc X) (gram (wts d) X) H -> skips s = false ->
  exists set beta yw fw ew, set_of d s = Ok set /\ length beta = gc X /\ (forall i, (i < gc X)%nat -> nth i beta 0 = the_beta (wts d) X y H i) /\
    length yw = gr X /\ length fw = gr X /\ length ew = gr X /\
    (forall i, (i < gr X)%nat -> nth i yw 0 = nth i y 0 * sq (wts d) i /\ nth i ew 0 = (fitted X beta i - nth i y 0) * sq (wts d) i /\ nth i fw 0 = fitted X beta i * sq (wts d) i) /\
    estimate_ols linv hh d s = let s2 := if (gr X <? gc X)%nat then None else cdiv (wsse (wts d) X y beta) (INR (gr X - gc X)) in
      if has_pred s then Ok (OE (if destroy s then set else d) beta (prep_names (nms d) name_alloc) (Is (match s2 with None => None | Some q => Some (Gr (gr H) (gc H) (map (map (fun x => x * q)) (ga H))) end)) (Is s2) (Is (yw, fw, ew)) (pred_names (nms d))) else UB.
Proof.
  intros Hr [Hinv Hlinv] Hs. destruct (set_ok d y X s Hr) as (set & y' & X' & E & Vy & VX & WX & G1 & G2 & Ly & Ny & NX & _).
  destruct (xpx_ok d y X s set Hr E) as (M & v & DM & Dv & WM & GM1 & GM2 & Lv & CM & Nv).
  specialize (Hlinv M WM GM1 GM2 CM). destruct Hinv as (WH & H1 & H2 & HL & HR).
  destruct (C33_matrix_vector (of_mat H) (of_vec v) "000" "000" H v) as (o3 & beta & D3 & _ & _ & V3 & L3 & N3 & _); auto; try discriminate. { cbn. lia. }
  destruct (C33_matrix_vector set (of_vec beta) "000" "000" X' beta) as (o4 & fw & D4 & _ & _ & V4 & L4 & N4 & _); auto; try discriminate. { cbn. cbn in L3. lia. }
  cbn in L3, L4.
  assert (Nb : forall i, (i < gc X)%nat -> nth i beta 0 = the_beta (wts d) X y H i).
  { intros i Hi. rewrite (nth_of beta i _ (N3 i ltac:(lia))). rewrite Lv. unfold the_beta. apply sum_to_ext. intros l Hl. change (transposing "000") with false. rewrite Nv by auto. auto. }
  assert (Nf : forall i, (i < gr X)%nat -> nth i fw 0 = fitted X beta i * sq (wts d) i).
  { intros i Hi. rewrite (nth_of fw i _ (N4 i ltac:(lia))). rewrite L3, H1. unfold fitted. rewrite Rmult_comm, sum_to_scal. apply sum_to_ext. intros l Hl. change (transposing "000") with false. rewrite NX by auto. ring. }
  set (ew := zip_with Rminus fw y'). assert (Lew : length ew = gr X) by (unfold ew; rewrite zip_with_length; lia).
  assert (New : forall i, (i < gr X)%nat -> nth i ew 0 = (fitted X beta i - nth i y 0) * sq (wts d) i).
  { intros i Hi. unfold ew. rewrite (nth_zip _ _ _ 0 0) by lia. rewrite Nf, Ny by auto. ring. }
  exists set, beta, y', (zip_with Rplus y' ew), ew. split; [auto|]. split; [lia|]. split; [auto|]. split; [lia|]. split; [rewrite zip_with_length; lia|]. split; [auto|]. split.
  { intros i Hi. split; [auto|]. split; [auto|]. rewrite (nth_zip _ _ _ 0 0) by lia. rewrite New, Ny by auto. ring. }
  unfold estimate_ols. fold (set_of d s). rewrite E. cbn [rbind]. rewrite DM, Dv. cbn [rbind]. unfold xpxinvxpy. fold (skips s). rewrite Hs, Hlinv. rewrite D3. unfold the_vec at 1. rewrite V3. cbn [rbind]. rewrite D4. unfold the_vec. rewrite V4. cbn [rbind]. rewrite Vy, VX. unfold vzip. rewrite (proj2 (Nat.eqb_eq _ _)) by lia. cbn [rbind]. fold ew.
  assert (Es : ddot_loop ew ew 0 = wsse (wts d) X y beta).
  { rewrite ddot_self, Lew. apply sum_to_ext. intros i Hi. rewrite New by auto. destruct (sq_sq d y X i Hr Hi) as [<- _]. ring. }
  rewrite Es, G1, G2. fold (has_pred s). destruct (has_pred s); reflexivity.
Qed.
