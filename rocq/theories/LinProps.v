(** C33: apop_dot; C55: apop_vector_bounded. *)
From Coq Require Import Reals Lra.
From Verif Require Import DataModel StatsModel StatsSpec NamesProofs AccessProps LinModel.
Local Open Scope list_scope.
Local Open Scope nat_scope.

(** the sum of f(0), ..., f(n-1) *)
Definition sum_to (n : nat) (f : nat -> R) : R := Rsum (map f (seq 0 n)).
(** the (i,j) element of a matrix, or of its transpose if [t] *)
Definition elt (m : grid R) (t : bool) (i j : nat) : R :=
  default 0%R (if t then cell m j i else cell m i j).
(** the shape of a matrix, or of its transpose *)
Definition shape_of (m : grid R) (t : bool) : nat * nat := if t then (gc m, gr m) else (gr m, gc m).
(** 't', 'p' and 1 ask for a transpose *)
Definition transposing (c : ascii) : bool := existsb (Ascii.eqb c) ["t"; "p"; "001"]%char.

Lemma sum_to_S n f : sum_to (S n) f = (sum_to n f + f n)%R.
Proof.
  unfold sum_to. rewrite seq_S, map_app. cbn [Nat.add map]. generalize (map f (seq 0 n)). intros l.
  induction l as [|x l IH]; cbn; [lra|]. unfold Rsum in *. cbn in *. rewrite IH. lra.
Qed.
Lemma sum_to_ext n f g : (forall k, k < n -> f k = g k) -> sum_to n f = sum_to n g.
Proof. intros H. unfold sum_to. f_equal. apply map_ext_in. intros k Hk. apply in_seq in Hk. apply H. lia. Qed.
Lemma sum_to_scal n c f : (c * sum_to n f)%R = sum_to n (fun k => c * f k)%R.
Proof. induction n as [|n IH]; [unfold sum_to; cbn; lra|]. rewrite !sum_to_S, <- IH. lra. Qed.
Lemma sum_to_plus n f g : (sum_to n f + sum_to n g)%R = sum_to n (fun k => f k + g k)%R.
Proof. induction n as [|n IH]; [unfold sum_to; cbn; lra|]. rewrite !sum_to_S, <- IH. lra. Qed.
Lemma sum_to_zero n : sum_to n (fun _ => 0%R) = 0%R.
Proof. induction n as [|n IH]; [reflexivity|]. rewrite sum_to_S, IH. lra. Qed.
Lemma sum_to_swap n m f : sum_to n (fun i => sum_to m (fun j => f i j)) = sum_to m (fun j => sum_to n (fun i => f i j)).
Proof.
  induction n as [|n IH]; [unfold sum_to at 1; cbn; symmetry; apply sum_to_zero|].
  rewrite sum_to_S, IH, sum_to_plus. apply sum_to_ext. intros. rewrite sum_to_S. auto.
Qed.

Lemma ddot_nth x : forall y r, length x = length y -> ddot_loop x y r = (r + sum_to (length x) (fun k => nth k x 0 * nth k y 0))%R.
Proof.
  induction x as [|a x IH]; intros [|b y] r Hl; try discriminate; cbn [ddot_loop length].
  - unfold sum_to. cbn. lra.
  - cbn in Hl. rewrite IH by lia. unfold sum_to. cbn [seq map]. unfold Rsum at 2. cbn [fold_right nth].
    change (fold_right Rplus 0%R) with Rsum.
    rewrite <- seq_shift, map_map. cbn [nth]. lra.
Qed.
Lemma row_elt (m : grid R) i r k : ga m !! i = Some r -> nth k r 0%R = elt m false i k.
Proof.
  intros H. unfold elt, cell. rewrite H. revert k. clear H. induction r as [|x r IH]; intros [|k]; cbn; auto.
Qed.
Lemma elt_gt m i j : wf_grid m -> elt (gtranspose m) false i j = elt m true i j.
Proof. intros Hw. unfold elt. destruct (gtranspose_spec m Hw) as [_ H]. rewrite H. auto. Qed.
Lemma wf_row_len {A} (m : grid A) i r : wf_grid m -> ga m !! i = Some r -> length r = gc m.
Proof. intros [_ H] Hr. rewrite Forall_lookup in H. eauto. Qed.
Definition opg (t : bool) (m : grid R) := if t then gtranspose m else m.
Lemma opg_wf t m : wf_grid m -> wf_grid (opg t m).
Proof. intros H. destruct t; auto. apply gtranspose_spec; auto. Qed.
Lemma opg_elt t m i j : wf_grid m -> elt (opg t m) false i j = elt m t i j.
Proof. intros H. destruct t; auto. apply elt_gt; auto. Qed.
Lemma opg_shape t m : (gr (opg t m), gc (opg t m)) = shape_of m t.
Proof. destruct t; auto. Qed.

(** dgemv and dgemm in terms of elements *)
Lemma dgemv_spec t m v : wf_grid m -> snd (shape_of m t) = length v ->
  exists w, dgemv t m v = Some w /\ length w = fst (shape_of m t) /\
    forall i, i < length w -> w !! i = Some (sum_to (length v) (fun k => elt m t i k * nth k v 0)%R).
Proof.
  intros Hw Hl. unfold dgemv. fold (opg t m). pose proof (opg_shape t m) as Hs. rewrite <- Hs in *. cbn [fst snd] in *.
  rewrite (proj2 (Nat.eqb_eq _ _) Hl). eexists. split; [reflexivity|]. destruct (opg_wf t m Hw) as [H1 H2]. rewrite map_length. split; auto.
  intros i Hi. rewrite list_lookup_fmap. destruct (lookup_lt_is_Some_2 _ _ Hi) as [r Hr]. rewrite Hr. cbn. f_equal.
  assert (Hrl : length r = gc (opg t m)) by (eapply wf_row_len; eauto; apply opg_wf; auto).
  rewrite ddot_nth by lia. rewrite Rplus_0_l. rewrite Hrl, Hl. apply sum_to_ext. intros k _. rewrite (row_elt _ _ _ k Hr), opg_elt by auto. auto.
Qed.
Lemma dgemm_spec lt rt l r : wf_grid l -> wf_grid r -> snd (shape_of l lt) = fst (shape_of r rt) ->
  exists m, dgemm lt rt l r = Some m /\ wf_grid m /\ gr m = fst (shape_of l lt) /\ gc m = snd (shape_of r rt) /\
    forall i j, i < gr m -> j < gc m -> cell m i j = Some (sum_to (snd (shape_of l lt)) (fun k => elt l lt i k * elt r rt k j)%R).
Proof.
  intros Hl Hr Hs. unfold dgemm. change (if lt then gtranspose l else l) with (opg lt l).
  set (rr := if rt then r else gtranspose r).
  assert (Hwr : wf_grid rr) by (unfold rr; destruct rt; auto; apply gtranspose_spec; auto).
  assert (Her : forall k j, elt rr false j k = elt r rt k j).
  { intros. unfold rr. destruct rt; unfold elt; auto. destruct (gtranspose_spec r Hr) as [_ H]. rewrite H. auto. }
  assert (Hsr : gc rr = fst (shape_of r rt) /\ gr rr = snd (shape_of r rt)) by (unfold rr; destruct rt; auto). destruct Hsr as [Hs1 Hs2].
  pose proof (opg_shape lt l) as Hsl. rewrite <- Hsl in *. cbn [fst snd] in *.
  rewrite (proj2 (Nat.eqb_eq _ _)) by lia. eexists. split; [reflexivity|]. destruct (opg_wf lt l Hl) as [H1 H2]. destruct Hwr as [H3 H4].
  split; [|split; [reflexivity|split; [auto|]]].
  - split; cbn; [rewrite map_length; auto|]. rewrite List.Forall_map. apply List.Forall_forall. intros x _. rewrite map_length. auto.
  - cbn [gr gc]. intros i j Hi Hj. unfold cell. cbn [ga]. rewrite list_lookup_fmap.
    destruct (lookup_lt_is_Some_2 (ga (opg lt l)) i) as [x Hx]; [lia|]. rewrite Hx. cbn. rewrite list_lookup_fmap.
    destruct (lookup_lt_is_Some_2 (ga rr) j) as [y Hy]; [lia|]. rewrite Hy. cbn. f_equal.
    assert (length x = gc (opg lt l)) by (eapply wf_row_len; eauto; split; auto).
    assert (length y = gc rr) by (eapply wf_row_len; eauto; split; auto).
    rewrite ddot_nth by lia. rewrite Rplus_0_l. rewrite H. apply sum_to_ext. intros k _.
    rewrite (row_elt _ _ _ k Hx), (row_elt _ _ _ k Hy), opg_elt, Her by auto. auto.
Qed.

Lemma transposing_is c : is_trans c = transposing c.
Proof.
  unfold is_trans, transposing. cbn. rewrite orb_false_r. destruct (Ascii.eqb_spec c "p"), (Ascii.eqb_spec c "t"); auto.
Qed.
Lemma names_r (d : page R) (t : bool) : rown (if t then name_stack name_alloc (nms d) "r" "c" else name_stack name_alloc (nms d) "r" "r") = (if t then coln (nms d) else rown (nms d))
  /\ coln (if t then name_stack name_alloc (nms d) "r" "c" else name_stack name_alloc (nms d) "r" "r") = [].
Proof.
  destruct t; unfold name_stack; cbn [Ascii.eqb Bool.eqb].
  - pose proof (add_all_row name_alloc (coln (nms d))) as (R1 & R2 & _). cbn in R1. rewrite R1, R2. auto.
  - pose proof (add_all_row name_alloc (rown (nms d))) as (R1 & R2 & _). cbn in R1. rewrite R1, R2. auto.
Qed.
Lemma names_c n (d : page R) (t : bool) : coln n = [] -> coln (if t then name_stack n (nms d) "c" "r" else name_stack n (nms d) "c" "c") = (if t then rown (nms d) else coln (nms d))
  /\ rown (if t then name_stack n (nms d) "c" "r" else name_stack n (nms d) "c" "c") = rown n.
Proof.
  intros Hn. destruct t; unfold name_stack; cbn [Ascii.eqb Bool.eqb].
  - pose proof (add_all_col n (rown (nms d))) as (R1 & R2 & _). rewrite R1, R2, Hn. auto.
  - pose proof (add_all_col n (coln (nms d))) as (R1 & R2 & _). rewrite R1, R2, Hn. auto.
Qed.

(** C33: matrix times matrix: the product of the requested (possibly transposed) matrices, rows named as the left factor's, columns as the
    right factor's. *)
Theorem C33_matrix_matrix : forall d1 d2 form1 form2 l r, mat d1 = Some l -> mat d2 = Some r -> form1 <> "v"%char -> form2 <> "v"%char ->
  wf_grid l -> wf_grid r -> let t1 := transposing form1 in let t2 := transposing form2 in
  snd (shape_of l t1) = fst (shape_of r t2) ->
  exists out m, apop_dot d1 d2 form1 form2 = Some out /\ err out = None /\ vect out = None /\ mat out = Some m /\ wf_grid m /\
    gr m = fst (shape_of l t1) /\ gc m = snd (shape_of r t2) /\
    (forall i j, i < gr m -> j < gc m -> cell m i j = Some (sum_to (snd (shape_of l t1)) (fun k => elt l t1 i k * elt r t2 k j)%R)) /\
    rown (nms out) = (if t1 then coln (nms d1) else rown (nms d1)) /\ coln (nms out) = (if t2 then rown (nms d2) else coln (nms d2)).
Proof.
  intros d1 d2 form1 form2 l r E1 E2 N1 N2 W1 W2 t1 t2 Hs. unfold apop_dot, choose. rewrite E1, E2.
  rewrite (proj2 (Ascii.eqb_neq _ _) N1), (proj2 (Ascii.eqb_neq _ _) N2). cbn [negb]. rewrite !transposing_is. fold t1 t2.
  destruct (dgemm_spec t1 t2 l r W1 W2 Hs) as (m & H1 & H2 & H3 & H4 & H5). rewrite H1.
  assert (Hd : ((if t1 then gr l else gc l) =? (if t2 then gc r else gr r)) = true).
  { apply Nat.eqb_eq. unfold shape_of in Hs. destruct t1, t2; auto. }
  rewrite Hd. cbn [negb]. eexists _, m. split; [reflexivity|]. cbn [err vect mat nms set_nms set_mat set_vec]. split; auto. split; auto. split; auto. split; auto. split; auto. split; auto. split; auto.
  destruct (names_r d1 t1) as [R1 R2]. destruct (names_c _ d2 t2 R2) as [C1 C2]. rewrite C1, C2, R1. auto.
Qed.
Print Assumptions C33_matrix_matrix.

(** C33: a vector on the left is a row vector: the result is the vector of its products with the columns of the (possibly transposed) right
    matrix. *)
Theorem C33_vector_matrix : forall d1 d2 form1 form2 v r, vect d1 = Some v -> (mat d1 = None \/ form1 = "v"%char) -> mat d2 = Some r -> form2 <> "v"%char ->
  wf_grid r -> let t2 := transposing form2 in length v = fst (shape_of r t2) ->
  exists out w, apop_dot d1 d2 form1 form2 = Some out /\ err out = None /\ mat out = None /\ vect out = Some w /\ length w = snd (shape_of r t2) /\
    (forall j, j < length w -> w !! j = Some (sum_to (length v) (fun k => nth k v 0 * elt r t2 k j)%R)) /\
    rown (nms out) = [] /\ coln (nms out) = (if t2 then rown (nms d2) else coln (nms d2)).
Proof.
  intros d1 d2 form1 form2 v r E1 E1' E2 N2 W2 t2 Hs. unfold apop_dot.
  assert (Hc : choose d1 form1 = Some (OVec v)). { unfold choose. rewrite E1. destruct E1' as [->| ->]; auto. destruct (mat d1); auto. }
  rewrite Hc. unfold choose. rewrite E2, (proj2 (Ascii.eqb_neq _ _) N2). cbn [negb]. rewrite !transposing_is. fold t2.
  assert (Hd : (length v =? (if t2 then gc r else gr r)) = true) by (apply Nat.eqb_eq; unfold shape_of in Hs; destruct t2; auto).
  rewrite Hd. cbn [negb]. unfold dot_for_apop_dot.
  destruct (dgemv_spec (negb t2) r v W2) as (w & H1 & H2 & H3); [unfold shape_of in *; destruct t2; auto|]. rewrite H1.
  eexists _, w. split; [reflexivity|]. cbn [err vect mat nms set_nms set_mat set_vec]. split; auto. split; auto. split; auto. split; [unfold shape_of in *; destruct t2; auto|]. split.
  - intros j Hj. rewrite (H3 j Hj). f_equal. apply sum_to_ext. intros k _. unfold elt. destruct t2; cbn [negb]; apply Rmult_comm.
  - destruct (names_c name_alloc d2 t2 eq_refl) as [C1 C2]. rewrite C1, C2. auto.
Qed.
Print Assumptions C33_vector_matrix.

(** C33: a vector on the right is a column vector. *)
Theorem C33_matrix_vector : forall d1 d2 form1 form2 l v, mat d1 = Some l -> form1 <> "v"%char -> vect d2 = Some v -> (mat d2 = None \/ form2 = "v"%char) ->
  wf_grid l -> let t1 := transposing form1 in snd (shape_of l t1) = length v ->
  exists out w, apop_dot d1 d2 form1 form2 = Some out /\ err out = None /\ mat out = None /\ vect out = Some w /\ length w = fst (shape_of l t1) /\
    (forall i, i < length w -> w !! i = Some (sum_to (length v) (fun k => elt l t1 i k * nth k v 0)%R)) /\
    rown (nms out) = (if t1 then coln (nms d1) else rown (nms d1)) /\ coln (nms out) = [].
Proof.
  intros d1 d2 form1 form2 l v E1 N1 E2 E2' W1 t1 Hs. unfold apop_dot.
  assert (Hc : choose d2 form2 = Some (OVec v)). { unfold choose. rewrite E2. destruct E2' as [->| ->]; auto. destruct (mat d2); auto. }
  unfold choose at 1. rewrite E1, (proj2 (Ascii.eqb_neq _ _) N1). cbn [negb]. rewrite Hc. rewrite !transposing_is. fold t1.
  assert (Hd : ((if t1 then gr l else gc l) =? length v) = true) by (apply Nat.eqb_eq; unfold shape_of in Hs; destruct t1; auto).
  rewrite Hd. cbn [negb]. unfold dot_for_apop_dot.
  destruct (dgemv_spec t1 l v W1 Hs) as (w & H1 & H2 & H3). rewrite H1.
  eexists _, w. split; [reflexivity|]. cbn [err vect mat nms set_nms set_mat set_vec]. split; auto. split; auto. split; auto. split; auto. split; auto. apply names_r.
Qed.
Print Assumptions C33_matrix_vector.

(** C33: two vectors of the same length: a vector holding their scalar product. *)
Theorem C33_vector_vector : forall d1 d2 form1 form2 v w, vect d1 = Some v -> (mat d1 = None \/ form1 = "v"%char) ->
  vect d2 = Some w -> (mat d2 = None \/ form2 = "v"%char) -> length v = length w ->
  exists out, apop_dot d1 d2 form1 form2 = Some out /\ err out = None /\ mat out = None /\
    vect out = Some [sum_to (length v) (fun k => nth k v 0 * nth k w 0)%R] /\ nms out = name_alloc.
Proof.
  intros d1 d2 form1 form2 v w E1 E1' E2 E2' Hl. unfold apop_dot.
  assert (Hc1 : choose d1 form1 = Some (OVec v)). { unfold choose. rewrite E1. destruct E1' as [->| ->]; auto. destruct (mat d1); auto. }
  assert (Hc2 : choose d2 form2 = Some (OVec w)). { unfold choose. rewrite E2. destruct E2' as [->| ->]; auto. destruct (mat d2); auto. }
  rewrite Hc1, Hc2. unfold ddot. rewrite Hl, Nat.eqb_refl. eexists. split; [reflexivity|]. cbn [err vect mat nms set_nms set_mat set_vec]. split; auto. split; auto. split; auto.
  rewrite ddot_nth by auto. rewrite Hl, Rplus_0_l. auto.
Qed.
Print Assumptions C33_vector_vector.

(** C33: dimensions that do not match, with a matrix on either side: error 'd' and nothing computed. *)
Theorem C33_mismatch : forall d1 d2 form1 form2,
  (forall l r, mat d1 = Some l -> mat d2 = Some r -> form1 <> "v"%char -> form2 <> "v"%char ->
     snd (shape_of l (transposing form1)) <> fst (shape_of r (transposing form2)) ->
     exists out, apop_dot d1 d2 form1 form2 = Some out /\ err out = Some "d"%char /\ vect out = None /\ mat out = None) /\
  (forall v r, vect d1 = Some v -> (mat d1 = None \/ form1 = "v"%char) -> mat d2 = Some r -> form2 <> "v"%char ->
     length v <> fst (shape_of r (transposing form2)) ->
     exists out, apop_dot d1 d2 form1 form2 = Some out /\ err out = Some "d"%char /\ vect out = None /\ mat out = None) /\
  (forall l v, mat d1 = Some l -> form1 <> "v"%char -> vect d2 = Some v -> (mat d2 = None \/ form2 = "v"%char) ->
     snd (shape_of l (transposing form1)) <> length v ->
     exists out, apop_dot d1 d2 form1 form2 = Some out /\ err out = Some "d"%char /\ vect out = None /\ mat out = None).
Proof.
  intros d1 d2 form1 form2. unfold apop_dot, shape_of. rewrite !transposing_is. generalize (transposing form1), (transposing form2). intros t1 t2.
  assert (HV : forall d form v, vect d = Some v -> (mat d = None \/ form = "v"%char) -> choose d form = Some (OVec v)).
  { intros d form v E1 E2. unfold choose. rewrite E1. destruct E2 as [->| ->]; auto. destruct (mat d); auto. }
  assert (HM : forall d form l, mat d = Some l -> form <> "v"%char -> choose d form = Some (OMat l)).
  { intros d form l E1 N1. unfold choose. rewrite E1, (proj2 (Ascii.eqb_neq _ _) N1). auto. }
  split; [|split].
  - intros l r E1 E2 N1 N2 Hs. rewrite (HM _ _ _ E1 N1), (HM _ _ _ E2 N2).
    destruct (Nat.eqb_spec (if t1 then gr l else gc l) (if t2 then gc r else gr r)) as [E|E]; [exfalso; apply Hs; destruct t1, t2; auto|].
    eexists. split; [reflexivity|]. auto.
  - intros v r E1 E1' E2 N2 Hs. rewrite (HV _ _ _ E1 E1'), (HM _ _ _ E2 N2).
    destruct (Nat.eqb_spec (length v) (if t2 then gc r else gr r)) as [E|E]; [exfalso; apply Hs; destruct t2; auto|].
    eexists. split; [reflexivity|]. auto.
  - intros l v E1 N1 E2 E2' Hs. rewrite (HM _ _ _ E1 N1), (HV _ _ _ E2 E2').
    destruct (Nat.eqb_spec (if t1 then gr l else gc l) (length v)) as [E|E]; [exfalso; apply Hs; destruct t1; auto|].
    eexists. split; [reflexivity|]. auto.
Qed.
Print Assumptions C33_mismatch.
(** C33: no usable part on one side: NULL. *)
Theorem C33_no_part : forall d1 d2 form1 form2,
  (vect d1 = None /\ (mat d1 = None \/ form1 = "v"%char)) \/ (vect d2 = None /\ (mat d2 = None \/ form2 = "v"%char)) ->
  apop_dot d1 d2 form1 form2 = None.
Proof.
  intros d1 d2 form1 form2 H. unfold apop_dot.
  assert (HV : forall d form, vect d = None -> (mat d = None \/ form = "v"%char) -> choose d form = None).
  { intros d form E1 E2. unfold choose. rewrite E1. destruct E2 as [->| ->]; auto. destruct (mat d); auto. }
  destruct H as [[H1 H2]|[H1 H2]]; rewrite (HV _ _ H1 H2); auto. destruct (choose d1 form1); auto.
Qed.
Print Assumptions C33_no_part.

Lemma cell_ext (m n : grid R) : wf_grid m -> wf_grid n -> gr m = gr n -> gc m = gc n ->
  (forall i j, i < gr m -> j < gc m -> cell m i j = cell n i j) -> m = n.
Proof.
  intros [A1 A2] [B1 B2] Hr Hc H. destruct m as [r c a], n as [r' c' b]. cbn in *. subst r' c' r. cut (a = b); [intros ->; auto|]. apply list_eq. intros i.
  destruct (decide (i < length a)) as [Hi|Hi]; [|rewrite !lookup_ge_None_2; auto; lia].
  destruct (lookup_lt_is_Some_2 a i Hi) as [x Hx]. destruct (lookup_lt_is_Some_2 b i) as [y Hy]; [lia|]. rewrite Hx, Hy. f_equal.
  rewrite Forall_lookup in A2, B2. pose proof (A2 _ _ Hx). pose proof (B2 _ _ Hy). apply list_eq. intros j.
  destruct (decide (j < length x)) as [Hj|Hj]; [|rewrite !lookup_ge_None_2; auto; lia].
  specialize (H i j). unfold cell in H. cbn in H. rewrite Hx, Hy in H. apply H; lia.
Qed.
(** C33: the product is associative, ... *)
Theorem C33_associative : forall d1 d2 d3 a b c, mat d1 = Some a -> mat d2 = Some b -> mat d3 = Some c ->
  wf_grid a -> wf_grid b -> wf_grid c -> gc a = gr b -> gc b = gr c ->
  exists ab bc out1 out2, apop_dot d1 d2 "n" "n" = Some ab /\ apop_dot ab d3 "n" "n" = Some out1 /\
    apop_dot d2 d3 "n" "n" = Some bc /\ apop_dot d1 bc "n" "n" = Some out2 /\
    mat out1 = mat out2 /\ err out1 = None /\ err out2 = None.
Proof.
  intros d1 d2 d3 a b c E1 E2 E3 W1 W2 W3 H1 H2.
  destruct (C33_matrix_matrix d1 d2 "n" "n" a b) as (ab & mab & A1 & A2 & A3 & A4 & A5 & A6 & A7 & A8 & _); auto; try discriminate.
  destruct (C33_matrix_matrix d2 d3 "n" "n" b c) as (bc & mbc & B1 & B2 & B3 & B4 & B5 & B6 & B7 & B8 & _); auto; try discriminate.
  change (transposing "n") with false in *; change (transposing "t") with true in *; cbn [shape_of fst snd] in A6, A7, A8, B6, B7, B8.
  destruct (C33_matrix_matrix ab d3 "n" "n" mab c) as (o1 & m1 & C1 & C2 & C3 & C4 & C5 & C6 & C7 & C8 & _); auto; try discriminate; [cbn; lia|].
  destruct (C33_matrix_matrix d1 bc "n" "n" a mbc) as (o2 & m2 & D1 & D2 & D3 & D4 & D5 & D6 & D7 & D8 & _); auto; try discriminate; [cbn; lia|].
  change (transposing "n") with false in *; change (transposing "t") with true in *; cbn [shape_of fst snd] in C6, C7, C8, D6, D7, D8.
  exists ab, bc, o1, o2. split; auto. split; auto. split; auto. split; auto. split; auto.
  rewrite C4, D4. f_equal. apply cell_ext; auto; try lia.
  intros i j Hi Hj. rewrite C8, D8 by lia. f_equal.
  transitivity (sum_to (gc mab) (fun k => sum_to (gc a) (fun l => elt a false i l * elt b false l k * elt c false k j)%R)).
  - apply sum_to_ext. intros k Hk. assert (HA : elt mab false i k = sum_to (gc a) (fun l => elt a false i l * elt b false l k)%R) by (unfold elt at 1; rewrite A8 by lia; auto).
    rewrite HA.
    rewrite Rmult_comm, sum_to_scal. apply sum_to_ext. intros. lra.
  - rewrite sum_to_swap. apply sum_to_ext. intros l Hl. assert (HB : elt mbc false l j = sum_to (gc b) (fun k => elt b false l k * elt c false k j)%R) by (unfold elt at 1; rewrite B8 by lia; auto).
    rewrite HB, sum_to_scal, A7. apply sum_to_ext. intros. lra.
Qed.
Print Assumptions C33_associative.
(** ... and transposing the product is the product of the transposes in the other order. *)
Theorem C33_transpose : forall d1 d2 a b, mat d1 = Some a -> mat d2 = Some b -> wf_grid a -> wf_grid b -> gc a = gr b ->
  exists out1 out2 m1 m2, apop_dot d1 d2 "n" "n" = Some out1 /\ apop_dot d2 d1 "t" "t" = Some out2 /\
    mat out1 = Some m1 /\ mat out2 = Some m2 /\ gr m2 = gc m1 /\ gc m2 = gr m1 /\
    (forall i j, i < gr m1 -> j < gc m1 -> cell m2 j i = cell m1 i j) /\
    rown (nms out2) = coln (nms out1) /\ coln (nms out2) = rown (nms out1).
Proof.
  intros d1 d2 a b E1 E2 W1 W2 H.
  destruct (C33_matrix_matrix d1 d2 "n" "n" a b) as (o1 & m1 & A1 & A2 & A3 & A4 & A5 & A6 & A7 & A8 & A9 & A10); auto; try discriminate.
  destruct (C33_matrix_matrix d2 d1 "t" "t" b a) as (o2 & m2 & B1 & B2 & B3 & B4 & B5 & B6 & B7 & B8 & B9 & B10); auto; try discriminate.
  change (transposing "n") with false in *; change (transposing "t") with true in *; cbn [shape_of fst snd] in A6, A7, A8, A9, A10, B6, B7, B8, B9, B10. exists o1, o2, m1, m2. rewrite A9, A10, B9, B10. split; auto. split; auto. split; auto. split; auto. split; [lia|]. split; [lia|].
  split; auto. intros i j Hi Hj. rewrite A8, B8 by lia. f_equal. rewrite H. apply sum_to_ext. intros. apply Rmult_comm.
Qed.
Print Assumptions C33_transpose.

Example C33_nonvacuous : exists out, 
  apop_dot (Pg None (Some (Gr 1 2 [[1; 2]]%R)) None None name_alloc None) (Pg None (Some (Gr 3 2 [[1; 0]; [0; 1]; [1; 1]]%R)) None None name_alloc None) "n" "t" = Some out
  /\ option_map ga (mat out) = Some [[1; 2; 3]]%R.
Proof. eexists. split; [reflexivity|]. cbn. repeat f_equal; lra. Qed.

(** C33: vectors of different lengths give error 'm' (documented: 'd' for dimensions). *)
Theorem C33_vector_mismatch_refuted : forall d1 d2 form1 form2 v w, vect d1 = Some v -> mat d1 = None -> vect d2 = Some w -> mat d2 = None ->
  length v <> length w -> exists out, apop_dot d1 d2 form1 form2 = Some out /\ err out = Some "m"%char.
Proof.
  intros d1 d2 form1 form2 v w E1 M1 E2 M2 Hl. unfold apop_dot, choose. rewrite E1, M1, E2, M2. cbn. unfold ddot.
  rewrite (proj2 (Nat.eqb_neq _ _) Hl). eexists. split; reflexivity.
Qed.
Print Assumptions C33_vector_mismatch_refuted.

(** C55: apop_vector_bounded answers whether every element is finite and, with a bound, at most that bound in absolute value. *)
Theorem C55_bounded : forall v max, vector_bounded v max = true <->
  forall i x, v !! i = Some x -> exists y, x = Some y /\ (forall b, max = Some b -> (- b <= y <= b)%R).
Proof.
  intros v max. induction v as [|x v IH]; cbn [vector_bounded].
  - split; auto. intros _ i x Hi. discriminate.
  - assert (HC : forall P : option R -> Prop, (forall i y, (x :: v) !! i = Some y -> P y) <-> P x /\ forall i y, v !! i = Some y -> P y).
    { intros P. split; [intros H; split; [apply (H 0); auto|intros i; apply (H (S i))]|]. intros [H1 H2] [|i] y; cbn; [congruence|apply H2]. }
    rewrite HC. destruct x as [x|]; [|split; [discriminate|intros [(y & ? & _) _]; discriminate]].
    destruct max as [b|].
    + destruct (Rlt_dec b x) as [H1|H1]; [split; [discriminate|intros [(y & [= <-] & H) _]; specialize (H b eq_refl); lra]|].
      destruct (Rlt_dec x (- b)) as [H2|H2]; [split; [discriminate|intros [(y & [= <-] & H) _]; specialize (H b eq_refl); lra]|].
      rewrite IH. split; [|tauto]. intros H. split; auto. exists x. split; auto. intros ? [= <-]. lra.
    + rewrite IH. split; [|tauto]. intros H. split; auto. exists x. split; auto. discriminate.
Qed.
Print Assumptions C55_bounded.
Example C55_nonvacuous : vector_bounded [Some 1; Some (-2)]%R (Some 3%R) = true /\ vector_bounded [Some 1%R; None] None = false.
Proof. cbn. split; auto. repeat destruct (Rlt_dec _ _); auto; lra. Qed.
(** C55: documented: -max < x < max; an element equal to the bound passes. *)
Theorem C55_boundary_refuted : forall b, (0 <= b)%R -> vector_bounded [Some b; Some (- b)]%R (Some b) = true.
Proof. intros b Hb. cbn. repeat destruct (Rlt_dec _ _); auto; lra. Qed.
Print Assumptions C55_boundary_refuted.
