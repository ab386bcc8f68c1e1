(** C08: apop_data_split. *)
From Verif Require Import StackProofs DataProps StackProps DataModel.
Local Open Scope string_scope.
Local Open Scope list_scope.
Local Open Scope nat_scope.

(** Every part present has more than [sp] rows. *)
Definition taller {E} (sp : nat) (p : page E) : Prop :=
  (forall v, vect p = Some v -> sp < length v) /\ (forall v, wts p = Some v -> sp < length v) /\
  (forall m, mat p = Some m -> sp < gr m /\ 0 < gc m) /\ (forall t, txt p = Some t -> sp < gr t).
Definition top {A} (sp : nat) (m : grid A) : grid A := Gr sp (gc m) (take sp (ga m)).
Definition bottom {A} (sp : nat) (m : grid A) : grid A := Gr (gr m - sp) (gc m) (drop sp (ga m)).

Definition rows_split {E} (sp : nat) (p a b : page E) : Prop :=
  vect a = option_map (take sp) (vect p) /\ vect b = option_map (drop sp) (vect p) /\
  wts a = option_map (take sp) (wts p) /\ wts b = option_map (drop sp) (wts p) /\
  mat a = option_map (top sp) (mat p) /\ mat b = option_map (bottom sp) (mat p) /\
  txt a = option_map (top sp) (txt p) /\ txt b = option_map (bottom sp) (txt p) /\
  rown (nms a) = take sp (rown (nms p)) /\ rown (nms b) = drop sp (rown (nms p)) /\
  coln (nms a) = coln (nms p) /\ coln (nms b) = coln (nms p) /\
  (txt p <> None -> txtn (nms a) = txtn (nms p) /\ txtn (nms b) = txtn (nms p)) /\
  vecn (nms a) = vecn (nms p) /\ vecn (nms b) = vecn (nms p) /\ err a = None /\ err b = None.

Lemma opt_subvec_top {E} (v : option (list E)) sp : 0 < sp -> (forall l, v = Some l -> sp < length l) ->
  opt_subvec v 0 sp = Ok (option_map (take sp) v).
Proof.
  intros H0 H. destruct v as [l|]; cbn; auto. specialize (H l eq_refl). unfold subvec.
  replace ((0 <? sp) && (0 + sp <=? length l)) with true by lia. cbn. rewrite drop_0. auto.
Qed.
Lemma opt_subvec_bottom {E} (v : option (list E)) sp n : 0 < sp -> (forall l, v = Some l -> sp < length l /\ n = length l - sp) ->
  opt_subvec v sp n = Ok (option_map (drop sp) v).
Proof.
  intros H0 H. destruct v as [l|]; cbn; auto. destruct (H l eq_refl) as [H1 ->]. unfold subvec.
  replace ((0 <? _) && (_ <=? length l)) with true by lia. cbn. rewrite (take_ge (drop sp l)); auto.
  rewrite drop_length. lia.
Qed.
Lemma rows_full {A} (m : grid A) rows : wf_grid m -> (forall r, In r rows -> In r (ga m)) ->
  map (fun r => take (gc m) (drop 0 r)) rows = rows.
Proof.
  intros [_ Hf] Hin. rewrite <- (map_id rows) at 2. apply map_ext_in. intros r Hr. rewrite drop_0, take_ge; auto.
  rewrite List.Forall_forall in Hf. rewrite (Hf r); auto.
Qed.
Lemma submat_top {E} (m : grid E) sp : wf_grid m -> 0 < sp < gr m -> 0 < gc m -> submat m 0 0 sp (gc m) = Ok (top sp m).
Proof.
  intros Hw Hs Hc. unfold submat. replace (_ && _) with true by lia. unfold top. rewrite drop_0.
  rewrite (rows_full m); auto. intros r Hr. rewrite <- (take_drop sp (ga m)). apply in_app_iff; auto.
Qed.
Lemma submat_bottom {E} (m : grid E) sp : wf_grid m -> 0 < sp < gr m -> 0 < gc m -> submat m sp 0 (gr m - sp) (gc m) = Ok (bottom sp m).
Proof.
  intros Hw Hs Hc. unfold submat. replace (_ && _) with true by lia. unfold bottom.
  rewrite (take_ge (drop sp _)) by (rewrite drop_length, (proj1 Hw); lia).
  rewrite (rows_full m); auto. intros r Hr. rewrite <- (take_drop sp (ga m)). apply in_app_iff; auto.
Qed.

Lemma names_v (o n : names) : let m := name_stack o n "v" "v" in
  rown m = rown o /\ coln m = coln o /\ txtn m = txtn o /\ vecn m = (match vecn n with Some v => Some v | None => vecn o end).
Proof. unfold name_stack. cbn. destruct (vecn n); cbn; auto. Qed.

Lemma half_names (n : names) (l : list string) b :
  let m := stack_if b (name_stack (add_all (name_stack name_alloc n "v" "v") l "r") n "c" "c") n "t" in
  rown m = l /\ coln m = coln n /\ (b = true -> txtn m = txtn n) /\ vecn m = vecn n.
Proof.
  cbv zeta. destruct (names_v name_alloc n) as (A1 & A2 & A3 & A4).
  set (m0 := name_stack name_alloc n "v" "v") in *.
  destruct (add_all_row m0 l) as (B1 & B2 & B3 & _ & B5 & _). set (m1 := add_all m0 l "r") in *.
  change (name_stack m1 n "c" "c") with (add_all m1 (coln n) "c").
  destruct (add_all_col m1 (coln n)) as (C1 & C2 & C3 & _ & C5 & _). set (m2 := add_all m1 (coln n) "c") in *.
  unfold stack_if. destruct b.
  - change (name_stack m2 n "t" "t") with (add_all m2 (txtn n) "t").
    destruct (add_all_txt m2 (txtn n)) as (D1 & D2 & D3 & _ & D5 & _).
    rewrite D1, D2, D3, D5, C1, C2, C3, C5, B1, B2, B3, B5, A1, A2, A3, A4. cbn. destruct (vecn n); auto.
  - rewrite C1, C2, C3, C5, B1, B2, B5, A1, A2, A4. cbn. split; auto. split; auto. split; [discriminate|]. destruct (vecn n); auto.
Qed.

Lemma C08_rows_aux E (g : E) (d : adata E) (sp : nat) :
  sane (head d) -> 0 < sp -> taller sp (head d) ->
  exists a b, data_split g d (Z.of_nat sp) "r" = Ok (Some (Last a), Some (Last b)) /\ rows_split sp (head d) a b.
Proof.
  intros [Hm Ht] H0 (T1 & T2 & T3 & T4). unfold data_split. cbn [is_r]. change (is_r "r") with true. cbn iota.
  unfold split_rows. cbv zeta. replace (Z.of_nat sp <=? 0)%Z with false by lia. rewrite Nat2Z.id.
  set (p := head d) in *.
  replace (match mat p with Some m => gr m <=? sp | None => false end) with false.
  2:{ destruct (mat p) as [m|] eqn:Em; auto. destruct (T3 m eq_refl). lia. }
  rewrite opt_subvec_top by auto. cbn [rbind].
  rewrite opt_subvec_bottom. 2: auto. 2:{ intros l Hl. split; auto. unfold vsz. rewrite Hl. auto. } cbn [rbind].
  rewrite opt_subvec_top by auto. cbn [rbind].
  rewrite opt_subvec_bottom. 2: auto. 2:{ intros l Hl. split; auto. unfold wsz. rewrite Hl. auto. } cbn [rbind].
  replace (match mat p with None => Ok None | Some m => do s <- submat m 0 0 sp (gc m); Ok (Some s) end)
    with (Ok (option_map (top sp) (mat p))).
  2:{ destruct (mat p) as [m|] eqn:Em; auto. destruct (T3 m eq_refl). rewrite submat_top; auto. }
  cbn [rbind].
  replace (match mat p with None => Ok None | Some m => do s <- submat m sp 0 (gr m - sp) (gc m); Ok (Some s) end)
    with (Ok (option_map (bottom sp) (mat p))).
  2:{ destruct (mat p) as [m|] eqn:Em; auto. destruct (T3 m eq_refl). rewrite submat_bottom; auto. }
  cbn [rbind].
  change ("r" =? "r")%char with true. cbn [andb].
  assert ((if has_text p then split_text (txt p) sp else Ok (None, None)) =
    Ok (option_map (top sp) (txt p), option_map (bottom sp) (txt p)) /\ (txt p <> None -> has_text p = true /\ sp <? tsz1 p = true)) as [Et Hh].
  { unfold has_text, tsz1, tsz2. destruct (txt p) as [t|] eqn:Et; [|split; [auto|congruence]].
    destruct (Ht t eq_refl) as (Hw & Hr & Hc). pose proof (T4 t eq_refl).
    replace (negb ((gr t =? 0) || (gc t =? 0))) with true by lia. split; [|split; [auto|lia]].
    unfold split_text. replace ((gr t =? 0) || (gc t =? 0)) with false by lia.
    replace (sp - gr t) with 0 by lia. cbn [replicate]. rewrite app_nil_r. replace (sp <? gr t) with true by lia. reflexivity. }
  rewrite Et. cbn [rbind].
  eexists _, _; split; [reflexivity|].
  destruct (half_names (nms p) (take sp (rown (nms p))) (has_text p && (sp <? tsz1 p))) as (N1 & N2 & N3 & N4).
  destruct (half_names (nms p) (drop sp (rown (nms p))) (has_text p)) as (M1 & M2 & M3 & M4).
  unfold rows_split. cbn [vect wts mat txt nms err]. rewrite N1, N2, N4, M1, M2, M4.
  do 12 (split; [reflexivity|]). split; [|auto].
  intros Hx. destruct (Hh Hx) as [Hh1 Hh2]. rewrite N3, M3; auto. rewrite Hh1, Hh2; auto.
Qed.
(** C08: splitting a set before row [sp], 0 < sp < the height of each part, cuts the vector, weights, matrix, text and
    row names into the first [sp] and the rest; column, vector and text names go to both.
    Missing: sets whose parts have different heights, and a split point past a vector with no matrix (refuted). *)
Theorem C08_row_split : forall E (g : E) (d : adata E) (sp : nat),
  sane (head d) -> 0 < sp -> taller sp (head d) ->
  exists a b, data_split g d (Z.of_nat sp) "r" = Ok (Some (Last a), Some (Last b)) /\ rows_split sp (head d) a b.
Proof. exact C08_rows_aux. Qed.
Print Assumptions C08_row_split.

(** C08: a split point at or before row 0 gives NULL and a copy; at or past the matrix's end, a copy and NULL. *)
Lemma C08_out_aux E (g : E) (d : adata E) sp : acyclic d = true -> Forall sane (pages d) -> Forall (fun p => err p = None) (pages d) ->
  exists c, Forall2 duplicates (pages d) (pages c) /\
    ((sp <= 0)%Z -> data_split g d sp "r" = Ok (None, Some c)) /\
    (forall m, mat (head d) = Some m -> (Z.of_nat (gr m) <= sp)%Z -> (0 < sp)%Z -> data_split g d sp "r" = Ok (Some c, None)).
Proof.
  intros Ha Hs He. destruct (C04_aux E g d Ha Hs He) as (c & Ec & _ & HF). exists c. split; auto.
  unfold data_split. change (is_r "r") with true. cbn iota. unfold split_rows. cbv zeta. split.
  - intros H. replace (sp <=? 0)%Z with true by lia. rewrite Ec. reflexivity.
  - intros m Em H1 H2. replace (sp <=? 0)%Z with false by lia. rewrite Em.
    replace (gr m <=? Z.to_nat sp) with true by lia. rewrite Ec. reflexivity.
Qed.
Theorem C08_row_split_ends : forall E (g : E) (d : adata E) sp,
  acyclic d = true -> Forall sane (pages d) -> Forall (fun p => err p = None) (pages d) ->
  exists c, Forall2 duplicates (pages d) (pages c) /\
    ((sp <= 0)%Z -> data_split g d sp "r" = Ok (None, Some c)) /\
    (forall m, mat (head d) = Some m -> (Z.of_nat (gr m) <= sp)%Z -> (0 < sp)%Z -> data_split g d sp "r" = Ok (Some c, None)).
Proof. exact C08_out_aux. Qed.
Print Assumptions C08_row_split_ends.

(** ---- restacking ---- *)
Definition same_data {E} (p q : page E) : Prop :=
  vect q = vect p /\ wts q = wts p /\ mat q = mat p /\ txt q = txt p /\
  rown (nms q) = rown (nms p) /\ coln (nms q) = coln (nms p).
Lemma grid_halves {A} (m : grid A) sp : sp <= gr m -> Gr (sp + (gr m - sp)) (gc m) (take sp (ga m) ++ drop sp (ga m)) = m.
Proof. intros H. rewrite take_drop. destruct m; cbn in *. f_equal; lia. Qed.
Lemma wf_top {A} (m : grid A) sp : wf_grid m -> sp <= gr m -> wf_grid (top sp m).
Proof. intros [H1 H2] H. split; cbn; [rewrite take_length; lia|apply Forall_take; auto]. Qed.
Lemma wf_bottom {A} (m : grid A) sp : wf_grid m -> wf_grid (bottom sp m).
Proof. intros [H1 H2]. split; cbn; [rewrite drop_length; lia|apply Forall_drop; auto]. Qed.

Lemma C08_restack_aux E (g : E) (d : adata E) (sp : nat) inplace :
  sane (head d) -> 0 < sp -> taller sp (head d) ->
  exists a b o, data_split g d (Z.of_nat sp) "r" = Ok (Some a, Some b) /\
    data_stack g (Some a) (Some b) "r" inplace = Ok (Some o) /\ same_data (head d) (head o).
Proof.
  intros Hs H0 HT. destruct (C08_rows_aux E g d sp Hs H0 HT) as (a & b & E1 & HS).
  destruct HS as (A1&A2&A3&A4&A5&A6&A7&A8&A9&A10&A11&A12&A13&A14&A15&A16&A17).
  destruct HT as (T1 & T2 & T3 & T4). destruct Hs as [Hm Ht]. set (p := head d) in *.
  assert (wf_page a) as Wa.
  { split.
    - intros m. rewrite A5. destruct (mat p) as [m'|] eqn:Em; cbn; [|discriminate]. intros [= <-]. apply wf_top; auto.
      destruct (T3 m' eq_refl). lia.
    - intros m. rewrite A7. destruct (txt p) as [m'|] eqn:Em; cbn; [|discriminate]. intros [= <-].
      destruct (Ht m' eq_refl) as (?&?&?). pose proof (T4 m' eq_refl). split; [apply wf_top; auto; lia|cbn; lia]. }
  assert (wf_page b) as Wb.
  { split.
    - intros m. rewrite A6. destruct (mat p) as [m'|] eqn:Em; cbn; [|discriminate]. intros [= <-]. apply wf_bottom; auto.
    - intros m. rewrite A8. destruct (txt p) as [m'|] eqn:Em; cbn; [|discriminate]. intros [= <-].
      destruct (Ht m' eq_refl) as (?&?&?). pose proof (T4 m' eq_refl). split; [apply wf_bottom; auto|cbn; lia]. }
  exists (Last a), (Last b).
  destruct (data_stack_reduce g (Last a) (Last b) true inplace (same_data p)) as (o & Eo & Ho); cbn [head]; auto.
  2:{ exists o. auto. }
  intros out Hout Hwo Heo.
  assert (vect out = vect a /\ mat out = mat a /\ wts out = wts a /\ txt out = txt a /\
     rown (nms out) = rown (nms a) /\ coln (nms out) = coln (nms a))
     as (D1 & D2 & D3 & D4 & L1 & L2).
  { destruct Hout as [((?&?&?&?) & (?&?&?) & _)| ->]; auto 12. }
  destruct (stack_body_rows inplace a out b) as (r & Er & V & W & M & T & R & C & X & _ & _ & EE); auto.
  { rewrite D4, A7, A8. destruct (txt p); cbn; [intros ? ? [= <-] [= <-]; auto|discriminate]. }
  exists r; split; auto. unfold same_data. rewrite V, W, M, T, R, C, D1, D2, D3, D4, L1, L2, A1, A2, A3, A4, A5, A6, A7, A8, A9, A10, A11.
  split. { destruct (vect p); cbn; auto. rewrite take_drop; auto. }
  split. { destruct (wts p); cbn; auto. rewrite take_drop; auto. }
  split. { destruct (mat p) as [m|]; cbn; auto. rewrite Nat.eqb_refl, grid_halves; auto. destruct (T3 m eq_refl); lia. }
  split. { destruct (txt p) as [m|]; cbn; auto. rewrite grid_halves; auto. pose proof (T4 m eq_refl); lia. }
  split; auto.
  unfold row_names_stacked. destruct (drop sp (rown (nms p))) as [|s l] eqn:Ed.
  - rewrite <- (take_drop sp (rown (nms p))) at 2. rewrite Ed, app_nil_r. auto.
  - assert (length (drop sp (rown (nms p))) = S (length l)) as Hl by (rewrite Ed; auto). rewrite drop_length in Hl.
    assert (length (take sp (rown (nms p))) = sp) as Hl2 by (rewrite take_length; lia). rewrite Hl2.
    assert (Nat.max (vsz a) (msz1 a) <= sp) as Hmx.
    { unfold vsz, msz1. rewrite A1, A5. destruct (vect p), (mat p); cbn; rewrite ?take_length; lia. }
    replace (_ - sp) with 0 by lia. cbn [replicate app]. rewrite <- Ed. apply take_drop.
Qed.
(** C08: stacking the two halves by row restores data and names, in place or not. *)
Theorem C08_row_split_restack : forall E (g : E) (d : adata E) (sp : nat) inplace,
  sane (head d) -> 0 < sp -> taller sp (head d) ->
  exists a b o, data_split g d (Z.of_nat sp) "r" = Ok (Some a, Some b) /\
    data_stack g (Some a) (Some b) "r" inplace = Ok (Some o) /\ same_data (head d) (head o).
Proof. exact C08_restack_aux. Qed.
Print Assumptions C08_row_split_restack.

(** ---- columns ---- *)
Definition left {A} (sp : nat) (m : grid A) : grid A := Gr (gr m) sp (map (take sp) (ga m)).
Definition right {A} (sp : nat) (m : grid A) : grid A := Gr (gr m) (gc m - sp) (map (drop sp) (ga m)).
Definition cols_split {E} (sp : nat) (p a b : page E) : Prop :=
  vect a = vect p /\ vect b = None /\ wts a = wts p /\ wts b = wts p /\
  (forall m, mat p = Some m -> mat a = (if sp =? 0 then None else Some (left sp m)) /\ mat b = Some (right sp m)) /\
  txt a = None /\ txt b = None /\
  rown (nms a) = rown (nms p) /\ rown (nms b) = rown (nms p) /\
  coln (nms a) = take sp (coln (nms p)) /\ coln (nms b) = drop sp (coln (nms p)) /\
  (vect p <> None -> vecn (nms a) = vecn (nms p)) /\ err a = None /\ err b = None.

Lemma opt_subvec_all {E} (v : option (list E)) n : (forall l, v = Some l -> 0 < length l /\ n = length l) ->
  opt_subvec v 0 n = Ok v.
Proof.
  intros H. destruct v as [l|]; cbn; auto. destruct (H l eq_refl) as [H1 ->]. unfold subvec.
  replace (_ && _) with true by lia. cbn. rewrite drop_0, take_ge by lia. auto.
Qed.
Lemma submat_left {E} (m : grid E) sp : wf_grid m -> 0 < gr m -> 0 < sp < gc m -> submat m 0 0 (gr m) sp = Ok (left sp m).
Proof.
  intros Hw Hs Hc. unfold submat. replace (_ && _) with true by lia. unfold left. rewrite drop_0.
  rewrite take_ge by (rewrite (proj1 Hw); lia). do 2 f_equal.
Qed.
Lemma submat_right {E} (m : grid E) sp : wf_grid m -> 0 < gr m -> sp < gc m -> submat m 0 sp (gr m) (gc m - sp) = Ok (right sp m).
Proof.
  intros Hw Hs Hc. unfold submat. replace (_ && _) with true by lia. unfold right. rewrite drop_0.
  rewrite take_ge by (rewrite (proj1 Hw); lia). do 2 f_equal. apply map_ext_in. intros r Hr. rewrite take_ge; auto.
  rewrite drop_length. destruct Hw as [_ Hf]. rewrite List.Forall_forall in Hf. rewrite (Hf r Hr). lia.
Qed.

Lemma C08_cols_aux E (g : E) (d : adata E) (sp : nat) m :
  mat (head d) = Some m -> wf_grid m -> 0 < gr m -> sp < gc m ->
  (forall v, vect (head d) = Some v -> 0 < length v) -> (forall v, wts (head d) = Some v -> 0 < length v) ->
  exists a b, data_split g d (Z.of_nat sp) "c" = Ok (Some (Last a), Some (Last b)) /\ cols_split sp (head d) a b.
Proof.
  intros Em Hw Hr Hsp Hv Hwt. unfold data_split. change (is_r "c") with false. change (is_c "c") with true. cbn iota.
  unfold split_cols. cbv zeta. set (p := head d) in *.
  rewrite opt_subvec_all. 2:{ intros l Hl. split; auto. unfold wsz. rewrite Hl; auto. } cbn [rbind].
  replace (Z.of_nat sp <=? -1)%Z with false by lia. rewrite Nat2Z.id, Em.
  replace (gc m <=? sp) with false by lia.
  rewrite opt_subvec_all. 2:{ intros l Hl. split; auto. unfold vsz. rewrite Hl; auto. } cbn [rbind].
  set (hv := match vect p with Some _ => true | None => false end).
  set (n1 := name_stack (stack_if hv name_alloc (nms p) "v") (nms p) "r" "r").
  set (n2 := name_stack name_alloc (nms p) "r" "r").
  assert (rown n1 = rown (nms p) /\ coln n1 = [] /\ (vect p <> None -> vecn n1 = vecn (nms p))) as (N1 & N2 & N3).
  { unfold n1. change (name_stack ?o ?n "r" "r") with (add_all o (rown n) "r").
    destruct (add_all_row (stack_if hv name_alloc (nms p) "v") (rown (nms p))) as (B1 & B2 & B3 & _ & B5 & _).
    rewrite B1, B2, B5. unfold stack_if, hv. destruct (names_v name_alloc (nms p)) as (A1 & A2 & A3 & A4).
    destruct (vect p); [rewrite A1, A2, A4|]; cbn; split; auto; split; auto; try congruence. intros _. destruct (vecn (nms p)); auto. }
  assert (rown n2 = rown (nms p) /\ coln n2 = []) as (N4 & N5).
  { unfold n2. change (name_stack ?o ?n "r" "r") with (add_all o (rown n) "r").
    destruct (add_all_row name_alloc (rown (nms p))) as (B1 & B2 & _). rewrite B1, B2. auto. }
  clearbody n1 n2.
  destruct (sp =? 0) eqn:Esp.
  - assert (sp = 0) as -> by lia.
    assert (submat m 0 0 (gr m) (gc m) = Ok (right 0 m)) as ->.
    { rewrite <- (submat_right m 0) by auto. rewrite Nat.sub_0_r. auto. } cbn [rbind].
    eexists _, _; split; [reflexivity|]. unfold cols_split. cbn [vect wts mat txt nms err].
    change (name_stack n2 (nms p) "c" "c") with (add_all n2 (coln (nms p)) "c").
    destruct (add_all_col n2 (coln (nms p))) as (B1 & B2 & _). rewrite B1, B2, N1, N2, N4, N5, Em.
    do 4 (split; [auto|]). split. { intros ? [= <-]. auto. }
    do 5 (split; [auto|]). split; [rewrite drop_0; auto|]. auto.
  - rewrite submat_left by (auto; lia). cbn [rbind]. rewrite submat_right by auto. cbn [rbind].
    eexists _, _; split; [reflexivity|]. unfold cols_split. cbn [vect wts mat txt nms err].
    destruct (add_all_col n2 (drop sp (coln (nms p)))) as (B1 & B2 & _).
    destruct (add_all_col n1 (take sp (coln (nms p)))) as (A1 & A2 & _ & _ & A5 & _).
    rewrite A1, A2, A5, B1, B2, N1, N2, N4, N5, Em.
    do 4 (split; [auto|]). split. { intros ? [= <-]. rewrite Esp. auto. } auto 12.
Qed.
(** C08: splitting before column [sp] (0 <= sp < width) puts the vector and the first [sp] matrix columns, with
    their names, in the first set and the other columns in the second; row names and weights go to both. *)
Theorem C08_column_split : forall E (g : E) (d : adata E) (sp : nat) m,
  mat (head d) = Some m -> wf_grid m -> 0 < gr m -> sp < gc m ->
  (forall v, vect (head d) = Some v -> 0 < length v) -> (forall v, wts (head d) = Some v -> 0 < length v) ->
  exists a b, data_split g d (Z.of_nat sp) "c" = Ok (Some (Last a), Some (Last b)) /\ cols_split sp (head d) a b.
Proof. exact C08_cols_aux. Qed.
Print Assumptions C08_column_split.

Definition same_but_text {E} (p q : page E) : Prop :=
  vect q = vect p /\ wts q = wts p /\ mat q = mat p /\ rown (nms q) = rown (nms p) /\ coln (nms q) = coln (nms p).
Lemma zip_halves {A} (rows : list (list A)) sp : zip_with (++) (map (take sp) rows) (map (drop sp) rows) = rows.
Proof. induction rows as [|r rows IH]; cbn; auto. rewrite IH, take_drop. auto. Qed.
Lemma wf_left {A} (m : grid A) sp : wf_grid m -> sp <= gc m -> wf_grid (left sp m).
Proof.
  intros [H1 H2] H. split; cbn; [rewrite map_length; auto|]. apply Forall_map. eapply List.Forall_impl; [|exact H2].
  intros r Hr. cbn in *. rewrite take_length. lia.
Qed.
Lemma wf_right {A} (m : grid A) sp : wf_grid m -> wf_grid (right sp m).
Proof.
  intros [H1 H2]. split; cbn; [rewrite map_length; auto|]. apply Forall_map. eapply List.Forall_impl; [|exact H2].
  intros r Hr. cbn in *. rewrite drop_length. lia.
Qed.
Lemma C08_col_restack_aux E (g : E) (d : adata E) (sp : nat) m inplace :
  mat (head d) = Some m -> wf_grid m -> 0 < gr m -> sp < gc m ->
  (forall v, vect (head d) = Some v -> 0 < length v) -> (forall v, wts (head d) = Some v -> 0 < length v) ->
  exists a b o, data_split g d (Z.of_nat sp) "c" = Ok (Some a, Some b) /\
    data_stack g (Some a) (Some b) "c" inplace = Ok (Some o) /\ same_but_text (head d) (head o).
Proof.
  intros Em Hw Hr Hsp Hv Hwt. destruct (C08_cols_aux E g d sp m Em Hw Hr Hsp Hv Hwt) as (a & b & E1 & HS).
  destruct HS as (A1&A2&A3&A4&A5&A6&A7&A8&A9&A10&A11&_&A13&A14). set (p := head d) in *.
  destruct (A5 m Em) as [Ma Mb].
  assert (wf_page a) as Wa.
  { split; [|rewrite A6; discriminate]. intros m'. rewrite Ma. destruct (sp =? 0); [discriminate|]. intros [= <-]. apply wf_left; auto; lia. }
  assert (wf_page b) as Wb.
  { split; [|rewrite A7; discriminate]. intros m'. rewrite Mb. intros [= <-]. apply wf_right; auto; lia. }
  exists (Last a), (Last b).
  destruct (data_stack_reduce g (Last a) (Last b) false inplace (same_but_text p)) as (o & Eo & Ho); cbn [head]; auto.
  2:{ exists o. auto. }
  intros out Hout Hwo Heo.
  assert (vect out = vect a /\ mat out = mat a /\ wts out = wts a /\ txt out = txt a /\
     rown (nms out) = rown (nms a) /\ coln (nms out) = coln (nms a))
     as (D1 & D2 & D3 & D4 & L1 & L2).
  { destruct Hout as [((?&?&?&?) & (?&?&?) & _)| ->]; auto 12. }
  destruct (stack_body_cols inplace a out b) as (r & Er & V & W & M & T & C & R & X & _ & EE); auto.
  { rewrite D4, A6. discriminate. }
  exists r; split; auto. unfold same_but_text. rewrite V, W, M, R, C, D1, D2, D3, L1, L2, A1, A2, A3, A8, A10, A11, Ma, Mb, Em.
  split. { destruct (vect p); auto. } split; [auto|].
  split. { destruct (sp =? 0) eqn:Es; cbn.
    - assert (sp = 0) as -> by lia. unfold right. destruct m as [mr mc ma]; cbn. do 2 f_equal; [lia|].
      rewrite <- (map_id ma) at 2. apply map_ext. intros. apply drop_0.
    - rewrite Nat.eqb_refl. rewrite zip_halves. destruct m as [mr mc ma]; cbn in *. do 2 f_equal. lia. }
  split; [auto|].
  unfold row_names_stacked. destruct (drop sp (coln (nms p))) as [|s l] eqn:Ed.
  - rewrite <- (take_drop sp (coln (nms p))) at 2. rewrite Ed, app_nil_r. auto.
  - assert (length (drop sp (coln (nms p))) = S (length l)) as Hl by (rewrite Ed; auto). rewrite drop_length in Hl.
    assert (length (take sp (coln (nms p))) = sp) as Hl2 by (rewrite take_length; lia). rewrite Hl2.
    assert (msz2 a <= sp) as Hmx.
    { unfold msz2. rewrite Ma. destruct (sp =? 0); cbn; lia. }
    replace (msz2 a - sp) with 0 by lia. cbn [replicate app]. rewrite <- Ed. apply take_drop.
Qed.
(** C08: stacking the two column halves restores everything but the text. *)
Theorem C08_column_split_restack : forall E (g : E) (d : adata E) (sp : nat) m inplace,
  mat (head d) = Some m -> wf_grid m -> 0 < gr m -> sp < gc m ->
  (forall v, vect (head d) = Some v -> 0 < length v) -> (forall v, wts (head d) = Some v -> 0 < length v) ->
  exists a b o, data_split g d (Z.of_nat sp) "c" = Ok (Some a, Some b) /\
    data_stack g (Some a) (Some b) "c" inplace = Ok (Some o) /\ same_but_text (head d) (head o).
Proof. exact C08_col_restack_aux. Qed.
Print Assumptions C08_column_split_restack.

(** C08: a data set with a vector and no matrix: a split point at or past the end should give (copy, NULL), but
    the check looks at the matrix only and an out-of-range subvector is taken (GSL's handler is called). *)
Theorem C08_vector_past_end_refuted : forall E (g : E) (v : list E) (sp : Z) n,
  (0 < sp)%Z -> (Z.of_nat (length v) <= sp)%Z ->
  data_split g (Last (Pg (Some v) None None None n None)) sp "r" = UB.
Proof.
  intros E g v sp n H0 H. unfold data_split. change (is_r "r") with true. cbn iota. unfold split_rows. cbv zeta.
  replace (sp <=? 0)%Z with false by lia. cbn [head mat vect]. unfold opt_subvec at 1. unfold subvec at 1.
  destruct ((0 <? Z.to_nat sp) && (0 + Z.to_nat sp <=? length v)) eqn:Hb; [|reflexivity].
  cbn [rbind]. unfold opt_subvec at 1, subvec at 1, vsz. cbn [vect].
  replace ((0 <? length v - Z.to_nat sp) && _) with false by lia. reflexivity.
Qed.
Print Assumptions C08_vector_past_end_refuted.

(** C08: with 'R' instead of 'r' (documented as the same), the text is lost. *)
Theorem C08_capital_R_refuted : exists d : adata nat, sane (head d) /\ txt (head d) <> None /\
  exists a b, data_split 0 d 1 "R" = Ok (Some (Last a), Some (Last b)) /\ txt a = None /\ txt b = None.
Proof.
  exists (Last ex_page). split; [apply ex_page_clean|]. split; [discriminate|].
  eexists _, _; split; [vm_compute; reflexivity|]. auto.
Qed.
Print Assumptions C08_capital_R_refuted.

(** C08: text shorter than the split point: the first set gets text but no text names, and vice versa. *)
Theorem C08_short_text_names_refuted : exists d : adata nat,
  exists a b, data_split 0 d 2 "r" = Ok (Some (Last a), Some (Last b)) /\
    txt b = None /\ txtn (nms b) <> [] /\ txt a <> None /\ txtn (nms a) = [].
Proof.
  exists (Last (Pg (Some [1; 2; 3]) None None (Some (Gr 1 1 [["a"]])) (add1 name_alloc "t0" "t") None)).
  eexists _, _; split; [vm_compute; reflexivity|]. vm_compute. repeat split; discriminate.
Qed.
Print Assumptions C08_short_text_names_refuted.

Example C08_nonvacuous : sane ex_page /\ taller 1 ex_page /\
  exists a b, data_split 0 (Last ex_page) 1 "r" = Ok (Some (Last a), Some (Last b)) /\
    vect b = Some [2] /\ mat a = Some (Gr 1 1 [[3]]) /\ txt b = Some (Gr 1 1 [["b"]]) /\ rown (nms b) = ["r1"].
Proof.
  split; [apply ex_page_clean|]. split.
  - unfold taller; cbn. split; [intros ? [= <-]; cbn; lia|]. split; [intros ? [= <-]; cbn; lia|].
    split; intros ? [= <-]; cbn; lia.
  - eexists _, _; split; [vm_compute; reflexivity|]. vm_compute. auto.
Qed.
Example C08_columns_nonvacuous : exists a b,
  data_split 0 (Last ex_page) 0 "c" = Ok (Some (Last a), Some (Last b)) /\
    vect a = Some [1; 2] /\ mat b = Some (Gr 2 1 [[3]; [4]]) /\ coln (nms b) = ["c0"].
Proof. eexists _, _; split; [vm_compute; reflexivity|]. vm_compute. auto. Qed.
