(** C03, C04, C05, C09, C10: copying pages, removing rows and columns. *)
From Verif Require Import RmProofs NamesProps DataModel.
Local Open Scope string_scope.
Local Open Scope nat_scope.

(** ---------- C04 ---------- *)

(** two pages hold the same data, labels, title and error flag; [q]'s names can be looked up *)
Definition duplicates {E} (p q : page E) : Prop :=
  vect q = vect p /\ mat q = mat p /\ wts q = wts p /\ txt q = txt p /\
  rown (nms q) = rown (nms p) /\ coln (nms q) = coln (nms p) /\ txtn (nms q) = txtn (nms p) /\
  (forall s, title (nms p) = Some s -> title (nms q) = Some s) /\ err q = err p /\ hashes_ok (nms q).
(** a text grid, when present, is nonempty and rectangular *)
Definition sane {E} (p : page E) : Prop :=
  (forall m, mat p = Some m -> wf_grid m) /\ (forall t, txt p = Some t -> wf_grid t /\ 0 < gr t /\ 0 < gc t).

Lemma C04_aux E (g : E) (d : adata E) :
  acyclic d = true -> Forall sane (pages d) -> Forall (fun p => err p = None) (pages d) ->
  exists c, data_copy g d = Ok c /\ acyclic c = true /\ Forall2 duplicates (pages d) (pages c).
Proof.
  intros Ha Hs He. destruct (data_copy_spec g d Ha Hs He) as (c & Ec & Hac & _ & HF).
  exists c; split; auto. split; auto. eapply Forall2_impl; [exact HF|].
  intros p q ((?&?&?&?) & (?&?&?) & Ht & ? & ? & ?). unfold duplicates. intuition congruence.
Qed.
(** C04: apop_data_copy duplicates every page (all data, all row, column and text names, the title), with no
    error and no undefined behaviour.  Missing: the vector's name and a NULL title (refuted below). *)
Theorem C04_data_copy : forall E (g : E) (d : adata E),
  acyclic d = true -> Forall sane (pages d) -> Forall (fun p => err p = None) (pages d) ->
  exists c, data_copy g d = Ok c /\ acyclic c = true /\ Forall2 duplicates (pages d) (pages c).
Proof. exact C04_aux. Qed.
Print Assumptions C04_data_copy.

(** C04: a page linked to itself yields a set with error 'c'. *)
Theorem C04_self_link : forall E (g : E) p,
  exists q, data_copy g (Loop p) = Ok (Last q) /\ err q = Some "c"%char.
Proof. intros E g p. eexists; split; reflexivity. Qed.
Print Assumptions C04_self_link.

(** C04: the vector's name is never copied. *)
Lemma C04_vecn_aux E (g : E) p q : sane p -> err p = None -> data_copy g (Last p) = Ok (Last q) -> vecn (nms q) = None.
Proof.
  intros Hs He Hc. destruct (data_copy_spec g (Last p)) as (c & Ec & _ & _ & HF); cbn; auto.
  rewrite Hc in Ec. injection Ec as <-. cbn in HF. inversion HF; subst.
  match goal with H : good_copy _ _ |- _ => destruct H as (_&_&_&_&_&HV&_) end. exact HV.
Qed.
Theorem C04_vector_name_refuted : forall E (g : E) p q,
  sane p -> err p = None -> data_copy g (Last p) = Ok (Last q) -> vecn (nms q) = None.
Proof. exact C04_vecn_aux. Qed.
Print Assumptions C04_vector_name_refuted.

(** C04: an input carrying an error flag and text is "copied" with unset vector and matrix cells: the copy's
    vector is all garbage [g]. *)
Theorem C04_error_flag_refuted : exists p : page nat,
  sane p /\ forall g, exists q, data_copy g (Last p) = Ok (Last q) /\ vect p = Some [7; 8] /\ vect q = Some [g; g].
Proof.
  exists (Pg (Some [7; 8]) None None (Some (Gr 1 1 [["x"]])) name_alloc (Some "d"%char)).
  split.
  - split; cbn; intros ? [= <-]. repeat split; auto. repeat constructor.
  - intros g. eexists; split; [reflexivity|]. auto.
Qed.
Print Assumptions C04_error_flag_refuted.

Definition ex_names : names := add1 (add1 (add1 (add1 name_alloc "T" "h") "r0" "r") "r1" "r") "c0" "c".
Definition ex_page : page nat :=
  Pg (Some [1; 2]) (Some (Gr 2 1 [[3]; [4]])) (Some [5; 6]) (Some (Gr 2 1 [["a"]; ["b"]])) ex_names None.
Example C04_nonvacuous : exists c,
  Forall sane (pages (Cons ex_page (Last ex_page))) /\ data_copy 0 (Cons ex_page (Last ex_page)) = Ok c /\
  map vect (pages c) = [Some [1; 2]; Some [1; 2]].
Proof.
  eexists; split; [|split; [reflexivity|reflexivity]].
  assert (sane ex_page) by (split; cbn; intros ? [= <-]; unfold wf_grid; cbn; repeat split; auto; repeat constructor).
  cbn. constructor; [auto|]. constructor; [auto|constructor].
Qed.

(** ---------- C05 ---------- *)

Definition lacks {A B} (a : option A) (b : option B) : Prop := a <> None /\ b = None.
(** every numeric part of the source has a counterpart of the same size *)
Definition same_size_vec {E} (a b : option (list E)) : Prop :=
  match a, b with Some v, Some w => length v = length w | _, _ => True end.
Definition same_size_mat {E A} (a : option (grid E)) (b : option (grid A)) : Prop :=
  match a, b with Some v, Some w => gr v = gr w /\ gc v = gc w | _, _ => True end.

Lemma C05_ok_aux E (out inp : page E) : fits out inp ->
  exists q, memcpy (Last out) (Last inp) = Ok (Last q) /\ err q = err out /\
    (forall v, vect inp = Some v -> vect q = Some v) /\ (vect inp = None -> vect q = vect out) /\
    (forall v, mat inp = Some v -> mat q = Some v) /\ (mat inp = None -> mat q = mat out) /\
    (forall v, wts inp = Some v -> wts q = Some v) /\ (wts inp = None -> wts q = wts out) /\
    txt q = txt inp /\
    (forall i s, rown (nms inp) !! i = Some s -> rown (nms q) !! i = Some s) /\
    (forall i s, coln (nms inp) !! i = Some s -> coln (nms q) !! i = Some s) /\
    (forall i s, txtn (nms inp) !! i = Some s -> txtn (nms q) !! i = Some s).
Proof.
  intros Hf. destruct (memcpy_page_fits out inp Hf) as (q & Eq & Hv & Hm & Hw & Ht & Hn & He).
  exists q. cbn. rewrite Eq. cbn. split; auto. split; auto.
  rewrite Hv, Hm, Hw, Ht, Hn. destruct (names_memcpy_lists (nms out) (nms inp)) as (-> & -> & -> & _).
  repeat split; try (intros v ->; reflexivity); try (intros ->; reflexivity);
    intros i s Hi; rewrite lookup_app_l; auto; eapply lookup_lt_Some; eauto.
Qed.
(** C05: with matching shapes every part and every name of the source arrives, nothing else changes, no error. *)
Theorem C05_memcpy_matching : forall E (out inp : page E), fits out inp ->
  exists q, memcpy (Last out) (Last inp) = Ok (Last q) /\ err q = err out /\
    (forall v, vect inp = Some v -> vect q = Some v) /\ (vect inp = None -> vect q = vect out) /\
    (forall v, mat inp = Some v -> mat q = Some v) /\ (mat inp = None -> mat q = mat out) /\
    (forall v, wts inp = Some v -> wts q = Some v) /\ (wts inp = None -> wts q = wts out) /\
    txt q = txt inp /\
    (forall i s, rown (nms inp) !! i = Some s -> rown (nms q) !! i = Some s) /\
    (forall i s, coln (nms inp) !! i = Some s -> coln (nms q) !! i = Some s) /\
    (forall i s, txtn (nms inp) !! i = Some s -> txtn (nms q) !! i = Some s).
Proof. exact C05_ok_aux. Qed.
Print Assumptions C05_memcpy_matching.

Lemma C05_err_aux E (out inp : page E) :
  (lacks (vect inp) (vect out) \/ lacks (mat inp) (mat out) \/ lacks (wts inp) (wts out) ->
   same_size_vec (vect inp) (vect out) -> same_size_mat (mat inp) (mat out) -> same_size_vec (wts inp) (wts out) ->
   exists q, memcpy (Last out) (Last inp) = Ok (Last q) /\ err q = Some "p"%char) /\
  (~ lacks (vect inp) (vect out) -> ~ lacks (mat inp) (mat out) -> ~ lacks (wts inp) (wts out) ->
   ~ (same_size_vec (vect inp) (vect out) /\ same_size_mat (mat inp) (mat out) /\ same_size_vec (wts inp) (wts out)) ->
   exists q, memcpy (Last out) (Last inp) = Ok (Last q) /\ err q = Some "d"%char).
Proof.
  unfold lacks, same_size_vec, same_size_mat.
  destruct out as [ov om ow ot on oe], inp as [iv im iw it inn ie]; cbn.
  assert ((match im, om with Some v, Some w => gr v = gr w /\ gc v = gc w | _, _ => True end) \/
    ~ (match im, om with Some v, Some w => gr v = gr w /\ gc v = gc w | _, _ => True end)) as [Dm|Dm].
  { destruct im, om; lia. }
  2:{ destruct im as [m|]; [|tauto]. destruct om as [w|]; [|tauto]. split; [tauto|]. intros _ _ _ _.
      unfold memcpy_page; cbn. replace ((gr m =? gr w) && (gc m =? gc w)) with false by lia. cbn. eexists; split; reflexivity. }
  assert ((match iv, ov with Some v, Some w => length v = length w | _, _ => True end) \/
    ~ (match iv, ov with Some v, Some w => length v = length w | _, _ => True end)) as [Dv|Dv].
  { destruct iv, ov; lia. }
  2:{ destruct iv as [v|]; [|tauto]. destruct ov as [w|]; [|tauto]. split; [tauto|]. intros _ Hlm _ _.
      unfold memcpy_page; cbn. destruct im as [m|], om as [wm|]; try (exfalso; apply Hlm; split; congruence);
      cbn; try (replace ((gr m =? gr wm) && (gc m =? gc wm)) with true by lia); cbn;
      replace (length v =? length w) with false by lia; cbn; eexists; split; reflexivity. }
  assert ((match iw, ow with Some v, Some w => length v = length w | _, _ => True end) \/
    ~ (match iw, ow with Some v, Some w => length v = length w | _, _ => True end)) as [Dw|Dw].
  { destruct iw, ow; lia. }
  2:{ destruct iw as [v|]; [|tauto]. destruct ow as [w|]; [|tauto]. split; [tauto|]. intros Hlv Hlm _ _.
      unfold memcpy_page; cbn.
      destruct im as [m|], om as [wm|]; try (exfalso; apply Hlm; split; congruence);
      cbn; try (replace ((gr m =? gr wm) && (gc m =? gc wm)) with true by lia); cbn;
      destruct iv as [v1|], ov as [w1|]; try (exfalso; apply Hlv; split; congruence);
      cbn; try (replace (length v1 =? length w1) with true by lia); cbn;
      replace (length v =? length w) with false by lia; cbn; eexists; split; reflexivity. }
  split; [|tauto].
  intros Hl _ _ _. unfold memcpy_page; cbn.
  destruct im as [m|], om as [wm|]; cbn; try (replace ((gr m =? gr wm) && (gc m =? gc wm)) with true by lia); cbn;
  try (eexists; split; reflexivity);
  destruct iv as [v1|], ov as [w1|]; cbn; try (replace (length v1 =? length w1) with true by lia); cbn;
  try (eexists; split; reflexivity);
  destruct iw as [v2|], ow as [w2|]; cbn; try (replace (length v2 =? length w2) with true by lia); cbn;
  try (eexists; split; reflexivity); exfalso; naive_solver.
Qed.
(** C05: a numeric part missing in the destination gives error 'p'; a dimension mismatch gives error 'd'. *)
Theorem C05_memcpy_errors : forall E (out inp : page E),
  (lacks (vect inp) (vect out) \/ lacks (mat inp) (mat out) \/ lacks (wts inp) (wts out) ->
   same_size_vec (vect inp) (vect out) -> same_size_mat (mat inp) (mat out) -> same_size_vec (wts inp) (wts out) ->
   exists q, memcpy (Last out) (Last inp) = Ok (Last q) /\ err q = Some "p"%char) /\
  (~ lacks (vect inp) (vect out) -> ~ lacks (mat inp) (mat out) -> ~ lacks (wts inp) (wts out) ->
   ~ (same_size_vec (vect inp) (vect out) /\ same_size_mat (mat inp) (mat out) /\ same_size_vec (wts inp) (wts out)) ->
   exists q, memcpy (Last out) (Last inp) = Ok (Last q) /\ err q = Some "d"%char).
Proof. exact C05_err_aux. Qed.
Print Assumptions C05_memcpy_errors.

(** C05: a source text grid larger than the destination's is not reported; it is written out of bounds. *)
Lemma C05_text_aux E (out inp : page E) go gi :
  vect inp = None -> mat inp = None -> wts inp = None ->
  txt out = Some go -> txt inp = Some gi -> 0 < gr gi -> 0 < gc gi -> (gr go < gr gi \/ gc go < gc gi) ->
  memcpy (Last out) (Last inp) = UB.
Proof.
  intros Hv Hm Hw Ho Hi H1 H2 H3. cbn. unfold memcpy_page. rewrite Hv, Hm, Hw. cbn. rewrite Ho, Hi. unfold text_memcpy.
  replace ((gr gi =? 0) || (gc gi =? 0)) with false by lia.
  replace ((gr gi <=? gr go) && (gc gi <=? gc go)) with false by lia. reflexivity.
Qed.
Theorem C05_text_mismatch_refuted : forall E (out inp : page E) go gi,
  vect inp = None -> mat inp = None -> wts inp = None ->
  txt out = Some go -> txt inp = Some gi -> 0 < gr gi -> 0 < gc gi -> (gr go < gr gi \/ gc go < gc gi) ->
  memcpy (Last out) (Last inp) = UB.
Proof. exact C05_text_aux. Qed.
Print Assumptions C05_text_mismatch_refuted.

Example C05_nonvacuous : fits ex_page ex_page /\
  lacks (vect ex_page) (vect (@blank nat)) /\ same_size_vec (vect ex_page) (vect (@blank nat)).
Proof.
  split; [|split; [split; [discriminate|reflexivity]|exact I]].
  unfold fits, ex_page; cbn. repeat split; try discriminate; intros ? [= <-]; eexists; (split; [reflexivity|]); cbn; repeat split; lia.
Qed.

(** ---------- C09 ---------- *)

(** row i of [p] is to be dropped: the list says so, or the callback says so of that row of the original data *)
Definition to_drop {E} (p : page E) (drop : option (list bool)) (f : option (page E -> bool)) (i : nat) : bool :=
  (match drop with Some l => nth i l false | None => false end)
  || (match f with Some f => f (row_view p i) | None => false end).
(** flags of the rows to keep *)
Definition keepers {E} (p : page E) drop f (N : nat) : list bool :=
  map (fun i => negb (to_drop p drop f i)) (seq 0 N).
(** [q] is [p] restricted to the flagged rows; with no row left its parts are NULL *)
Definition holds_rows {E} (fl : list bool) (p q : page E) : Prop :=
  let none_left := Forall (fun b => b = false) fl in
  (none_left -> vect q = None /\ mat q = None /\ wts q = None /\ txt q = None /\ rown (nms q) = []) /\
  (~ none_left ->
     vect q = option_map (keep_by fl) (vect p) /\ wts q = option_map (keep_by fl) (wts p) /\
     (forall m, mat p = Some m -> exists m', mat q = Some m' /\ gc m' = gc m /\ gr m' = length (ga m') /\ ga m' = keep_by fl (ga m)) /\
     (mat p = None -> mat q = None) /\
     (forall t, txt p = Some t -> exists t', txt q = Some t' /\ gc t' = gc t /\ gr t' = length (ga t') /\ ga t' = keep_by fl (ga t)) /\
     (txt p = None -> txt q = None) /\
     rown (nms q) = keep_by fl (rown (nms p))) /\
  coln (nms q) = coln (nms p) /\ txtn (nms q) = txtn (nms p) /\ title (nms q) = title (nms p) /\
  vecn (nms q) = vecn (nms p) /\ err q = err p.

Lemma C09_aux E (p : page E) drop f N :
  regular p N -> (vect p <> None \/ mat p <> None \/ txt p <> None) -> (drop <> None \/ f <> None) ->
  (forall l, drop = Some l -> N <= length l) ->
  holds_rows (keepers p drop f N) p (rm_rows p drop f).
Proof.
  intros HR Hne Hs Hl. set (fl := keepers p drop f N).
  assert (length fl = N) as Hfl by (unfold fl, keepers; rewrite map_length, seq_length; auto).
  assert (rm_rows p drop f = rows_kept fl p) as ->.
  { eapply rm_rows_spec; eauto. intros i Hi. unfold fl, keepers. rewrite lookup_map, lookup_seq_lt by lia. cbn.
    unfold to_drop, drop_dec. destruct drop as [l|]; auto. specialize (Hl l eq_refl).
    destruct (l !! i) eqn:El; [|apply lookup_ge_None in El; lia].
    rewrite (nth_lookup_Some _ _ _ _ El). auto. }
  clearbody fl. destruct HR as (Rv & Rw & Rm & Rt & Rr).
  unfold holds_rows, rows_kept. rewrite <- cnt_0.
  destruct (cnt fl =? 0) eqn:Ec; cbn.
  - split; [auto|]. split; [lia|]. auto.
  - split; [lia|]. split; [|auto]. intros _.
    repeat split; auto.
    + intros m Hm. rewrite Hm. cbn. eexists; split; [reflexivity|]. cbn. repeat split; auto.
      destruct (Rm _ Hm). symmetry. apply keep_by_length_cnt. lia.
    + intros ->; auto.
    + intros m Hm. rewrite Hm. cbn. eexists; split; [reflexivity|]. cbn. repeat split; auto.
      destruct (Rt _ Hm). symmetry. apply keep_by_length_cnt. lia.
    + intros ->; auto.
Qed.
(** C09: for a data set whose parts all have N rows (row names: none or N), apop_data_rm_rows keeps exactly the
    rows not to be dropped, in order, across all parts and names; the callback sees original rows. *)
Theorem C09_rm_rows : forall E (p : page E) drop f N,
  regular p N -> (vect p <> None \/ mat p <> None \/ txt p <> None) -> (drop <> None \/ f <> None) ->
  (forall l, drop = Some l -> N <= length l) ->
  holds_rows (keepers p drop f N) p (rm_rows p drop f).
Proof. exact C09_aux. Qed.
Print Assumptions C09_rm_rows.

Example C09_nonvacuous :
  regular ex_page 2 /\ holds_rows [false; true] ex_page (rm_rows ex_page (Some [true; false]) None) /\
  vect (rm_rows ex_page (Some [true; false]) None) = Some [2] /\
  rown (nms (rm_rows ex_page (Some [true; false]) None)) = ["r1"].
Proof.
  assert (regular ex_page 2) as HR.
  { unfold regular; cbn. do 4 (split; [intros ? [= <-]; cbn; lia|]). lia. }
  split; auto. split; [|auto].
  apply (C09_rm_rows nat ex_page (Some [true; false]) None 2);
    [auto|left; discriminate|left; discriminate|intros l [= <-]; auto].
Qed.

(** C09 without the guard on names: of rows 0 (named), 1 (unnamed), dropping row 0 leaves the data of row 1 under
    the name of the dropped row. *)
Theorem C09_partial_names_refuted : exists p : page nat,
  vect p = Some [10; 11] /\ rown (nms p) = ["first"] /\
  vect (rm_rows p (Some [true; false]) None) = Some [11] /\
  rown (nms (rm_rows p (Some [true; false]) None)) = ["first"].
Proof. exists (Pg (Some [10; 11]) None None None (add1 name_alloc "first" "r") None). auto. Qed.
Print Assumptions C09_partial_names_refuted.

(** C09 without the guard on heights: vector of 1, matrix of 2 rows; dropping row 1 keeps ... but dropping row 0
    leaves the dropped row's vector entry. *)
Theorem C09_ragged_refuted : exists p : page nat,
  vect p = Some [10] /\ mat p = Some (Gr 2 1 [[1]; [2]]) /\
  vect (rm_rows p (Some [true; false]) None) = Some [10] /\
  mat (rm_rows p (Some [true; false]) None) = Some (Gr 1 1 [[2]]).
Proof. exists (Pg (Some [10]) (Some (Gr 2 1 [[1]; [2]])) None None name_alloc None). auto. Qed.
Print Assumptions C09_ragged_refuted.

(** ---------- C10 ---------- *)

(** [q] is [p] with only the flagged columns, and their names *)
Definition holds_cols {E} (fl : list bool) (p q : page E) (m : grid E) : Prop :=
  (Forall (fun b => b = false) fl -> mat q = None) /\
  (~ Forall (fun b => b = false) fl ->
     exists m', mat q = Some m' /\ gr m' = gr m /\ wf_grid m' /\ ga m' = map (keep_by fl) (ga m)) /\
  coln (nms q) = keep_by fl (coln (nms p)) /\
  vect q = vect p /\ wts q = wts p /\ txt q = txt p /\ err q = err p /\
  rown (nms q) = rown (nms p) /\ txtn (nms q) = txtn (nms p) /\ title (nms q) = title (nms p) /\ vecn (nms q) = vecn (nms p).

Lemma C10_rm_aux E (p : page E) m dropl :
  mat p = Some m -> wf_grid m -> 0 < gc m -> length dropl = gc m -> length (coln (nms p)) <= gc m ->
  exists q, rm_columns p dropl = Ok q /\ holds_cols (map negb dropl) p q m.
Proof.
  intros Hm Hw Hp Hd Hc. rewrite (rm_columns_spec p m dropl) by (auto; lia).
  rewrite firstn_all2 by lia. eexists; split; [reflexivity|].
  unfold holds_cols, cols_kept. cbn. rewrite <- !cnt_0. set (fl := map negb dropl).
  assert (length fl = gc m) as Hfl by (unfold fl; rewrite map_length; auto). clearbody fl.
  split; [intros ->; auto|]. split; [|auto 12].
  intros Hn. replace (cnt fl =? 0) with false by lia. eexists; split; [reflexivity|]. cbn. split; auto. split; auto.
  destruct Hw as [Hl HF]. split; cbn; [rewrite map_length; auto|].
  apply Forall_map. revert HF. apply Forall_impl. intros r Hr. apply keep_by_length_cnt. lia.
Qed.
(** C10: apop_data_rm_columns keeps exactly the unmarked columns, with their names, in order. *)
Theorem C10_rm_columns : forall E (p : page E) m dropl,
  mat p = Some m -> wf_grid m -> 0 < gc m -> length dropl = gc m -> length (coln (nms p)) <= gc m ->
  exists q, rm_columns p dropl = Ok q /\ holds_cols (map negb dropl) p q m.
Proof. exact C10_rm_aux. Qed.
Print Assumptions C10_rm_columns.

(** number of names in [l] case-insensitively equal to [c] *)
Fixpoint matches (c : string) (l : list string) : nat :=
  match l with [] => 0 | x :: l' => (if ci_eq c x then 1 else 0) + matches c l' end.
Lemma matches_count c l : matches c l = count_ci c l.
Proof. induction l as [|x l IH]; [reflexivity|]. rewrite count_ci_cons. cbn [matches]. rewrite IH. auto. Qed.

Lemma C10_prune_aux E (p : page E) m reqs :
  mat p = Some m -> wf_grid m -> 0 < gc m -> length (coln (nms p)) = gc m ->
  exists q fl, prune_columns p reqs = Ok q /\ holds_cols fl p q m /\ length fl = gc m /\
    forall j c, coln (nms p) !! j = Some c ->
      (fl !! j = Some true <-> matches c (take j (coln (nms p))) < matches c reqs).
Proof.
  intros Hm Hw Hp Hc. unfold prune_columns. rewrite Hm.
  set (dl := rm_list (coln (nms p)) (map (fun r => (r, false)) reqs)).
  assert (length dl = gc m) as Hdl by (unfold dl; rewrite rm_list_length; auto).
  destruct (C10_rm_aux E p m dl Hm Hw Hp Hdl) as (q & Eq & Hq); [lia|].
  exists q, (map negb dl). split; auto. split; auto. split; [rewrite map_length; auto|].
  intros j c Hj. rewrite lookup_map. unfold dl. rewrite (rm_list_spec _ _ j c Hj). cbn.
  rewrite negb_involutive, avail_init, <- !matches_count.
  destruct (matches c (take j (coln (nms p))) <? matches c reqs) eqn:El; split; intros H; try lia; try congruence; auto.
Qed.
(** C10: apop_data_prune_columns keeps column j iff fewer columns before it than requests match its name, i.e.
    each request takes the first matching column not already taken. *)
Theorem C10_prune_columns : forall E (p : page E) m reqs,
  mat p = Some m -> wf_grid m -> 0 < gc m -> length (coln (nms p)) = gc m ->
  exists q fl, prune_columns p reqs = Ok q /\ holds_cols fl p q m /\ length fl = gc m /\
    forall j c, coln (nms p) !! j = Some c ->
      (fl !! j = Some true <-> matches c (take j (coln (nms p))) < matches c reqs).
Proof. exact C10_prune_aux. Qed.
Print Assumptions C10_prune_columns.

Example C10_nonvacuous : exists q,
  let n := add1 (add1 (add1 name_alloc "x" "c") "A" "c") "a" "c" in
  let p := Pg None (Some (Gr 2 3 [[1; 2; 3]; [4; 5; 6]])) None None n None in
  prune_columns p ["a"; "X"; "none"] = Ok q /\ mat q = Some (Gr 2 2 [[1; 2]; [4; 5]]) /\ coln (nms q) = ["x"; "A"].
Proof. eexists. cbv zeta. split; [reflexivity|]. auto. Qed.

(** C10: with fewer column names than columns, prune_columns reads past its removal list. *)
Lemma C10_short_aux E (p : page E) m reqs :
  mat p = Some m -> length (coln (nms p)) < gc m -> prune_columns p reqs = UB.
Proof.
  intros Hm Hl. unfold prune_columns, rm_columns. rewrite Hm, rm_list_length.
  replace (gc m <=? length (coln (nms p))) with false by lia. reflexivity.
Qed.
Theorem C10_unnamed_columns_refuted : forall E (p : page E) m reqs,
  mat p = Some m -> length (coln (nms p)) < gc m -> prune_columns p reqs = UB.
Proof. exact C10_short_aux. Qed.
Print Assumptions C10_unnamed_columns_refuted.

(** ---------- C03 ---------- *)

(** Names reachable by building, adding, removing rows and removing columns, in any order. *)
Inductive edited (E : Type) : names -> Prop :=
| ed_built n : built n -> edited E n
| ed_add n s t : edited E n -> edited E (fst (name_add n s t))
| ed_rm_rows (p : page E) drop f : edited E (nms p) -> edited E (nms (rm_rows p drop f))
| ed_rm_cols (p q : page E) dropl : edited E (nms p) -> rm_columns p dropl = Ok q -> edited E (nms q).

Definition hfull (l : list string) (h : harray) : Prop := forall i, i < length l -> exists z, h !! i = Some (Some z).
Lemma hfull_add l h s : hfull l h -> hfull (l ++ [s]) (snd (add_to l h s)).
Proof.
  intros Hf i Hi. rewrite app_length in Hi; cbn in Hi. unfold add_to; cbn [snd]. unfold hrealloc.
  destruct (decide (i = length l)) as [->|Hne].
  - replace (S (length l) - 1) with (length l) by lia. rewrite list_lookup_insert; [eauto|].
    rewrite app_length, take_length, replicate_length. lia.
  - rewrite list_lookup_insert_ne by lia. destruct (Hf i) as [z Hz]; [lia|]. exists z.
    pose proof (lookup_lt_Some _ _ _ Hz). rewrite lookup_app_l by (rewrite take_length; lia).
    rewrite lookup_take by lia. auto.
Qed.
Definition nfull n := hfull (rown n) (rowh n) /\ hfull (coln n) (colh n) /\ hfull (txtn n) (txth n).
Lemma hok_full l h : hfresh l h -> hfull l h.
Proof. intros ->. intros i Hi. apply lookup_lt_is_Some in Hi as [s Hs]. rewrite lookup_map, Hs. cbn; eauto. Qed.
Lemma hfull_shorter l l' h : length l' <= length l -> hfull l h -> hfull l' h.
Proof. intros Hl Hf i Hi. apply Hf. lia. Qed.
Lemma edited_full E n : edited E n -> nfull n.
Proof.
  induction 1 as [n Hb|n s t _ (IH1 & IH2 & IH3)|p drop f _ (IH1 & IH2 & IH3)|p q dropl _ (IH1 & IH2 & IH3) Hq].
  - destruct (built_fresh n Hb) as (?&?&?). repeat split; apply hok_full; auto.
  - destruct s as [s|]; [|repeat split; auto]. unfold name_add.
    repeat match goal with |- context [if ?b then _ else _] => destruct b; [repeat split; cbn; auto; try (apply (hfull_add _ _ s); auto)|] end.
    repeat split; cbn; auto. apply (hfull_add _ _ s); auto.
  - destruct (rm_rows_names p drop f) as (H1 & H2 & H3 & H4 & H5 & H6). unfold nfull.
    rewrite H2, H3, H4, H5, H6. repeat split; auto. eapply hfull_shorter; eauto.
  - unfold rm_columns in Hq. destruct (mat p); [|discriminate]. destruct (_ && _); [|discriminate].
    injection Hq as <-. unfold nfull; cbn. repeat split; auto.
    eapply hfull_shorter; [apply keep_by_length_le|auto].
Qed.
Lemma nfull_readable n : nfull n -> readable n.
Proof. intros (?&?&?). repeat split; right; auto. Qed.

Lemma C03_aux E n name t : edited E n ->
  exists z, name_find n name t = Ok z /\
    ((0 <= z)%Z -> exists s, asked n t !! Z.to_nat z = Some s /\ ci_eq name s = true) /\
    (z = (-2)%Z -> forall s, s ∈ asked n t -> ci_eq name s = false) /\
    ((forall s, s ∈ asked n t -> ci_eq name s = false) -> (z < 0)%Z).
Proof.
  intros He. destruct (name_find_spec n name t (nfull_readable _ (edited_full _ _ He))) as (z & Hz & Hcase).
  rewrite asked_searched in Hcase. exists z; split; auto.
  assert (nowhere (ci_eq name) (asked n t) -> forall s, s ∈ asked n t -> ci_eq name s = false) as Hn.
  { intros H s Hs. apply elem_of_list_lookup in Hs as [j Hj]. eauto. }
  destruct Hcase as [(i & s & -> & Hi & Hc)|[(-> & Hnw & _)|(-> & Hnw & _)]].
  - split; [intros _; rewrite Nat2Z.id; eauto|]. split; [lia|].
    intros H. rewrite (H s) in Hc; [discriminate|]. eapply elem_of_list_lookup_2; eauto.
  - split; [lia|]. split; [lia|lia].
  - split; [lia|]. split; [auto|lia].
Qed.
(** C03: after any history of additions and row/column removals, lookup is memory-safe and still finds a
    case-insensitive match iff there is one.  Missing: exact-match preference, and in-place transposition
    (both refuted below). *)
Theorem C03_lookup_after_removals : forall E n name t, edited E n ->
  exists z, name_find n name t = Ok z /\
    ((0 <= z)%Z -> exists s, asked n t !! Z.to_nat z = Some s /\ ci_eq name s = true) /\
    (z = (-2)%Z -> forall s, s ∈ asked n t -> ci_eq name s = false) /\
    ((forall s, s ∈ asked n t -> ci_eq name s = false) -> (z < 0)%Z).
Proof. exact C03_aux. Qed.
Print Assumptions C03_lookup_after_removals.

(** C03: after removing a column the stale hashes make lookup return a case variant although the exact name is there. *)
Theorem C03_stale_hash_refuted : exists (p q : page nat),
  rm_columns p [true; false; false] = Ok q /\ coln (nms q) = ["A"; "a"] /\ name_find (nms q) "a" "c" = Ok 0%Z.
Proof.
  exists (Pg None (Some (Gr 1 3 [[1; 2; 3]])) None None (add1 (add1 (add1 name_alloc "x" "c") "A" "c") "a" "c") None).
  eexists. split; [reflexivity|]. split; reflexivity.
Qed.
Print Assumptions C03_stale_hash_refuted.

(** C03: after an in-place transposition with more row names than column names, looking up a column reads past
    the end of the hash array. *)
Theorem C03_transpose_overread_refuted : exists (p q : page nat),
  built (nms p) /\ data_transpose p true true = Ok q /\ coln (nms q) = ["r0"; "r1"] /\
  name_find (nms q) "zzz" "c" = UB.
Proof.
  exists (Pg None (Some (Gr 2 1 [[1]; [2]])) None None (add1 (add1 (add1 name_alloc "r0" "r") "r1" "r") "c0" "c") None).
  eexists. split; [repeat apply built_add; constructor|]. split; [reflexivity|]. split; reflexivity.
Qed.
Print Assumptions C03_transpose_overread_refuted.

Example C03_nonvacuous : exists n, edited nat n /\ coln n = ["A"; "a"] /\ name_find n "A" "c" = Ok 1%Z.
Proof.
  destruct C03_stale_hash_refuted as (p & q & _).
  pose (p0 := Pg None (Some (Gr 1 3 [[1; 2; 3]])) None None (add1 (add1 (add1 name_alloc "x" "c") "A" "c") "a" "c") None : page nat).
  eexists. split.
  - refine (ed_rm_cols nat p0 _ [true; false; false] _ eq_refl). apply ed_built. repeat apply built_add. constructor.
  - split; reflexivity.
Qed.
