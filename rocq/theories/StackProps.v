(** C07, C08: apop_data_stack and apop_data_split. *)
From Verif Require Import StackProofs DataProps DataModel.
Local Open Scope string_scope.
Local Open Scope list_scope.
Local Open Scope nat_scope.

(** rows of an optional part; NULL has none *)
Definition rows_of {A} (o : option (list A)) : list A := match o with Some l => l | None => [] end.
Definition grows_of {A} (o : option (grid A)) : list (list A) := match o with Some m => ga m | None => [] end.
(** the name seen on row (column) i; unnamed and blank are the same *)
Definition label (l : list string) (i : nat) : string := match l !! i with Some s => s | None => "" end.

(** [r] is [a] over [b] (rows), NULL only if both are NULL *)
Definition over {A} (a b r : option (list A)) : Prop :=
  rows_of r = rows_of a ++ rows_of b /\ (r = None <-> a = None /\ b = None).
Definition gover {A} (a b r : option (grid A)) : Prop :=
  grows_of r = grows_of a ++ grows_of b /\ (r = None <-> a = None /\ b = None) /\
  (forall m, r = Some m -> wf_grid m) /\
  (forall m x, r = Some m -> (a = Some x \/ b = Some x) -> gc m = gc x).
(** [r] is [a] beside [b] *)
Definition beside {A} (a b r : option (grid A)) : Prop :=
  match a, b with
  | Some x, Some y => exists m, r = Some m /\ wf_grid m /\ gr m = gr x /\ gc m = gc x + gc y /\
      ga m = zip_with (++) (ga x) (ga y)
  | Some x, None => r = Some x | None, _ => r = b
  end.

Lemma vstack_over {E} (a b : option (list E)) : over a b (vstack a b).
Proof. unfold over. destruct a, b; cbn; rewrite ?app_nil_r; naive_solver. Qed.
Lemma wf_app {A} (x y : grid A) r : wf_grid x -> wf_grid y -> gc x = gc y -> r = gr x + gr y -> wf_grid (Gr r (gc x) (ga x ++ ga y)).
Proof. intros [H1 H2] [H3 H4] Hc ->. split; cbn; [rewrite app_length; lia|]. apply Forall_app; split; auto. rewrite Hc; auto. Qed.
Lemma mstack_gover {E} (a b : option (grid E)) :
  (forall x, a = Some x -> wf_grid x) -> (forall x, b = Some x -> wf_grid x) ->
  (forall x y, a = Some x -> b = Some y -> gc x = gc y) -> gover a b (mstack true a b).
Proof.
  intros Ha Hb Hc. unfold gover. destruct a as [x|], b as [y|]; cbn.
  - pose proof (Hc _ _ eq_refl eq_refl) as Hcc. replace (gc x =? gc y) with true by lia. cbn.
    split; auto. split; [naive_solver|]. split.
    + intros m [= <-]. apply wf_app; auto.
    + intros m z [= <-] [[= <-]|[= <-]]; cbn; auto.
  - rewrite app_nil_r. split; auto. split; [naive_solver|]. split; auto. intros m z [= <-] [[= <-]|]; [auto|discriminate].
  - split; auto. split; [naive_solver|]. split; auto. intros m z [= <-] [|[= <-]]; [discriminate|auto].
  - split; auto. split; [naive_solver|]. split; intros; discriminate.
Qed.
Lemma text_below_gover (a b : option (grid string)) :
  (forall x, a = Some x -> wf_grid x) -> (forall x, b = Some x -> wf_grid x) ->
  (forall x y, a = Some x -> b = Some y -> gc x = gc y) -> gover a b (text_below a b).
Proof.
  intros Ha Hb Hc. unfold gover. destruct a as [x|], b as [y|]; cbn.
  - pose proof (Hc _ _ eq_refl eq_refl) as Hcc.
    split; auto. split; [naive_solver|]. split.
    + intros m [= <-]. rewrite <- Hcc. apply wf_app; auto.
    + intros m z [= <-] [[= <-]|[= <-]]; cbn; auto.
  - rewrite app_nil_r. split; auto. split; [naive_solver|]. split; auto. intros m z [= <-] [[= <-]|]; [auto|discriminate].
  - split; auto. split; [naive_solver|]. split; auto. intros m z [= <-] [|[= <-]]; [discriminate|auto].
  - split; auto. split; [naive_solver|]. split; intros; discriminate.
Qed.
Lemma wf_zip {A} (x y : grid A) : wf_grid x -> wf_grid y -> gr x = gr y ->
  wf_grid (Gr (gr x) (gc x + gc y) (zip_with (++) (ga x) (ga y))).
Proof.
  intros [H1 H2] [H3 H4] Hr. split; cbn; [rewrite zip_with_length; lia|].
  apply Forall_lookup. intros i r Hi. apply lookup_zip_with_Some in Hi as (u & v & -> & Hu & Hv).
  rewrite Forall_lookup in H2, H4. rewrite app_length, (H2 _ _ Hu), (H4 _ _ Hv). auto.
Qed.
Lemma mstack_beside {E} (a b : option (grid E)) :
  (forall x, a = Some x -> wf_grid x) -> (forall x, b = Some x -> wf_grid x) ->
  (forall x y, a = Some x -> b = Some y -> gr x = gr y) -> beside a b (mstack false a b).
Proof.
  intros Ha Hb Hc. unfold beside. destruct a as [x|], b as [y|]; cbn; auto.
  pose proof (Hc _ _ eq_refl eq_refl). replace (gr x =? gr y) with true by lia.
  eexists; split; [reflexivity|]. cbn. split; auto. apply wf_zip; auto.
Qed.
Lemma text_right_beside (a b : option (grid string)) :
  (forall x, a = Some x -> wf_grid x) -> (forall x, b = Some x -> wf_grid x) ->
  (forall x y, a = Some x -> b = Some y -> gr x = gr y) -> beside a b (text_right a b).
Proof.
  intros Ha Hb Hc. unfold beside. destruct a as [x|], b as [y|]; cbn; auto.
  pose proof (Hc _ _ eq_refl eq_refl) as Hr. eexists; split; [reflexivity|]. cbn. rewrite <- Hr. split; auto. apply wf_zip; auto.
Qed.

Lemma label_stacked h l1 l2 i : length l1 <= h -> i < h -> label (row_names_stacked h l1 l2) i = label l1 i.
Proof.
  intros Hl Hi. unfold label, row_names_stacked. destruct l2 as [|s l2]; auto.
  destruct (decide (i < length l1)) as [Hlt|Hge].
  - rewrite lookup_app_l by lia. auto.
  - rewrite lookup_app_r by lia. rewrite lookup_app_l by (rewrite replicate_length; lia).
    rewrite lookup_replicate_2 by lia. rewrite (proj2 (lookup_ge_None l1 i)) by lia. auto.
Qed.
Lemma label_stacked_r h l1 l2 i : length l1 <= h -> label (row_names_stacked h l1 l2) (h + i) = label l2 i.
Proof.
  intros Hl. unfold label, row_names_stacked. destruct l2 as [|s l2].
  - rewrite (proj2 (lookup_ge_None l1 _)) by lia. rewrite lookup_nil. auto.
  - rewrite app_assoc, lookup_app_r by (rewrite app_length, replicate_length; lia).
    rewrite app_length, replicate_length. replace (h + i - (length l1 + (h - length l1))) with i by lia. auto.
Qed.

(** ---- C07, rows ---- *)
Definition height {E} (p : page E) : nat :=
  Nat.max (length (rows_of (vect p))) (match mat p with Some m => gr m | None => 0 end).
Definition width {E} (p : page E) : nat := match mat p with Some m => gc m | None => 0 end.
Definition clean {E} (p : page E) : Prop := sane p /\ err p = None.

Definition row_stacked {E} (p q r : page E) : Prop :=
  over (vect p) (vect q) (vect r) /\ over (wts p) (wts q) (wts r) /\
  gover (mat p) (mat q) (mat r) /\ gover (txt p) (txt q) (txt r) /\
  (forall i, i < height p -> label (rown (nms r)) i = label (rown (nms p)) i) /\
  (forall i, label (rown (nms r)) (height p + i) = label (rown (nms q)) i) /\
  coln (nms r) = coln (nms p) /\ txtn (nms r) = txtn (nms p) /\ err r = None.

Lemma C07_rows_aux E (g : E) (d1 d2 : adata E) inplace :
  clean (head d1) -> clean (head d2) ->
  (forall a b, mat (head d1) = Some a -> mat (head d2) = Some b -> gc a = gc b) ->
  (forall a b, txt (head d1) = Some a -> txt (head d2) = Some b -> gc a = gc b) ->
  length (rown (nms (head d1))) <= height (head d1) ->
  exists o, data_stack g (Some d1) (Some d2) "r" inplace = Ok (Some o) /\ row_stacked (head d1) (head d2) (head o).
Proof.
  intros [Hw1 He1] [Hw2 He2] Hm Ht Hn.
  apply (data_stack_reduce g d1 d2 true inplace (row_stacked (head d1) (head d2))); auto.
  intros out Hout Hwo Heo.
  assert (vect out = vect (head d1) /\ mat out = mat (head d1) /\ wts out = wts (head d1) /\ txt out = txt (head d1) /\
     rown (nms out) = rown (nms (head d1)) /\ coln (nms out) = coln (nms (head d1)) /\ txtn (nms out) = txtn (nms (head d1)))
     as (D1 & D2 & D3 & D4 & L1 & L2 & L3).
  { destruct Hout as [((?&?&?&?) & (?&?&?) & _)| ->]; auto 12. }
  destruct (stack_body_rows inplace (head d1) out (head d2)) as (r & Er & V & W & M & T & R & C & X & _ & _ & EE); auto.
  { rewrite D4. auto. }
  exists r; split; auto. unfold row_stacked. rewrite V, W, M, T, R, C, X, EE, D1, D2, D3, D4, L1, L2, L3.
  assert (Nat.max (vsz (head d1)) (msz1 (head d1)) = height (head d1)) as ->.
  { unfold height, vsz, msz1, rows_of. destruct (vect (head d1)); auto. }
  split; [apply vstack_over|]. split; [apply vstack_over|].
  split; [apply mstack_gover; auto; (apply Hw1 || apply Hw2)|].
  split; [apply text_below_gover; auto; intros x Hx; apply (proj2 Hw1 x Hx) || apply (proj2 Hw2 x Hx)|].
  split; [intros i Hi; apply label_stacked; auto|].
  split; [intros i; apply label_stacked_r; auto|]. auto.
Qed.
(** C07: stacking by row puts the second set's vector, weights, matrix and text under the first's, each with
    its row name, and keeps column names.  Hypotheses: equal column counts; at most as many row names as rows.
    Missing: mismatched matrices, and sets that have text in one only or parts of different heights (see the
    refutations). *)
Theorem C07_row_stack : forall E (g : E) (d1 d2 : adata E) inplace,
  clean (head d1) -> clean (head d2) ->
  (forall a b, mat (head d1) = Some a -> mat (head d2) = Some b -> gc a = gc b) ->
  (forall a b, txt (head d1) = Some a -> txt (head d2) = Some b -> gc a = gc b) ->
  length (rown (nms (head d1))) <= height (head d1) ->
  exists o, data_stack g (Some d1) (Some d2) "r" inplace = Ok (Some o) /\ row_stacked (head d1) (head d2) (head o).
Proof. exact C07_rows_aux. Qed.
Print Assumptions C07_row_stack.

(** ---- C07, columns ---- *)
Definition col_stacked {E} (p q r : page E) : Prop :=
  vect r = (match vect p with Some v => Some v | None => vect q end) /\ wts r = wts p /\
  beside (mat p) (mat q) (mat r) /\ beside (txt p) (txt q) (txt r) /\
  (forall j, j < width p -> label (coln (nms r)) j = label (coln (nms p)) j) /\
  (forall j, label (coln (nms r)) (width p + j) = label (coln (nms q)) j) /\
  rown (nms r) = rown (nms p) /\
  txtn (nms r) = txtn (nms p) ++ (match txt q with Some _ => txtn (nms q) | None => [] end) /\ err r = None.

Lemma C07_cols_aux E (g : E) (d1 d2 : adata E) inplace :
  clean (head d1) -> clean (head d2) ->
  (vect (head d1) = None \/ vect (head d2) = None) ->
  (forall a b, mat (head d1) = Some a -> mat (head d2) = Some b -> gr a = gr b) ->
  (forall a b, txt (head d1) = Some a -> txt (head d2) = Some b -> gr a = gr b) ->
  length (coln (nms (head d1))) <= width (head d1) ->
  exists o, data_stack g (Some d1) (Some d2) "c" inplace = Ok (Some o) /\ col_stacked (head d1) (head d2) (head o).
Proof.
  intros [Hw1 He1] [Hw2 He2] Hv Hm Ht Hn.
  apply (data_stack_reduce g d1 d2 false inplace (col_stacked (head d1) (head d2))); auto.
  intros out Hout Hwo Heo.
  assert (vect out = vect (head d1) /\ mat out = mat (head d1) /\ wts out = wts (head d1) /\ txt out = txt (head d1) /\
     rown (nms out) = rown (nms (head d1)) /\ coln (nms out) = coln (nms (head d1)) /\ txtn (nms out) = txtn (nms (head d1)))
     as (D1 & D2 & D3 & D4 & L1 & L2 & L3).
  { destruct Hout as [((?&?&?&?) & (?&?&?) & _)| ->]; auto 12. }
  destruct (stack_body_cols inplace (head d1) out (head d2)) as (r & Er & V & W & M & T & C & R & X & _ & EE); auto.
  { rewrite D1; auto. } { rewrite D4. auto. }
  exists r; split; auto. unfold col_stacked. rewrite V, W, M, T, R, C, X, EE, D1, D2, D3, D4, L1, L2, L3.
  change (msz2 (head d1)) with (width (head d1)).
  split; [auto|]. split; [auto|].
  split; [apply mstack_beside; auto; (apply Hw1 || apply Hw2)|].
  split; [apply text_right_beside; auto; intros x Hx; apply (proj2 Hw1 x Hx) || apply (proj2 Hw2 x Hx)|].
  split; [intros i Hi; apply label_stacked; auto|].
  split; [intros i; apply label_stacked_r; auto|]. auto.
Qed.
(** C07: stacking by column puts the second set's matrix and text columns, with their names, to the right of
    the first's and leaves row names and weights.  Missing: both sets having a vector (refuted below). *)
Theorem C07_column_stack : forall E (g : E) (d1 d2 : adata E) inplace,
  clean (head d1) -> clean (head d2) ->
  (vect (head d1) = None \/ vect (head d2) = None) ->
  (forall a b, mat (head d1) = Some a -> mat (head d2) = Some b -> gr a = gr b) ->
  (forall a b, txt (head d1) = Some a -> txt (head d2) = Some b -> gr a = gr b) ->
  length (coln (nms (head d1))) <= width (head d1) ->
  exists o, data_stack g (Some d1) (Some d2) "c" inplace = Ok (Some o) /\ col_stacked (head d1) (head d2) (head o).
Proof. exact C07_cols_aux. Qed.
Print Assumptions C07_column_stack.

(** C07: a NULL argument gives (a copy of) the other; a direction other than 'r' and 'c' gives NULL. *)
Lemma C07_null_aux E (g : E) (d : adata E) : acyclic d = true -> Forall sane (pages d) -> Forall (fun p => err p = None) (pages d) ->
  forall posn, posn = "r"%char \/ posn = "c"%char ->
  data_stack g (Some d) None posn true = Ok (Some d) /\
  exists c, Forall2 duplicates (pages d) (pages c) /\
    data_stack g None (Some d) posn true = Ok (Some c) /\ data_stack g None (Some d) posn false = Ok (Some c) /\
    data_stack g (Some d) None posn false = Ok (Some c).
Proof.
  intros Ha Hs He posn Hp. destruct (C04_aux E g d Ha Hs He) as (c & Ec & _ & HF).
  destruct Hp as [-> | ->]; (split; [reflexivity|]; exists c; split; [auto|]; cbn; rewrite Ec; auto).
Qed.
Theorem C07_stack_null : forall E (g : E) (d : adata E),
  acyclic d = true -> Forall sane (pages d) -> Forall (fun p => err p = None) (pages d) ->
  forall posn, posn = "r"%char \/ posn = "c"%char ->
  data_stack g (Some d) None posn true = Ok (Some d) /\
  exists c, Forall2 duplicates (pages d) (pages c) /\
    data_stack g None (Some d) posn true = Ok (Some c) /\ data_stack g None (Some d) posn false = Ok (Some c) /\
    data_stack g (Some d) None posn false = Ok (Some c).
Proof. exact C07_null_aux. Qed.
Print Assumptions C07_stack_null.

(** C07: text grids that do not match give error 'd'. *)
Lemma C07_text_mismatch_aux E (g : E) (d1 d2 : adata E) (rows inplace : bool) a b :
  clean (head d1) -> txt (head d1) = Some a -> txt (head d2) = Some b ->
  (if rows then gc a <> gc b else gr a <> gr b) ->
  exists o, data_stack g (Some d1) (Some d2) (if rows then "r"%char else "c"%char) inplace = Ok (Some o) /\
    err (head o) = Some "d"%char.
Proof.
  intros [Hw He] Ha Hb Hne.
  apply (data_stack_reduce g d1 d2 rows inplace (fun q => err q = Some "d"%char)); auto.
  intros out Hout _ _.
  assert (txt out = Some a) as Hto by (destruct Hout as [((?&?&?&?) & _)| ->]; congruence).
  unfold stack_body. cbv zeta.
  match goal with |- context [match txt ?o with Some to => if rows then _ else _ | None => false end] => assert (txt o = Some a) as Ho end.
  { destruct rows; [exact Hto|]. cbn [txt set_mat]. repeat (case_match; simpl txt; try assumption). }
  rewrite Hb, Ho.
  replace (if rows then negb (gc b =? gc a) else negb (gr b =? gr a)) with true by (destruct rows; lia).
  eexists; split; [reflexivity|]. reflexivity.
Qed.
Theorem C07_text_mismatch : forall E (g : E) (d1 d2 : adata E) (rows inplace : bool) a b,
  clean (head d1) -> txt (head d1) = Some a -> txt (head d2) = Some b ->
  (if rows then gc a <> gc b else gr a <> gr b) ->
  exists o, data_stack g (Some d1) (Some d2) (if rows then "r"%char else "c"%char) inplace = Ok (Some o) /\
    err (head o) = Some "d"%char.
Proof. exact C07_text_mismatch_aux. Qed.
Print Assumptions C07_text_mismatch.

(** C07: matrices that do not match lose BOTH matrices and set no error. *)
Theorem C07_matrix_mismatch_refuted : forall E (g : E) (a b : grid E) (posn : ascii) inplace,
  wf_grid a -> wf_grid b -> (posn = "r"%char /\ gc a <> gc b) \/ (posn = "c"%char /\ gr a <> gr b) ->
  exists o, data_stack g (Some (Last (Pg None (Some a) None None name_alloc None)))
                         (Some (Last (Pg None (Some b) None None name_alloc None))) posn inplace = Ok (Some (Last o)) /\
    mat o = None /\ err o = None.
Proof.
  intros E g a b posn inplace _ _ Hp.
  assert (exists n, data_copy g (Last (Pg None (Some a) None None name_alloc None)) = Ok (Last (Pg None (Some a) None None n None))) as [n Hc].
  { cbn. unfold memcpy_page. cbn. rewrite !Nat.eqb_refl. cbn. eauto. }
  unfold data_stack. cbn [head]. rewrite Hc.
  destruct Hp as [[-> H] | [-> H]].
  - assert (gc a =? gc b = false) as H0 by lia. destruct inplace; cbn; rewrite H0; eauto.
  - assert (gr a =? gr b = false) as H0 by lia. destruct inplace; cbn; rewrite H0; eauto.
Qed.
Print Assumptions C07_matrix_mismatch_refuted.

(** C07: stacking a set with a vector and named columns to the right of one with a vector: the second vector
    becomes the first new matrix column and its name ("v" when it has none) is added, but the padding for the
    unnamed columns of the first set comes after it, so column 1, formerly unnamed, is called "v" and the
    vector column bears a blank name. *)
Theorem C07_column_names_refuted :
  let p := Pg (Some [1; 2]) (Some (Gr 2 2 [[3; 4]; [5; 6]])) None None (add1 name_alloc "a" "c") None in
  let q := Pg (Some [7; 8]) (Some (Gr 2 1 [[9]; [10]])) None None (add1 name_alloc "b" "c") None in
  exists o, data_stack 0 (Some (Last p)) (Some (Last q)) "c" false = Ok (Some (Last o)) /\
    mat o = Some (Gr 2 4 [[3; 4; 7; 9]; [5; 6; 8; 10]]) /\ label (coln (nms o)) 1 = "v" /\ label (coln (nms o)) 2 <> "v".
Proof.
  cbv zeta. eexists; split; [vm_compute; reflexivity|]. vm_compute. split; [reflexivity|]. split; [reflexivity|discriminate].
Qed.
Print Assumptions C07_column_names_refuted.

(** C07: when only the second set has text, row-stacking puts its text beside the FIRST set's rows. *)
Theorem C07_text_alignment_refuted :
  let p := Pg (Some [1; 2]) None None None name_alloc None in
  let q := Pg (Some [3]) None None (Some (Gr 1 1 [["three"]])) name_alloc None in
  exists o, data_stack 0 (Some (Last p)) (Some (Last q)) "r" false = Ok (Some (Last o)) /\
    vect o = Some [1; 2; 3] /\ txt o = Some (Gr 1 1 [["three"]]).
Proof. cbv zeta. eexists; split; [vm_compute; reflexivity|]. vm_compute. auto. Qed.
Print Assumptions C07_text_alignment_refuted.

Definition ex_page2 : page nat :=
  Pg (Some [10]) (Some (Gr 1 1 [[11]])) (Some [12]) (Some (Gr 1 1 [["z"]])) (add1 name_alloc "r9" "r") None.
Lemma ex_page_clean : clean ex_page.
Proof. split; auto. split; cbn; intros ? [= <-]; unfold wf_grid; cbn; repeat split; auto; repeat constructor. Qed.
Lemma ex_page2_clean : clean ex_page2.
Proof. split; auto. split; cbn; intros ? [= <-]; unfold wf_grid; cbn; repeat split; auto; repeat constructor. Qed.
Example C07_nonvacuous : clean ex_page /\ clean ex_page2 /\ length (rown (nms ex_page)) <= height ex_page /\
  exists o, data_stack 0 (Some (Last ex_page)) (Some (Last ex_page2)) "r" false = Ok (Some (Last o)) /\
    vect o = Some [1; 2; 10] /\ mat o = Some (Gr 3 1 [[3]; [4]; [11]]) /\ wts o = Some [5; 6; 12] /\
    txt o = Some (Gr 3 1 [["a"]; ["b"]; ["z"]]) /\ rown (nms o) = ["r0"; "r1"; "r9"].
Proof.
  split; [exact ex_page_clean|]. split; [exact ex_page2_clean|]. split; [cbn; lia|].
  eexists; split; [vm_compute; reflexivity|]. vm_compute. auto 10.
Qed.
Example C07_columns_nonvacuous : exists o,
  let q := set_vec ex_page None in
  clean q /\ data_stack 0 (Some (Last ex_page)) (Some (Last q)) "c" true = Ok (Some (Last o)) /\
  mat o = Some (Gr 2 2 [[3; 3]; [4; 4]]) /\ coln (nms o) = ["c0"; "c0"].
Proof.
  eexists. split; [|split; [vm_compute; reflexivity|vm_compute; auto]]. destruct ex_page_clean as [H1 H2]. split; auto.
Qed.
