(** C06, C14: stacking and resizing of vectors and matrices in flat memory. *)
From Verif Require Import MemProofs.

(** C14: apop_matrix_realloc keeps every element inside both the old and the new bounds; all accesses stay
    inside the block (the result is Ok).  Old and new height must be nonzero. *)
Theorem C14_matrix_realloc_retains : forall E (g : gmat E) newh neww,
  wf_gmat g -> is_view g = false -> 0 < newh -> 0 < size1 g ->
  exists g', matrix_realloc (Some g) newh neww = Ok (Some g') /\
    size1 g' = newh /\ size2 g' = neww /\ wf_gmat g' /\ is_view g' = false /\
    forall i j, i < size1 g -> i < newh -> j < size2 g -> j < neww -> melem g' i j = melem g i j.
Proof. exact @matrix_realloc_spec. Qed.
Print Assumptions C14_matrix_realloc_retains.

(** C14: a view is refused (NULL). *)
Theorem C14_realloc_view_refused : forall E (g : gmat E) (v : gvec E) a b,
  is_view g = true -> v_is_view v = true ->
  matrix_realloc (Some g) a b = Ok None /\ vector_realloc (Some v) a = None.
Proof. intros E g v a b H1 H2. unfold matrix_realloc, vector_realloc. rewrite H1, H2. auto. Qed.
Print Assumptions C14_realloc_view_refused.

(** C14: with height 0 and a wider row the counter `size_t i = height - 1` wraps and the loop leaves the block. *)
Theorem C14_realloc_to_zero_height_refuted : forall E (g : gmat E) neww,
  wf_gmat g -> is_view g = false -> size2 g < neww -> matrix_realloc (Some g) 0 neww = UB.
Proof.
  intros E g neww _ Hv Hw. unfold matrix_realloc. rewrite Hv, Nat.min_0_r.
  replace (neww <? size2 g) with false by lia. replace (size2 g <? neww) with true by lia. reflexivity.
Qed.
Print Assumptions C14_realloc_to_zero_height_refuted.

Lemma vector_realloc_aux E (v : gvec E) n : wf_gvec v -> v_is_view v = false ->
  exists v', vector_realloc (Some v) n = Some v' /\ vsize v' = n /\ wf_gvec v' /\
    forall i, i < n -> i < vsize v -> vblock v' !! i = vblock v !! i.
Proof.
  intros Hw Hv. unfold vector_realloc. rewrite Hv. eexists; split; [reflexivity|]. cbn.
  split; auto. split; [apply realloc_length|]. intros i Hi Hi'. apply realloc_lookup; auto. rewrite Hw; auto.
Qed.
(** C14: apop_vector_realloc keeps the common prefix. *)
Theorem C14_vector_realloc_retains : forall E (v : gvec E) n, wf_gvec v -> v_is_view v = false ->
  exists v', vector_realloc (Some v) n = Some v' /\ vsize v' = n /\ wf_gvec v' /\
    forall i, i < n -> i < vsize v -> vblock v' !! i = vblock v !! i.
Proof. exact vector_realloc_aux. Qed.
Print Assumptions C14_vector_realloc_retains.

Example C14_nonvacuous :
  let g := GM 2 3 (map Some [1; 2; 3; 4; 5; 6]) false in
  wf_gmat g /\ 0 < size1 g /\
  matrix_realloc (Some g) 3 2 = Ok (Some (GM 3 2 [Some 1; Some 2; Some 4; Some 5; Some 5; Some 6] false)) /\
  exists b, matrix_realloc (Some g) 2 4 = Ok (Some (GM 2 4 b false)) /\ b !! 4 = Some (Some 4) /\ b !! 2 = Some (Some 3).
Proof. vm_compute. repeat split; try lia. eexists; repeat split. Qed.

(** C06: apop_vector_stack is concatenation, in place or not, and never leaves its blocks; NULL operands are
    empty. *)
Theorem C06_vector_stack : forall E (v1 v2 : option (gvec E)) inplace,
  (forall v, v1 = Some v -> wf_gvec v /\ v_is_view v = false) ->
  (forall v, v2 = Some v -> wf_gvec v) ->
  exists o, vector_stack v1 v2 inplace = Ok o /\
    match v1, v2 with
    | None, None => o = None
    | Some v, None => exists r, o = Some r /\ vblock r = vblock v /\ vsize r = vsize v
    | None, Some w => exists r, o = Some r /\ vblock r = vblock w /\ vsize r = vsize w
    | Some v, Some w => exists r, o = Some r /\ vblock r = vblock v ++ vblock w /\ vsize r = vsize v + vsize w
    end.
Proof. exact @vector_stack_spec. Qed.
Print Assumptions C06_vector_stack.

(** [r] holds [w] below [v] (rows) or to its right (columns). *)
Definition stacks (rows : bool) {E} (v w r : gmat E) : Prop :=
  if rows then
    size1 r = size1 v + size1 w /\ size2 r = size2 v /\
    (forall i j, i < size1 v -> j < size2 v -> melem r i j = melem v i j) /\
    (forall i j, i < size1 w -> j < size2 v -> melem r (size1 v + i) j = melem w i j)
  else
    size1 r = size1 v /\ size2 r = size2 v + size2 w /\
    (forall i j, i < size1 v -> j < size2 v -> melem r i j = melem v i j) /\
    (forall i j, i < size1 v -> j < size2 w -> melem r i (size2 v + j) = melem w i j).

Lemma C06_aux E (v w : gmat E) (rows : bool) :
  wf_gmat v -> wf_gmat w -> is_view v = false -> 0 < size1 v ->
  (if rows then size2 v = size2 w else size1 v = size1 w) ->
  exists r r', matrix_stack (Some v) (Some w) rows false = Ok (Some r) /\
               matrix_stack (Some v) (Some w) rows true = Ok (Some r') /\
               stacks rows v w r /\ block r = block r' /\ size1 r = size1 r' /\ size2 r = size2 r'.
Proof.
  intros Hv Hw Hvw H1 Hd.
  destruct (matrix_stack_spec v w rows false Hv Hw Hvw H1 Hd) as (r & Hr & Hs).
  destruct (matrix_stack_spec v w rows true Hv Hw Hvw H1 Hd) as (r' & Hr' & Hs').
  exists r, r'. destruct (is_stack_unique _ _ _ _ _ Hs Hs') as (? & ? & ?).
  repeat split; auto. unfold is_stack in Hs. unfold stacks. destruct rows; naive_solver.
Qed.
(** C06: apop_matrix_stack, with the same result in place or not. *)
Theorem C06_matrix_stack : forall E (v w : gmat E) (rows : bool),
  wf_gmat v -> wf_gmat w -> is_view v = false -> 0 < size1 v ->
  (if rows then size2 v = size2 w else size1 v = size1 w) ->
  exists r r', matrix_stack (Some v) (Some w) rows false = Ok (Some r) /\
               matrix_stack (Some v) (Some w) rows true = Ok (Some r') /\
               stacks rows v w r /\ block r = block r' /\ size1 r = size1 r' /\ size2 r = size2 r'.
Proof. exact C06_aux. Qed.
Print Assumptions C06_matrix_stack.

(** C06: mismatched dimensions: NULL. *)
Theorem C06_matrix_stack_mismatch : forall E (v w : gmat E) (inplace : bool),
  (size2 v <> size2 w -> matrix_stack (Some v) (Some w) true inplace = Ok None) /\
  (size1 v <> size1 w -> matrix_stack (Some v) (Some w) false inplace = Ok None).
Proof.
  intros E v w ip. unfold matrix_stack. split; intros H.
  - replace (negb (size2 v =? size2 w)) with true by lia. reflexivity.
  - replace (negb (size1 v =? size1 w)) with true by lia. reflexivity.
Qed.
Print Assumptions C06_matrix_stack_mismatch.

Lemma C06_null_aux E (v : gmat E) rows inplace : wf_gmat v ->
  (exists r, matrix_stack None (Some v) rows inplace = Ok (Some r) /\ size1 r = size1 v /\ size2 r = size2 v /\ block r = block v) /\
  (exists r, matrix_stack (Some v) None rows inplace = Ok (Some r) /\ size1 r = size1 v /\ size2 r = size2 v /\ block r = block v) /\
  @matrix_stack E None None rows inplace = Ok None.
Proof.
  intros Hw.
  assert (exists r, (do o <- set_rows (size1 v) 0 (matrix_alloc (size1 v) (size2 v)) v; Ok (Some o)) = Ok (Some r) /\
     size1 r = size1 v /\ size2 r = size2 v /\ block r = block v) as H.
  { destruct (set_rows_spec (size1 v) 0 (matrix_alloc (size1 v) (size2 v)) v) as (o & Ho & H1 & H2 & H3 & H4); auto.
    { apply wf_matrix_alloc. }
    exists o. rewrite Ho. cbn [rbind]. cbn [size1 size2 matrix_alloc] in *. repeat split; auto.
    apply block_eq; auto. intros i j Hi Hj. rewrite H4 by lia.
    replace (_ && _) with true by (unfold wf_gmat in *; lia). rewrite Nat.sub_0_r. reflexivity. }
  cbn [matrix_stack]. split; [exact H|]. split; [|reflexivity].
  destruct inplace; [|exact H]. eexists; split; [reflexivity|]. auto.
Qed.
Theorem C06_matrix_stack_null : forall E (v : gmat E) rows inplace, wf_gmat v ->
  (exists r, matrix_stack None (Some v) rows inplace = Ok (Some r) /\ size1 r = size1 v /\ size2 r = size2 v /\ block r = block v) /\
  (exists r, matrix_stack (Some v) None rows inplace = Ok (Some r) /\ size1 r = size1 v /\ size2 r = size2 v /\ block r = block v) /\
  @matrix_stack E None None rows inplace = Ok None.
Proof. exact C06_null_aux. Qed.
Print Assumptions C06_matrix_stack_null.

Example C06_nonvacuous :
  let v := GM 2 1 (map Some [1; 2]) false in let w := GM 2 2 (map Some [3; 4; 5; 6]) false in
  wf_gmat v /\ wf_gmat w /\
  matrix_stack (Some v) (Some w) false true = Ok (Some (GM 2 3 (map Some [1; 3; 4; 2; 5; 6]) false)).
Proof. vm_compute. auto. Qed.
