(** C15 and the text half of C16: the text grid on the heap. *)
From Verif Require Import TextProofs.

(** C15: apop_text_alloc to a nonzero size keeps all strings inside both bounds, fills the rest with blanks and
    stays inside its allocations, unless it has to add rows while dropping columns. *)
Theorem C15_text_alloc : forall t row col,
  wf_t t -> wf_rows t -> 0 < row -> 0 < col -> ~ (trows t < row /\ col < tcols t) ->
  exists t', text_alloc t row col = Ok t' /\ wf_t t' /\ wf_rows t' /\ trows t' = row /\ tcols t' = col /\
    forall i j, i < row -> j < col ->
      tcell t' i j = if (i <? trows t) && (j <? tcols t) then tcell t i j else Some EmptyString.
Proof. exact text_alloc_spec. Qed.
Print Assumptions C15_text_alloc.

Lemma text_alloc_overrun t rs row col :
  tptr t = Some rs -> 0 < col -> trows t < row -> col < tcols t -> text_alloc t row col = UB.
Proof.
  intros Hp Hc Hr Hcc. unfold text_alloc.
  replace ((row =? 0) && negb (col =? 0) || (col =? 0) && negb (row =? 0)) with false by lia.
  rewrite Hp. replace (row <? trows t) with false by lia. cbn [rbind].
  replace (trows t <? row) with true by lia.
  assert (forall k from r, length r < from + k -> from <= length r -> fill_row r from k = UB) as Hf.
  { induction k as [|k IH]; intros from r H1 H2; [lia|]. cbn [fill_row].
    destruct (from <? length r) eqn:E; [|reflexivity].
    apply IH; rewrite insert_length; lia. }
  rewrite (Hf (tcols t) 0 (replicate col None)); [reflexivity| |]; rewrite replicate_length; lia.
Qed.
(** C15: adding rows while dropping columns always writes past the end of the new rows. *)
Theorem C15_text_alloc_overrun_refuted : forall t rs row col,
  tptr t = Some rs -> 0 < col -> trows t < row -> col < tcols t -> text_alloc t row col = UB.
Proof. exact text_alloc_overrun. Qed.
Print Assumptions C15_text_alloc_overrun_refuted.

Theorem C15_text_alloc_zero : forall t, wf_t t ->
  (exists t', text_alloc t 0 0 = Ok t' /\ trows t' = 0 /\ tcols t' = 0 /\ tptr t' = None) /\
  (forall n, text_alloc t 0 (S n) = Ok t /\ text_alloc t (S n) 0 = Ok t).
Proof. intros t H. split; [exact (text_alloc_zero t H)|]. intros n. exact (text_alloc_half_zero t n). Qed.
Print Assumptions C15_text_alloc_zero.

(** C15: apop_text_set writes one cell and nothing else, or returns -1 and changes nothing. *)
Theorem C15_text_set : forall t row col s,
  wf_t t -> 0 < trows t ->
  (row < trows t -> col < tcols t ->
     exists t', text_set t row col s = Ok (t', 0%Z) /\ wf_t t' /\ trows t' = trows t /\ tcols t' = tcols t /\
       forall i j, tcell t' i j = if (i =? row) && (j =? col) then Some s else tcell t i j) /\
  (~ (row < trows t /\ col < tcols t) -> text_set t row col s = Ok (t, (-1)%Z)).
Proof. exact text_set_spec. Qed.
Print Assumptions C15_text_set.

(** C15, histories: any sequence of allocations (never adding rows while dropping columns) and sets, from an
    empty grid, runs without undefined behaviour and leaves a well-formed grid. *)
Inductive top := TAlloc (row col : nat) | TSet (row col : nat) (s : string).
Definition top_ok (t : tstate) (o : top) : Prop :=
  match o with
  | TAlloc row col => 0 < row /\ 0 < col /\ ~ (trows t < row /\ col < tcols t)
  | TSet _ _ _ => 0 < trows t
  end.
Definition top_run (t : tstate) (o : top) : res tstate :=
  match o with TAlloc row col => text_alloc t row col | TSet r c s => do x <- text_set t r c s; Ok (fst x) end.
Inductive reachable_text : tstate -> Prop :=
| rt_init : reachable_text (TS 0 0 None)
| rt_step t o t' : reachable_text t -> top_ok t o -> top_run t o = Ok t' -> reachable_text t'.

Lemma text_set_wf_rows t row col s t' z : wf_rows t -> text_set t row col s = Ok (t', z) -> wf_rows t'.
Proof.
  unfold text_set, wf_rows. intros Hw. destruct (_ || _); [intros [= <- _]; auto|].
  destruct (tptr t) as [rs|] eqn:Ep; [|discriminate].
  destruct (tread rs row col); cbn; try discriminate.
  unfold twrite. destruct (rs !! row) as [r|]; [|discriminate]. destruct (col <? length r); cbn; [|discriminate].
  intros [= <- _]. cbn. rewrite insert_length. lia.
Qed.
Lemma reachable_text_inv t : reachable_text t -> wf_t t /\ wf_rows t.
Proof.
  induction 1 as [|t o t' _ [Hw Hr] Hok Hrun]; [split; cbn; auto|].
  destruct o as [row col|row col s]; cbn in *.
  - destruct Hok as (H1 & H2 & H3). destruct (text_alloc_spec t row col Hw Hr H1 H2 H3) as (t'' & E & ? & ? & _).
    rewrite Hrun in E. injection E as <-. auto.
  - destruct (text_set_spec t row col s Hw Hok) as [Ha Hb].
    destruct (decide (row < trows t /\ col < tcols t)) as [[? ?]|Hn].
    + destruct (Ha ltac:(auto) ltac:(auto)) as (t'' & E & ? & _). rewrite E in Hrun. cbn in Hrun. injection Hrun as <-.
      split; auto. eapply text_set_wf_rows; eauto.
    + rewrite (Hb Hn) in Hrun. cbn in Hrun. injection Hrun as <-. auto.
Qed.
Lemma C15_hist_aux t o : reachable_text t -> top_ok t o -> exists t', top_run t o = Ok t' /\ reachable_text t'.
Proof.
  intros Hr Hok. destruct (reachable_text_inv t Hr) as [Hw Hrw].
  assert (exists t', top_run t o = Ok t') as [t' E].
  { destruct o as [row col|row col s]; cbn in *.
    - destruct Hok as (H1 & H2 & H3). destruct (text_alloc_spec t row col Hw Hrw H1 H2 H3) as (t'' & E & _). eauto.
    - destruct (text_set_spec t row col s Hw Hok) as [Ha Hb].
      destruct (decide (row < trows t /\ col < tcols t)) as [[? ?]|Hn].
      + destruct (Ha ltac:(auto) ltac:(auto)) as (t'' & E & _). rewrite E. cbn. eauto.
      + rewrite (Hb Hn). cbn. eauto. }
  exists t'; split; auto. econstructor; eauto.
Qed.
Theorem C15_text_history_safe : forall t o, reachable_text t -> top_ok t o ->
  exists t', top_run t o = Ok t' /\ reachable_text t'.
Proof. exact C15_hist_aux. Qed.
Print Assumptions C15_text_history_safe.

Example C15_nonvacuous : exists t1 t2 t3,
  text_alloc (TS 0 0 None) 2 2 = Ok t1 /\ text_set t1 1 0 "x" = Ok (t2, 0%Z) /\ text_alloc t2 3 3 = Ok t3 /\
  reachable_text t3 /\ tcell t3 1 0 = Some "x"%string /\ tcell t3 2 2 = Some ""%string.
Proof.
  eassert (reachable_text _) as H1.
  { refine (rt_step (TS 0 0 None) (TAlloc 2 2) _ rt_init _ eq_refl). cbn; lia. }
  eassert (reachable_text _) as H2.
  { refine (rt_step _ (TSet 1 0 "x") _ H1 _ eq_refl). cbn; lia. }
  eassert (reachable_text _) as H3.
  { refine (rt_step _ (TAlloc 3 3) _ H2 _ eq_refl). cbn; lia. }
  do 3 eexists. split; [reflexivity|]. split; [reflexivity|]. split; [reflexivity|]. split; [exact H3|auto].
Qed.

(** C16, text in place: cell (j,i) of the result is cell (i,j) of the input, for every shape. *)
Theorem C16_text_transpose_inplace : forall t,
  wf_t t -> wf_rows t -> 0 < trows t -> 0 < tcols t ->
  exists t', text_transpose_inplace t = Ok t' /\ wf_t t' /\ wf_rows t' /\
     trows t' = tcols t /\ tcols t' = trows t /\
     forall i j, tcell t' j i = tcell t i j.
Proof. exact text_transpose_spec. Qed.
Print Assumptions C16_text_transpose_inplace.

Lemma transpose_twice_aux t : wf_t t -> wf_rows t -> 0 < trows t -> 0 < tcols t ->
  exists t' t'', text_transpose_inplace t = Ok t' /\ text_transpose_inplace t' = Ok t'' /\
    trows t'' = trows t /\ tcols t'' = tcols t /\ forall i j, tcell t'' i j = tcell t i j.
Proof.
  intros H1 H2 H3 H4. destruct (text_transpose_spec t H1 H2 H3 H4) as (t' & E & W & R & D1 & D2 & C).
  destruct (text_transpose_spec t' W R) as (t'' & E' & W' & R' & D1' & D2' & C'); [lia|lia|].
  exists t', t''. split; auto. split; auto. split; [congruence|]. split; [congruence|]. intros i j. rewrite C', C. reflexivity.
Qed.
(** C16: transposing the text twice in place restores it. *)
Theorem C16_text_transpose_twice : forall t, wf_t t -> wf_rows t -> 0 < trows t -> 0 < tcols t ->
  exists t' t'', text_transpose_inplace t = Ok t' /\ text_transpose_inplace t' = Ok t'' /\
    trows t'' = trows t /\ tcols t'' = tcols t /\ forall i j, tcell t'' i j = tcell t i j.
Proof. exact transpose_twice_aux. Qed.
Print Assumptions C16_text_transpose_twice.

Example C16_text_nonvacuous :
  let t := TS 1 2 (Some [[Some "a"%string; Some "b"%string]]) in
  wf_t t /\ wf_rows t /\ exists t', text_transpose_inplace t = Ok t' /\ tcell t' 1 0 = Some "b"%string.
Proof.
  repeat split; cbn; try lia.
  - intros i j Hi Hj. destruct i as [|i]; [|lia]. destruct j as [|[|j]]; [cbn; eauto|cbn; eauto|lia].
  - eexists; split; reflexivity.
Qed.
