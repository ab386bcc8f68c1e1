From Verif Require Export MemModel.

Section MemP.
Context {E : Type}.
Implicit Types m b : mem E.

Definition wf_gmat (g : gmat E) : Prop := length (block g) = size1 g * size2 g.
Definition wf_gvec (g : gvec E) : Prop := length (vblock g) = vsize g.

Lemma slice_lookup m off n s :
  slice m off n = Ok s -> length s = n /\ off + n <= length m /\ (forall k, k < n -> s !! k = m !! (off + k)).
Proof.
  unfold slice. destruct (off + n <=? length m) eqn:Eq; [|discriminate]. intros H; inversion H; subst.
  rewrite take_length, drop_length. repeat split; try lia.
  intros k Hk. rewrite lookup_take by lia. rewrite lookup_drop. auto.
Qed.
Lemma slice_ok m off n : off + n <= length m -> exists s, slice m off n = Ok s.
Proof. intros. unfold slice. replace (off + n <=? length m) with true by lia. eauto. Qed.
Lemma blit_ok m off s : off + length s <= length m -> exists m', blit m off s = Ok m'.
Proof. intros. unfold blit. replace (off + length s <=? length m) with true by lia. eauto. Qed.
Lemma blit_lookup m off s m' :
  blit m off s = Ok m' ->
  length m' = length m /\ off + length s <= length m /\
  forall k, m' !! k = if (off <=? k) && (k <? off + length s) then s !! (k - off) else m !! k.
Proof.
  unfold blit. destruct (off + length s <=? length m) eqn:Eq; [|discriminate]. intros H; inversion H; subst.
  assert (off + length s <= length m) by lia.
  rewrite !app_length, take_length, drop_length. repeat split; try lia.
  intros k. destruct ((off <=? k) && (k <? off + length s)) eqn:Ek.
  - rewrite lookup_app_r by (rewrite take_length; lia). rewrite take_length.
    replace (off `min` length m) with off by lia. rewrite lookup_app_l by lia. auto.
  - destruct (decide (k < off)).
    + rewrite lookup_app_l by (rewrite take_length; lia). rewrite lookup_take by lia. auto.
    + rewrite lookup_app_r by (rewrite take_length; lia). rewrite take_length.
      replace (off `min` length m) with off by lia. rewrite lookup_app_r by lia.
      rewrite lookup_drop. f_equal. lia.
Qed.

Lemma memmove_spec m dst src n :
  dst + n <= length m -> src + n <= length m ->
  exists m', memmove m dst src n = Ok m' /\ length m' = length m /\
    forall k, m' !! k = if (dst <=? k) && (k <? dst + n) then m !! (src + (k - dst)) else m !! k.
Proof.
  intros Hd Hs. unfold memmove. destruct (slice_ok m src n Hs) as [s Es]. rewrite Es; simpl.
  apply slice_lookup in Es as (Hl & _ & Hk).
  destruct (blit_ok m dst s) as [m' Em]; [lia|]. rewrite Em. exists m'; split; auto.
  apply blit_lookup in Em as (Hl' & _ & Hm). split; auto.
  intros k. rewrite Hm, Hl. destruct ((dst <=? k) && (k <? dst + n)) eqn:Ek; auto. apply Hk. lia.
Qed.

Lemma realloc_length m n : length (realloc m n) = n.
Proof. unfold realloc. rewrite app_length, take_length, replicate_length. lia. Qed.
Lemma realloc_lookup m n k : k < n -> k < length m -> realloc m n !! k = m !! k.
Proof.
  intros. unfold realloc. rewrite lookup_app_l by (rewrite take_length; lia). apply lookup_take; auto.
Qed.

(** narrowing: invariant over the rows already moved *)
Lemma shrink_loop_spec k i oldw neww m0 m :
  neww < oldw -> 1 <= i -> (i + k) * oldw <= length m0 -> length m = length m0 ->
  (forall r j, r < i -> j < neww -> m !! (r * neww + j) = m0 !! (r * oldw + j)) ->
  (forall p, i * oldw <= p -> m !! p = m0 !! p) ->
  exists m', shrink_loop k i oldw neww m = Ok m' /\ length m' = length m0 /\
   forall r j, r < i + k -> j < neww -> m' !! (r * neww + j) = m0 !! (r * oldw + j).
Proof.
  intros Hw. revert i m; induction k as [|k IH]; intros i m Hi Hb Hl Hdone Hrest; simpl.
  - exists m; split; [reflexivity|]. split; auto. intros r j Hr Hj. apply Hdone; lia.
  - destruct (memmove_spec m (i * neww) (i * oldw) neww) as (m1 & -> & Hl1 & H1); [nia|nia|]. simpl.
    destruct (IH (S i) m1) as (m' & Hm' & Hl' & Hspec); try lia.
    + intros r j Hr Hj. rewrite H1.
      destruct (decide (r = i)) as [->|Hne].
      * replace ((i * neww <=? i * neww + j) && (i * neww + j <? i * neww + neww)) with true by lia.
        rewrite Hrest by lia. f_equal. lia.
      * replace ((i * neww <=? r * neww + j) && (r * neww + j <? i * neww + neww)) with false by nia.
        apply Hdone; lia.
    + intros p Hp. rewrite H1.
      replace ((i * neww <=? p) && (p <? i * neww + neww)) with false by nia.
      apply Hrest. nia.
    + exists m'; split; [exact Hm'|]. split; auto. intros r j Hr Hj. apply Hspec; lia.
Qed.

(** widening: rows above i are in place, rows up to i still in old layout *)
Lemma grow_loop_spec i height oldw neww m0 m :
  oldw < neww -> i < height -> height * neww <= length m0 -> length m = length m0 ->
  (forall r j, i < r < height -> j < oldw -> m !! (r * neww + j) = m0 !! (r * oldw + j)) ->
  (forall p, p < (i + 1) * oldw -> m !! p = m0 !! p) ->
  exists m', grow_loop i height oldw neww m = Ok m' /\ length m' = length m0 /\
   forall r j, r < height -> j < oldw -> m' !! (r * neww + j) = m0 !! (r * oldw + j).
Proof.
  intros Hw. revert m; induction i as [|i IH]; intros m Hi Hb Hl Hdone Hrest.
  - exists m; split; [reflexivity|]. split; auto. intros r j Hr Hj.
    destruct (decide (r = 0)) as [->|]; [simpl; apply Hrest; lia|]. apply Hdone; lia.
  - cbn [grow_loop].
    replace (height * neww - (height - S i) * neww) with (S i * neww) by nia.
    destruct (memmove_spec m (S i * neww) (S i * oldw) oldw) as (m1 & -> & Hl1 & H1); [nia|nia|].
    cbn [rbind]. destruct (IH m1) as (m' & Hm' & Hl' & Hspec); try lia.
    + intros r j Hr Hj. rewrite H1.
      destruct (decide (r = S i)) as [->|Hne].
      * replace ((S i * neww <=? S i * neww + j) && (S i * neww + j <? S i * neww + oldw)) with true by lia.
        rewrite Hrest by lia. f_equal. lia.
      * replace ((S i * neww <=? r * neww + j) && (r * neww + j <? S i * neww + oldw)) with false by nia.
        apply Hdone; lia.
    + intros p Hp. rewrite H1.
      replace ((S i * neww <=? p) && (p <? S i * neww + oldw)) with false by nia.
      apply Hrest. nia.
    + exists m'; split; [exact Hm'|]. split; auto.
Qed.

Lemma matrix_realloc_spec (g : gmat E) newh neww :
  wf_gmat g -> is_view g = false -> 0 < newh -> 0 < size1 g ->
  exists g', matrix_realloc (Some g) newh neww = Ok (Some g') /\
    size1 g' = newh /\ size2 g' = neww /\ wf_gmat g' /\ is_view g' = false /\
    forall i j, i < size1 g -> i < newh -> j < size2 g -> j < neww -> melem g' i j = melem g i j.
Proof.
  destruct g as [n1 n2 b vw]; unfold wf_gmat, melem; simpl. intros Hwf -> Hh Hn1.
  destruct (neww <? n2) eqn:E1; [|destruct (n2 <? neww) eqn:E2].
  - destruct (shrink_loop_spec (n1 `min` newh - 1) 1 n2 neww b b) as (b' & -> & Hl & Hs);
      [lia|lia|rewrite Hwf; nia|auto| |auto|].
    { intros r j Hr Hj. f_equal. replace r with 0 by lia. lia. }
    simpl. eexists; split; [reflexivity|]; simpl. rewrite realloc_length. repeat split; auto.
    intros i j Hi Hi' Hj Hj'. rewrite realloc_lookup; [apply Hs; lia|nia|]. rewrite Hl, Hwf. nia.
  - replace (n1 `min` newh =? 0) with false by lia.
    destruct (grow_loop_spec (n1 `min` newh - 1) (n1 `min` newh) n2 neww (realloc b (newh * neww)) (realloc b (newh * neww)))
      as (b' & -> & Hl & Hs); [lia|lia|rewrite realloc_length; nia|auto|lia|auto|].
    simpl. eexists; split; [reflexivity|]; simpl. rewrite Hl, realloc_length. repeat split; auto.
    intros i j Hi Hi' Hj Hj'. rewrite Hs by lia. apply realloc_lookup; [nia|]. rewrite Hwf. nia.
  - eexists; split; [reflexivity|]; simpl. rewrite realloc_length. assert (neww = n2) as -> by lia.
    repeat split; auto. intros i j Hi Hi' Hj Hj'. apply realloc_lookup; [nia|]. rewrite Hwf. nia.
Qed.

(** ---- stacking ---- *)
Lemma copy_into_spec (v : gvec E) off src :
  wf_gvec v -> wf_gvec src -> off + vsize src <= vsize v ->
  exists o, copy_into v off src = Ok o /\ vsize o = vsize v /\ wf_gvec o /\ v_is_view o = v_is_view v /\
    forall k, vblock o !! k = if (off <=? k) && (k <? off + vsize src) then vblock src !! (k - off) else vblock v !! k.
Proof.
  intros Hv Hs Hle. unfold copy_into.
  destruct (slice_ok (vblock src) 0 (vsize src)) as [s Es]; [unfold wf_gvec in *; lia|]. rewrite Es; simpl.
  apply slice_lookup in Es as (Hl & _ & Hk).
  replace (off + vsize src <=? vsize v) with true by lia.
  destruct (blit_ok (vblock v) off s) as [b Eb]; [unfold wf_gvec in *; lia|]. rewrite Eb; simpl.
  apply blit_lookup in Eb as (Hlb & _ & Hb).
  eexists; split; [reflexivity|]; unfold wf_gvec in *; simpl. repeat split; try lia.
  intros k. rewrite Hb, Hl. destruct ((off <=? k) && (k <? off + vsize src)) eqn:Ek; auto. apply Hk. lia.
Qed.

Lemma vector_stack_spec (v1 v2 : option (gvec E)) inplace :
  (forall v, v1 = Some v -> wf_gvec v /\ v_is_view v = false) ->
  (forall v, v2 = Some v -> wf_gvec v) ->
  exists o, vector_stack v1 v2 inplace = Ok o /\
    match v1, v2 with
    | None, None => o = None
    | Some v, None => exists r, o = Some r /\ vblock r = vblock v /\ vsize r = vsize v
    | None, Some w => exists r, o = Some r /\ vblock r = vblock w /\ vsize r = vsize w
    | Some v, Some w => exists r, o = Some r /\ vblock r = vblock v ++ vblock w /\ vsize r = vsize v + vsize w
    end.
Proof.
  intros H1 H2.
  assert (forall w : gvec E, wf_gvec w ->
    exists o, copy_into (vector_alloc (vsize w)) 0 w = Ok o /\ vblock o = vblock w /\ vsize o = vsize w) as Hcopy.
  { intros w Hw. destruct (copy_into_spec (vector_alloc (vsize w)) 0 w) as (o & Ho & Hs & Hwf & _ & Hk); auto.
    - unfold wf_gvec, vector_alloc; simpl. apply replicate_length.
    - exists o; repeat split; auto. apply list_eq; intros k. rewrite Hk. simpl. rewrite Nat.sub_0_r.
      destruct (k <? vsize w) eqn:Ek; auto.
      rewrite (proj2 (lookup_ge_None (vblock w) k)) by (unfold wf_gvec in *; lia).
      apply lookup_ge_None. simpl. rewrite replicate_length. lia. }
  destruct v1 as [v|], v2 as [w|]; simpl.
  - destruct (H1 v eq_refl) as [Hv Hview]. pose proof (H2 w eq_refl) as Hw.
    assert (exists out, (if inplace then match vector_realloc (Some v) (vsize v + vsize w) with Some o => Ok o | None => UB end
       else copy_into (vector_alloc (vsize v + vsize w)) 0 v) = Ok out /\ vsize out = vsize v + vsize w /\ wf_gvec out /\
       forall k, k < vsize v -> vblock out !! k = vblock v !! k) as (out & Hout & Hs & Hwf & Hk).
    { destruct inplace.
      - simpl. rewrite Hview. eexists; split; [reflexivity|]. unfold wf_gvec in *; simpl. rewrite realloc_length.
        repeat split; auto. intros k Hk. apply realloc_lookup; lia.
      - destruct (copy_into_spec (vector_alloc (vsize v + vsize w)) 0 v) as (o & Ho & Hs & Hwf & _ & Hk); auto.
        + unfold wf_gvec, vector_alloc; simpl. apply replicate_length.
        + simpl; lia.
        + exists o; repeat split; auto. intros k Hlt. rewrite Hk. replace (_ && _) with true by lia. f_equal; lia. }
    simpl in Hout. rewrite Hout; simpl.
    destruct (copy_into_spec out (vsize v) w) as (o & -> & Ho1 & Ho2 & _ & Ho3); auto; [lia|]. simpl.
    eexists; split; [reflexivity|]. exists o; repeat split; [|lia].
    apply list_eq; intros k. rewrite Ho3. unfold wf_gvec in *.
    destruct (decide (k < vsize v)).
    + replace (_ && _) with false by lia. rewrite Hk by lia. rewrite lookup_app_l by lia. auto.
    + rewrite lookup_app_r by lia. rewrite Hv. destruct (decide (k < vsize v + vsize w)).
      * replace (_ && _) with true by lia. auto.
      * replace (_ && _) with false by lia.
        rewrite (proj2 (lookup_ge_None _ _)), (proj2 (lookup_ge_None _ _)) by lia. auto.
  - destruct (H1 v eq_refl) as [Hv Hview]. destruct inplace.
    + eexists; split; [reflexivity|]. eauto.
    + destruct (Hcopy v Hv) as (o & -> & ? & ?). simpl. eexists; split; [reflexivity|]. eauto.
  - destruct (Hcopy w (H2 w eq_refl)) as (o & -> & ? & ?). simpl. eexists; split; [reflexivity|]. eauto.
  - eauto.
Qed.

Lemma mul_add_cell i j i' j' w : j < w -> j' < w -> i * w + j = i' * w + j' -> i = i' /\ j = j'.
Proof.
  intros. assert (i = i') as ->; [|lia].
  destruct (lt_eq_lt_dec i i') as [[|]|]; auto; nia.
Qed.

Lemma set_row_spec (out src : gmat E) i i' :
  wf_gmat out -> wf_gmat src -> size2 src = size2 out -> i < size1 out -> i' < size1 src ->
  exists o, set_row out i src i' = Ok o /\ size1 o = size1 out /\ size2 o = size2 out /\ wf_gmat o /\
    forall r j, j < size2 out -> melem o r j = if r =? i then melem src i' j else melem out r j.
Proof.
  unfold wf_gmat, set_row, melem. intros Ho Hs Hw Hi Hi'.
  destruct (slice_ok (block src) (i' * size2 src) (size2 src)) as [s Es]; [rewrite Hs; nia|]. rewrite Es; simpl.
  apply slice_lookup in Es as (Hl & _ & Hk).
  replace ((i <? size1 out) && (size2 src =? size2 out)) with true by lia.
  destruct (blit_ok (block out) (i * size2 out) s) as [b Eb]; [rewrite Ho, Hl; nia|]. rewrite Eb; simpl.
  apply blit_lookup in Eb as (Hlb & _ & Hb).
  eexists; split; [reflexivity|]; simpl. repeat split; try lia.
  intros r j Hj. rewrite Hb, Hl.
  destruct (r =? i) eqn:Er.
  - assert (r = i) as -> by lia. replace (_ && _) with true by lia. rewrite Hk by lia. f_equal. lia.
  - replace (_ && _) with false by nia. auto.
Qed.

Lemma set_rows_spec n off (out src : gmat E) :
  wf_gmat out -> wf_gmat src -> size2 src = size2 out -> off + n <= size1 out -> n <= size1 src ->
  exists o, set_rows n off out src = Ok o /\ size1 o = size1 out /\ size2 o = size2 out /\ wf_gmat o /\
    forall r j, j < size2 out -> melem o r j = if (off <=? r) && (r <? off + n) then melem src (r - off) j else melem out r j.
Proof.
  intros Ho Hs Hw. induction n as [|n IH]; intros Hle Hn; cbn [set_rows].
  - exists out; repeat split; auto. intros r j Hj. replace (_ && _) with false by lia. auto.
  - destruct IH as (o & -> & H1 & H2 & H3 & H4); [lia..|]. cbn [rbind].
    destruct (set_row_spec o src (off + n) n) as (o' & -> & H1' & H2' & H3' & H4'); [auto|auto|lia|lia|lia|].
    exists o'; repeat split; [lia|lia|auto|]. intros r j Hj. rewrite H4' by lia.
    destruct (r =? off + n) eqn:Er.
    + replace (_ && _) with true by lia. f_equal. lia.
    + rewrite H4 by lia. destruct ((off <=? r) && (r <? off + n)) eqn:E2.
      * replace (_ && _) with true by lia. auto.
      * replace (_ && _) with false by lia. auto.
Qed.

Lemma set_col_cells_spec k n b w j src wsrc j' :
  length b = n * w -> length src = n * wsrc -> j < w -> j' < wsrc -> k <= n ->
  exists b', set_col_cells k b w j src wsrc j' = Ok b' /\ length b' = length b /\
    forall r c, c < w -> b' !! (r * w + c) = if (r <? k) && (c =? j) then src !! (r * wsrc + j') else b !! (r * w + c).
Proof.
  intros Hb Hs Hj Hj'. induction k as [|k IH]; intros Hk; cbn [set_col_cells].
  - exists b; repeat split; auto.
  - destruct IH as (o & -> & Hl & Ho); [lia|]. cbn [rbind].
    destruct (slice_ok src (k * wsrc + j') 1) as [s Es]; [nia|]. rewrite Es. cbn [rbind].
    apply slice_lookup in Es as (Hls & _ & Hks).
    destruct (blit_ok o (k * w + j) s) as [b' Eb]; [nia|]. exists b'; split; auto.
    apply blit_lookup in Eb as (Hlb & _ & Hlk). split; [lia|].
    intros r c Hc. rewrite Hlk, Hls.
    destruct (decide (r = k /\ c = j)) as [[-> ->]|Hne].
    + replace ((k * w + j <=? k * w + j) && (k * w + j <? k * w + j + 1)) with true by lia.
      replace ((k <? S k) && (j =? j)) with true by lia. rewrite Hks by lia. f_equal. lia.
    + replace ((k * w + j <=? r * w + c) && (r * w + c <? k * w + j + 1)) with false.
      2:{ symmetry. apply not_true_is_false. intros Heq.
          assert (r * w + c = k * w + j) as Hc' by lia.
          apply mul_add_cell in Hc'; auto. }
      rewrite Ho by lia. destruct ((r <? k) && (c =? j)) eqn:E1.
      * replace (_ && _) with true by lia. auto.
      * replace (_ && _) with false; auto. symmetry.
        destruct (decide (r = k)), (decide (c = j)); try lia.
Qed.

Lemma set_cols_spec n off (out src : gmat E) :
  wf_gmat out -> wf_gmat src -> size1 src = size1 out -> off + n <= size2 out -> n <= size2 src ->
  exists o, set_cols n off out src = Ok o /\ size1 o = size1 out /\ size2 o = size2 out /\ wf_gmat o /\
    forall r j, r < size1 out -> j < size2 out ->
      melem o r j = if (off <=? j) && (j <? off + n) then melem src r (j - off) else melem out r j.
Proof.
  unfold wf_gmat, melem. intros Ho Hs Hw. induction n as [|n IH]; intros Hle Hn; cbn [set_cols].
  - exists out; repeat split; auto. intros r j Hr Hj. replace (_ && _) with false by lia. auto.
  - destruct IH as (o & -> & H1 & H2 & H3 & H4); [lia..|]. cbn [rbind]. unfold set_col.
    replace ((off + n <? size2 o) && (size1 src =? size1 o)) with true by lia.
    destruct (set_col_cells_spec (size1 src) (size1 out) (block o) (size2 o) (off + n) (block src) (size2 src) n)
      as (b' & -> & Hl & Hb); [rewrite H3, H1; auto|rewrite Hs, Hw; auto|lia|lia|lia|].
    simpl. eexists; split; [reflexivity|]; simpl. repeat split; [lia|lia|nia|].
    intros r j Hr Hj. rewrite Hb by lia.
    destruct ((r <? size1 src) && (j =? off + n)) eqn:Er.
    + replace (_ && _) with true by lia. f_equal. lia.
    + rewrite H4 by lia. destruct ((off <=? j) && (j <? off + n)) eqn:E2.
      * replace (_ && _) with true by lia. auto.
      * replace (_ && _) with false by lia. auto.
Qed.

Lemma wf_matrix_alloc n1 n2 : wf_gmat (@matrix_alloc E n1 n2).
Proof. unfold wf_gmat; simpl. apply replicate_length. Qed.

Lemma block_eq (g h : gmat E) :
  wf_gmat g -> wf_gmat h -> size1 g = size1 h -> size2 g = size2 h ->
  (forall i j, i < size1 g -> j < size2 g -> melem g i j = melem h i j) -> block g = block h.
Proof.
  unfold wf_gmat, melem. intros Hg Hh H1 H2 H. apply list_eq; intros k.
  destruct (decide (k < size1 g * size2 g)) as [Hk|Hk].
  - assert (0 < size2 g) as Hw by (destruct (size2 g); nia).
    specialize (H (k / size2 g) (k mod size2 g)).
    rewrite <- H2 in H. pose proof (Nat.div_mod k (size2 g)) as Hdm.
    pose proof (Nat.mod_upper_bound k (size2 g)).
    assert (k / size2 g < size1 g) by (apply Nat.div_lt_upper_bound; lia).
    replace (k / size2 g * size2 g + k mod size2 g) with k in H by lia. apply H; lia.
  - rewrite (proj2 (lookup_ge_None _ _)), (proj2 (lookup_ge_None _ _)) by nia. auto.
Qed.

(** specification of stacking, cell by cell *)
Definition is_stack (rows : bool) (v w r : gmat E) : Prop :=
  if rows then
    size1 r = size1 v + size1 w /\ size2 r = size2 v /\ wf_gmat r /\
    (forall i j, i < size1 v -> j < size2 v -> melem r i j = melem v i j) /\
    (forall i j, i < size1 w -> j < size2 v -> melem r (size1 v + i) j = melem w i j)
  else
    size1 r = size1 v /\ size2 r = size2 v + size2 w /\ wf_gmat r /\
    (forall i j, i < size1 v -> j < size2 v -> melem r i j = melem v i j) /\
    (forall i j, i < size1 v -> j < size2 w -> melem r i (size2 v + j) = melem w i j).

Lemma matrix_stack_spec (v w : gmat E) (rows inplace : bool) :
  wf_gmat v -> wf_gmat w -> is_view v = false -> 0 < size1 v ->
  (if rows then size2 v = size2 w else size1 v = size1 w) ->
  exists r, matrix_stack (Some v) (Some w) rows inplace = Ok (Some r) /\ is_stack rows v w r.
Proof.
  intros Hv Hw Hview Hpos Hdim. unfold matrix_stack. destruct rows.
  - replace (negb (size2 v =? size2 w)) with false by lia.
    assert (exists out, (if inplace then do o <- matrix_realloc (Some v) (size1 v + size1 w) (size2 v); deref o
       else set_rows (size1 v) 0 (matrix_alloc (size1 v + size1 w) (size2 v)) v) = Ok out /\
       size1 out = size1 v + size1 w /\ size2 out = size2 v /\ wf_gmat out /\
       forall i j, i < size1 v -> j < size2 v -> melem out i j = melem v i j) as (out & -> & H1 & H2 & H3 & H4).
    { destruct inplace.
      - destruct (matrix_realloc_spec v (size1 v + size1 w) (size2 v)) as (g & -> & ? & ? & ? & ? & Hk); auto; [lia|].
        simpl. exists g; repeat split; auto. intros; apply Hk; lia.
      - destruct (set_rows_spec (size1 v) 0 (matrix_alloc (size1 v + size1 w) (size2 v)) v) as (g & -> & ? & ? & ? & Hk);
          simpl; auto; try lia; [apply wf_matrix_alloc|].
        exists g; repeat split; auto. intros i j Hi Hj. rewrite Hk by (simpl; lia).
        replace (_ && _) with true by lia. f_equal; lia. }
    cbn [rbind].
    destruct (set_rows_spec (size1 w) (size1 v) out w) as (r & -> & ? & ? & ? & Hk); auto; try lia.
    cbn [rbind]. exists r; split; [reflexivity|]. repeat split; auto; try lia.
    + intros i j Hi Hj. rewrite Hk by lia. replace (_ && _) with false by lia. apply H4; auto.
    + intros i j Hi Hj. rewrite Hk by lia. replace (_ && _) with true by lia. f_equal; lia.
  - replace (negb (size1 v =? size1 w)) with false by lia.
    assert (exists out, (if inplace then do o <- matrix_realloc (Some v) (size1 v) (size2 v + size2 w); deref o
       else set_cols (size2 v) 0 (matrix_alloc (size1 v) (size2 v + size2 w)) v) = Ok out /\
       size1 out = size1 v /\ size2 out = size2 v + size2 w /\ wf_gmat out /\
       forall i j, i < size1 v -> j < size2 v -> melem out i j = melem v i j) as (out & -> & H1 & H2 & H3 & H4).
    { destruct inplace.
      - destruct (matrix_realloc_spec v (size1 v) (size2 v + size2 w)) as (g & -> & ? & ? & ? & ? & Hk); auto.
        simpl. exists g; repeat split; auto. intros; apply Hk; lia.
      - destruct (set_cols_spec (size2 v) 0 (matrix_alloc (size1 v) (size2 v + size2 w)) v) as (g & -> & ? & ? & ? & Hk);
          simpl; auto; try lia; [apply wf_matrix_alloc|].
        exists g; repeat split; auto. intros i j Hi Hj. rewrite Hk by (simpl; lia).
        replace (_ && _) with true by lia. f_equal; lia. }
    cbn [rbind].
    destruct (set_cols_spec (size2 w) (size2 v) out w) as (r & -> & ? & ? & ? & Hk); auto; try lia.
    cbn [rbind]. exists r; split; [reflexivity|]. repeat split; auto; try lia.
    + intros i j Hi Hj. rewrite Hk by lia. replace (_ && _) with false by lia. apply H4; auto.
    + intros i j Hi Hj. rewrite Hk by lia. replace (_ && _) with true by lia. f_equal; lia.
Qed.

Lemma is_stack_unique rows v w r r' :
  is_stack rows v w r -> is_stack rows v w r' -> size1 r = size1 r' /\ size2 r = size2 r' /\ block r = block r'.
Proof.
  destruct rows; simpl; intros (A1 & A2 & A3 & A4 & A5) (B1 & B2 & B3 & B4 & B5);
    (split; [lia|split; [lia|apply block_eq; auto; try lia]]); intros i j Hi Hj.
  - destruct (decide (i < size1 v)); [rewrite A4, B4; auto; lia|].
    replace i with (size1 v + (i - size1 v)) by lia. rewrite A5, B5; auto; lia.
  - destruct (decide (j < size2 v)); [rewrite A4, B4; auto; lia|].
    replace j with (size2 v + (j - size2 v)) by lia. rewrite A5, B5; auto; lia.
Qed.
End MemP.
