From Verif Require Export TextModel.

(** every cell inside textsize is allocated and initialised *)
Definition wf_t (t : tstate) : Prop :=
  match tptr t with
  | None => trows t = 0 /\ tcols t = 0
  | Some rs => forall i j, i < trows t -> j < tcols t -> exists s, tread rs i j = Ok s
  end.
(** and every row within textsize[0] is a live allocation even when textsize[1] is 0 *)
Definition wf_rows (t : tstate) : Prop :=
  match tptr t with None => True | Some rs => trows t <= length rs end.

Lemma tread_lookup rs i j s : tread rs i j = Ok s <-> exists r, rs !! i = Some r /\ r !! j = Some (Some s).
Proof.
  unfold tread. split.
  - destruct (rs !! i) as [r|]; [|discriminate]. destruct (r !! j) as [[x|]|] eqn:E; try discriminate.
    intros H; inversion H; subst. eauto.
  - intros (r & -> & ->). auto.
Qed.

Lemma twrite_spec rs i j s r : rs !! i = Some r -> j < length r ->
  exists rs', twrite rs i j s = Ok rs' /\ length rs' = length rs /\
    (forall i', option_map (@length _) (rs' !! i') = option_map (@length _) (rs !! i')) /\
    (forall i' j', tread rs' i' j' = if (i' =? i) && (j' =? j) then Ok s else tread rs i' j').
Proof.
  intros Hr Hj. unfold twrite. rewrite Hr. replace (j <? length r) with true by lia.
  assert (i < length rs) as Hi by (eapply lookup_lt_Some; eauto).
  eexists; split; [reflexivity|]. rewrite insert_length. split; [auto|]. split.
  - intros i'. destruct (decide (i' = i)) as [->|].
    + rewrite list_lookup_insert by auto. rewrite Hr. simpl. rewrite insert_length. auto.
    + rewrite list_lookup_insert_ne by auto. auto.
  - intros i' j'. unfold tread. destruct (decide (i' = i)) as [->|].
    + rewrite list_lookup_insert by auto. rewrite Hr. rewrite Nat.eqb_refl. simpl.
      destruct (decide (j' = j)) as [->|].
      * rewrite list_lookup_insert by auto. rewrite Nat.eqb_refl. auto.
      * rewrite list_lookup_insert_ne by auto. replace (j' =? j) with false by lia. auto.
    + rewrite list_lookup_insert_ne by auto. replace (i' =? i) with false by lia. auto.
Qed.

Lemma tread_run_ok rs i from k :
  (forall j, from <= j < from + k -> exists s, tread rs i j = Ok s) -> tread_run rs i from k = Ok tt.
Proof.
  revert from; induction k as [|k IH]; intros from H; simpl; auto.
  destruct (H from) as [s ->]; [lia|]. simpl. apply IH. intros j Hj. apply H; lia.
Qed.
Lemma tread_rows_ok rs i n from k :
  (forall i' j, i <= i' < i + n -> from <= j < from + k -> exists s, tread rs i' j = Ok s) ->
  tread_rows rs i n from k = Ok tt.
Proof.
  revert i; induction n as [|n IH]; intros i H; simpl; auto.
  rewrite tread_run_ok; [simpl; apply IH; intros; apply H; lia|]. intros; apply H; lia.
Qed.

Lemma fill_row_spec r from k :
  from + k <= length r ->
  exists r', fill_row r from k = Ok r' /\ length r' = length r /\
    forall j, r' !! j = if (from <=? j) && (j <? from + k) then Some (Some EmptyString) else r !! j.
Proof.
  revert r from; induction k as [|k IH]; intros r from H; simpl.
  - exists r; repeat split; auto. intros j. replace (_ && _) with false by lia. auto.
  - replace (from <? length r) with true by lia.
    destruct (IH (<[from := Some EmptyString]> r) (S from)) as (r' & -> & Hl & Hr); [rewrite insert_length; lia|].
    rewrite insert_length in Hl. exists r'; repeat split; auto. intros j. rewrite Hr.
    destruct (decide (j = from)) as [->|].
    + replace ((S from <=? from) && (from <? S from + k)) with false by lia.
      replace (_ && _) with true by lia. rewrite list_lookup_insert by lia. auto.
    + rewrite list_lookup_insert_ne by auto.
      destruct ((S from <=? j) && (j <? S from + k)) eqn:E;
        [replace (_ && _) with true by lia|replace (_ && _) with false by lia]; auto.
Qed.

Lemma row_realloc_lookup r n j : j < n -> j < length r -> row_realloc r n !! j = r !! j.
Proof. intros. unfold row_realloc. rewrite lookup_app_l by (rewrite take_length; lia). apply lookup_take; auto. Qed.
Lemma row_realloc_length r n : length (row_realloc r n) = n.
Proof. unfold row_realloc. rewrite app_length, take_length, replicate_length. lia. Qed.

Lemma map_res_spec {A B} (f : A -> res B) l :
  (forall i x, l !! i = Some x -> exists y, f x = Ok y) ->
  exists l', map_res f l = Ok l' /\ length l' = length l /\
    forall i x, l !! i = Some x -> exists y, l' !! i = Some y /\ f x = Ok y.
Proof.
  induction l as [|x l IH]; intros H; simpl.
  - exists []; repeat split; auto. intros i x Hx; rewrite lookup_nil in Hx; discriminate.
  - destruct (H 0 x) as [y Hy]; auto. rewrite Hy; simpl.
    destruct IH as (l' & -> & Hl & Hs). { intros i z Hz. apply (H (S i) z). auto. }
    simpl. exists (y :: l'); repeat split; [simpl; lia|].
    intros [|i] z Hz; simpl in *; [inversion Hz; subst; eauto|]. auto.
Qed.

Lemma tread_take rs n i j : i < n -> tread (take n rs) i j = tread rs i j.
Proof. intros. unfold tread. rewrite lookup_take by auto. auto. Qed.

Lemma tread_row rs i j s : tread rs i j = Ok s -> exists r, rs !! i = Some r /\ j < length r.
Proof. rewrite tread_lookup. intros (r & ? & H). exists r; split; auto. eapply lookup_lt_Some; eauto. Qed.

Lemma text_alloc_spec t row col :
  wf_t t -> wf_rows t -> 0 < row -> 0 < col -> ~ (trows t < row /\ col < tcols t) ->
  exists t', text_alloc t row col = Ok t' /\ wf_t t' /\ wf_rows t' /\ trows t' = row /\ tcols t' = col /\
    forall i j, i < row -> j < col ->
      tcell t' i j = if (i <? trows t) && (j <? tcols t) then tcell t i j else Some EmptyString.
Proof.
  intros Hwf Hrows Hr Hc Hno. unfold text_alloc.
  replace ((row =? 0) && negb (col =? 0) || (col =? 0) && negb (row =? 0)) with false by lia.
  replace (row =? 0) with false by lia.
  destruct t as [rn cn [rs|]]; unfold wf_t, wf_rows, tcell in *; cbn [tptr trows tcols] in *.
  2:{ destruct Hwf as [-> ->]. eexists; split; [reflexivity|]. cbn [tptr trows tcols].
      assert (forall i j, i < row -> j < col ->
        tread (replicate row (replicate col (Some EmptyString))) i j = Ok EmptyString) as Hrd.
      { intros i j Hi Hj. apply tread_lookup. exists (replicate col (Some EmptyString)).
        rewrite !lookup_replicate. auto. }
      rewrite replicate_length. repeat split; auto.
      - intros i j Hi Hj. eauto.
      - intros i j Hi Hj. replace ((i <? row) && (j <? col)) with true by lia. rewrite Hrd by auto. auto. }
  set (rs1 := if row <? rn then take row rs else rs).
  assert ((if row <? rn then do _ <- tread_rows rs row (rn - row) 0 cn; Ok (take row rs) else Ok rs) = Ok rs1) as ->.
  { unfold rs1. destruct (row <? rn) eqn:E; auto. rewrite tread_rows_ok; auto.
    intros i' j Hi Hj. apply Hwf; lia. }
  cbn [rbind].
  (* rs2 *)
  assert (exists rs2, (if rn <? row then do r <- fill_row (replicate col None) 0 cn;
            Ok (take rn rs1 ++ replicate (row - rn) r) else Ok rs1) = Ok rs2 /\ row <= length rs2 /\
     (forall i j, i < row -> j < cn -> tread rs2 i j = if i <? rn then tread rs i j else Ok EmptyString) /\
     (forall i, i < row -> exists r, rs2 !! i = Some r)) as (rs2 & -> & Hl2 & H2 & Hr2).
  { destruct (rn <? row) eqn:E.
    - assert (cn <= col) by lia.
      destruct (fill_row_spec (replicate col None) 0 cn) as (r & -> & Hlr & Hrk); [rewrite replicate_length; lia|].
      rewrite replicate_length in Hlr. simpl.
      assert (rs1 = rs) as -> by (unfold rs1; replace (row <? rn) with false by lia; auto).
      eexists; split; [reflexivity|]. rewrite app_length, take_length, replicate_length.
      split; [lia|]. split.
      + intros i j Hi Hj. unfold tread. destruct (i <? rn) eqn:Ei.
        * rewrite lookup_app_l by (rewrite take_length; lia). rewrite lookup_take by lia. auto.
        * rewrite lookup_app_r by (rewrite take_length; lia). rewrite take_length.
          rewrite (proj2 (lookup_replicate _ _ _ _)) by (split; [reflexivity|lia]).
          rewrite Hrk. replace (_ && _) with true by lia. auto.
      + intros i Hi. apply lookup_lt_is_Some. rewrite app_length, take_length, replicate_length. lia.
    - eexists; split; [reflexivity|]. unfold rs1. destruct (row <? rn) eqn:E2.
      + rewrite take_length. split; [lia|]. split.
        * intros i j Hi Hj. rewrite tread_take by lia. replace (i <? rn) with true by lia. auto.
        * intros i Hi. apply lookup_lt_is_Some. rewrite take_length; lia.
      + split; [lia|]. split; [|intros; apply lookup_lt_is_Some; lia].
        intros i j Hi Hj. replace (i <? rn) with true by lia. auto. }
  cbn [rbind].
  assert (forall i j, i < row -> j < cn -> exists s, tread rs2 i j = Ok s) as Hrd2.
  { intros i j Hi Hj. rewrite H2 by auto. destruct (i <? rn) eqn:Ei; eauto. apply Hwf; lia. }
  assert ((if col <? cn then tread_rows rs2 0 row col (cn - col) else Ok tt) = Ok tt) as ->.
  { destruct (col <? cn) eqn:E; auto. apply tread_rows_ok. intros; apply Hrd2; lia. }
  cbn [rbind].
  assert (exists rs3, (if cn =? col then Ok rs2 else
      do a <- map_res (fun r => fill_row (row_realloc r col) cn (col - cn)) (take row rs2); Ok (a ++ drop row rs2)) = Ok rs3 /\
      length rs3 = length rs2 /\
      forall i j, i < row -> j < col -> tread rs3 i j = if j <? cn then tread rs2 i j else Ok EmptyString) as (rs3 & -> & Hl3 & H3).
  { destruct (cn =? col) eqn:E.
    - eexists; split; [reflexivity|]. split; auto. intros i j Hi Hj. replace (j <? cn) with true by lia. auto.
    - destruct (map_res_spec (fun r => fill_row (row_realloc r col) cn (col - cn)) (take row rs2)) as (a & -> & Hla & Ha).
      { intros i r _. destruct (decide (cn <= col)).
        - destruct (fill_row_spec (row_realloc r col) cn (col - cn)) as (r' & -> & _); eauto.
          rewrite row_realloc_length. lia.
        - replace (col - cn) with 0 by lia. simpl. eauto. }
      simpl. eexists; split; [reflexivity|]. rewrite take_length in Hla.
      rewrite app_length, drop_length. split; [lia|].
      intros i j Hi Hj. destruct (Hr2 i Hi) as [r Hr'].
      destruct (Ha i r) as (y & Hy & Hf); [rewrite lookup_take by auto; auto|].
      assert (forall k, tread (a ++ drop row rs2) i k = match y !! k with Some (Some s) => Ok s | _ => UB end) as Ht.
      { intros k. unfold tread. rewrite lookup_app_l by lia. rewrite Hy. auto. }
      rewrite Ht.
      destruct (decide (cn <= col)).
      + destruct (fill_row_spec (row_realloc r col) cn (col - cn)) as (r' & Hf' & _ & Hk); [rewrite row_realloc_length; lia|].
        rewrite Hf' in Hf. inversion Hf; subst r'. rewrite Hk.
        destruct (j <? cn) eqn:Ej.
        * replace (_ && _) with false by lia.
          destruct (Hrd2 i j Hi) as [s Hs]; [lia|]. pose proof Hs as Hs'.
          apply tread_row in Hs as (r0 & Hr0 & Hlen). assert (r0 = r) as -> by congruence.
          rewrite row_realloc_lookup by lia. unfold tread. rewrite Hr'. auto.
        * replace (_ && _) with true by lia. auto.
      + replace (col - cn) with 0 in Hf by lia. simpl in Hf. inversion Hf; subst y.
        replace (j <? cn) with true by lia.
        destruct (Hrd2 i j Hi) as [s Hs]; [lia|]. pose proof Hs as Hs'.
        apply tread_row in Hs as (r0 & Hr0 & Hlen). assert (r0 = r) as -> by congruence.
        rewrite row_realloc_lookup by lia. unfold tread. rewrite Hr'. auto. }
  cbn [rbind]. eexists; split; [reflexivity|]. cbn [tptr trows tcols].
  assert (forall i j, i < row -> j < col -> exists s, tread rs3 i j = Ok s) as Hrd3.
  { intros i j Hi Hj. rewrite H3 by auto. destruct (j <? cn) eqn:Ej; eauto. apply Hrd2; lia. }
  repeat split; auto; [lia|].
  intros i j Hi Hj. replace ((i <? row) && (j <? col)) with true by lia. rewrite H3 by auto.
  destruct (j <? cn) eqn:Ej.
  - rewrite H2 by lia. rewrite andb_true_r. destruct (i <? rn) eqn:Ei; auto.
  - rewrite andb_false_r. auto.
Qed.

Lemma text_alloc_zero t : wf_t t -> exists t', text_alloc t 0 0 = Ok t' /\ trows t' = 0 /\ tcols t' = 0 /\ tptr t' = None.
Proof.
  intros Hwf. unfold text_alloc. simpl. destruct t as [rn cn [rs|]]; unfold wf_t in *; simpl in *.
  2:{ eexists; split; [reflexivity|]. auto. }
  assert ((if 0 <? rn then do _ <- tread_rows rs 0 (rn - 0) 0 cn; Ok (take 0 rs) else Ok rs) =
          Ok (if 0 <? rn then take 0 rs else rs)) as ->.
  { destruct (0 <? rn) eqn:E; auto. rewrite tread_rows_ok; auto. intros; apply Hwf; lia. }
  simpl. destruct (0 <? cn), (cn =? 0); simpl; eexists; (split; [reflexivity|]); auto.
Qed.

(** a request with exactly one zero dimension changes nothing *)
Lemma text_alloc_half_zero t n : text_alloc t 0 (S n) = Ok t /\ text_alloc t (S n) 0 = Ok t.
Proof. unfold text_alloc; simpl; auto. Qed.

Lemma text_set_spec t row col s :
  wf_t t -> 0 < trows t ->
  (row < trows t -> col < tcols t ->
     exists t', text_set t row col s = Ok (t', 0%Z) /\ wf_t t' /\ trows t' = trows t /\ tcols t' = tcols t /\
       forall i j, tcell t' i j = if (i =? row) && (j =? col) then Some s else tcell t i j) /\
  (~ (row < trows t /\ col < tcols t) -> text_set t row col s = Ok (t, (-1)%Z)).
Proof.
  intros Hwf Hpos. destruct t as [rn cn [rs|]]; unfold wf_t, tcell, text_set in *; simpl in *; [|lia].
  split.
  - intros Hr Hc. replace ((rn <? row + 1) || (cn <? col + 1)) with false by lia.
    destruct (Hwf row col Hr Hc) as [s0 Hs0]. rewrite Hs0; simpl.
    destruct (tread_row _ _ _ _ Hs0) as (r & Hrr & Hlen).
    destruct (twrite_spec rs row col s r Hrr Hlen) as (rs' & -> & Hl & _ & Ht). simpl.
    eexists; split; [reflexivity|]; simpl. repeat split; auto.
    + intros i j Hi Hj. rewrite Ht. destruct ((i =? row) && (j =? col)); eauto.
    + intros i j. rewrite Ht. destruct ((i <? rn) && (j <? cn)) eqn:E.
      * destruct ((i =? row) && (j =? col)); auto.
      * replace ((i =? row) && (j =? col)) with false by lia. auto.
  - intros H. replace ((rn <? row + 1) || (cn <? col + 1)) with true by lia. auto.
Qed.

(** ---- in-place transposition ---- *)
Definition rowcap (rs : list trow) (i : nat) : nat := match rs !! i with Some r => length r | None => 0 end.
Definition shape_eq (rs rs' : list trow) : Prop :=
  length rs' = length rs /\ forall i, option_map (@length _) (rs' !! i) = option_map (@length _) (rs !! i).

Lemma tswap_spec rs i j a b :
  i <> j -> tread rs i j = Ok a -> tread rs j i = Ok b ->
  exists rs', tswap rs (i, j) = Ok rs' /\ length rs' = length rs /\
   forall x y, tread rs' x y = if (x =? i) && (y =? j) then Ok b else if (x =? j) && (y =? i) then Ok a else tread rs x y.
Proof.
  intros Hne Ha Hb. unfold tswap. rewrite Ha; simpl. rewrite Hb; simpl.
  destruct (tread_row _ _ _ _ Ha) as (r & Hr & Hlr).
  destruct (twrite_spec rs i j b r Hr Hlr) as (rs1 & -> & Hl1 & Hs1 & Ht1). simpl.
  destruct (tread_row _ _ _ _ Hb) as (r2 & Hr2 & Hlr2).
  assert (exists r2', rs1 !! j = Some r2' /\ i < length r2') as (r2' & Hr2' & Hlr2').
  { specialize (Hs1 j). rewrite Hr2 in Hs1. destruct (rs1 !! j) as [q|]; simpl in Hs1; [|discriminate].
    inversion Hs1. exists q; split; auto. lia. }
  destruct (twrite_spec rs1 j i a r2' Hr2' Hlr2') as (rs2 & -> & Hl2 & Hs2 & Ht2).
  exists rs2; split; auto. split; [lia|]. intros x y. rewrite Ht2, Ht1.
  destruct ((x =? i) && (y =? j)) eqn:E1, ((x =? j) && (y =? i)) eqn:E2; auto. lia.
Qed.

Definition swapped (ps : list (nat * nat)) (x y : nat) : bool :=
  existsb (fun p => ((fst p =? x) && (snd p =? y)) || ((fst p =? y) && (snd p =? x))) ps.

Lemma swapped_sym ps x y : swapped ps x y = swapped ps y x.
Proof.
  unfold swapped. induction ps as [|p ps IH]; simpl; auto. rewrite IH. f_equal. apply orb_comm.
Qed.

Lemma tswaps_spec n ps rs :
  (forall p, p ∈ ps -> fst p < snd p /\ snd p < n) -> NoDup ps ->
  (forall x y, x < n -> y < n -> exists s, tread rs x y = Ok s) ->
  exists rs', tswaps rs ps = Ok rs' /\ length rs' = length rs /\
    forall x y, tread rs' x y = if swapped ps x y then tread rs y x else tread rs x y.
Proof.
  revert rs; induction ps as [|[i j] ps IH]; intros rs Hlt Hnd Hrd; simpl.
  - exists rs; auto.
  - destruct (Hlt (i, j)) as [Hij Hj]; [left|]. simpl in *.
    destruct (Hrd i j) as [a Ha]; [lia..|]. destruct (Hrd j i) as [b Hb]; [lia..|].
    destruct (tswap_spec rs i j a b) as (rs1 & Hsw & Hl1 & Ht1); [lia|auto|auto|].
    cbn [tswap] in Hsw. rewrite Hsw. cbn [rbind].
    inversion Hnd as [|? ? Hnotin Hnd']; subst.
    destruct (IH rs1) as (rs' & -> & Hl' & Ht'); auto.
    { intros p Hp. apply Hlt. right; auto. }
    { intros x y Hx Hy. rewrite Ht1. destruct (_ && _); eauto. destruct (_ && _); eauto. }
    exists rs'; split; auto. split; [lia|].
    assert (swapped ps i j = false) as Hns.
    { unfold swapped. apply not_true_is_false. intros He. apply existsb_exists in He as ([p q] & Hin & Hpq).
      simpl in Hpq. apply elem_of_list_In in Hin. destruct (Hlt (p, q)) as [Hpq' _]; [right; auto|]. simpl in Hpq'.
      assert (p = i /\ q = j) as [-> ->] by lia. auto. }
    intros x y. rewrite Ht'. simpl.
    destruct (((i =? x) && (j =? y)) || ((i =? y) && (j =? x))) eqn:E; simpl.
    + assert ((x = i /\ y = j) \/ (x = j /\ y = i)) as [[-> ->]|[-> ->]] by lia.
      * rewrite Hns, Ht1, !Nat.eqb_refl. simpl. auto.
      * rewrite swapped_sym, Hns, Ht1. replace ((j =? i) && (i =? j)) with false by lia.
        rewrite !Nat.eqb_refl. simpl. auto.
    + destruct (swapped ps x y); rewrite Ht1.
      * replace ((y =? i) && (x =? j)) with false by lia. replace ((y =? j) && (x =? i)) with false by lia. auto.
      * replace ((x =? i) && (y =? j)) with false by lia. replace ((x =? j) && (y =? i)) with false by lia. auto.
Qed.

Lemma upper_spec n i j : (i, j) ∈ upper n <-> i < j < n.
Proof.
  unfold upper. rewrite elem_of_list_In, in_flat_map. split.
  - intros (k & Hk & Hin). apply in_seq in Hk. apply in_map_iff in Hin as (y & Heq & Hy).
    inversion Heq; subst. apply in_seq in Hy. lia.
  - intros H. exists i. rewrite in_seq. split; [lia|]. apply in_map_iff. exists j. split; auto.
    apply in_seq. lia.
Qed.
Lemma upper_NoDup n : NoDup (upper n).
Proof.
  unfold upper.
  assert (forall k a, NoDup (flat_map (fun i => map (fun j => (i, j)) (seq (i + 1) (n - (i + 1)))) (seq a k))) as H; [|apply H].
  induction k as [|k IH]; intros b; simpl; [constructor|].
  apply NoDup_app. repeat split; auto.
  - apply NoDup_fmap_2; [intros x y Hxy; congruence|]. apply NoDup_ListNoDup, seq_NoDup.
  - intros [x y] Hx Hy. apply elem_of_list_In, in_map_iff in Hx as (z & Heq & _). inversion Heq; subst.
    apply elem_of_list_In, in_flat_map in Hy as (k' & Hk' & Hin). apply in_seq in Hk'.
    apply in_map_iff in Hin as (w & Heq' & _). inversion Heq'; subst. lia.
Qed.
Lemma swapped_upper n x y : swapped (upper n) x y = (x <? n) && (y <? n) && negb (x =? y).
Proof.
  destruct (swapped (upper n) x y) eqn:E.
  - unfold swapped in E. apply existsb_exists in E as ([p q] & Hin & Hpq). apply elem_of_list_In, upper_spec in Hin.
    simpl in Hpq. lia.
  - symmetry. apply not_true_is_false. intros H.
    assert (swapped (upper n) x y = true) as Ht; [|congruence].
    unfold swapped. apply existsb_exists. destruct (decide (x < y)).
    + exists (x, y). rewrite <- elem_of_list_In, upper_spec. simpl. lia.
    + exists (y, x). rewrite <- elem_of_list_In, upper_spec. simpl. lia.
Qed.

Lemma copy_col_spec rs i from k r :
  rs !! i = Some r -> from + k <= length r ->
  (forall j, from <= j < from + k -> j <> i /\ exists s, tread rs j i = Ok s) ->
  exists rs', copy_col rs i from k = Ok rs' /\ length rs' = length rs /\
    (forall x, option_map (@length _) (rs' !! x) = option_map (@length _) (rs !! x)) /\
    forall x y, tread rs' x y = if (x =? i) && ((from <=? y) && (y <? from + k)) then tread rs y i else tread rs x y.
Proof.
  revert rs from r; induction k as [|k IH]; intros rs from r Hr Hle Hrd; simpl.
  - exists rs; repeat split; auto. intros x y. replace (_ && _) with false by lia. auto.
  - destruct (Hrd from) as [Hne [s Hs]]; [lia|]. rewrite Hs; simpl.
    destruct (twrite_spec rs i from s r Hr) as (rs1 & -> & Hl1 & Hs1 & Ht1); [lia|]. simpl.
    pose proof (Hs1 i) as Hsi. rewrite Hr in Hsi. destruct (rs1 !! i) as [r1|] eqn:Er1; simpl in Hsi; [|discriminate].
    inversion Hsi as [Hlen].
    destruct (IH rs1 (S from) r1) as (rs' & -> & Hl' & Hs' & Ht'); auto; [lia| |].
    { intros j Hj. destruct (Hrd j) as [Hne' [s' Hs'']]; [lia|]. split; auto. exists s'. rewrite Ht1.
      replace ((j =? i) && (i =? from)) with false by lia. auto. }
    exists rs'; split; auto. split; [lia|]. split; [intros x; rewrite Hs', Hs1; auto|].
    intros x y. rewrite Ht', !Ht1.
    destruct (decide (x = i)) as [->|].
    + rewrite Nat.eqb_refl. cbn [andb]. destruct (decide (y = from)) as [->|].
      * replace ((S from <=? from) && (from <? S from + k)) with false by lia. rewrite Nat.eqb_refl.
        replace ((from <=? from) && (from <? from + S k)) with true by lia. auto.
      * replace (y =? from) with false by lia.
        destruct ((S from <=? y) && (y <? S from + k)) eqn:E.
        -- replace ((from <=? y) && (y <? from + S k)) with true by lia.
           destruct (Hrd y) as [Hyi _]; [lia|]. replace (y =? i) with false by lia. auto.
        -- replace ((from <=? y) && (y <? from + S k)) with false by lia. auto.
    + replace (x =? i) with false by lia. simpl. auto.
Qed.

Lemma extend_rows_spec n i rs ocols orows :
  ocols <= orows -> i + n = ocols -> orows <= length rs ->
  (forall x y, x < orows -> y < ocols -> exists s, tread rs x y = Ok s) ->
  exists rs', extend_rows rs i n ocols orows = Ok rs' /\ length rs' = length rs /\
    (forall x y, (i <= x < ocols) -> ocols <= y < orows -> tread rs' x y = tread rs y x) /\
    (forall x y, (x < i \/ y < ocols) -> (x < i \/ ocols <= x \/ y < ocols) -> x < orows -> tread rs' x y = tread rs x y).
Proof.
  revert i rs; induction n as [|n IH]; intros i rs Hoo Hin Hlen Hrd; simpl.
  - exists rs; repeat split; auto. lia.
  - assert (exists r, rs !! i = Some r) as [r Hr] by (apply lookup_lt_is_Some; lia). rewrite Hr.
    set (rs0 := <[i := row_realloc r orows]> rs).
    assert (forall x y, x <> i -> tread rs0 x y = tread rs x y) as Hother.
    { intros x y Hx. unfold tread, rs0. rewrite list_lookup_insert_ne by auto. auto. }
    assert (forall y, y < ocols -> tread rs0 i y = tread rs i y) as Hself.
    { intros y Hy. destruct (Hrd i y) as [s Hs]; [lia|auto|]. destruct (tread_row _ _ _ _ Hs) as (r' & Hr' & Hl').
      assert (r' = r) as -> by congruence.
      unfold tread, rs0. rewrite list_lookup_insert by lia. rewrite row_realloc_lookup by lia. rewrite Hr. auto. }
    destruct (copy_col_spec rs0 i ocols (orows - ocols) (row_realloc r orows)) as (rs1 & -> & Hl1 & Hs1 & Ht1).
    { unfold rs0. apply list_lookup_insert. lia. }
    { rewrite row_realloc_length. lia. }
    { intros j Hj. split; [lia|]. rewrite Hother by lia. apply Hrd; lia. }
    simpl. unfold rs0 in Hl1. rewrite insert_length in Hl1. fold rs0 in Hl1.
    assert (forall x y, x < orows -> y < ocols -> tread rs1 x y = tread rs x y) as Hkeep.
    { intros x y Hx Hy. rewrite Ht1. replace (_ && _) with false by lia.
      destruct (decide (x = i)) as [->|]; auto. }
    destruct (IH (S i) rs1) as (rs' & -> & Hl' & HA & HB); auto; try lia.
    { intros x y Hx Hy. rewrite Hkeep by auto. apply Hrd; auto. }
    exists rs'; split; auto. split; [lia|]. split.
    + intros x y Hx Hy. destruct (decide (x = i)) as [->|].
      * rewrite HB by lia. rewrite Ht1. replace (_ && _) with true by lia. rewrite Hother by lia. auto.
      * rewrite HA by lia. rewrite Hkeep by lia. auto.
    + intros x y H1 H2 H3. rewrite HB by lia. destruct (decide (y < ocols)); [apply Hkeep; auto|].
      rewrite Ht1. replace (_ && _) with false by lia. apply Hother. lia.
Qed.

Lemma add_rows_spec n i rs orows ocols :
  orows <= i -> i + n = ocols -> i <= length rs ->
  (forall x y, x < orows -> y < ocols -> exists s, tread rs x y = Ok s) ->
  exists rs', add_rows rs i n orows = Ok rs' /\ ocols <= length rs' /\
    (forall x y, i <= x < ocols -> y < orows -> tread rs' x y = tread rs y x) /\
    (forall x y, x < i -> tread rs' x y = tread rs x y).
Proof.
  revert i rs; induction n as [|n IH]; intros i rs Hoi Hin Hlen Hrd; simpl.
  - exists rs; repeat split; auto; lia.
  - set (rs0 := take i rs ++ [replicate orows None]).
    assert (length rs0 = S i) as Hl0 by (unfold rs0; rewrite app_length, take_length; simpl; lia).
    assert (forall x y, x < i -> tread rs0 x y = tread rs x y) as Hold.
    { intros x y Hx. unfold tread, rs0. rewrite lookup_app_l by (rewrite take_length; lia).
      rewrite lookup_take by auto. auto. }
    destruct (copy_col_spec rs0 i 0 orows (replicate orows None)) as (rs1 & -> & Hl1 & _ & Ht1).
    { unfold rs0. rewrite lookup_app_r by (rewrite take_length; lia). rewrite take_length.
      replace (i - i `min` length rs) with 0 by lia. auto. }
    { rewrite replicate_length. lia. }
    { intros j Hj. split; [lia|]. rewrite Hold by lia. apply Hrd; lia. }
    simpl.
    assert (forall x y, x < i -> tread rs1 x y = tread rs x y) as Hold1.
    { intros x y Hx. rewrite Ht1. replace (_ && _) with false by lia. apply Hold; auto. }
    destruct (IH (S i) rs1) as (rs' & -> & Hl' & HA & HB); auto; try lia.
    { intros x y Hx Hy. rewrite Hold1 by lia. apply Hrd; auto. }
    exists rs'; split; auto. split; [auto|].
    split.
    + intros x y Hx Hy. destruct (decide (x = i)) as [->|].
      * rewrite HB by lia. rewrite Ht1. replace (_ && _) with true by lia. apply Hold; lia.
      * rewrite HA by lia. apply Hold1; lia.
    + intros x y Hx. rewrite HB by lia. apply Hold1; auto.
Qed.

Lemma text_transpose_spec t :
  wf_t t -> wf_rows t -> 0 < trows t -> 0 < tcols t ->
  exists t', text_transpose_inplace t = Ok t' /\ wf_t t' /\ wf_rows t' /\
     trows t' = tcols t /\ tcols t' = trows t /\
     forall i j, tcell t' j i = tcell t i j.
Proof.
  intros Hwf Hrows Hr Hc. destruct t as [orows ocols [rs|]]; unfold wf_t, wf_rows, tcell, text_transpose_inplace in *;
    cbn [tptr trows tcols] in *; [|lia].
  assert (exists rs1, (if ocols <? orows then extend_rows rs 0 ocols ocols orows else Ok rs) = Ok rs1 /\
     length rs1 = length rs /\
     (forall x y, x < orows -> y < ocols -> tread rs1 x y = tread rs x y) /\
     (forall x y, x < ocols -> ocols <= y < orows -> tread rs1 x y = tread rs y x)) as (rs1 & -> & Hl1 & HA1 & HB1).
  { destruct (ocols <? orows) eqn:E.
    - destruct (extend_rows_spec ocols 0 rs ocols orows) as (rs1 & -> & Hl & HA & HB); auto; try lia.
      exists rs1; split; auto. split; auto. split.
      + intros x y Hx Hy. apply HB; lia.
      + intros x y Hx Hy. apply HA; lia.
    - exists rs; repeat split; auto. intros; lia. }
  cbn [rbind].
  assert (exists rs2, (if orows <? ocols then add_rows rs1 orows (ocols - orows) orows else Ok rs1) = Ok rs2 /\
     ocols <= length rs2 /\
     (forall x y, x < orows -> y < ocols -> tread rs2 x y = tread rs x y) /\
     (forall x y, x < ocols -> y < orows -> (orows <= x \/ ocols <= y) -> tread rs2 x y = tread rs y x)) as (rs2 & -> & Hl2 & HA2 & HB2).
  { destruct (orows <? ocols) eqn:E.
    - destruct (add_rows_spec (ocols - orows) orows rs1 orows ocols) as (rs2 & -> & Hl & HA & HB); auto; try lia.
      { intros x y Hx Hy. rewrite HA1 by auto. auto. }
      exists rs2; split; auto. split; auto. split.
      + intros x y Hx Hy. rewrite HB by auto. apply HA1; auto.
      + intros x y Hx Hy Hxy. rewrite HA by lia. apply HA1; lia.
    - exists rs1; split; auto. split; [lia|]. split; auto. intros x y Hx Hy Hxy. apply HB1; lia. }
  cbn [rbind].
  destruct (tswaps_spec (orows `min` ocols) (upper (orows `min` ocols)) rs2) as (rs3 & -> & Hl3 & Ht3).
  { intros [p q] Hp. apply upper_spec in Hp. simpl. lia. }
  { apply upper_NoDup. }
  { intros x y Hx Hy. rewrite HA2 by lia. apply Hwf; lia. }
  cbn [rbind].
  assert (forall x y, x < ocols -> y < orows -> tread rs3 x y = tread rs y x) as Hfin.
  { intros x y Hx Hy. rewrite Ht3, swapped_upper.
    destruct ((x <? orows `min` ocols) && (y <? orows `min` ocols) && negb (x =? y)) eqn:E.
    - apply HA2; lia.
    - destruct (decide (x = y)) as [->|].
      + apply HA2; lia.
      + apply HB2; lia. }
  eexists; split; [reflexivity|]. cbn [tptr trows tcols]. repeat split; auto.
  - intros i j Hi Hj. rewrite Hfin by auto. auto.
  - lia.
  - intros i j. rewrite andb_comm. destruct ((i <? orows) && (j <? ocols)) eqn:E; auto. rewrite Hfin by lia. auto.
Qed.
