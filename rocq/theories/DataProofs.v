(** Lemmas about DataModel.v: memcpy, copy. *)
From Verif Require Export NamesProofs.
From Verif Require Export DataModel.

Section DataP.
Context {E : Type}.
Implicit Types p q : page E.

Definition wf_page p : Prop :=
  (forall m, mat p = Some m -> wf_grid m) /\
  (forall t, txt p = Some t -> wf_grid t /\ 0 < gr t /\ 0 < gc t).

(** the observable content of a page: data and names (not the auxiliary hash arrays) *)
Definition same_data p q : Prop := vect q = vect p /\ mat q = mat p /\ wts q = wts p /\ txt q = txt p.
Definition same_lists p q : Prop :=
  rown (nms q) = rown (nms p) /\ coln (nms q) = coln (nms p) /\ txtn (nms q) = txtn (nms p).
Definition same_title p q : Prop := forall s, title (nms p) = Some s -> title (nms q) = Some s.

Lemma take_S_snoc {A} (l : list A) n x : l !! n = Some x -> take (S n) l = take n l ++ [x].
Proof. apply take_S_r. Qed.

Lemma overlay_list src : forall i l h,
  i <= length l -> fst (overlay i src (l, h)) = take i l ++ src ++ drop (i + length src) l.
Proof.
  induction src as [|s src IH]; intros i l h Hi; cbn [overlay length].
  - rewrite Nat.add_0_r. cbn. rewrite take_drop. reflexivity.
  - destruct (i <? length l) eqn:Ei.
    + rewrite IH by (rewrite insert_length; lia).
      assert (take (S i) (<[i:=s]> l) = take i l ++ [s]) as ->.
      { rewrite (take_S_snoc _ _ s) by (apply list_lookup_insert; lia).
        rewrite take_insert by lia. reflexivity. }
      rewrite drop_insert_gt by lia. rewrite <- app_assoc. cbn [app]. replace (i + S (length src)) with (S i + length src) by lia. reflexivity.
    + assert (i = length l) as -> by lia. unfold add_to.
      rewrite IH by (rewrite app_length; cbn; lia).
      rewrite take_ge by (rewrite app_length; cbn; lia).
      rewrite drop_ge by (rewrite app_length; cbn; lia).
      rewrite take_ge by lia. rewrite drop_ge by lia. rewrite !app_nil_r, <- app_assoc. reflexivity.
Qed.

Lemma overlay_fresh src : forall i l h,
  i = length l -> hfresh l h -> hfresh (fst (overlay i src (l, h))) (snd (overlay i src (l, h))).
Proof.
  induction src as [|s src IH]; intros i l h Hi Hf; cbn [overlay]; auto.
  replace (i <? length l) with false by lia.
  rewrite (add_to_fresh _ _ _ Hf). apply IH; [rewrite app_length; cbn; lia|reflexivity].
Qed.

Lemma names_memcpy_lists o n :
  rown (names_memcpy o n) = rown n ++ drop (length (rown n)) (rown o) /\
  coln (names_memcpy o n) = coln n ++ drop (length (coln n)) (coln o) /\
  txtn (names_memcpy o n) = txtn n ++ drop (length (txtn n)) (txtn o) /\
  title (names_memcpy o n) = Some (pct_s (title n)) /\
  vecn (names_memcpy o n) = match vecn o, vecn n with Some _, Some v => Some v | ov, _ => ov end.
Proof.
  unfold names_memcpy.
  pose proof (overlay_list (rown n) 0 (rown o) (rowh o)) as Hr.
  pose proof (overlay_list (coln n) 0 (coln o) (colh o)) as Hc.
  pose proof (overlay_list (txtn n) 0 (txtn o) (txth o)) as Ht.
  destruct (overlay 0 (rown n) _) as [r rh]. destruct (overlay 0 (coln n) _) as [c ch].
  destruct (overlay 0 (txtn n) _) as [t th]. cbn in *. rewrite Hr, Hc, Ht by lia. auto.
Qed.
Lemma names_memcpy_fresh n : hashes_ok (names_memcpy name_alloc n).
Proof.
  unfold names_memcpy. cbn [rown coln txtn rowh colh txth name_alloc].
  pose proof (overlay_fresh (rown n) 0 [] [] eq_refl eq_refl) as Hr.
  pose proof (overlay_fresh (coln n) 0 [] [] eq_refl eq_refl) as Hc.
  pose proof (overlay_fresh (txtn n) 0 [] [] eq_refl eq_refl) as Ht.
  destruct (overlay 0 (rown n) _) as [r rh]. destruct (overlay 0 (coln n) _) as [c ch].
  destruct (overlay 0 (txtn n) _) as [t th]. cbn in *. repeat split; auto.
Qed.

(** same shapes, part by part *)
Definition fits (out inp : page E) : Prop :=
  (forall v, vect inp = Some v -> exists w, vect out = Some w /\ length w = length v) /\
  (forall m, mat inp = Some m -> exists w, mat out = Some w /\ gr w = gr m /\ gc w = gc m) /\
  (forall v, wts inp = Some v -> exists w, wts out = Some w /\ length w = length v) /\
  (forall t, txt inp = Some t -> exists w, txt out = Some w /\ gr w = gr t /\ gc w = gc t /\ 0 < gr t /\ 0 < gc t) /\
  (txt inp = None -> txt out = None).

Lemma memcpy_page_fits out inp : fits out inp ->
  exists q, memcpy_page out inp = Ok (q, true) /\
    vect q = (match vect inp with Some v => Some v | None => vect out end) /\
    mat q = (match mat inp with Some v => Some v | None => mat out end) /\
    wts q = (match wts inp with Some v => Some v | None => wts out end) /\
    txt q = txt inp /\ nms q = names_memcpy (nms out) (nms inp) /\ err q = err out.
Proof.
  intros (Hv & Hm & Hw & Ht & Htn).
  unfold memcpy_page.
  assert (text_memcpy (txt out) (txt inp) = Ok (txt inp)) as Etxt.
  { unfold text_memcpy. destruct (txt inp) as [t|] eqn:E1.
    - destruct (Ht t eq_refl) as (w & -> & H1 & H2 & H3 & H4).
      replace ((gr t =? 0) || (gc t =? 0)) with false by lia.
      replace ((gr t <=? gr w) && (gc t <=? gc w)) with true by lia. auto.
    - rewrite Htn by auto. auto. }
  destruct out as [ov om ow ot on oe], inp as [iv im iw it inn ie]; cbn in *.
  destruct im as [m|]; [destruct (Hm m eq_refl) as (w1 & -> & E1 & E2);
     replace ((gr m =? gr w1) && (gc m =? gc w1)) with true by lia|]; cbn;
  (destruct iv as [v|]; [destruct (Hv v eq_refl) as (w2 & -> & E3); replace (length v =? length w2) with true by lia|]); cbn;
  (destruct iw as [w|]; [destruct (Hw w eq_refl) as (w3 & -> & E4); replace (length w =? length w3) with true by lia|]); cbn;
  rewrite Etxt; cbn; eexists; split; try reflexivity; cbn; repeat split; auto.
Qed.

Lemma copy_alloc_fits g p : wf_page p -> fits (copy_alloc g p) p.
Proof.
  intros [_ Ht]. unfold fits, copy_alloc; cbn.
  split; [intros v ->; cbn; eexists; split; [reflexivity|apply replicate_length]|].
  split; [intros v ->; cbn; eexists; split; [reflexivity|auto]|].
  split; [intros v ->; cbn; eexists; split; [reflexivity|apply replicate_length]|].
  split; [|intros ->; auto].
  intros t Et. destruct (Ht t Et) as (_ & H1 & H2). rewrite Et.
  replace ((gr t =? 0) || (gc t =? 0)) with false by lia. cbn. eexists; split; [reflexivity|auto].
Qed.

Definition good_copy p q : Prop :=
  same_data p q /\ same_lists p q /\ same_title p q /\ err q = err p /\ hashes_ok (nms q) /\ vecn (nms q) = None
  /\ title (nms q) = Some (pct_s (title (nms p))).

Lemma copy_alloc_page g p : wf_page p ->
  exists q, memcpy_page (copy_alloc g p) p = Ok (q, true) /\ good_copy p q.
Proof.
  intros Hw. destruct (memcpy_page_fits _ _ (copy_alloc_fits g p Hw)) as (q & E1 & Hv & Hm & Hwt & Ht & Hn & He).
  exists q; split; auto.
  assert (same_data p q) as Hd.
  { unfold same_data. cbn in Hv, Hm, Hwt.
    destruct (vect p), (mat p), (wts p); cbn in *; auto. }
  destruct (names_memcpy_lists name_alloc (nms p)) as (H1 & H2 & H3 & H4 & H5).
  cbn in Hn. rewrite <- Hn in *. cbn [rown coln txtn name_alloc vecn] in *. rewrite drop_nil, app_nil_r in *.
  split; auto. split; [repeat split; auto|]. split; [|split; [auto|split; [rewrite Hn; apply names_memcpy_fresh|auto]]].
  intros s Hs. rewrite H4, Hs. reflexivity.
Qed.

Lemma Forall2_pages_refl_memcpy : forall (d : adata E) out, acyclic d = true -> acyclic out = true ->
  length (pages out) = length (pages d) ->
  Forall2 fits (pages out) (pages d) ->
  exists o, memcpy out d = Ok o /\ acyclic o = true /\ length (pages o) = length (pages d) /\
    forall i p po, pages d !! i = Some p -> pages out !! i = Some po ->
      exists q, pages o !! i = Some q /\ memcpy_page po p = Ok (q, true).
Proof.
  induction d as [p|p|p r IH]; intros out Ha Hao Hl HF; cbn in *; try discriminate.
  - destruct out as [po|po|po ro]; cbn in *; try discriminate.
    2:{ destruct ro; cbn in *; lia. }
    inversion HF; subst. destruct (memcpy_page_fits _ _ H2) as (q & Eq & _).
    rewrite Eq. cbn. eexists; split; [reflexivity|]. cbn. repeat split; auto.
    intros [|i] p' po' H H'; cbn in *; try discriminate. injection H as <-. injection H' as <-. eauto.
  - destruct out as [po|po|po ro]; cbn in *; try discriminate.
    1:{ destruct r; cbn in *; lia. }
    inversion HF; subst. destruct (memcpy_page_fits _ _ H2) as (q & Eq & _).
    rewrite Eq. cbn [rbind set_head].
    destruct (IH ro) as (o & Eo & Hoa & Hol & Ho); auto.
    rewrite Eo. cbn. eexists; split; [reflexivity|]. cbn. repeat split; auto.
    intros [|i] p' po' H H'; cbn in *; eauto. injection H as <-. injection H' as <-. eauto.
Qed.

Lemma data_copy_spec g : forall d : adata E,
  acyclic d = true -> Forall wf_page (pages d) -> Forall (fun p => err p = None) (pages d) ->
  exists c, data_copy g d = Ok c /\ acyclic c = true /\ length (pages c) = length (pages d) /\
    Forall2 good_copy (pages d) (pages c).
Proof.
  induction d as [p|p|p r IH]; intros Ha Hw He; cbn in *; try discriminate.
  - inversion Hw; subst. inversion He; subst. rewrite H3, andb_false_r.
    destruct (copy_alloc_page g p H1) as (q & E1 & Hq). rewrite E1. cbn. eexists; split; [reflexivity|].
    cbn. repeat split; auto.
  - inversion Hw; subst. inversion He; subst. destruct (IH Ha H2 H4) as (c & Ec & Hca & Hcl & HF).
    rewrite Ec. cbn [rbind].
    assert (err (head c) = None) as ->.
    { assert (good_copy (head r) (head c)) as HG.
      { destruct r, c; cbn in *; inversion HF; auto. }
      destruct HG as (_ & _ & _ & -> & _). destruct r; cbn in *; inversion H4; auto. }
    rewrite H3, andb_false_r.
    destruct (copy_alloc_page g p H1) as (q & E1 & Hq). rewrite E1. cbn [rbind set_head].
    (* the memcpy of the rest writes the same rest again *)
    assert (Forall2 fits (pages c) (pages r)) as HF2.
    { clear - HF H2. revert HF H2. generalize (pages r) (pages c). intros l l' HF. induction HF as [|a b l l' Hab HF IH]; auto.
      intros Hw. inversion Hw; subst. constructor; auto.
      destruct Hab as ((Hv & Hm & Hwt & Ht) & _). destruct H1 as [Hwm Hwx].
      unfold fits. rewrite Hv, Hm, Hwt, Ht. split; [eauto|]. split; [eauto|]. split; [eauto|]. split; [|auto].
      intros t Et. destruct (Hwx t Et) as (_ & ? & ?). exists t. auto. }
    destruct (Forall2_pages_refl_memcpy r c Ha Hca Hcl HF2) as (o & Eo & Hoa & Hol & Ho).
    rewrite Eo. cbn [rbind]. eexists; split; [reflexivity|]. cbn. split; auto. split; [lia|].
    constructor; auto.
    apply Forall2_same_length_lookup. split; [lia|].
    intros i x y Hx Hy.
    rewrite Forall2_same_length_lookup in HF. destruct HF as [_ HF].
    destruct (pages c !! i) as [z|] eqn:Ez.
    2:{ apply lookup_ge_None in Ez. apply lookup_lt_Some in Hx. lia. }
    destruct (Ho i x z Hx Ez) as (y' & Hy' & Emc). rewrite Hy in Hy'. injection Hy' as <-.
    rewrite Forall2_same_length_lookup in HF2. destruct HF2 as [_ HF2].
    destruct (memcpy_page_fits _ _ (HF2 _ _ _ Ez Hx)) as (q' & Eq' & Hv & Hm & Hwt & Ht & Hn & Herr).
    rewrite Emc in Eq'. injection Eq' as <-.
    destruct (HF i x z Hx Ez) as ((Dv & Dm & Dw & Dt) & (Lr & Lc & Lt) & HT & HE & HFr & HV & HTT).
    assert (same_data x y) as Hsd.
    { unfold same_data. rewrite Hv, Hm, Hwt, Ht, Dv, Dm, Dw. destruct (vect x), (mat x), (wts x); auto. }
    destruct (names_memcpy_lists (nms z) (nms x)) as (H7 & H8 & H9 & H10 & H11).
    rewrite <- Hn in *. rewrite Lr in H7. rewrite Lc in H8. rewrite Lt in H9.
    rewrite drop_all, app_nil_r in *. rewrite HV in H11.
    split; auto. split; [repeat split; auto|].
    split; [intros s Hs; rewrite H10, Hs; reflexivity|]. split; [congruence|]. split; [|split; auto].
    (* freshness: overlaying equal lists keeps hashes_ok hashes *)
    rewrite Hn. clear - HFr Lr Lc Lt.
    assert (forall src i l h, length src + i = length l -> (forall k s, src !! k = Some s -> l !! (i + k) = Some s) ->
              overlay i src (l, h) = (l, h)) as Hov.
    { induction src as [|s src IH]; intros i l h Hl Hs; cbn [overlay]; auto. cbn in Hl.
      replace (i <? length l) with true by lia.
      rewrite list_insert_id by (specialize (Hs 0 s eq_refl); rewrite Nat.add_0_r in Hs; auto).
      apply IH; [lia|]. intros k s' Hk. specialize (Hs (S k) s' Hk). rewrite <- Hs. f_equal. lia. }
    unfold names_memcpy. rewrite Lr, Lc, Lt. destruct HFr as (F1 & F2 & F3). rewrite Lr in F1. rewrite Lc in F2. rewrite Lt in F3.
    rewrite !Hov by (auto with lia || (intros; cbn; auto)). repeat split; auto.
Qed.

Lemma data_copy_loop g p : data_copy g (Loop p) = Ok (Last (set_err blank (Some "c"%char))).
Proof. reflexivity. Qed.
End DataP.
