(** Lemmas about DataModel.v: removing rows and columns. *)
From Verif Require Export DataProofs.

Section RmP.
Context {E : Type}.
Implicit Types p q : page E.

Lemma keep_by_take_S {A} (fl : list bool) (l : list A) (i : nat) (b : bool) (x : A) :
  fl !! i = Some b -> l !! i = Some x ->
  keep_by (take (S i) fl) (take (S i) l) = keep_by (take i fl) (take i l) ++ (if b then [x] else []).
Proof.
  intros Hf Hl. rewrite (take_S_r fl i b), (take_S_r l i x) by auto.
  rewrite keep_by_app.
  - destruct b; reflexivity.
  - rewrite !take_length. apply lookup_lt_Some in Hf, Hl. lia.
Qed.

Definition cnt (fl : list bool) : nat := length (keep_by fl fl).
Lemma cnt_take_S (fl : list bool) (i : nat) (b : bool) : fl !! i = Some b -> cnt (take (S i) fl) = cnt (take i fl) + (if b then 1 else 0).
Proof.
  intros H. unfold cnt. rewrite (keep_by_take_S fl fl i b b H H), app_length. destruct b; reflexivity.
Qed.
Lemma keep_by_length_cnt {A} fl (l : list A) : length fl = length l -> length (keep_by fl l) = cnt fl.
Proof.
  unfold cnt. revert l; induction fl as [|b fl IH]; intros [|x l] H; cbn in *; try lia; auto.
  destruct b; cbn; rewrite (IH l) by lia; auto.
Qed.
Lemma cnt_le fl : cnt fl <= length fl.
Proof. apply keep_by_length_le. Qed.
Lemma cnt_0 fl : cnt fl = 0 <-> Forall (fun b => b = false) fl.
Proof.
  unfold cnt. induction fl as [|b fl IH]; cbn; [split; auto|].
  destruct b; cbn.
  - split; [lia|]. intros H. inversion H; discriminate.
  - rewrite IH. split; [constructor; auto|]. intros H; inversion H; auto.
Qed.

(** state of one list during the compaction: rows < o are the kept rows among the first i, rows >= i untouched *)
Definition part {A} (fl : list bool) (i o : nat) (l0 l : list A) : Prop :=
  length l = length l0 /\ take o l = keep_by (take i fl) (take i l0) /\ (forall j, i <= j -> l !! j = l0 !! j).

Lemma part_drop {A} fl i o (l0 l : list A) :
  fl !! i = Some false -> part fl i o l0 l -> (l0 = [] \/ i < length l0) -> part fl (S i) o l0 l.
Proof.
  intros Hf (Hl & Ht & Hr) Hc. split; auto. split; [|intros j Hj; apply Hr; lia].
  rewrite Ht. destruct Hc as [->|Hc]; [rewrite !take_nil, !keep_by_nil_r; auto|].
  destruct (l0 !! i) as [x|] eqn:Ex; [|apply lookup_ge_None in Ex; lia].
  rewrite (keep_by_take_S _ _ _ _ _ Hf Ex), app_nil_r. auto.
Qed.
Lemma part_keep {A} fl i o (l0 l : list A) :
  fl !! i = Some true -> o <= i -> part fl i o l0 l -> (l0 = [] \/ i < length l0) ->
  part fl (S i) (S o) l0 (if o =? i then l else move l o i).
Proof.
  intros Hf Ho (Hl & Ht & Hr) Hc.
  destruct Hc as [->|Hc].
  { destruct l; [|discriminate]. assert ((if o =? i then @nil A else move [] o i) = []) as ->.
    { destruct (o =? i); auto. }
    split; auto. rewrite !take_nil, keep_by_nil_r. auto. }
  destruct (l0 !! i) as [x|] eqn:Ex; [|apply lookup_ge_None in Ex; lia].
  assert (l !! i = Some x) as Hx by (rewrite Hr; auto).
  assert (o < length l) as Hol by lia.
  destruct (o =? i) eqn:Eoi.
  - assert (o = i) as -> by lia. split; auto. split; [|intros j Hj; apply Hr; lia].
    rewrite (take_S_r l i x Hx), Ht, (keep_by_take_S _ _ _ _ _ Hf Ex). auto.
  - unfold move. rewrite Hx. split; [rewrite insert_length; auto|]. split.
    + rewrite (take_S_r _ o x) by (apply list_lookup_insert; lia).
      rewrite take_insert by lia. rewrite Ht, (keep_by_take_S _ _ _ _ _ Hf Ex). auto.
    + intros j Hj. rewrite list_lookup_insert_ne by lia. apply Hr; lia.
Qed.

Definition opart {A} fl i o (a b : option (list A)) : Prop :=
  match a, b with Some x, Some y => part fl i o x y | None, None => True | _, _ => False end.
Definition gpart {A} fl i o (a b : option (grid A)) : Prop :=
  match a, b with Some x, Some y => gr y = gr x /\ gc y = gc x /\ part fl i o (ga x) (ga y) | None, None => True | _, _ => False end.

Record pgrel fl i o p0 p : Prop := {
  r_vec : opart fl i o (vect p0) (vect p); r_wts : opart fl i o (wts p0) (wts p);
  r_mat : gpart fl i o (mat p0) (mat p); r_txt : gpart fl i o (txt p0) (txt p);
  r_row : part fl i o (rown (nms p0)) (rown (nms p));
  r_nms : title (nms p) = title (nms p0) /\ vecn (nms p) = vecn (nms p0) /\ coln (nms p) = coln (nms p0) /\
          txtn (nms p) = txtn (nms p0) /\ rowh (nms p) = rowh (nms p0) /\ colh (nms p) = colh (nms p0) /\ txth (nms p) = txth (nms p0);
  r_err : err p = err p0 }.

(** every part has N rows (row names: N or none) *)
Definition regular p (N : nat) : Prop :=
  (forall v, vect p = Some v -> length v = N) /\ (forall v, wts p = Some v -> length v = N) /\
  (forall m, mat p = Some m -> gr m = N /\ length (ga m) = N) /\
  (forall t, txt p = Some t -> gr t = N /\ length (ga t) = N) /\
  (rown (nms p) = [] \/ length (rown (nms p)) = N).

Lemma row_view_rel fl i o p0 p : pgrel fl i o p0 p -> row_view p i = row_view p0 i.
Proof.
  intros [Hv Hw Hm Ht Hr (H1 & H2 & H3 & H4 & H5 & H6 & H7) He]. unfold row_view.
  rewrite H1, H2, H3, H4, H5, H6, H7.
  f_equal.
  - destruct (vect p0), (vect p); cbn in Hv; try tauto. destruct Hv as (_ & _ & Hv). rewrite Hv by lia. auto.
  - destruct (mat p0), (mat p); cbn in Hm; try tauto. destruct Hm as (_ & Hc & _ & _ & Hm). rewrite Hm, Hc by lia. auto.
  - destruct (wts p0), (wts p); cbn in Hw; try tauto. destruct Hw as (_ & _ & Hw). rewrite Hw by lia. auto.
  - destruct (txt p0), (txt p); cbn in Ht; try tauto. destruct Ht as (_ & Hc & _ & _ & Ht). rewrite Ht, Hc by lia. auto.
  - destruct Hr as (_ & _ & Hr). rewrite Hr by lia. auto.
Qed.

Lemma pgrel_drop fl i o p0 p N : regular p0 N -> i < N -> fl !! i = Some false ->
  pgrel fl i o p0 p -> pgrel fl (S i) o p0 p.
Proof.
  intros (Rv & Rw & Rm & Rt & Rr) Hi Hf [Hv Hw Hm Ht Hr Hn He]. split; auto.
  - destruct (vect p0), (vect p); cbn in *; auto. apply part_drop; auto. right. rewrite (Rv _ eq_refl); auto.
  - destruct (wts p0), (wts p); cbn in *; auto. apply part_drop; auto. right. rewrite (Rw _ eq_refl); auto.
  - destruct (mat p0), (mat p); cbn in *; auto. destruct Hm as (?&?&?); do 2 (split; [auto|]); apply part_drop; auto.
    right. destruct (Rm _ eq_refl); lia.
  - destruct (txt p0), (txt p); cbn in *; auto. destruct Ht as (?&?&?); do 2 (split; [auto|]); apply part_drop; auto.
    right. destruct (Rt _ eq_refl); lia.
  - apply part_drop; auto. destruct Rr as [-> | ->]; auto.
Qed.
Lemma if_pg (b : bool) {A} (f : page E -> A) p q : f (if b then p else q) = if b then f p else f q.
Proof. destruct b; auto. Qed.
Lemma pgrel_keep fl i o p0 p N : regular p0 N -> i < N -> fl !! i = Some true -> o <= i ->
  pgrel fl i o p0 p -> pgrel fl (S i) (S o) p0 (if o =? i then p else move_row p o i).
Proof.
  intros (Rv & Rw & Rm & Rt & Rr) Hi Hf Ho [Hv Hw Hm Ht Hr Hn He]. split.
  - rewrite if_pg; cbn. destruct (vect p0) as [a|], (vect p) as [b|]; cbn in *; try tauto.
    2:{ destruct (o =? i); auto. }
    pose proof (part_keep fl i o a b Hf Ho Hv) as H.
    destruct (o =? i); apply H; right; rewrite (Rv _ eq_refl); auto.
  - rewrite if_pg; cbn. destruct (wts p0) as [a|], (wts p) as [b|]; cbn in *; try tauto.
    2:{ destruct (o =? i); auto. }
    pose proof (part_keep fl i o a b Hf Ho Hw) as H.
    destruct (o =? i); apply H; right; rewrite (Rw _ eq_refl); auto.
  - rewrite if_pg; cbn. destruct (mat p0) as [a|], (mat p) as [b|]; cbn in *; try tauto.
    2:{ destruct (o =? i); auto. }
    destruct Hm as (G1 & G2 & Hm). pose proof (part_keep fl i o _ _ Hf Ho Hm) as H.
    destruct (Rm _ eq_refl). destruct (o =? i); cbn; do 2 (split; [auto|]); apply H; right; lia.
  - rewrite if_pg; cbn. destruct (txt p0) as [a|], (txt p) as [b|]; cbn in *; try tauto.
    2:{ destruct (o =? i); auto. }
    destruct Ht as (G1 & G2 & Ht). pose proof (part_keep fl i o _ _ Hf Ho Ht) as H.
    destruct (Rt _ eq_refl). destruct (o =? i); cbn; do 2 (split; [auto|]); apply H; right; lia.
  - pose proof (part_keep fl i o _ _ Hf Ho Hr) as H. destruct (o =? i); cbn; apply H; destruct Rr as [-> | ->]; auto.
  - destruct (o =? i); auto.
  - destruct (o =? i); auto.
Qed.

Lemma rm_loop_spec dropf fl N p0 :
  regular p0 N -> length fl = N ->
  (forall i p, i < N -> row_view p i = row_view p0 i -> Some (negb (dropf p i)) = fl !! i) ->
  forall k i o p, i + k = N -> o <= i -> o = cnt (take i fl) -> pgrel fl i o p0 p ->
  pgrel fl N (cnt fl) p0 (fst (rm_loop dropf k i o p)) /\ snd (rm_loop dropf k i o p) = cnt fl.
Proof.
  intros HR Hfl Hd. induction k as [|k IH]; intros i o p Hik Hoi Hcnt Hrel; cbn [rm_loop].
  - rewrite Nat.add_0_r in Hik. subst i. cbn. rewrite firstn_all2 in Hcnt by lia. subst o. auto.
  - assert (i < N) as Hi by lia.
    pose proof (Hd i p Hi (row_view_rel _ _ _ _ _ Hrel)) as Hdi.
    destruct (dropf p i); cbn in Hdi; symmetry in Hdi.
    + apply IH; try lia.
      * rewrite (cnt_take_S _ _ _ Hdi). lia.
      * eapply pgrel_drop; eauto.
    + apply IH; try lia.
      * rewrite (cnt_take_S _ _ _ Hdi). lia.
      * eapply pgrel_keep; eauto.
Qed.

Lemma part_refl {A} fl (l : list A) : part fl 0 0 l l.
Proof. split; [auto|]. split; [reflexivity|auto]. Qed.
Lemma pgrel_refl fl p : pgrel fl 0 0 p p.
Proof.
  split; auto using part_refl; [..|repeat split].
  - destruct (vect p); cbn; auto using part_refl.
  - destruct (wts p); cbn; auto using part_refl.
  - destruct (mat p); cbn; auto using part_refl.
  - destruct (txt p); cbn; auto using part_refl.
Qed.

(** a page holding the flagged rows of [p] *)
Definition rows_kept (fl : list bool) (p : page E) : page E :=
  let n := nms p in
  if cnt fl =? 0 then
    Pg None None None None (Nm (title n) (vecn n) [] (coln n) (txtn n) (rowh n) (colh n) (txth n)) (err p)
  else
    Pg (option_map (keep_by fl) (vect p))
       (option_map (fun m => Gr (cnt fl) (gc m) (keep_by fl (ga m))) (mat p))
       (option_map (keep_by fl) (wts p))
       (option_map (fun m => Gr (cnt fl) (gc m) (keep_by fl (ga m))) (txt p))
       (Nm (title n) (vecn n) (keep_by fl (rown n)) (coln n) (txtn n) (rowh n) (colh n) (txth n)) (err p).

Lemma part_end {A} fl o (l0 l : list A) N : length fl = N -> length l0 = N ->
  part fl N o l0 l -> take o l = keep_by fl l0.
Proof. intros H1 H2 (_ & H & _). rewrite H. rewrite !take_ge by lia. auto. Qed.

Lemma maxsize_regular p N : regular p N -> (vect p <> None \/ mat p <> None \/ txt p <> None) -> maxsize p = N.
Proof.
  intros (Rv & Rw & Rm & Rt & _) Hne. unfold maxsize, vsz, msz1, tsz1.
  destruct (vect p) as [v|], (mat p) as [m|], (txt p) as [t|];
  try (pose proof (Rv _ eq_refl)); try (destruct (Rm _ eq_refl)); try (destruct (Rt _ eq_refl)); lia || naive_solver.
Qed.

Lemma rm_rows_spec p drop do_drop N fl :
  regular p N -> (vect p <> None \/ mat p <> None \/ txt p <> None) ->
  (drop <> None \/ do_drop <> None) ->
  length fl = N ->
  (forall i, i < N -> fl !! i = Some (negb (drop_dec drop do_drop p i))) ->
  rm_rows p drop do_drop = rows_kept fl p.
Proof.
  intros HR Hne Hsome Hfl Hdec. unfold rm_rows. rewrite (maxsize_regular p N HR Hne).
  assert (match drop, do_drop with None, None => p | _, _ =>
     let '(q, n) := rm_loop (drop_dec drop do_drop) N 0 0 p in trim q n end =
     let '(q, n) := rm_loop (drop_dec drop do_drop) N 0 0 p in trim q n) as ->.
  { destruct drop, do_drop; auto. naive_solver. }
  destruct (rm_loop_spec (drop_dec drop do_drop) fl N p HR Hfl) with (k := N) (i := 0) (o := 0) (p := p) as [Hrel Hn];
    auto using pgrel_refl.
  { intros i q Hi Hv. rewrite Hdec by auto. unfold drop_dec. rewrite Hv. auto. }
  destruct (rm_loop _ N 0 0 p) as [q n]; cbn in Hrel, Hn. subst n.
  destruct Hrel as [Hv Hw Hm Ht Hr (H1 & H2 & H3 & H4 & H5 & H6 & H7) He].
  destruct HR as (Rv & Rw & Rm & Rt & Rr).
  assert (take (cnt fl) (rown (nms q)) = keep_by fl (rown (nms p))) as Hrow.
  { destruct Rr as [Hr0|Hr0].
    - destruct Hr as (Hl & _). rewrite Hr0 in *. destruct (rown (nms q)); [|discriminate]. rewrite take_nil, keep_by_nil_r. auto.
    - eapply part_end; eauto. }
  unfold trim, rows_kept.
  destruct (cnt fl =? 0) eqn:Ec; cbn [vect mat wts txt nms err option_map];
    rewrite Hrow, H1, H2, H3, H4, H5, H6, H7, He.
  - f_equal. f_equal. destruct Rr as [->|Hr0]; [apply keep_by_nil_r|].
    apply length_zero_iff_nil. rewrite keep_by_length_cnt by lia. lia.
  - pose proof (cnt_le fl) as Hle.
    f_equal.
    + destruct (vect p) as [a|], (vect q) as [b|]; cbn in *; try tauto. f_equal.
      rewrite <- (part_end fl (cnt fl) a b N); auto. destruct Hv as [Hv _]. f_equal. pose proof (Rv _ eq_refl). lia.
    + destruct (mat p) as [a|], (mat q) as [b|]; cbn in *; try tauto. f_equal.
      destruct (Rm _ eq_refl), Hm as (G1 & G2 & Hm). rewrite G2.
      rewrite <- (part_end fl (cnt fl) (ga a) (ga b) N); auto. f_equal; [lia|]. f_equal. lia.
    + destruct (wts p) as [a|], (wts q) as [b|]; cbn in *; try tauto. f_equal.
      rewrite <- (part_end fl (cnt fl) a b N); auto. destruct Hw as [Hw _]. f_equal. pose proof (Rw _ eq_refl). lia.
    + destruct (txt p) as [a|], (txt q) as [b|]; cbn in *; try tauto. f_equal.
      destruct (Rt _ eq_refl), Ht as (G1 & G2 & Ht). rewrite G2.
      rewrite <- (part_end fl (cnt fl) (ga a) (ga b) N); auto. f_equal; [lia|]. f_equal. lia.
Qed.

(** names after rm_rows, without any regularity hypothesis: row names only get fewer; hashes untouched *)
Lemma rm_loop_names dropf : forall k i o p,
  let q := fst (rm_loop dropf k i o p) in
  length (rown (nms q)) = length (rown (nms p)) /\ rowh (nms q) = rowh (nms p) /\
  coln (nms q) = coln (nms p) /\ colh (nms q) = colh (nms p) /\ txtn (nms q) = txtn (nms p) /\ txth (nms q) = txth (nms p).
Proof.
  induction k as [|k IH]; intros i o p; cbn; [repeat split|].
  destruct (dropf p i); [apply IH|].
  destruct (IH (S i) (S o) (if o =? i then p else move_row p o i)) as (A&B&C&D&F&G).
  rewrite A, B, C, D, F, G. destruct (o =? i); [repeat split|]. cbn. repeat split; auto.
  unfold move. destruct (_ !! i); rewrite ?insert_length; auto.
Qed.
Lemma rm_rows_names p drop f :
  let n := nms (rm_rows p drop f) in
  length (rown n) <= length (rown (nms p)) /\ rowh n = rowh (nms p) /\
  coln n = coln (nms p) /\ colh n = colh (nms p) /\ txtn n = txtn (nms p) /\ txth n = txth (nms p).
Proof.
  unfold rm_rows.
  pose proof (rm_loop_names (drop_dec drop f) (maxsize p) 0 0 p) as H.
  destruct (rm_loop (drop_dec drop f) (maxsize p) 0 0 p) as [q k]. cbn in H. destruct H as (A&B&C&D&F&G).
  assert (let n := nms (trim q k) in
  length (rown n) <= length (rown (nms p)) /\ rowh n = rowh (nms p) /\
  coln n = coln (nms p) /\ colh n = colh (nms p) /\ txtn n = txtn (nms p) /\ txth n = txth (nms p)) as HT.
  { unfold trim. destruct (k =? 0); cbn; rewrite take_length, A; repeat split; auto; lia. }
  destruct drop, f; auto. cbn. repeat split; lia.
Qed.

(** ---- columns ---- *)
Lemma keep_by_take {A} fl (l : list A) n : length l <= n -> keep_by (take n fl) l = keep_by fl l.
Proof.
  revert l n; induction fl as [|b fl IH]; intros [|x l] [|n] H; cbn in *; try lia; auto.
  destruct b; rewrite IH by lia; auto.
Qed.
Lemma keep_by_all {A} fl (l : list A) : cnt fl = length fl -> length fl = length l -> keep_by fl l = l.
Proof.
  revert l; induction fl as [|b fl IH]; intros [|x l] H1 H2; cbn in *; try lia; auto.
  unfold cnt in H1. cbn in H1. destruct b; cbn in H1.
  - f_equal. apply IH; unfold cnt; lia.
  - pose proof (cnt_le fl) as H. unfold cnt in H. lia.
Qed.

(** the matrix after dropping columns: NULL if none is left *)
Definition cols_kept (fl : list bool) (m : grid E) : option (grid E) :=
  if cnt fl =? 0 then None else Some (Gr (gr m) (cnt fl) (map (keep_by fl) (ga m))).

Lemma keep_cols_spec dropl m : wf_grid m -> 0 < gc m -> gc m <= length dropl ->
  keep_cols dropl m = cols_kept (map negb (take (gc m) dropl)) m.
Proof.
  intros [Hl Hf] Hpos Hd. unfold keep_cols, cols_kept.
  set (fl := map negb (take (gc m) dropl)).
  assert (length fl = gc m) as Hfl by (unfold fl; rewrite map_length, take_length; lia).
  rewrite (keep_by_length_cnt fl) by (rewrite seq_length; lia).
  destruct (cnt fl =? gc m) eqn:Ec; [|reflexivity].
  replace (cnt fl =? 0) with false by lia. f_equal. clearbody fl. destruct m as [r c a]; cbn [gr gc ga] in *.
  f_equal; [lia|]. transitivity (map id a); [symmetry; apply map_id|].
  apply map_ext_in. intros x Hx. symmetry. change (id x) with x. apply keep_by_all; [lia|].
  rewrite List.Forall_forall in Hf. rewrite (Hf x Hx). auto.
Qed.

Lemma rm_columns_spec p m dropl :
  mat p = Some m -> wf_grid m -> 0 < gc m -> gc m <= length dropl -> length (coln (nms p)) <= gc m ->
  rm_columns p dropl = Ok (set_nms (set_mat p (cols_kept (map negb (take (gc m) dropl)) m))
     (let n := nms p in Nm (title n) (vecn n) (rown n) (keep_by (map negb (take (gc m) dropl)) (coln n)) (txtn n) (rowh n) (colh n) (txth n))).
Proof.
  intros Hm Hw Hp Hd Hc. unfold rm_columns. rewrite Hm.
  replace ((gc m <=? length dropl) && (length (coln (nms p)) <=? length dropl)) with true by lia.
  rewrite keep_cols_spec by auto. unfold names_rm_cols. f_equal. f_equal. f_equal.
  assert (map negb (take (gc m) dropl) = take (gc m) (map negb dropl)) as ->.
  { clear. generalize (gc m). intros n. revert dropl. induction n as [|n IH]; intros [|x l]; cbn; auto. f_equal; auto. }
  rewrite keep_by_take by auto. auto.
Qed.

(** ---- prune ---- *)
Definition count_ci (c : string) (l : list string) : nat := length (filter (fun x => ci_eq c x = true) l).
Definition avail (c : string) (reqs : list (string * bool)) : nat :=
  length (filter (fun x => ci_eq c (fst x) && negb (snd x) = true) reqs).

Lemma take_request_spec c reqs :
  match take_request c reqs with
  | None => avail c reqs = 0
  | Some r' => forall d, avail d reqs = avail d r' + (if ci_eq d c then 1 else 0)
  end.
Proof.
  induction reqs as [|[r u] reqs IH]; [reflexivity|]. cbn [take_request].
  destruct (negb u && ci_eq c r) eqn:Ec.
  - apply andb_true_iff in Ec as [E1 E2]. intros d. unfold avail. rewrite !filter_cons. cbn [fst snd].
    destruct u; [discriminate|]. cbn [negb].
    rewrite andb_false_r. rewrite (decide_False (P := false = true)) by discriminate.
    rewrite andb_true_r.
    assert (ci_eq d r = ci_eq d c) as ->.
    { destruct (ci_eq d c) eqn:Ed.
      - eapply ci_eq_trans; eauto.
      - destruct (ci_eq d r) eqn:Er; auto. rewrite <- Ed. symmetry. eapply ci_eq_trans; eauto. rewrite ci_eq_sym; auto. }
    destruct (ci_eq d c).
    + rewrite decide_True by auto. cbn. lia.
    + rewrite decide_False by discriminate. lia.
  - destruct (take_request c reqs) as [rs|].
    + intros d. specialize (IH d). unfold avail in *. rewrite !filter_cons. cbn [fst snd].
      destruct (decide _); cbn; lia.
    + unfold avail in *. rewrite filter_cons. cbn [fst snd]. rewrite decide_False; auto.
      intros H. rewrite andb_comm in H. rewrite H in Ec. discriminate.
Qed.

Lemma count_ci_cons d c l : count_ci d (c :: l) = (if ci_eq d c then 1 else 0) + count_ci d l.
Proof. unfold count_ci. rewrite filter_cons. destruct (ci_eq d c); [rewrite decide_True by auto|rewrite decide_False by discriminate]; auto. Qed.

Lemma rm_list_spec cols : forall reqs i c, cols !! i = Some c ->
  rm_list cols reqs !! i = Some (negb (count_ci c (take i cols) <? avail c reqs)).
Proof.
  induction cols as [|x cols IH]; intros reqs i c Hi; [discriminate|]. cbn [rm_list].
  pose proof (take_request_spec x reqs) as HT.
  destruct (take_request x reqs) as [rs|].
  - destruct i as [|i]; simpl in Hi |- *.
    + injection Hi as <-. rewrite (HT x), ci_eq_refl. f_equal. replace (count_ci x [] <? _) with true; auto. unfold count_ci. cbn. lia.
    + rewrite (IH rs i c Hi). f_equal. f_equal. rewrite count_ci_cons, (HT c). destruct (ci_eq c x); lia.
  - destruct i as [|i]; simpl in Hi |- *.
    + injection Hi as <-. rewrite HT. reflexivity.
    + rewrite (IH reqs i c Hi). f_equal. f_equal. rewrite count_ci_cons.
      destruct (ci_eq c x) eqn:Ex; [|lia].
      assert (avail c reqs = 0) as ->; [|lia].
      assert (forall y, ci_eq c y = ci_eq x y) as Hy.
      { intros y. destruct (ci_eq c y) eqn:E1, (ci_eq x y) eqn:E2; auto.
        - rewrite <- E2. symmetry. eapply ci_eq_trans; [|eauto]. rewrite ci_eq_sym; auto.
        - rewrite <- E1. eapply ci_eq_trans; eauto. }
      unfold avail in *. rewrite <- HT. f_equal. apply list_filter_iff. intros [a b]; cbn. rewrite Hy. auto.
Qed.
Lemma rm_list_length cols reqs : length (rm_list cols reqs) = length cols.
Proof. revert reqs; induction cols as [|c cols IH]; intros reqs; cbn; auto. destruct (take_request c reqs); cbn; auto. Qed.
Lemma avail_init c reqs : avail c (map (fun r => (r, false)) reqs) = count_ci c reqs.
Proof.
  unfold avail, count_ci. induction reqs as [|r reqs IH]; auto. cbn [map]. rewrite !filter_cons. cbn [fst snd negb].
  rewrite andb_true_r. destruct (ci_eq c r); [rewrite !decide_True by auto|rewrite !decide_False by discriminate]; cbn; auto.
Qed.
End RmP.
