(** C11: apop_data_listwise_delete. *)
From Verif Require Import StackProofs DataProps DataModel.
Local Open Scope nat_scope.

(** row i has no missing value: vector, weight and matrix entries are not NaN, no text is the NaN string *)
Definition complete {E} (isnan : E -> bool) (ns : option string) (p : page E) (i : nat) : Prop :=
  (forall v x, vect p = Some v -> v !! i = Some x -> isnan x = false) /\
  (forall v x, wts p = Some v -> v !! i = Some x -> isnan x = false) /\
  (forall m j x, mat p = Some m -> cell m i j = Some x -> isnan x = false) /\
  (forall t j s u, txt p = Some t -> ns = Some u -> cell t i j = Some s -> ci_eq u s = false).

(** [q] holds the flagged rows of [p] (and nothing else), with p's labels *)
Definition just_rows {E} (fl : list bool) (p q : page E) : Prop :=
  vect q = option_map (keep_by fl) (vect p) /\ wts q = option_map (keep_by fl) (wts p) /\
  option_map ga (mat q) = option_map (fun m => keep_by fl (ga m)) (mat p) /\ option_map gc (mat q) = option_map gc (mat p) /\
  option_map ga (txt q) = option_map (fun m => keep_by fl (ga m)) (txt p) /\ option_map gc (txt q) = option_map gc (txt p) /\
  (forall m, mat q = Some m -> gr m = length (ga m)) /\ (forall m, txt q = Some m -> gr m = length (ga m)) /\
  rown (nms q) = keep_by fl (rown (nms p)) /\ coln (nms q) = coln (nms p) /\ txtn (nms q) = txtn (nms p).

Lemma all_res_Ok {A B} (f : A -> res B) (h : A -> B) l : (forall x, In x l -> f x = Ok (h x)) -> all_res (map f l) = Ok (map h l).
Proof. induction l as [|x l IH]; cbn; intros H; auto. rewrite H by auto. cbn. rewrite IH; auto. Qed.
Lemma any_res_Ok {A} (f : A -> res bool) (h : A -> bool) l : (forall x, In x l -> f x = Ok (h x)) -> any_res (map f l) = Ok (existsb h l).
Proof. induction l as [|x l IH]; cbn; intros H; auto. rewrite H by auto. cbn. destruct (h x); cbn; auto. Qed.

Section L.
Context {E : Type}.
Variable isnan : E -> bool.
Variable ns : option string.
Implicit Types p : page E.

Definition nan_at p (i : nat) (j : Z) : bool :=
  match get_at p (Z.of_nat i) j with GotNaN => true | GotRange => false | Got x => isnan x end.
Definition wfull p N := regular p N /\ (forall m, mat p = Some m -> wf_grid m) /\ (forall t, txt p = Some t -> wf_grid t).

Lemma lw_nan_Ok p N i j : wfull p N -> i < N -> In j (lw_cols p) -> lw_nan isnan p i j = Ok (nan_at p i j).
Proof.
  intros [(Rv & _ & Rm & _) [Wm _]] Hi Hj. unfold lw_nan, nan_at.
  enough (get_at p (Z.of_nat i) j <> GotRange) as H by (destruct (get_at p (Z.of_nat i) j); congruence).
  unfold lw_cols in Hj. apply in_map_iff in Hj as (k & <- & Hk). apply in_seq in Hk. unfold msz2 in Hk.
  unfold get_at. destruct (uses_vector p _) eqn:Eu.
  - destruct (vect p) as [v|] eqn:Ev; [|discriminate]. replace (Z.of_nat i <? 0)%Z with false by lia. rewrite Nat2Z.id.
    destruct (v !! i) eqn:El; [discriminate|]. apply lookup_ge_None in El. rewrite (Rv v eq_refl) in El. lia.
  - destruct (mat p) as [m|] eqn:Em; [|discriminate]. pose proof (Wm m eq_refl) as Hw. destruct (Rm m eq_refl) as [Hg _].
    unfold uses_vector in Eu. rewrite Em in Eu.
    destruct (vect p) as [v|] eqn:Ev.
    + replace ((Z.of_nat i <? 0)%Z || (Z.of_nat k - Z.of_nat 1 <? 0)%Z) with false by lia.
      destruct (cell_is_Some m (Z.to_nat (Z.of_nat i)) (Z.to_nat (Z.of_nat k - Z.of_nat 1)) Hw) as [x ->]; [lia|lia|discriminate].
    + replace ((Z.of_nat i <? 0)%Z || (Z.of_nat k - Z.of_nat 0 <? 0)%Z) with false by lia.
      destruct (cell_is_Some m (Z.to_nat (Z.of_nat i)) (Z.to_nat (Z.of_nat k - Z.of_nat 0)) Hw) as [x ->]; [lia|lia|discriminate].
Qed.
Definition num_nan p (i : nat) : bool := existsb (nan_at p i) (lw_cols p).
Lemma num_marks_Ok p N : wfull p N -> num_marks isnan p = Ok (map (num_nan p) (seq 0 (if vsz p =? 0 then msz1 p else vsz p))).
Proof.
  intros Hw. unfold num_marks. apply all_res_Ok. intros i Hi. apply any_res_Ok. intros j Hj. eapply lw_nan_Ok; eauto.
  apply in_seq in Hi. destruct Hw as [(Rv & _ & Rm & _) _]. unfold vsz, msz1 in Hi.
  destruct (vect p) as [v|]; [pose proof (Rv v eq_refl)|]; destruct (mat p) as [m|]; try destruct (Rm m eq_refl);
    repeat match goal with H : context [if ?b then _ else _] |- _ => destruct b end; lia.
Qed.
Lemma num_nan_false p N i : wfull p N -> i < N ->
  num_nan p i = false <->
   (forall v x, vect p = Some v -> v !! i = Some x -> isnan x = false) /\
   (forall m j x, mat p = Some m -> cell m i j = Some x -> isnan x = false).
Proof.
  intros [(Rv & _ & Rm & _) [Wm _]] Hi. unfold num_nan.
  rewrite <- not_true_iff_false, existsb_exists. unfold lw_cols, msz2. split.
  - intros Hn. split.
    + intros v x Hv Hx. destruct (isnan x) eqn:En; auto. exfalso. apply Hn. exists (-1)%Z. rewrite Hv. split.
      * apply in_map_iff. exists 0. split; [lia|]. apply in_seq. lia.
      * unfold nan_at, get_at, uses_vector. cbn. rewrite Hv. replace (Z.of_nat i <? 0)%Z with false by lia. rewrite Nat2Z.id, Hx. auto.
    + intros m j x Hm Hx. destruct (isnan x) eqn:En; auto. exfalso. apply Hn. exists (Z.of_nat j). rewrite Hm.
      pose proof (Wm m Hm) as Hw. destruct (cell_Some_lt m i j x Hw Hx) as [_ Hj]. split.
      * apply in_map_iff. destruct (vect p).
        -- exists (S j). split; [lia|]. apply in_seq. lia.
        -- exists j. split; [lia|]. apply in_seq. lia.
      * unfold nan_at, get_at, uses_vector. rewrite Hm. replace (Z.of_nat j =? -1)%Z with false by lia.
        cbn [orb andb]. rewrite andb_false_r. cbn [andb].
        replace ((Z.of_nat i <? 0)%Z || (Z.of_nat j <? 0)%Z) with false by lia. rewrite !Nat2Z.id, Hx. auto.
  - intros [H1 H2] (j & Hj & Hn). apply in_map_iff in Hj as (k & <- & Hk). apply in_seq in Hk.
    unfold nan_at, get_at, uses_vector in Hn. destruct (vect p) as [v|] eqn:Ev.
    + destruct k as [|k].
      * cbn [Z.eqb orb] in Hn. change (Z.of_nat 0 - Z.of_nat 1 =? -1)%Z with true in Hn. cbn [orb] in Hn.
        replace (Z.of_nat i <? 0)%Z with false in Hn by lia. rewrite Nat2Z.id in Hn.
        destruct (v !! i) eqn:El; [|discriminate]. rewrite (H1 v _ eq_refl El) in Hn. discriminate.
      * replace (Z.of_nat (S k) - Z.of_nat 1)%Z with (Z.of_nat k) in Hn by lia.
        replace (Z.of_nat k =? -1)%Z with false in Hn by lia. cbn [orb] in Hn.
        destruct (mat p) as [m|] eqn:Em; [|lia].
        rewrite andb_false_r in Hn. cbn [andb] in Hn.
        replace ((Z.of_nat i <? 0)%Z || (Z.of_nat k <? 0)%Z) with false in Hn by lia. rewrite !Nat2Z.id in Hn.
        destruct (cell m i k) eqn:Ec; [|discriminate]. rewrite (H2 m k _ eq_refl Ec) in Hn. discriminate.
    + replace (Z.of_nat k - Z.of_nat 0)%Z with (Z.of_nat k) in Hn by lia.
      replace (Z.of_nat k =? -1)%Z with false in Hn by lia. cbn [orb] in Hn.
      rewrite andb_false_r in Hn.
      destruct (mat p) as [m|] eqn:Em; [|lia].
      replace ((Z.of_nat i <? 0)%Z || (Z.of_nat k <? 0)%Z) with false in Hn by lia. rewrite !Nat2Z.id in Hn.
      destruct (cell m i k) eqn:Ec; [|discriminate]. rewrite (H2 m k _ eq_refl Ec) in Hn. discriminate.
Qed.

Lemma or_wts_Ok (w : list E) (marks : list bool) : length w <= length marks ->
  exists r, or_wts isnan w marks = Ok r /\ length r = length marks /\
    forall i b, marks !! i = Some b -> r !! i = Some (match w !! i with Some x => isnan x || b | None => b end).
Proof.
  revert marks; induction w as [|x w IH]; intros [|b marks] H; cbn in *; try lia.
  - exists []. auto.
  - exists (b :: marks). split; auto.
  - destruct (IH marks) as (r & Er & Hl & Hr); [lia|]. rewrite Er. cbn. eexists; split; [reflexivity|]. split; [cbn; auto|].
    intros [|i] b' Hi; simpl in *; [congruence|]. auto.
Qed.
Lemma or_text_spec (rows : list (list string)) (marks : list bool) :
  length (or_text ns rows marks) = length marks /\
  forall i b, marks !! i = Some b -> or_text ns rows marks !! i = Some (b ||
     match ns, rows !! i with Some u, Some r => existsb (fun s => ci_eq u s) r | _, _ => false end).
Proof.
  revert marks; induction rows as [|r rows IH]; intros marks.
  - cbn. split; auto. intros i b Hi. destruct ns; rewrite orb_false_r; auto.
  - destruct marks as [|b marks]; [cbn; split; auto; intros i b Hi; rewrite lookup_nil in Hi; discriminate|].
    cbn [or_text]. destruct ns as [u|].
    + destruct (IH marks) as [H1 H2]. split; [cbn; auto|]. intros [|i] b' Hi; simpl in *; [congruence|]. auto.
    + split; auto. intros i b' Hi. rewrite orb_false_r. auto.
Qed.

Lemma marks_spec p N : wfull p N -> 0 < N -> (vect p <> None \/ mat p <> None \/ txt p <> None) ->
  exists nm m1, num_marks isnan p = Ok nm /\
    or_wts isnan (match wts p with Some w => w | None => [] end)
      (nm ++ replicate (Nat.max (if vsz p =? 0 then msz1 p else vsz p) (tsz1 p) - length nm) false) = Ok m1 /\
    let marks := or_text ns (match txt p with Some t => ga t | None => [] end) m1 in
    length marks = N /\ forall i, i < N -> exists b, marks !! i = Some b /\ (b = false <-> complete isnan ns p i).
Proof.
  intros Hw HN Hne. pose proof Hw as [(Rv & Rw & Rm & Rt & _) [Wm Wt]].
  eexists. rewrite (num_marks_Ok p N Hw).
  set (k := if vsz p =? 0 then msz1 p else vsz p). set (nm := map (num_nan p) (seq 0 k)).
  assert (length nm = k) as Hnm by (unfold nm; rewrite map_length, seq_length; auto).
  assert ((k = N \/ (k = 0 /\ vect p = None /\ mat p = None)) /\ Nat.max k (tsz1 p) = N) as [Hk HM].
  { unfold k, vsz, msz1, tsz1.
    destruct (vect p) as [v|] eqn:Ev, (mat p) as [m|] eqn:Em, (txt p) as [t|] eqn:Et;
      try pose proof (Rv _ eq_refl); try destruct (Rm _ eq_refl); try destruct (Rt _ eq_refl);
      repeat match goal with |- context [if ?b then _ else _] => destruct b eqn:? end; try lia; try naive_solver lia. }
  rewrite HM, Hnm.
  set (m0 := nm ++ replicate (N - k) false).
  assert (length m0 = N) as Hm0 by (unfold m0; rewrite app_length, replicate_length; lia).
  assert (forall i, i < N -> exists b, m0 !! i = Some b /\ (b = false <->
    (forall v x, vect p = Some v -> v !! i = Some x -> isnan x = false) /\
    (forall m j x, mat p = Some m -> cell m i j = Some x -> isnan x = false))) as H0.
  { intros i Hi. unfold m0. destruct Hk as [->|(Hk & Hv & Hm)].
    - exists (num_nan p i). rewrite lookup_app_l by lia. unfold nm. rewrite lookup_map, lookup_seq_lt by lia.
      split; auto. apply (num_nan_false p N); auto.
    - exists false. rewrite Hk in *. rewrite lookup_app_r by lia. rewrite Hnm, lookup_replicate_2 by lia.
      split; auto. rewrite Hv, Hm. split; auto. intros _. split; intros; discriminate. }
  destruct (or_wts_Ok (match wts p with Some w => w | None => [] end) m0) as (m1 & E1 & L1 & HH).
  { destruct (wts p) as [w|]; [rewrite (Rw w eq_refl)|cbn]; lia. }
  exists m1. split; auto. split; auto. cbv zeta.
  destruct (or_text_spec (match txt p with Some t => ga t | None => [] end) m1) as [L2 H2].
  split; [lia|]. intros i Hi. destruct (H0 i Hi) as (b & Hb & Hb2).
  pose proof (HH i b Hb) as H3. pose proof (H2 i _ H3) as H4. eexists; split; [exact H4|].
  rewrite orb_false_iff. unfold complete.
  assert ((match (match wts p with Some w => w | None => [] end) !! i with Some x => isnan x || b | None => b end) = false <->
     b = false /\ (forall v x, wts p = Some v -> v !! i = Some x -> isnan x = false)) as ->.
  { destruct (wts p) as [w|] eqn:Ew.
    - destruct (w !! i) as [x|] eqn:Ex.
      + rewrite orb_false_iff. split; [intros [? ?]; split; auto; intros ? ? [= <-]; congruence|]. intros [? H]. split; eauto.
      + split; [intros ->; split; auto; intros ? ? [= <-]; congruence|]. tauto.
    - rewrite lookup_nil. split; [intros ->; split; auto; discriminate|tauto]. }
  assert ((match ns, (match txt p with Some t => ga t | None => [] end) !! i with Some u, Some r => existsb (fun s => ci_eq u s) r | _, _ => false end) = false
    <-> (forall t j s u, txt p = Some t -> ns = Some u -> cell t i j = Some s -> ci_eq u s = false)) as ->.
  { destruct ns as [u|]; [|split; intros; [discriminate|auto]].
    destruct (txt p) as [t|]; [|rewrite lookup_nil; split; intros; [discriminate|auto]].
    unfold cell. destruct (ga t !! i) as [r|] eqn:Er.
    - rewrite <- not_true_iff_false, existsb_exists. split.
      + intros Hn t' j s u' [= <-] [= <-]. rewrite Er. intros Hs. destruct (ci_eq u s) eqn:Ec; auto.
        exfalso. apply Hn. exists s. split; auto. apply elem_of_list_In. eapply elem_of_list_lookup_2; eauto.
      + intros H (s & Hs & Hc). apply elem_of_list_In, elem_of_list_lookup in Hs as [j Hj].
        specialize (H t j s u eq_refl eq_refl). rewrite Er in H. rewrite (H Hj) in Hc. discriminate.
    - split; auto. intros _ t' j s u' [= <-] _. rewrite Er. discriminate. }
  tauto.
Qed.
End L.

Lemma regular_same {E} (p q : page E) N : vect q = vect p -> mat q = mat p -> wts q = wts p -> txt q = txt p ->
  rown (nms q) = rown (nms p) -> regular p N -> regular q N.
Proof. unfold regular. intros -> -> -> -> ->. auto. Qed.

Lemma keepers_marks {E} (p : page E) marks N : length marks = N -> keepers p (Some marks) None N = map negb marks.
Proof.
  intros <-. unfold keepers, to_drop. apply list_eq. intros i.
  rewrite !lookup_map. destruct (marks !! i) as [b|] eqn:Eb.
  - pose proof (lookup_lt_Some _ _ _ Eb). rewrite lookup_seq_lt by lia. cbn.
    rewrite (nth_lookup_Some _ _ _ _ Eb), orb_false_r. auto.
  - apply lookup_ge_None in Eb. rewrite lookup_seq_ge by lia. auto.
Qed.
Lemma holds_just {E} fl (p q r : page E) : vect q = vect p -> mat q = mat p -> wts q = wts p -> txt q = txt p ->
  rown (nms q) = rown (nms p) -> coln (nms q) = coln (nms p) -> txtn (nms q) = txtn (nms p) ->
  ~ Forall (fun b => b = false) fl -> holds_rows fl q r -> just_rows fl p r.
Proof.
  intros D1 D2 D3 D4 L1 L2 L3 Hn (_ & H & HC & HT & _). destruct (H Hn) as (A1 & A2 & A3 & A4 & A5 & A6 & A7).
  unfold just_rows. rewrite A1, A2, A7, HC, HT, D1, D3, L1, L2, L3. rewrite D2 in A3, A4. rewrite D4 in A5, A6.
  do 2 (split; [auto|]).
  destruct (mat p) as [m|]; [destruct (A3 m eq_refl) as (m' & -> & M1 & M2 & M3)|rewrite (A4 eq_refl)];
  (destruct (txt p) as [t|]; [destruct (A5 t eq_refl) as (t' & -> & T1 & T2 & T3)|rewrite (A6 eq_refl)]); cbn;
  repeat split; try congruence; intros ? [= <-]; auto.
Qed.

Lemma C11_aux E (g : E) isnan ns (d : adata E) N inplace :
  acyclic d = true -> Forall sane (pages d) -> Forall (fun p => err p = None) (pages d) ->
  regular (head d) N -> 0 < N -> (vect (head d) <> None \/ mat (head d) <> None \/ txt (head d) <> None) ->
  exists fl, length fl = N /\ (forall i, i < N -> fl !! i = Some true <-> complete isnan ns (head d) i) /\
    ((forall i, i < N -> ~ complete isnan ns (head d) i) -> listwise_delete g isnan ns d inplace = Ok None) /\
    (forall i, i < N -> complete isnan ns (head d) i ->
       exists out, listwise_delete g isnan ns d inplace = Ok (Some out) /\ just_rows fl (head d) (head out)).
Proof.
  intros Ha Hs He HR HN Hne.
  assert (sane (head d)) as Hsh by (destruct d; cbn in *; inversion Hs; auto).
  assert (wfull (head d) N) as Hw.
  { split; auto. destruct Hsh as [H1 H2]. split; auto. intros t Ht. apply H2; auto. }
  destruct (marks_spec isnan ns (head d) N Hw HN Hne) as (nm & m1 & E1 & E2 & Hl & HM).
  unfold listwise_delete. cbv zeta in *. rewrite E1. cbn [rbind]. rewrite E2. cbn [rbind].
  set (marks := or_text ns _ m1) in *.
  assert ((msz1 (head d) =? 0) && (vsz (head d) =? 0) && (tsz1 (head d) =? 0) = false) as ->.
  { pose proof (maxsize_regular (head d) N HR Hne) as Hmx. unfold maxsize in Hmx. lia. }
  exists (map negb marks). split; [rewrite map_length; auto|].
  assert (forall i, i < N -> map negb marks !! i = Some true <-> complete isnan ns (head d) i) as Hfl.
  { intros i Hi. destruct (HM i Hi) as (b & Hb & Hc). rewrite lookup_map, Hb, <- Hc. cbn. destruct b; cbn; split; congruence. }
  split; auto. split.
  - intros Hall. replace (forallb id marks) with true; auto. symmetry. apply forallb_forall. intros b Hb.
    apply elem_of_list_In, elem_of_list_lookup in Hb as [i Hi]. assert (i < N) by (apply lookup_lt_Some in Hi; lia).
    destruct (HM i H) as (b' & Hb' & Hc). destruct b; auto. exfalso. apply (Hall i H), Hc. congruence.
  - intros i Hi Hc. pose proof (proj2 (Hfl i Hi) Hc) as Hi2.
    assert (forallb id marks = false) as ->.
    { apply not_true_iff_false. rewrite forallb_forall. intros Hf. rewrite lookup_map in Hi2.
      destruct (marks !! i) as [b|] eqn:Eb; [|discriminate]. cbn in Hi2. assert (b = true) as ->; [|discriminate].
      apply Hf. apply elem_of_list_In. eapply elem_of_list_lookup_2; eauto. }
    assert (~ Forall (fun b => b = false) (map negb marks)) as Hn.
    { intros HF. rewrite Forall_lookup in HF. specialize (HF i true Hi2). discriminate. }
    assert (exists out, (if inplace then Ok d else data_copy g d) = Ok out /\
      vect (head out) = vect (head d) /\ mat (head out) = mat (head d) /\ wts (head out) = wts (head d) /\ txt (head out) = txt (head d) /\
      rown (nms (head out)) = rown (nms (head d)) /\ coln (nms (head out)) = coln (nms (head d)) /\ txtn (nms (head out)) = txtn (nms (head d)))
      as (out & Eo & D1 & D2 & D3 & D4 & L1 & L2 & L3).
    { destruct inplace; [exists d; auto 12|]. destruct (C04_aux E g d Ha Hs He) as (c & Ec & _ & HF). exists c. split; auto.
      assert (duplicates (head d) (head c)) as HD by (destruct d, c; cbn in HF; inversion HF; auto).
      destruct HD as (?&?&?&?&?&?&?&_). auto 12. }
    rewrite Eo. cbn [rbind]. eexists; split; [reflexivity|]. rewrite head_set_head.
    apply (holds_just _ (head d) (head out)); auto.
    rewrite <- (keepers_marks (head out) marks N) by auto.
    apply C09_aux; [eapply regular_same; eauto|rewrite D1, D2, D4; auto|left; discriminate|intros l [= <-]; lia].
Qed.
(** C11: for a data set whose parts have N>0 rows each, listwise deletion returns exactly the complete rows, in
    order and with all their parts and names; NULL if no row is complete.  Missing: parts of different heights
    (undefined behaviour for heights that disagree, below). *)
Theorem C11_listwise_delete : forall E (g : E) isnan ns (d : adata E) N inplace,
  acyclic d = true -> Forall sane (pages d) -> Forall (fun p => err p = None) (pages d) ->
  regular (head d) N -> 0 < N -> (vect (head d) <> None \/ mat (head d) <> None \/ txt (head d) <> None) ->
  exists fl, length fl = N /\ (forall i, i < N -> fl !! i = Some true <-> complete isnan ns (head d) i) /\
    ((forall i, i < N -> ~ complete isnan ns (head d) i) -> listwise_delete g isnan ns d inplace = Ok None) /\
    (forall i, i < N -> complete isnan ns (head d) i ->
       exists out, listwise_delete g isnan ns d inplace = Ok (Some out) /\ just_rows fl (head d) (head out)).
Proof. exact C11_aux. Qed.
Print Assumptions C11_listwise_delete.

(** C11: a vector longer than the matrix: the matrix is read out of range. *)
Theorem C11_ragged_refuted : forall E (g : E) isnan ns (x y z : E) inplace,
  isnan x = false -> isnan y = false ->
  listwise_delete g isnan ns (Last (Pg (Some [x; y]) (Some (Gr 1 1 [[z]])) None None name_alloc None)) inplace = UB.
Proof.
  intros E g isnan ns x y z inplace Hx Hy. unfold listwise_delete. cbn [head].
  replace (num_marks isnan _) with (@UB (list bool)); [reflexivity|].
  unfold num_marks. cbn.
  set (p := Pg _ _ _ _ _ _).
  assert (lw_nan isnan p 0 (Z.of_nat 0 - Z.of_nat 1) = Ok (isnan x)) as -> by reflexivity.
  assert (lw_nan isnan p 1 (Z.of_nat 0 - Z.of_nat 1) = Ok (isnan y)) as -> by reflexivity.
  assert (lw_nan isnan p 0 (Z.of_nat 1 - Z.of_nat 1) = Ok (isnan z)) as -> by reflexivity.
  assert (lw_nan isnan p 1 (Z.of_nat 1 - Z.of_nat 1) = UB) as -> by reflexivity.
  cbn. rewrite Hx, Hy. cbn. destruct (isnan z); reflexivity.
Qed.
Print Assumptions C11_ragged_refuted.

(** C11: two rows of three are complete (9 stands for NaN). *)
Example C11_nonvacuous :
  let p := Pg (Some [1; 9; 3]) (Some (Gr 3 1 [[4]; [5]; [6]])) None (Some (Gr 3 1 [["a"]; ["b"]; ["nan"]]))%string
     (add1 (add1 (add1 name_alloc "x" "r") "y" "r") "z" "r") None in
  regular p 3 /\ sane p /\ complete (Nat.eqb 9) (Some "NaN"%string) p 0 /\
  exists q, listwise_delete 0 (Nat.eqb 9) (Some "NaN"%string) (Last p) false = Ok (Some (Last q)) /\
    vect q = Some [1] /\ txt q = Some (Gr 1 1 [["a"%string]]) /\ rown (nms q) = ["x"%string].
Proof.
  cbv zeta. split. { unfold regular; cbn. do 4 (split; [intros ? [= <-] || discriminate; cbn; lia|]). lia. }
  split. { split; cbn; intros ? [= <-]; unfold wf_grid; cbn; repeat split; auto; repeat constructor. }
  split. { unfold complete, cell; cbn. split; [intros ? ? [= <-] [= <-]; auto|]. split; [discriminate|].
    split; [intros ? [|j] ? [= <-] H; simpl in H; [injection H as <-; auto|rewrite lookup_nil in H; discriminate]|].
    intros ? [|j] ? ? [= <-] [= <-] H; simpl in H; [injection H as <-; auto|rewrite lookup_nil in H; discriminate]. }
  eexists; split; [vm_compute; reflexivity|]. vm_compute. auto.
Qed.
