(** C21: apop_map and friends. *)
From Verif Require Import DataModel NamesProofs DataProofs MapModel MapProofs.
Local Open Scope string_scope.
Local Open Scope list_scope.
Local Open Scope nat_scope.

(** -------- specification -------- *)
(** the parts of the page that the `part` argument selects *)
Definition sel_vec (part : ascii) : bool := (part =? "v")%char || (part =? "a")%char.
Definition sel_mat (part : ascii) : bool := (part =? "m")%char || (part =? "a")%char.

(** [m'] is [m] with the function applied to each cell, once, in its place.  The index handed to the function
    is the column number in wide or square matrices and the row number in tall ones. *)
Definition cellwise {E} (f : E -> nat -> E) (m m' : grid E) : Prop :=
  wf_grid m' /\ gr m' = gr m /\ gc m' = gc m /\
  forall i j, cell m' i j = option_map (fun x => f x (if gr m <=? gc m then j else i)) (cell m i j).
(** selected parts are mapped *)
Definition map_vec {E} (f : E -> nat -> E) (a b : option (list E)) : Prop :=
  b = option_map (imap (fun i x => f x i)) a.
Definition map_mat {E} (f : E -> nat -> E) (a b : option (grid E)) : Prop :=
  match a, b with Some m, Some m' => cellwise f m m' | None, None => True | _, _ => False end.
(** the new page returned by a mapping: selected parts mapped, nothing else in it *)
Definition new_mapped {E} (f : E -> nat -> E) (part : ascii) (p q : page E) : Prop :=
  (if sel_vec part then map_vec f (vect p) (vect q) else vect q = None) /\
  (if sel_mat part then map_mat f (mat p) (mat q) else mat q = None) /\
  wts q = None /\ txt q = None /\ err q = None /\ rown (nms q) = rown (nms p) /\
  (sel_mat part = true -> mat p <> None -> coln (nms q) = coln (nms p)).
(** the page after mapping in place: selected parts mapped, the rest as it was *)
Definition inplace_mapped {E} (f : E -> nat -> E) (part : ascii) (p q : page E) : Prop :=
  (if sel_vec part then map_vec f (vect p) (vect q) else vect q = vect p) /\
  (if sel_mat part then map_mat f (mat p) (mat q) else mat q = mat p) /\
  wts q = wts p /\ txt q = txt p /\ nms q = nms p /\ err q = err p.
(** parts present are non-empty and rectangular *)
Definition solid {E} (p : page E) : Prop :=
  (forall v, vect p = Some v -> 0 < length v) /\
  (forall m, mat p = Some m -> wf_grid m /\ 0 < gr m /\ 0 < gc m) /\
  (forall t, txt p = Some t -> wf_grid t /\ 0 < gr t /\ 0 < gc t).
Definition elem_part (part : ascii) : Prop := part = "v"%char \/ part = "m"%char \/ part = "a"%char.

(** -------- lemmas -------- *)
Local Arguments vectorloop : simpl never.
Local Arguments matloop : simpl never.
Local Arguments forloop : simpl never.
Local Arguments rowloop : simpl never.
Local Arguments name_stack : simpl never.
Local Arguments name_copy : simpl never.
Section P.
Context {E : Type}.
Variable g : E.
Variable sch : scheduler.
Hypothesis Hfair : fair sch.
Implicit Types p q : page E.

Lemma alloc_vec n : 0 < n -> data_alloc_filled g n 0 0%Z = Pg (Some (replicate n g)) None None None name_alloc None.
Proof. intros H. unfold data_alloc_filled, alloc_shape. cbn. destruct (Nat.eqb_spec n 0); [lia|]. auto. Qed.
Lemma alloc_vec0 : data_alloc_filled g 0 0 0%Z = Pg None None None None name_alloc None.
Proof. reflexivity. Qed.
Lemma alloc_mat r c : 0 < r -> 0 < c -> data_alloc_filled g r c 0%Z = Pg None (Some (new_grid r c g)) None None name_alloc None.
Proof.
  intros Hr Hc. unfold data_alloc_filled, alloc_shape. cbn. destruct (Nat.eqb_spec c 0); [lia|]. cbn.
  replace ((0 <? Z.of_nat c)%Z && (0 <? r)) with true by (destruct (Z.ltb_spec 0 (Z.of_nat c)); destruct (Nat.ltb_spec 0 r); cbn; lia).
  rewrite Nat2Z.id. auto.
Qed.
Lemma alloc_all v r c : 0 < r -> 0 < c -> data_alloc_filled g v r (Z.of_nat c) =
  Pg (if v =? 0 then None else Some (replicate v g)) (Some (new_grid r c g)) None None name_alloc None.
Proof.
  intros Hr Hc. unfold data_alloc_filled, alloc_shape.
  destruct (Z.eqb_spec (Z.of_nat c) 0); [lia|].
  replace ((0 <? Z.of_nat c)%Z && (0 <? r)) with true by (destruct (Z.ltb_spec 0 (Z.of_nat c)); destruct (Nat.ltb_spec 0 r); cbn; lia).
  rewrite Nat2Z.id. auto.
Qed.
Lemma new_grid_wf r c : wf_grid (new_grid r c g).
Proof.
  split; cbn; [apply replicate_length|]. rewrite Forall_lookup. intros i x Hx.
  apply lookup_replicate in Hx as [-> _]. apply replicate_length.
Qed.
Lemma stack_r n m : rown (name_stack n m "r" "r") = rown n ++ rown m /\ coln (name_stack n m "r" "r") = coln n.
Proof. unfold name_stack; cbn. destruct (add_all_row n (rown m)) as (H1 & H2 & _). auto. Qed.
Lemma stack_c n m : coln (name_stack n m "c" "c") = coln n ++ coln m /\ rown (name_stack n m "c" "c") = rown n.
Proof. unfold name_stack; cbn. destruct (add_all_col n (coln m)) as (H1 & H2 & _). auto. Qed.
Lemma stack_v n m : rown (name_stack n m "v" "v") = rown n /\ coln (name_stack n m "v" "v") = coln n.
Proof. unfold name_stack; cbn. destruct (vecn m); cbn; auto. Qed.
Lemma copy_lists n : rown (name_copy n) = rown n /\ coln (name_copy n) = coln n.
Proof. destruct (name_copy_spec n) as (H1 & H2 & H3 & H4 & H5). auto. Qed.

Lemma names_v (np : names) : let n := name_stack (name_stack name_alloc np "v" "v") np "r" "r" in
  rown n = rown np /\ coln n = [].
Proof. cbn zeta. destruct (stack_r (name_stack name_alloc np "v" "v") np) as [-> ->]. destruct (stack_v name_alloc np) as [-> ->]. auto. Qed.
Lemma names_m (np : names) : let n := name_stack (name_stack name_alloc np "r" "r") np "c" "c" in
  rown n = rown np /\ coln n = coln np.
Proof. cbn zeta. destruct (stack_c (name_stack name_alloc np "r" "r") np) as [-> ->]. destruct (stack_r name_alloc np) as [-> ->]. auto. Qed.

Lemma scalar_new_page f part p : solid p -> elem_part part -> (part = "m"%char -> vect p = None \/ mat p <> None) ->
  exists q, map_page g sch (FD f) part "n" p = Ok (Some q, p, true) /\ new_mapped f part p q.
Proof.
  intros (Hv & Hm & _) Hpart Hpm. destruct p as [ve ma we tx nm er]. cbn [vect mat txt] in *.
  unfold map_page, new_mapped.
  destruct Hpart as [-> | [-> | ->]]; cbn [is_part sel_vec sel_mat vect mat wts txt nms err].
  - (* v *) change (sel_vec "v") with true. change (sel_mat "v") with false. cbn [andb orb].
    unfold map_alloc, map_names, is_part, is_some; cbn [vect mat nms andb orb negb Ascii.eqb Bool.eqb].
    destruct ve as [v|].
    + specialize (Hv _ eq_refl). unfold vsz; cbn [vect]. rewrite alloc_vec by auto. cbn.
      rewrite vectorloop_spec by (auto; rewrite ?replicate_length; auto; discriminate). cbn.
      destruct ma as [m|]; cbn; (eexists; split; [reflexivity|]); cbn;
        destruct (names_v nm) as [-> _]; cbn; (split; [reflexivity|]); auto; repeat split; auto; discriminate.
    + unfold vsz; cbn [vect]. rewrite alloc_vec0. cbn.
      destruct ma as [m|]; cbn; (eexists; split; [reflexivity|]); cbn;
        destruct (names_v nm) as [-> _]; cbn; (split; [reflexivity|]); auto; repeat split; auto; discriminate.
  - (* m *) change (sel_vec "m") with false. change (sel_mat "m") with true. cbn [andb orb].
    unfold map_alloc, map_names, is_part, is_some; cbn [vect mat nms andb orb negb Ascii.eqb Bool.eqb].
    destruct ma as [m|].
    + destruct (Hm m eq_refl) as (Hw & Hr & Hc). unfold msz1, msz2; cbn [mat].
      replace (match ve with Some _ => true | None => false end && false) with false by (destruct ve; auto).
      rewrite (alloc_mat (gr m) (gc m)) by auto. cbn.
      destruct (matloop_map g sch Hfair false f m (new_grid (gr m) (gc m) g)) as (m' & Hm' & Hs);
        [exact Hw|apply new_grid_wf|reflexivity|reflexivity|discriminate|].
      assert (forall X : res (option (page E) * bool),
         match ve with Some _ => X | None => X end = X) as HX by (intros; destruct ve; auto).
      eexists; split.
      * destruct ve; cbn; rewrite Hm'; cbn; reflexivity.
      * cbn. destruct (names_m nm) as [-> ->]. cbn.
        split; [auto|]. split; [exact Hs|]. repeat split; auto.
    + destruct (Hpm eq_refl) as [-> | H]; [|congruence]. cbn. eexists; split; [reflexivity|].
      cbn. destruct (names_m nm) as [-> ->]. cbn. split; [auto|]. split; [auto|].
      repeat split; auto.
  - (* a *) change (sel_vec "a") with true. change (sel_mat "a") with true. cbn [andb orb].
    unfold map_alloc, map_names, is_part, is_some; cbn [vect mat nms andb orb negb Ascii.eqb Bool.eqb].
    destruct ma as [m|].
    + destruct (Hm m eq_refl) as (Hw & Hr & Hc). unfold msz1, msz2, vsz; cbn [mat vect].
      replace (match ve with Some _ => true | None => false end && false) with false by (destruct ve; auto).
      rewrite (alloc_all _ (gr m) (gc m)) by auto. cbn.
      destruct (matloop_map g sch Hfair false f m (new_grid (gr m) (gc m) g)) as (m' & Hm' & Hs);
        [exact Hw|apply new_grid_wf|reflexivity|reflexivity|discriminate|].
      destruct ve as [v|].
      * specialize (Hv _ eq_refl). destruct (Nat.eqb_spec (length v) 0); [lia|].
        cbn.
        rewrite vectorloop_spec by (auto; rewrite ?replicate_length; auto; discriminate). cbn.
        rewrite Hm'. eexists; split; [reflexivity|]. cbn. destruct (copy_lists nm) as [-> ->].
        split; [reflexivity|]. split; [exact Hs|]. repeat split; auto.
      * cbn.
        rewrite Hm'. eexists; split; [reflexivity|]. cbn. destruct (copy_lists nm) as [-> ->].
        split; [reflexivity|]. split; [exact Hs|]. repeat split; auto.
    + unfold msz1, msz2, vsz; cbn [mat vect]. destruct ve as [v|].
      * specialize (Hv _ eq_refl). cbn [andb]. rewrite alloc_vec by auto. cbn.
        rewrite vectorloop_spec by (auto; rewrite ?replicate_length; auto; discriminate). cbn.
        eexists; split; [reflexivity|]. cbn.
        destruct (names_v nm) as [-> _]. cbn. split; [reflexivity|]. split; [auto|].
        repeat split; auto. congruence.
      * cbn. eexists; split; [reflexivity|]. cbn. destruct (copy_lists nm) as [-> ->].
        repeat split; auto.
Qed.

Lemma scalar_inplace_page f part p : solid p -> elem_part part ->
  exists q, map_page g sch (FD f) part "y" p = Ok (Some q, q, true) /\ inplace_mapped f part p q.
Proof.
  intros (Hv & Hm & _) Hpart. destruct p as [ve ma we tx nm er]. cbn [vect mat txt] in *.
  assert (forall m, ma = Some m -> exists m', matloop sch (gr m <=? gc m) true f (gr m `min` gc m) 0 m m = Ok m' /\ mapped_grid f m m') as HM.
  { intros m ->. destruct (Hm m eq_refl) as (Hw & _). apply (matloop_map g sch Hfair true f m m); auto. }
  unfold map_page, inplace_mapped.
  destruct Hpart as [-> | [-> | ->]]; cbn.
  - change (sel_vec "v") with true. change (sel_mat "v") with false. cbn iota.
    destruct ve as [v|]; cbn; [rewrite vectorloop_spec by auto; cbn|];
      (destruct ma; cbn; eexists; (split; [reflexivity|]); cbn; (split; [reflexivity|]); auto 10).
  - change (sel_vec "m") with false. change (sel_mat "m") with true. cbn iota.
    destruct ma as [m|]; [destruct (HM m eq_refl) as (m' & Hm' & Hs)|];
    (destruct ve; cbn; rewrite ?Hm'; cbn; eexists; (split; [reflexivity|]); cbn; (split; [reflexivity|]); (split; [first [exact Hs|exact I]|]); auto 10).
  - change (sel_vec "a") with true. change (sel_mat "a") with true. cbn iota.
    destruct ve as [v|]; cbn; [rewrite vectorloop_spec by auto; cbn|];
    (destruct ma as [m|]; [destruct (HM m eq_refl) as (m' & Hm' & Hs)|]); cbn; rewrite ?Hm'; cbn;
    eexists; (split; [reflexivity|]); cbn; (split; [reflexivity|]); (split; [first [exact Hs|exact I]|]); auto 10.
Qed.

(** vector functions over rows or columns, new output *)
Lemma mapped_const (F : nat -> E) n (w : list E) : length w = n -> mapped (fun i _ => F i) n w = map F (seq 0 n).
Proof.
  intros Hl. apply list_eq; intros i. unfold mapped. rewrite list_lookup_imap, lookup_map.
  destruct (decide (i < n)) as [Hi|Hi].
  - destruct (lookup_lt_is_Some_2 w i ltac:(lia)) as [x ->]. rewrite lookup_seq_lt by auto. cbn.
    destruct (Nat.ltb_spec i n); [auto|lia].
  - rewrite (proj2 (lookup_ge_None w i)), (proj2 (lookup_ge_None (seq 0 n) i)) by (rewrite ?seq_length; lia). auto.
Qed.
Lemma forloop_spec byrow f (m : grid E) (w : list E) : lnum byrow m <= length w ->
  forloop sch byrow f m (Some w) = Ok (Some (mapped (fun i _ => f (line byrow m i) i) (lnum byrow m) w)).
Proof.
  intros Hl. unfold forloop, lnum in *. rewrite omp_for_fair by (auto; intros; apply Hfair; auto). auto.
Qed.

Lemma rows_new_page f p m : solid p -> mat p = Some m ->
  exists q w, map_page g sch (FV f) "r" "n" p = Ok (Some q, p, true) /\ vect q = Some w /\ length w = maxsize p /\
  (forall i, i < gr m -> w !! i = option_map (fun r => f r i) (ga m !! i)) /\
  (forall i, gr m <= i < maxsize p -> w !! i = Some g) /\
  mat q = None /\ wts q = None /\ txt q = None /\ err q = None /\ rown (nms q) = rown (nms p).
Proof.
  intros (Hv & Hm & _) Em. destruct p as [ve ma we tx nm er]. cbn [vect mat txt] in *. subst ma.
  destruct (Hm m eq_refl) as ((Hwl & Hwf) & Hr & Hc).
  set (P := Pg ve (Some m) we tx nm er). assert (gr m <= maxsize P) as Hmx by (unfold maxsize, msz1; cbn; lia).
  unfold map_page, map_alloc, map_names, is_part, is_some. cbn [vect mat nms andb orb negb Ascii.eqb Bool.eqb P].
  replace (match ve with Some _ => true | None => false end && false) with false by (destruct ve; auto).
  fold P. rewrite (alloc_vec (maxsize P)) by lia. cbn.
  replace (match ve with Some _ => true | None => false end && false) with false by (destruct ve; auto).
  rewrite forloop_spec by (unfold lnum; rewrite replicate_length; auto). cbn.
  eexists _, _. split; [reflexivity|]. cbn. split; [reflexivity|]. unfold mapped. rewrite imap_length, replicate_length.
  split; [auto|]. split; [|split].
  - intros i Hi. rewrite list_lookup_imap, lookup_replicate_2 by lia. cbn.
    destruct (Nat.ltb_spec i (gr m)); [|lia]. unfold line. destruct (ga m !! i) eqn:Ei; [auto|].
    apply lookup_ge_None in Ei. lia.
  - intros i Hi. rewrite list_lookup_imap, lookup_replicate_2 by lia. cbn.
    destruct (Nat.ltb_spec i (gr m)); [lia|]. auto.
  - destruct (stack_r name_alloc nm) as [-> _]. auto 10.
Qed.

Lemma cols_new_page f p m : solid p -> mat p = Some m ->
  exists q w, map_page g sch (FV f) "c" "n" p = Ok (Some q, p, true) /\ vect q = Some w /\ length w = gc m /\
  (forall j, j < gc m -> exists col, w !! j = Some (f col j) /\ length col = gr m /\ forall i, col !! i = cell m i j) /\
  mat q = None /\ wts q = None /\ txt q = None /\ err q = None /\ nms q = name_alloc.
Proof.
  intros (Hv & Hm & _) Em. destruct p as [ve ma we tx nm er]. cbn [vect mat txt] in *. subst ma.
  destruct (Hm m eq_refl) as (Hw & Hr & Hc). pose proof Hw as (Hwl & Hwf).
  set (P := Pg ve (Some m) we tx nm er).
  unfold map_page, map_alloc, map_names, is_part, is_some. cbn [vect mat nms andb orb negb Ascii.eqb Bool.eqb P].
  replace (match ve with Some _ => true | None => false end && false) with false by (destruct ve; auto).
  fold P. unfold msz2; cbn [mat P]. rewrite (alloc_vec (gc m)) by lia. cbn.
  replace (match ve with Some _ => true | None => false end && false) with false by (destruct ve; auto).
  rewrite forloop_spec by (unfold lnum; rewrite replicate_length; auto). cbn.
  eexists _, _. split; [reflexivity|]. cbn. split; [reflexivity|]. unfold mapped. rewrite imap_length, replicate_length.
  split; [auto|]. split; [|auto 10].
  intros j Hj. exists (line false m j). destruct (line_spec false m j Hw Hj) as [H1 H2].
  split; [|split; [exact H1|exact H2]].
  rewrite list_lookup_imap, lookup_replicate_2 by lia. cbn. destruct (Nat.ltb_spec j (gc m)); [auto|lia].
Qed.

(** vector functions, in place: the data set's vector gets the results *)
Lemma rows_inplace_page f p m v : solid p -> mat p = Some m -> vect p = Some v -> gr m <= length v ->
  exists q w, map_page g sch (FV f) "r" "y" p = Ok (Some q, q, true) /\ q = set_vec p (Some w) /\ length w = length v /\
  (forall i, i < gr m -> w !! i = option_map (fun r => f r i) (ga m !! i)) /\
  (forall i, gr m <= i -> w !! i = v !! i).
Proof.
  intros (Hv & Hm & _) Em Ev Hl. destruct p as [ve ma we tx nm er]. cbn [vect mat txt] in *. subst ma ve.
  destruct (Hm m eq_refl) as ((Hwl & Hwf) & Hr & Hc).
  unfold map_page. cbn. rewrite forloop_spec by (unfold lnum; auto). cbn.
  eexists _, _. split; [reflexivity|]. split; [reflexivity|]. unfold mapped. rewrite imap_length. split; [auto|]. split.
  - intros i Hi. rewrite list_lookup_imap. destruct (lookup_lt_is_Some_2 v i ltac:(lia)) as [x ->]. cbn.
    destruct (Nat.ltb_spec i (gr m)); [|lia]. unfold line. destruct (ga m !! i) eqn:Ei; [auto|].
    apply lookup_ge_None in Ei. lia.
  - intros i Hi. rewrite list_lookup_imap. destruct (v !! i); [cbn|auto]. destruct (Nat.ltb_spec i (gr m)); [lia|auto].
Qed.

(** row functions *)
Lemma rowfn_names f part p q : nms q = name_alloc -> rown (nms (map_names (FR f) part p q)) = rown (nms p).
Proof.
  intros Hq. unfold map_names, set_nms; cbn [nms]. rewrite Hq.
  destruct (is_part "v" part || is_some (vect p) && negb (is_some (mat p))).
  - apply names_v.
  - destruct (is_part "m" part); [apply names_m|]. cbn [negb andb orb]. apply stack_r.
Qed.
Lemma rowfn_new_page f p part : solid p -> 0 < maxsize p ->
  exists q, map_page g sch (FR f) part "n" p = Ok (Some q, p, true) /\
  vect q = Some (map (fun i => f (row_view p i) i) (seq 0 (maxsize p))) /\
  mat q = None /\ wts q = None /\ txt q = None /\ err q = None /\ rown (nms q) = rown (nms p).
Proof.
  intros _ Hmx. unfold map_page, map_alloc.
  cbn [is_part Ascii.eqb Bool.eqb andb]. rewrite alloc_vec by auto.
  cbn [option_map]. unfold rowloop. unfold map_names at 1. cbn [set_nms vect].
  rewrite omp_for_fair by (try (intros; apply Hfair; auto); rewrite replicate_length; auto).
  cbn [rbind]. rewrite mapped_const by apply replicate_length. cbn [out_set option_map].
  destruct (is_part "r" part || is_part "c" part); (eexists; split; [reflexivity|]); unfold set_vec;
    cbn [vect mat wts txt err nms]; rewrite rowfn_names by reflexivity; auto 10.
Qed.

Lemma row_view_set_vec p v i x : vect p = Some v -> v !! i = Some x ->
  row_view (set_vec p (option_map (fun v => <[i := x]> v) (vect p))) i = row_view p i.
Proof. intros Hv Hx. destruct p as [ve ma we tx nm er]; cbn in *; subst ve. unfold row_view; cbn. rewrite list_insert_id by auto. auto. Qed.

Lemma rowfn_inplace_page f p part v : vect p = Some v -> length v = maxsize p ->
  map_page g sch (FR f) part "y" p =
  let q := set_vec p (Some (map (fun i => f (row_view p i) i) (seq 0 (maxsize p)))) in Ok (Some q, q, true).
Proof.
  intros Hv Hl. unfold map_page. cbn [is_part Ascii.eqb Bool.eqb andb]. rewrite Hv. cbn [is_some negb]. rewrite andb_false_r.
  unfold rowloop. rewrite Hv. rewrite omp_for_fair by (try (intros; apply Hfair; auto); rewrite ?Hl; auto).
  cbn [rbind].
  assert (mapped (fun i x => f (row_view (set_vec p (option_map (fun v => <[i:=x]> v) (Some v))) i) i) (maxsize p) v
     = map (fun i => f (row_view p i) i) (seq 0 (maxsize p))) as ->.
  { apply list_eq; intros i. unfold mapped. rewrite list_lookup_imap, lookup_map.
    destruct (decide (i < maxsize p)) as [Hi|Hi].
    - destruct (lookup_lt_is_Some_2 v i ltac:(lia)) as [x Hx]. rewrite Hx, lookup_seq_lt by auto. cbn [option_map].
      cbn. destruct (Nat.ltb_spec i (maxsize p)); [|lia]. pose proof (row_view_set_vec p v i x Hv Hx) as Hrv. rewrite Hv in Hrv. cbn in Hrv. rewrite Hrv. auto.
    - rewrite (proj2 (lookup_ge_None v i)), (proj2 (lookup_ge_None (seq 0 _) i)) by (rewrite ?seq_length; lia). auto. }
  destruct (is_part "r" part || is_part "c" part); reflexivity.
Qed.
End P.

Section Chains.
Context {E : Type}.
Variable g : E.
Variable sch : scheduler.
Hypothesis Hfair : fair sch.
Implicit Types p q : page E.

(** a page on which a scalar mapping of this part is well defined *)
Definition mappable (part : ascii) p : Prop := solid p /\ (part = "m"%char -> vect p = None \/ mat p <> None).

Lemma new_one f part p more : mappable part p -> elem_part part ->
  exists q, map_chain g sch (FD f) part "n" false (p :: more) = Ok (Some [q], p :: more) /\ new_mapped f part p q.
Proof.
  intros [Hs Hm] Hp. destruct (scalar_new_page g sch Hfair f part p Hs Hp Hm) as (q & Hq & Hn).
  exists q. split; [|auto]. cbn [map_chain]. rewrite Hq. cbn. auto.
Qed.
Lemma inplace_one f part p more : solid p -> elem_part part ->
  exists q, map_chain g sch (FD f) part "y" false (p :: more) = Ok (Some (q :: more), q :: more) /\ inplace_mapped f part p q.
Proof.
  intros Hs Hp. destruct (scalar_inplace_page g sch Hfair f part p Hs Hp) as (q & Hq & Hn).
  exists q. split; [|auto]. cbn [map_chain]. rewrite Hq. cbn. auto.
Qed.
Lemma new_all f part d : d <> [] -> Forall (mappable part) d -> elem_part part ->
  exists qs, map_chain g sch (FD f) part "n" true d = Ok (Some qs, d) /\ Forall2 (new_mapped f part) d qs.
Proof.
  intros Hne HF Hp. induction HF as [|p more [Hs Hm] HF IH]; [congruence|].
  destruct (scalar_new_page g sch Hfair f part p Hs Hp Hm) as (q & Hq & Hn).
  cbn [map_chain]. rewrite Hq. cbn [rbind]. destruct more as [|p2 more].
  - cbn. exists [q]. split; auto.
  - destruct IH as (qs & Hqs & HF2); [discriminate|]. remember (p2 :: more) as mm eqn:Emm.
    rewrite Hqs. subst mm. cbn. inversion HF2 as [|? q2 ? qs' Hq2 HF2']; subst.
    pose proof Hq2 as (_ & _ & _ & _ & He & _). rewrite He. eexists. split; [reflexivity|]. auto.
Qed.
Lemma inplace_all f part d : d <> [] -> Forall solid d -> Forall (fun p => err p = None) d -> elem_part part ->
  exists qs, map_chain g sch (FD f) part "y" true d = Ok (Some qs, qs) /\ Forall2 (inplace_mapped f part) d qs.
Proof.
  intros Hne HF He Hp. induction HF as [|p more Hs HF IH]; [congruence|].
  inversion He as [|? ? He1 He2]; subst.
  destruct (scalar_inplace_page g sch Hfair f part p Hs Hp) as (q & Hq & Hn).
  cbn [map_chain]. rewrite Hq. cbn [rbind]. destruct more as [|p2 more].
  - cbn. exists [q]. split; auto.
  - destruct IH as (qs & Hqs & HF2); [discriminate|auto|]. remember (p2 :: more) as mm eqn:Emm.
    rewrite Hqs. subst mm. cbn. inversion HF2 as [|? q2 ? qs' Hq2 HF2']; subst.
    pose proof Hq2 as (_ & _ & _ & _ & _ & Her). inversion He2; subst. rewrite Her. 
    match goal with H : err p2 = None |- _ => rewrite H end. eexists. split; [reflexivity|]. auto.
Qed.

(** sums *)
Variables (zero : E) (add : E -> E -> E).
Hypothesis add0l : forall x, add zero x = x.
Hypothesis add0r : forall x, add x zero = x.
Hypothesis addA : forall x y z, add x (add y z) = add (add x y) z.

Lemma fold_add l : forall x, List.fold_left add l x = add x (List.fold_left add l zero).
Proof.
  induction l as [|y l IH]; intros x; cbn; [rewrite add0r; auto|].
  rewrite IH, (IH (add zero y)), add0l, addA. auto.
Qed.
Lemma vsum_app a b : vsum zero add (a ++ b) = add (vsum zero add a) (vsum zero add b).
Proof. unfold vsum. rewrite fold_left_app, fold_add. auto. Qed.

Lemma cellwise_map f (m m' : grid E) : wf_grid m -> cellwise (fun x _ => f x) m m' -> ga m' = map (map f) (ga m).
Proof.
  intros [Hl Hf] ([Hl' Hf'] & Hr & Hc & H). apply list_eq; intros i. rewrite lookup_map.
  destruct (ga m !! i) as [r|] eqn:Ei; cbn.
  - assert (i < length (ga m)) by (eapply lookup_lt_Some; eauto).
    destruct (lookup_lt_is_Some_2 (ga m') i ltac:(lia)) as [r' Er']. rewrite Er'. f_equal.
    apply list_eq; intros j. specialize (H i j). unfold cell in H. rewrite Er', Ei in H. rewrite H, lookup_map. auto.
  - apply lookup_ge_None in Ei. apply lookup_ge_None. lia.
Qed.

(** the cells of the selected parts of a page: the vector, then the matrix row by row *)
Definition part_cells (part : ascii) p : list E :=
  (if sel_vec part then match vect p with Some v => v | None => [] end else []) ++
  (if sel_mat part then match mat p with Some m => List.concat (ga m) | None => [] end else []).

Lemma imap_map (f : E -> E) v : imap (fun _ x => f x) v = map f v.
Proof. apply list_eq; intros i. rewrite list_lookup_imap, lookup_map. destruct (v !! i); auto. Qed.

Lemma page_sum f part p q : solid p -> new_mapped (fun x _ => f x) part p q ->
  add (match vect q with Some v => vsum zero add v | None => zero end)
      (match mat q with Some m => msum zero add m | None => zero end) = vsum zero add (map f (part_cells part p)).
Proof.
  intros (_ & Hm & _) (H1 & H2 & _). unfold part_cells. rewrite map_app, vsum_app. f_equal.
  - destruct (sel_vec part); [|rewrite H1; auto]. unfold map_vec in H1. rewrite H1.
    destruct (vect p); cbn; [|auto]. rewrite imap_map. auto.
  - destruct (sel_mat part); [|rewrite H2; auto]. unfold map_mat in H2.
    destruct (mat p) as [m|] eqn:Em, (mat q) as [m'|]; try contradiction; auto.
    unfold msum, vsum. rewrite (cellwise_map f m m'); auto; [|apply Hm; auto].
    rewrite List.concat_map. auto.
Qed.

Lemma map_sum_all f part d : Forall (mappable part) d -> elem_part part ->
  map_sum g sch zero add (FD (fun x _ => f x)) part true d = Ok (vsum zero add (map f (List.concat (map (part_cells part) d)))).
Proof.
  intros HF Hp. induction HF as [|p more Hp1 HF IH]; [auto|].
  cbn [map_sum]. destruct (new_one (fun x _ => f x) part p [] Hp1 Hp) as (q & Hq & Hn). rewrite Hq. cbn [rbind andb].
  rewrite (page_sum f part p q) by (auto; apply Hp1).
  cbn [map List.concat]. rewrite map_app, vsum_app. destruct more as [|p2 more].
  - auto.
  - cbn [negb]. rewrite IH. auto.
Qed.
Lemma map_sum_one f part p more : mappable part p -> elem_part part ->
  map_sum g sch zero add (FD (fun x _ => f x)) part false (p :: more) = Ok (vsum zero add (map f (part_cells part p))).
Proof.
  intros Hp1 Hp. cbn [map_sum]. destruct (new_one (fun x _ => f x) part p [] Hp1 Hp) as (q & Hq & Hn). rewrite Hq. cbn [rbind andb].
  rewrite (page_sum f part p q) by (auto; apply Hp1). rewrite add0r. auto.
Qed.

Lemma map_sum_rows f p m more : solid p -> mat p = Some m -> vsz p <= gr m -> tsz1 p <= gr m ->
  map_sum g sch zero add (FV (fun r _ => f r)) "r" false (p :: more) = Ok (vsum zero add (map f (ga m))).
Proof using Hfair add0r.
  clear addA add0l.
  intros Hs Hm Hv Ht. cbn [map_sum map_chain].
  destruct (rows_new_page g sch Hfair (fun r _ => f r) p m Hs Hm) as (q & w & Hq & Hw & Hl & Hi & _ & Hmq & _).
  rewrite Hq. cbn. rewrite Hw, Hmq, !add0r. do 2 f_equal.
  destruct Hs as (_ & HM & _). destruct (HM m Hm) as ((Hl1 & _) & _).
  assert (maxsize p = gr m) as Hmx by (unfold maxsize, msz1; rewrite Hm; lia).
  apply list_eq; intros i. rewrite lookup_map. destruct (decide (i < gr m)) as [Hlt|Hge].
  - apply Hi; auto.
  - rewrite (proj2 (lookup_ge_None w i)), (proj2 (lookup_ge_None (ga m) i)) by lia. auto.
Qed.

End Chains.

(** flat functions *)
Section Flat.
Context {E : Type}.
Variable g : E.
Variable sch : scheduler.
Hypothesis Hfair : fair sch.
Lemma imap_map' (f : E -> E) v : imap (fun _ x => f x) v = map f v.
Proof. apply list_eq; intros i. rewrite list_lookup_imap, lookup_map. destruct (v !! i); auto. Qed.

Lemma chunks_concat c : forall (rows : list (list E)), Forall (fun r => length r = c) rows ->
  chunks c (length rows) (List.concat rows) = rows.
Proof.
  induction 1 as [|r rows Hr HF IH]; cbn; auto. rewrite take_app_alt, drop_app_alt by auto. rewrite IH. auto.
Qed.
Lemma concat_length_wf (m : grid E) : wf_grid m -> length (List.concat (ga m)) = gr m * gc m.
Proof.
  intros [H1 H2]. rewrite <- H1. clear H1. induction (ga m) as [|r l IH]; cbn; auto.
  inversion H2; subst. rewrite app_length, IH by auto. lia.
Qed.
Lemma chunks_map (f : E -> E) (m : grid E) : wf_grid m ->
  chunks (gc m) (gr m) (map f (List.concat (ga m))) = map (map f) (ga m).
Proof.
  intros Hw. rewrite List.concat_map. destruct Hw as [Hl Hf]. rewrite <- Hl, <- (map_length (map f)). apply chunks_concat.
  rewrite Forall_map. eapply List.Forall_impl; [|exact Hf]. cbn. intros r. rewrite map_length. auto.
Qed.

Lemma vector_map_spec f v : vector_map g sch f v = Ok (option_map (map f) v).
Proof.
  destruct v as [v|]; [|auto]. unfold vector_map. rewrite vectorloop_spec by (auto; rewrite ?replicate_length; auto; discriminate).
  rewrite imap_map'. auto.
Qed.
Lemma matrix_map_spec f m : (forall m', m = Some m' -> wf_grid m') ->
  matrix_map g sch f m = Ok (option_map (fun m => map f (ga m)) m).
Proof.
  intros Hw. destruct m as [m|]; [|auto]. destruct (Hw m eq_refl) as [Hl Hf]. unfold matrix_map.
  rewrite forloop_spec by (auto; unfold lnum; rewrite replicate_length; auto). do 2 f_equal. unfold lnum.
  rewrite (mapped_const (fun i => f (line true m i))) by apply replicate_length.
  cbn [option_map]. f_equal. apply list_eq; intros i. rewrite !lookup_map. destruct (decide (i < gr m)) as [Hi|Hi].
  - rewrite lookup_seq_lt by auto. cbn. unfold line. destruct (ga m !! i) eqn:Ei; [auto|]. apply lookup_ge_None in Ei. lia.
  - rewrite (proj2 (lookup_ge_None (seq 0 _) i)), (proj2 (lookup_ge_None (ga m) i)) by (rewrite ?seq_length; lia). auto.
Qed.
Lemma mapped_full {A} (F : nat -> A -> A) (G : A -> A) v n (w : list A) : length w = n -> length v = n ->
  (forall i x y, v !! i = Some x -> w !! i = Some y -> F i y = G x) -> mapped F n w = map G v.
Proof.
  intros Hw Hv H. apply list_eq; intros i. unfold mapped. rewrite list_lookup_imap, lookup_map.
  destruct (decide (i < n)) as [Hi|Hi].
  - destruct (lookup_lt_is_Some_2 w i ltac:(lia)) as [x Hx]. destruct (lookup_lt_is_Some_2 v i ltac:(lia)) as [y Hy].
    rewrite Hx, Hy. cbn. destruct (Nat.ltb_spec i n); [|lia]. erewrite H; eauto.
  - rewrite (proj2 (lookup_ge_None w i)), (proj2 (lookup_ge_None v i)) by lia. auto.
Qed.
Lemma matrix_map_all_spec f m : (forall m', m = Some m' -> wf_grid m') ->
  matrix_map_all g sch f m = Ok (option_map (fun m => Gr (gr m) (gc m) (map (map f) (ga m))) m).
Proof.
  intros Hw. destruct m as [m|]; [|auto]. specialize (Hw m eq_refl). unfold matrix_map_all.
  rewrite omp_for_fair by (try (intros; apply Hfair; auto); rewrite replicate_length; auto). cbn [rbind option_map].
  rewrite (mapped_full _ f (List.concat (ga m))); [|apply replicate_length|apply concat_length_wf; auto|].
  - rewrite chunks_map by auto. auto.
  - intros i x y Hx Hy. rewrite Hx. auto.
Qed.
Lemma vector_apply_spec (f : E -> E) (v : option (list E)) : vector_apply sch f v = Ok (option_map (map f) v).
Proof.
  destruct v as [v|]; [|auto]. unfold vector_apply. rewrite omp_for_fair by (try (intros; apply Hfair; auto); auto).
  cbn. rewrite (mapped_full _ f v); auto. intros; congruence.
Qed.
Lemma matrix_apply_spec (f : list E -> list E) (m : option (grid E)) : (forall m', m = Some m' -> wf_grid m') ->
  matrix_apply sch f m = Ok (option_map (fun m => Gr (gr m) (gc m) (map f (ga m))) m).
Proof.
  intros Hw. destruct m as [m|]; [|auto]. destruct (Hw m eq_refl) as [Hl _]. unfold matrix_apply.
  rewrite omp_for_fair by (try (intros; apply Hfair; auto); lia). cbn.
  rewrite (mapped_full _ f (ga m)); auto. intros; congruence.
Qed.
Lemma matrix_apply_all_spec (f : E -> E) (m : option (grid E)) : (forall m', m = Some m' -> wf_grid m') ->
  matrix_apply_all sch f m = Ok (option_map (fun m => Gr (gr m) (gc m) (map (map f) (ga m))) m).
Proof.
  intros Hw. destruct m as [m|]; [|auto]. specialize (Hw m eq_refl). unfold matrix_apply_all.
  pose proof (concat_length_wf m Hw) as Hl.
  rewrite omp_for_fair by (try (intros; apply Hfair; auto); lia). cbn [rbind option_map].
  rewrite (mapped_full _ f (List.concat (ga m))); auto.
  - rewrite chunks_map by auto. auto.
  - intros; congruence.
Qed.
End Flat.

(** -------- theorems -------- *)

(** A parallel loop of n iterations run under any schedule at all: if every iteration has finished, output cell
    i holds the value computed from the original cell i, for each i < n, and the other cells are untouched.
    If each iteration gets its turns the loop does finish. *)
Lemma C21_loop_aux {A} (F : nat -> A -> A) n (v : list A) sched w : omp_for F n v sched = Ok w ->
  length w = length v /\ forall i, w !! i = if i <? n then option_map (F i) (v !! i) else v !! i.
Proof.
  intros H. apply omp_for_ok in H as [_ ->]. unfold mapped. split; [apply imap_length|]. intros i.
  rewrite list_lookup_imap. destruct (v !! i); cbn; destruct (i <? n); auto.
Qed.
Theorem C21_any_schedule : forall A (F : nat -> A -> A) n (v : list A) sched w, omp_for F n v sched = Ok w ->
  length w = length v /\ forall i, w !! i = if i <? n then option_map (F i) (v !! i) else v !! i.
Proof. exact @C21_loop_aux. Qed.
Print Assumptions C21_any_schedule.
Lemma C21_loop_finishes_aux {A} (F : nat -> A -> A) n (v : list A) sched : n <= length v ->
  (forall i, i < n -> 2 <= count_occ Nat.eq_dec sched i) -> exists w, omp_for F n v sched = Ok w.
Proof. intros. eexists. apply omp_for_fair; auto. Qed.
Theorem C21_loop_finishes : forall A (F : nat -> A -> A) n (v : list A) sched, n <= length v ->
  (forall i, i < n -> 2 <= count_occ Nat.eq_dec sched i) -> exists w, omp_for F n v sched = Ok w.
Proof. exact @C21_loop_finishes_aux. Qed.
Print Assumptions C21_loop_finishes.
(* iteration 1 is interrupted between reading and writing by iterations 0 and 2 *)
Example C21_schedule_nonvacuous : omp_for (fun i x => x + i) 3 [10; 20; 30] [1; 0; 2; 2; 0; 1] = Ok [10; 21; 32].
Proof. reflexivity. Qed.
Definition in_order : scheduler := fun _ n => List.concat (map (fun i => [i; i]) (seq 0 n)).
Definition two_waves : scheduler := fun _ n => seq 0 n ++ rev (seq 0 n).
Lemma two_waves_fair : fair two_waves.
Proof.
  intros k n i Hi. unfold two_waves. rewrite count_occ_app, count_occ_rev.
  assert (1 <= count_occ Nat.eq_dec (seq 0 n) i); [|lia].
  apply count_occ_In, in_seq. lia.
Qed.

(** A scalar function on the vector ('v'), the matrix ('m') or both ('a'), new output. *)
Theorem C21_map_scalars : forall E (g : E) sch f part p more, fair sch -> mappable part p -> elem_part part ->
  exists q, map_chain g sch (FD f) part "n" false (p :: more) = Ok (Some [q], p :: more) /\ new_mapped f part p q.
Proof. intros E g sch f part p more Hf. exact (@new_one E g sch Hf f part p more). Qed.
Print Assumptions C21_map_scalars.
Theorem C21_map_scalars_inplace : forall E (g : E) sch f part p more, fair sch -> solid p -> elem_part part ->
  exists q, map_chain g sch (FD f) part "y" false (p :: more) = Ok (Some (q :: more), q :: more) /\ inplace_mapped f part p q.
Proof. intros E g sch f part p more Hf. exact (@inplace_one E g sch Hf f part p more). Qed.
Print Assumptions C21_map_scalars_inplace.
(** All pages. *)
Theorem C21_map_all_pages : forall E (g : E) sch f part d, fair sch -> d <> [] -> Forall (mappable part) d -> elem_part part ->
  exists qs, map_chain g sch (FD f) part "n" true d = Ok (Some qs, d) /\ Forall2 (new_mapped f part) d qs.
Proof. intros E g sch f part d Hf. exact (@new_all E g sch Hf f part d). Qed.
Print Assumptions C21_map_all_pages.
Theorem C21_map_all_pages_inplace : forall E (g : E) sch f part d, fair sch -> d <> [] -> Forall solid d ->
  Forall (fun p => err p = None) d -> elem_part part ->
  exists qs, map_chain g sch (FD f) part "y" true d = Ok (Some qs, qs) /\ Forall2 (inplace_mapped f part) d qs.
Proof. intros E g sch f part d Hf. exact (@inplace_all E g sch Hf f part d). Qed.
Print Assumptions C21_map_all_pages_inplace.

(** A vector function over the rows or columns of the matrix: entry i of the output vector is its value on row
    (column) i, with index i.  Entries beyond the matrix (when the data set's vector or text is longer) are
    whatever the allocator returned. *)
Theorem C21_map_rows : forall E (g : E) sch f p m, fair sch -> solid p -> mat p = Some m ->
  exists q w, map_page g sch (FV f) "r" "n" p = Ok (Some q, p, true) /\ vect q = Some w /\ length w = maxsize p /\
  (forall i, i < gr m -> w !! i = option_map (fun r => f r i) (ga m !! i)) /\
  (forall i, gr m <= i < maxsize p -> w !! i = Some g) /\
  mat q = None /\ wts q = None /\ txt q = None /\ err q = None /\ rown (nms q) = rown (nms p).
Proof. intros E g sch f p m Hf. exact (@rows_new_page E g sch Hf f p m). Qed.
Print Assumptions C21_map_rows.
Theorem C21_map_columns : forall E (g : E) sch f p m, fair sch -> solid p -> mat p = Some m ->
  exists q w, map_page g sch (FV f) "c" "n" p = Ok (Some q, p, true) /\ vect q = Some w /\ length w = gc m /\
  (forall j, j < gc m -> exists col, w !! j = Some (f col j) /\ length col = gr m /\ forall i, col !! i = cell m i j) /\
  mat q = None /\ wts q = None /\ txt q = None /\ err q = None /\ nms q = name_alloc.
Proof. intros E g sch f p m Hf. exact (@cols_new_page E g sch Hf f p m). Qed.
Print Assumptions C21_map_columns.
Theorem C21_map_rows_inplace : forall E (g : E) sch f p m v, fair sch -> solid p -> mat p = Some m -> vect p = Some v ->
  gr m <= length v ->
  exists q w, map_page g sch (FV f) "r" "y" p = Ok (Some q, q, true) /\ q = set_vec p (Some w) /\ length w = length v /\
  (forall i, i < gr m -> w !! i = option_map (fun r => f r i) (ga m !! i)) /\ (forall i, gr m <= i -> w !! i = v !! i).
Proof. intros E g sch f p m v Hf. exact (@rows_inplace_page E g sch Hf f p m v). Qed.
Print Assumptions C21_map_rows_inplace.

(** A function of one-row data sets: called once on each row (of the longest part), also when its results
    overwrite the vector those rows show. *)
Theorem C21_map_data_rows : forall E (g : E) sch f p part, fair sch -> solid p -> 0 < maxsize p ->
  exists q, map_page g sch (FR f) part "n" p = Ok (Some q, p, true) /\
  vect q = Some (map (fun i => f (row_view p i) i) (seq 0 (maxsize p))) /\
  mat q = None /\ wts q = None /\ txt q = None /\ err q = None /\ rown (nms q) = rown (nms p).
Proof. intros E g sch f p part Hf. exact (@rowfn_new_page E g sch Hf f p part). Qed.
Print Assumptions C21_map_data_rows.
Theorem C21_map_data_rows_inplace : forall E (g : E) sch f p part v, fair sch -> vect p = Some v -> length v = maxsize p ->
  map_page g sch (FR f) part "y" p =
  let q := set_vec p (Some (map (fun i => f (row_view p i) i) (seq 0 (maxsize p)))) in Ok (Some q, q, true).
Proof. intros E g sch f p part v Hf. exact (@rowfn_inplace_page E g sch Hf f p part v). Qed.
Print Assumptions C21_map_data_rows_inplace.

(** apop_map_sum, for any associative addition with a zero (exact arithmetic). *)
Theorem C21_map_sum : forall E (g : E) sch zero add f part p more, fair sch ->
  (forall x, add zero x = x) -> (forall x, add x zero = x) -> (forall x y z, add x (add y z) = add (add x y) z) ->
  mappable part p -> elem_part part ->
  map_sum g sch zero add (FD (fun x _ => f x)) part false (p :: more) =
  Ok (List.fold_left add (map f (part_cells part p)) zero).
Proof. intros E g sch zero add f part p more Hf H1 H2 H3. exact (@map_sum_one E g sch Hf zero add H1 H2 H3 f part p more). Qed.
Print Assumptions C21_map_sum.
Theorem C21_map_sum_all_pages : forall E (g : E) sch zero add f part d, fair sch ->
  (forall x, add zero x = x) -> (forall x, add x zero = x) -> (forall x y z, add x (add y z) = add (add x y) z) ->
  Forall (mappable part) d -> elem_part part ->
  map_sum g sch zero add (FD (fun x _ => f x)) part true d =
  Ok (List.fold_left add (map f (List.concat (map (part_cells part) d))) zero).
Proof. intros E g sch zero add f part d Hf H1 H2 H3. exact (@map_sum_all E g sch Hf zero add H1 H2 H3 f part d). Qed.
Print Assumptions C21_map_sum_all_pages.
Theorem C21_map_sum_rows : forall E (g : E) sch zero add f p m more, fair sch ->
  (forall x, add x zero = x) -> solid p -> mat p = Some m -> vsz p <= gr m -> tsz1 p <= gr m ->
  map_sum g sch zero add (FV (fun r _ => f r)) "r" false (p :: more) = Ok (List.fold_left add (map f (ga m)) zero).
Proof. intros E g sch zero add f p m more Hf H2. exact (@map_sum_rows E g sch Hf zero add H2 f p m more). Qed.
Print Assumptions C21_map_sum_rows.

(** The GSL-level functions. *)
Theorem C21_vector_map : forall E (g : E) sch f v, fair sch ->
  vector_map g sch f v = Ok (option_map (map f) v) /\ vector_apply sch f v = Ok (option_map (map f) v).
Proof. intros E g sch f v Hf. exact (conj (@vector_map_spec E g sch Hf f v) (@vector_apply_spec E sch Hf f v)). Qed.
Print Assumptions C21_vector_map.
Theorem C21_matrix_map : forall E (g : E) sch f m, fair sch -> (forall m', m = Some m' -> wf_grid m') ->
  matrix_map g sch f m = Ok (option_map (fun m => map f (ga m)) m).
Proof. intros E g sch f m Hf. exact (@matrix_map_spec E g sch Hf f m). Qed.
Print Assumptions C21_matrix_map.
Theorem C21_matrix_map_all : forall E (g : E) sch f m, fair sch -> (forall m', m = Some m' -> wf_grid m') ->
  matrix_map_all g sch f m = Ok (option_map (fun m => Gr (gr m) (gc m) (map (map f) (ga m))) m) /\
  matrix_apply_all sch f m = Ok (option_map (fun m => Gr (gr m) (gc m) (map (map f) (ga m))) m).
Proof. intros E g sch f m Hf Hw. exact (conj (@matrix_map_all_spec E g sch Hf f m Hw) (@matrix_apply_all_spec E g sch Hf f m Hw)). Qed.
Print Assumptions C21_matrix_map_all.
Theorem C21_matrix_apply : forall E sch (f : list E -> list E) m, fair sch -> (forall m', m = Some m' -> wf_grid m') ->
  matrix_apply sch f m = Ok (option_map (fun m => Gr (gr m) (gc m) (map f (ga m))) m).
Proof. intros E sch f m Hf. exact (@matrix_apply_spec E sch Hf f m). Qed.
Print Assumptions C21_matrix_apply.

(** -------- non-vacuity -------- *)
Definition ex_page : page nat := Pg (Some [1; 2]) (Some (Gr 2 3 [[3; 4; 5]; [6; 7; 8]])) None None name_alloc None.
Example C21_nonvacuous : fair two_waves /\ mappable "a" ex_page /\ mappable "m" ex_page /\ elem_part "a" /\
  map_chain 99 two_waves (FD (fun x i => 10 * x + i)) "a" "n" false [ex_page; ex_page] =
    Ok (Some [Pg (Some [10; 21]) (Some (Gr 2 3 [[30; 41; 52]; [60; 71; 82]])) None None (name_copy name_alloc) None], [ex_page; ex_page]) /\
  map_sum 99 two_waves 0 Nat.add (FD (fun x _ => 2 * x)) "a" true [ex_page; ex_page] = Ok 144.
Proof.
  split; [apply two_waves_fair|]. split; [|split; [|split; [|split]]].
  - split; [|discriminate]. split; [intros v [= <-]; cbn; lia|]. split; [|discriminate].
    intros m [= <-]. split; [split; cbn; repeat constructor|cbn; lia].
  - split; [|right; discriminate]. split; [intros v [= <-]; cbn; lia|]. split; [|discriminate].
    intros m [= <-]. split; [split; cbn; repeat constructor|cbn; lia].
  - right; right; reflexivity.
  - vm_compute. reflexivity.
  - vm_compute. reflexivity.
Qed.

(** -------- where the documentation and the code part ways -------- *)
(** row sums of a data set whose vector is longer than its matrix include uninitialised cells *)
Theorem C21_map_sum_garbage_refuted : exists (p : page nat) m, solid p /\ mat p = Some m /\
  forall g, map_sum g two_waves 0 Nat.add (FV (fun r _ => 1)) "r" false [p] = Ok (1 + g).
Proof.
  exists (Pg (Some [1; 2]) (Some (Gr 1 1 [[3]])) None None name_alloc None), (Gr 1 1 [[3]]).
  split; [|split; [reflexivity|intros g; transitivity (Ok (((0 + 1) + g) + 0 + 0)); [reflexivity|f_equal; lia]]].
  split; [intros v [= <-]; cbn; lia|]. split; [|discriminate]. intros m [= <-]. split; [split; cbn; repeat constructor|cbn; lia].
Qed.
Print Assumptions C21_map_sum_garbage_refuted.
(** part 'm' on a data set without a matrix: the sum of zero elements is not zero *)
Theorem C21_map_sum_no_matrix_refuted : exists p : page nat, solid p /\ mat p = None /\
  forall g, map_sum g two_waves 0 Nat.add (FD (fun x _ => x)) "m" false [p] = Ok g.
Proof.
  exists (Pg (Some [5]) None None None name_alloc None). split; [|split; [reflexivity|intros g; cbn; f_equal; lia]].
  split; [intros v [= <-]; cbn; lia|]. split; discriminate.
Qed.
Print Assumptions C21_map_sum_no_matrix_refuted.
(** the index given to the function is not a fixed coordinate of the cell *)
Theorem C21_index_orientation_refuted : exists m m' : grid nat, wf_grid m /\ wf_grid m' /\
  let p x := Pg None (Some x) None None name_alloc None in
  let run x := do (r, _) <- map_chain 0 two_waves (FD (fun _ i => i)) "m" "n" false [p x];
               Ok (match r with Some (q :: _) => mat q | _ => None end) in
  run m = Ok (Some (Gr 2 2 [[0; 1]; [0; 1]])) /\ run m' = Ok (Some (Gr 3 2 [[0; 0]; [1; 1]; [2; 2]])).
Proof.
  exists (Gr 2 2 [[7; 7]; [7; 7]]), (Gr 3 2 [[7; 7]; [7; 7]; [7; 7]]). repeat split; cbn; repeat constructor.
Qed.
Print Assumptions C21_index_orientation_refuted.
(** in place over the rows, a vector shorter than the matrix: out of range *)
Theorem C21_inplace_short_vector_refuted : exists p : page nat, solid p /\
  forall g sch f, map_page g sch (FV f) "r" "y" p = UB.
Proof.
  exists (Pg (Some [1]) (Some (Gr 2 1 [[3]; [4]])) None None name_alloc None). split; [|intros; reflexivity].
  split; [intros v [= <-]; cbn; lia|]. split; [|discriminate]. intros m [= <-]. split; [split; cbn; repeat constructor|cbn; lia].
Qed.
Print Assumptions C21_inplace_short_vector_refuted.
(** inplace='v' (void) with all pages on a two-page data set: NULL dereference *)
Theorem C21_void_all_pages_refuted : exists d : list (page nat), Forall solid d /\
  forall g sch f, map_chain g sch (FD f) "a" "v" true d = UB.
Proof.
  set (p := Pg (Some [1]) None None None name_alloc None : page nat). exists [p; p]. split; [|intros; reflexivity].
  assert (solid p) as Hp; [|constructor; [exact Hp|constructor; [exact Hp|constructor]]]. split; [intros v [= <-]; cbn; lia|]. split; discriminate.
Qed.
Print Assumptions C21_void_all_pages_refuted.
(** column mapping drops the column names *)
Theorem C21_column_names_refuted : exists p : page nat, coln (nms p) = ["a"; "b"] /\
  exists q, map_page 0 two_waves (FV (fun _ _ => 0)) "c" "n" p = Ok (Some q, p, true) /\ rown (nms q) = [] /\ coln (nms q) = [].
Proof.
  exists (Pg None (Some (Gr 1 2 [[1; 2]])) None None (add_all name_alloc ["a"; "b"] "c") None).
  split; [vm_compute; reflexivity|]. eexists. split; [vm_compute; reflexivity|]. auto.
Qed.
Print Assumptions C21_column_names_refuted.
