(** C54: filling a data set, a vector, a text grid from a list of values. *)
From Verif Require Import DataModel StatsModel ConvModel AccessProps.
Local Open Scope list_scope.
Local Open Scope nat_scope.

Lemma where_is_frame {E} (p q : page E) r c : frame p q -> where_is q r c = where_is p r c.
Proof.
  intros (H1 & H2 & H3 & _). unfold where_is.
  destruct (vect p) as [v|], (vect q) as [w|], (mat p) as [m|], (mat q) as [n|]; cbn in *; try discriminate; auto;
    repeat match goal with H : Some _ = Some _ |- _ => injection H as H end; rewrite ?H1, ?H2, ?H3; auto.
Qed.
Lemma frame_trans {E} (p q r : page E) : frame p q -> frame q r -> frame p r.
Proof.
  intros (A1 & A2 & A3 & A4 & A5 & A6 & A7 & A8) (B1 & B2 & B3 & B4 & B5 & B6 & B7 & B8). unfold frame.
  rewrite <- A1, <- A2, <- A3, <- A5, <- A6, <- A7, <- A8. auto 12.
Qed.
Definition at_place {E} (p : page E) (rc : Z * Z) : place := where_is p (fst rc) (snd rc).
Lemma fill_loop_ok {E} (ap : list E) ps : forall k p, (forall m, mat p = Some m -> wf_grid m) ->
  NoDup (map (at_place p) ps) -> Forall (fun rc => at_place p rc <> Nowhere) ps -> k + length ps <= length ap ->
  exists q, fill_loop ps ap k p = Ok q /\ frame p q /\
    (forall t rc, ps !! t = Some rc -> content q (at_place p rc) = ap !! (k + t)) /\
    (forall l, l ∉ map (at_place p) ps -> content q l = content p l).
Proof.
  induction ps as [|[r c] ps IH]; intros k p Hw Hnd HF Hk; cbn [fill_loop].
  - exists p. split; auto. split; [unfold frame; auto 12|]. split; auto. intros t rc Ht. destruct t; discriminate.
  - cbn in Hk. destruct (lookup_lt_is_Some_2 ap k) as [x Hx]; [lia|]. rewrite Hx.
    pose proof (set_at_place p r c x Hw) as Hs. rewrite List.Forall_cons_iff in HF. destruct HF as [Hn HF].
    cbn [map] in Hnd. rewrite stdpp.list.NoDup_cons in Hnd. destruct Hnd as [Hni Hnd].
    unfold at_place in Hn at 1. cbn [fst snd] in Hn.
    assert (Hs' : frame p (fst (set_at p r c x)) /\ forall l', content (fst (set_at p r c x)) l' = if bool_decide (l' = where_is p r c) then Some x else content p l').
    { destruct (where_is p r c); [tauto|tauto|congruence]. }
    clear Hs. destruct Hs' as [Hf Hc]. set (q := fst (set_at p r c x)) in *.
    assert (Hat : forall rc, at_place q rc = at_place p rc) by (intros; apply where_is_frame; auto).
    destruct (IH (S k) q) as (q' & K1 & K2 & K3 & K4).
    + apply Hf.
    + rewrite (map_ext _ _ Hat). auto.
    + eapply List.Forall_impl; [|exact HF]. intros rc. cbn. rewrite Hat. auto.
    + lia.
    + exists q'. split; auto. split; [eapply frame_trans; eauto|]. rewrite (map_ext _ _ Hat) in K4. split.
      * intros [|t] rc Ht.
        -- cbn in Ht. injection Ht as <-. rewrite Nat.add_0_r, Hx. rewrite K4 by auto. rewrite Hc. unfold at_place. cbn.
           rewrite bool_decide_true; auto.
        -- cbn in Ht. rewrite <- Hat. rewrite (K3 t rc Ht). f_equal. lia.
      * intros l Hl. cbn [map] in Hl. rewrite not_elem_of_cons in Hl. destruct Hl as [Hl1 Hl2].
        rewrite K4 by auto. rewrite Hc. rewrite bool_decide_false; auto.
Qed.

Lemma positions_flat (s : bool) h f : let W := f + (if s then 1 else 0) in 0 < W ->
  fill_positions s h f = map (fun t => (Z.of_nat (t / W), (Z.of_nat (t mod W) - (if s then 1 else 0))%Z)) (seq 0 (h * W)).
Proof.
  intros W HW. unfold fill_positions. fold W. induction h as [|h IH]; auto.
  rewrite seq_S. cbn [Nat.add]. rewrite flat_map_app, IH. cbn [flat_map]. rewrite app_nil_r.
  replace (S h * W) with (h * W + W) by lia. rewrite seq_app, map_app. f_equal. cbn [Nat.add].
  replace (seq (h * W) W) with (map (Nat.add (h * W)) (seq 0 W)) by (rewrite <- (Nat.add_0_r (h * W)) at 2; apply fmap_add_seq).
  rewrite map_map. apply map_ext_in. intros j Hj. apply in_seq in Hj.
  replace (h * W + j) with (j + h * W) by lia. rewrite Nat.div_add, Nat.mod_add by lia.
  rewrite Nat.div_small, Nat.mod_small by lia. auto.
Qed.

(** C54: the array is laid out row by row, the vector's entry first and then the row of the matrix; numbers
    beyond those needed are ignored; nothing but the numbers changes. *)
Theorem C54_data_fill : forall E (p : page E) ap,
  (forall m, mat p = Some m -> wf_grid m) ->
  (forall v m, vect p = Some v -> mat p = Some m -> length v = gr m) ->
  let per_row := (match vect p with Some _ => 1 | None => 0 end) + (match mat p with Some m => gc m | None => 0 end) in
  let rows := match mat p with Some m => gr m | None => match vect p with Some v => length v | None => 0 end end in
  rows * per_row <= length ap ->
  exists q, data_fill p ap = Ok q /\ frame p q /\
    (forall v i, vect q = Some v -> i < length v -> v !! i = ap !! (i * per_row)) /\
    (forall m i j, mat q = Some m -> i < gr m -> j < gc m ->
       cell m i j = ap !! (i * per_row + (match vect p with Some _ => 1 | None => 0 end) + j)).
Proof.
  intros E p ap Hw Hvm per_row rows Hlen.
  set (sv := match vect p with Some _ => true | None => false end).
  set (fin := match mat p with Some m => gc m | None => 0 end).
  assert (HD : data_fill p ap = fill_loop (fill_positions sv rows fin) ap 0 p).
  { unfold data_fill, sv, rows, fin. destruct (vect p), (mat p); reflexivity. }
  assert (HW : per_row = fin + (if sv then 1 else 0)) by (unfold per_row, fin, sv; destruct (vect p), (mat p); lia).
  destruct (Nat.eq_dec per_row 0) as [H0|H0].
  { assert (Hv : vect p = None) by (unfold per_row in H0; destruct (vect p); [lia|auto]).
    assert (HE : fill_positions sv rows fin = []).
    { unfold fill_positions. rewrite <- HW, H0. clear. induction rows as [|h IH]; auto. rewrite seq_S, flat_map_app, IH. auto. }
    rewrite HD, HE. exists p. cbn. split; auto. split; [unfold frame; auto 12|]. split; [congruence|].
    intros m i j Em Hi Hj. unfold per_row in H0. rewrite Hv, Em in H0. lia. }
  assert (Hpos := positions_flat sv rows fin). rewrite <- HW in Hpos. specialize (Hpos ltac:(lia)). cbn beta in Hpos.
  set (g := fun t => (Z.of_nat (t / per_row), (Z.of_nat (t mod per_row) - (if sv then 1 else 0))%Z)) in Hpos.
  assert (Hplace : forall t, t < rows * per_row -> at_place p (g t) =
     if sv then (if t mod per_row =? 0 then InVec (t / per_row) else InMat (t / per_row) (t mod per_row - 1)) else InMat (t / per_row) (t mod per_row)).
  { intros t Ht. assert (Hd : t / per_row < rows) by (apply Nat.div_lt_upper_bound; lia).
    pose proof (Nat.mod_upper_bound t per_row H0) as Hm.
    unfold at_place, g. cbn [fst snd]. revert Hd Hm. generalize (t / per_row), (t mod per_row). clear Hpos g HD. intros a b Hd Hm.
    unfold where_is, sv, rows, per_row, fin in *.
    destruct (vect p) as [v|] eqn:Ev, (mat p) as [m|] eqn:Em.
    - specialize (Hvm v m eq_refl eq_refl). destruct (Nat.eqb_spec b 0) as [E0|E0].
      + subst b. destruct (Z.eqb_spec (Z.of_nat 0 - 1) (-1)) as [_|]; [|lia].
        destruct (_ && _) eqn:E1; [|lia]. rewrite Nat2Z.id. auto.
      + destruct (Z.eqb_spec (Z.of_nat b - 1) (-1)) as [|_]; [lia|].
        destruct (_ && _ && _ && _) eqn:E1; [|lia]. f_equal; lia.
    - destruct (Nat.eqb_spec b 0); [|lia]. destruct (_ && _ && _ && _) eqn:E1; [|lia]. f_equal; lia.
    - destruct (_ && _ && _ && _) eqn:E1; [|lia]. f_equal; lia.
    - cbn in H0. lia. }
  rewrite Hpos in HD.
  destruct (fill_loop_ok ap (map g (seq 0 (rows * per_row))) 0 p Hw) as (q & H1 & H2 & H3 & _).
  - rewrite map_map. apply NoDup_fmap_2_strong; [|apply NoDup_seq].
    intros t u Ht Hu. apply elem_of_seq in Ht, Hu. rewrite !Hplace by lia. intros He.
    rewrite (Nat.div_mod t per_row H0), (Nat.div_mod u per_row H0).
    destruct sv; [destruct (Nat.eqb_spec (t mod per_row) 0), (Nat.eqb_spec (u mod per_row) 0)|]; try discriminate He; injection He; intros; subst; f_equal; try (f_equal; lia); lia.
  - rewrite List.Forall_map. apply List.Forall_forall. intros t Ht. apply in_seq in Ht. rewrite Hplace by lia.
    destruct sv; [destruct (_ =? 0)|]; discriminate.
  - rewrite map_length, seq_length. lia.
  - exists q. split; [congruence|]. split; auto.
    assert (HL : forall t, t < rows * per_row -> content q (at_place p (g t)) = ap !! t).
    { intros t Ht. rewrite (H3 t (g t)); auto. rewrite list_lookup_fmap, lookup_seq_lt by lia. auto. }
    destruct H2 as (F1 & F2 & F3 & F4 & _). split.
    + intros v i Ev Hi. rewrite Ev in F1. destruct (vect p) as [v0|] eqn:Ev0; [|discriminate]. cbn in F1. injection F1 as F1.
      assert (Hr : i < rows). { unfold rows. destruct (mat p) as [m|] eqn:Em; [rewrite <- (Hvm v0 m eq_refl eq_refl)|]; lia. }
      rewrite <- HL by nia. rewrite Hplace by nia. unfold sv. rewrite Nat.mod_mul, Nat.div_mul by lia. cbn. rewrite Ev. auto.
    + intros m i j Em Hi Hj. rewrite Em in F2, F3. destruct (mat p) as [m0|] eqn:Em0; [|discriminate]. cbn in F2, F3. injection F2 as F2. injection F3 as F3.
      assert (Hr : i < rows) by (unfold rows; lia).
      set (o := match vect p with Some _ => 1 | None => 0 end) in *.
      assert (Ho : o + j < per_row) by (unfold per_row; lia).
      replace (i * per_row + o + j) with ((o + j) + i * per_row) by lia.
      rewrite <- HL by nia. rewrite Hplace by nia. rewrite Nat.mod_add, Nat.div_add by lia. rewrite Nat.mod_small, Nat.div_small by lia.
      unfold sv, o in *. destruct (vect p); cbn; rewrite Em; auto. replace (j - 0) with j by lia. auto.
Qed.
Print Assumptions C54_data_fill.

Lemma vfill_ok {E} (ap : list E) n : forall i v, i + n = length v -> length v <= length ap -> take i v = take i ap ->
  vfill_loop n i v ap = Ok (take (length v) ap).
Proof.
  induction n as [|n IH]; intros i v Hl Ha Ht; cbn [vfill_loop].
  - f_equal. rewrite Nat.add_0_r in Hl. subst i. rewrite <- Ht. symmetry. apply take_ge. lia.
  - destruct (lookup_lt_is_Some_2 ap i) as [x Hx]; [lia|]. rewrite Hx.
    rewrite (IH (S i)); rewrite ?insert_length; auto; [lia|].
    rewrite (take_S_r _ _ x) by (apply list_lookup_insert; lia). rewrite (take_S_r _ _ x Hx), take_insert by lia. congruence.
Qed.
(** C54: a vector is overwritten with the first numbers of the list. *)
Theorem C54_vector_fill : forall E (v ap : list E), length v <= length ap -> vector_fill v ap = Ok (take (length v) ap).
Proof. intros. apply vfill_ok; auto. Qed.
Print Assumptions C54_vector_fill.

Lemma tfill_ok ns (text : list (option string)) ps : forall ctr (g : grid string), wf_grid g ->
  NoDup ps -> Forall (fun '(i, j) => i < gr g /\ j < gc g) ps -> ctr + length ps <= S (length text) ->
  (forall k s, text !! k = Some (Some s) -> has_pct s = false) ->
  exists g', tfill_loop ps text ctr ns g = Ok g' /\ wf_grid g' /\ gr g' = gr g /\ gc g' = gc g /\
    (forall t i j, ps !! t = Some (i, j) -> cell g' i j = Some (match text !! (ctr + t) with Some (Some s) => s | _ => ns end)) /\
    (forall i j, (i, j) ∉ ps -> cell g' i j = cell g i j).
Proof.
  induction ps as [|[i j] ps IH]; intros ctr g Hw Hnd HF Hc Hp; cbn [tfill_loop].
  - exists g. split; auto. split; auto. split; auto. split; auto. split; auto. intros t ? ? Ht. destruct t; discriminate.
  - cbn in Hc. rewrite stdpp.list.NoDup_cons in Hnd. destruct Hnd as [Hni Hnd]. rewrite List.Forall_cons_iff in HF. destruct HF as [[Hi Hj] HF].
    set (s := match text !! (ctr + 0) with Some (Some s) => s | _ => ns end).
    assert (Hs : (match (text ++ [None]) !! ctr with None => UB | Some (Some s) => if has_pct s then UB else Ok s | Some None => Ok ns end) = Ok s).
    { unfold s. rewrite Nat.add_0_r. destruct (Nat.lt_ge_cases ctr (length text)) as [H|H].
      - rewrite lookup_app_l by auto. destruct (lookup_lt_is_Some_2 text ctr H) as [[z|] Hz]; rewrite Hz; auto. rewrite (Hp ctr z Hz). auto.
      - rewrite lookup_app_r by auto. rewrite (lookup_ge_None_2 text) by auto. replace (ctr - length text) with 0 by lia. auto. }
    rewrite Hs. cbn [rbind]. change (Gr (gr g) (gc g) _) with (gset g i j s).
    destruct (IH (S ctr) (gset g i j s)) as (g' & H1 & H2 & H3 & H4 & H5 & H6); auto; [apply gset_wf; auto|lia|].
    exists g'. split; auto. split; auto. split; auto. split; auto. split.
    + intros [|t] i' j' Ht; cbn in Ht.
      * injection Ht as <- <-. rewrite H6 by auto. rewrite gset_cell by auto. rewrite !Nat.eqb_refl. auto.
      * rewrite (H5 t i' j' Ht). replace (S ctr + t) with (ctr + S t) by lia. auto.
    + intros i' j' Hij. rewrite not_elem_of_cons in Hij. destruct Hij as [Hne Hij]. rewrite H6 by auto. rewrite gset_cell by auto.
      destruct ((i' =? i) && (j' =? j)) eqn:Eb; auto. exfalso. apply Hne. f_equal; lia.
Qed.
Lemma text_positions h w : 0 < w -> flat_map (fun i => map (fun j => (i, j)) (seq 0 w)) (seq 0 h) = map (fun t => (t / w, t mod w)) (seq 0 (h * w)).
Proof.
  intros HW. induction h as [|h IH]; auto.
  rewrite seq_S. cbn [Nat.add]. rewrite flat_map_app, IH. cbn [flat_map]. rewrite app_nil_r.
  replace (S h * w) with (h * w + w) by lia. rewrite seq_app, map_app. f_equal. cbn [Nat.add].
  replace (seq (h * w) w) with (map (Nat.add (h * w)) (seq 0 w)) by (rewrite <- (Nat.add_0_r (h * w)) at 2; apply fmap_add_seq).
  rewrite map_map. apply map_ext_in. intros j Hj. apply in_seq in Hj.
  replace (h * w + j) with (j + h * w) by lia. rewrite Nat.div_add, Nat.mod_add by lia.
  rewrite Nat.div_small, Nat.mod_small by lia. auto.
Qed.
(** C54: a text grid is filled row by row; a NULL entry becomes the NaN string; strings beyond the grid are ignored. (The
    strings must be free of percent signs, and at most one may be missing.) *)
Theorem C54_text_fill : forall (g : grid string) text ns, wf_grid g -> gr g * gc g <= S (length text) ->
  (forall k s, text !! k = Some (Some s) -> has_pct s = false) ->
  exists g', text_fill g text ns = Ok g' /\ wf_grid g' /\ gr g' = gr g /\ gc g' = gc g /\
    forall i j, i < gr g -> j < gc g -> cell g' i j = Some (match text !! (i * gc g + j) with Some (Some s) => s | _ => ns end).
Proof.
  intros g text ns Hw Hl Hp. unfold text_fill. destruct (Nat.eq_dec (gc g) 0) as [H0|H0].
  { rewrite H0. assert (HE : flat_map (fun i => map (fun j => (i, j)) (seq 0 0)) (seq 0 (gr g)) = []).
    { generalize (gr g). intros n. induction n as [|n IH]; auto. rewrite seq_S, flat_map_app, IH. auto. }
    rewrite HE. exists g. cbn. split; auto. split; auto. split; auto. split; auto. intros. lia. }
  rewrite text_positions by lia.
  destruct (tfill_ok ns text (map (fun t => (t / gc g, t mod gc g)) (seq 0 (gr g * gc g))) 0 g Hw) as (g' & H1 & H2 & H3 & H4 & H5 & _); auto.
  - apply NoDup_fmap_2_strong; [|apply NoDup_seq]. intros t u _ _ [= Ha Hb]. rewrite (Nat.div_mod t (gc g) H0), (Nat.div_mod u (gc g) H0). congruence.
  - rewrite List.Forall_map. apply List.Forall_forall. intros t Ht. apply in_seq in Ht.
    split; [apply Nat.div_lt_upper_bound; lia|apply Nat.mod_upper_bound; auto].
  - rewrite map_length, seq_length. lia.
  - exists g'. split; auto. split; auto. split; auto. split; auto. intros i j Hi Hj.
    rewrite (H5 (i * gc g + j) i j); auto. rewrite list_lookup_fmap, lookup_seq_lt by nia. cbn.
    replace (i * gc g + j) with (j + i * gc g) by lia. rewrite Nat.div_add, Nat.mod_add by lia. rewrite Nat.div_small, Nat.mod_small by lia. auto.
Qed.
Print Assumptions C54_text_fill.

Example C54_nonvacuous :
  data_fill (Pg (Some [0; 0]) (Some (Gr 2 2 [[0; 0]; [0; 0]])) None None name_alloc None) [1; 2; 3; 4; 5; 6; 7]
    = Ok (Pg (Some [1; 4]) (Some (Gr 2 2 [[2; 3]; [5; 6]])) None None name_alloc None) /\
  text_fill (Gr 1 2 [[EmptyString; EmptyString]]) [Some "a"%string; None] "NaN" = Ok (Gr 1 2 [["a"%string; "NaN"%string]]).
Proof. split; reflexivity. Qed.

(** C54: documented: with too few strings, fill to the end of the list.  The code goes on reading after the closing NULL. *)
Lemma tfill_past ns (text : list (option string)) ps : forall ctr (g : grid string),
  S (length text) < ctr + length ps -> ctr <= S (length text) -> tfill_loop ps text ctr ns g = UB.
Proof.
  induction ps as [|[i j] ps IH]; intros ctr g H1 H2; cbn [tfill_loop length] in *; [lia|].
  destruct (Nat.eq_dec ctr (S (length text))) as [->|Hn].
  - rewrite lookup_ge_None_2 by (rewrite app_length; cbn; lia). auto.
  - destruct ((text ++ [None]) !! ctr) as [[s|]|] eqn:Es; cbn [rbind]; auto; [destruct (has_pct s); cbn [rbind]; auto|]; apply IH; lia.
Qed.
Theorem C54_few_strings_refuted : forall (g : grid string) text ns, S (length text) < gr g * gc g -> text_fill g text ns = UB.
Proof.
  intros g text ns H. unfold text_fill. rewrite text_positions by (destruct (gc g); lia). apply tfill_past; [|lia].
  rewrite map_length, seq_length. lia.
Qed.
Print Assumptions C54_few_strings_refuted.
(** C54: heights differing (excluded by the documentation): the vector's tail is left as it was, and numbers meant for a vector
    shorter than the matrix are dropped. *)
Theorem C54_heights_differ : 
  data_fill (Pg (Some [0; 0; 0]) (Some (Gr 1 1 [[0]])) None None name_alloc None) [1; 2; 3; 4] = Ok (Pg (Some [1; 0; 0]) (Some (Gr 1 1 [[2]])) None None name_alloc None).
Proof. reflexivity. Qed.
Print Assumptions C54_heights_differ.
