(** C31 rank format, C32 crosstabs, C54 filling. *)
From Coq Require Import Reals Lra Sorting.Sorted Sorting.Permutation.
From Verif Require Import DataModel StatsModel StatsSpec StatsProofs ConvModel ConvProofs NamesProofs AccessProps.
Local Notation total := StatsSpec.total.
Local Open Scope list_scope.
Local Open Scope nat_scope.

(** ---------- C31 ---------- *)
(** a data set whose matrix and vector (where present) hold the natural numbers listed *)
Definition holds_nats (d : page R) (ms vs : option (list nat)) : Prop :=
  option_map (fun m => concat (ga m)) (mat d) = option_map (map INR) ms /\ vect d = option_map (map INR) vs.
(** a data set with just a vector, with just a matrix of one row *)
Definition vec_only (v : list R) : page R := Pg (Some v) None None None name_alloc None.
Definition counts_row (row : list R) : page R := Pg None (Some (Gr 1 (length row) [row])) None None name_alloc None.

(** C31: compressing counts how often each rank occurs; the ranks go up to the largest one found, or to min_bins if that
    is larger and vector or matrix is missing. *)
Theorem C31_compress : forall d min_bins ms vs, holds_nats d ms vs -> ms <> Some [] -> vs <> Some [] ->
  let all := match ms with Some l => l | None => [] end ++ match vs with Some l => l | None => [] end in
  exists row, rank_compress d (Z.of_nat min_bins) = Ok (counts_row row) /\
    (forall k, k < length row -> row !! k = Some (INR (count_occ Nat.eq_dec all k))) /\
    length row = S (match ms, vs with Some _, Some _ => list_max all | _, _ => Nat.max min_bins (list_max all) end).
Proof.
  intros d mb ms vs [Hm Hv] N1 N2 all. destruct (compress_ok d mb ms vs Hm Hv N1 N2) as (row & H1 & H2 & H3).
  exists row. unfold counts_row. rewrite H1, H2. split; auto. split; [intros k Hk; apply H3; lia|].
  f_equal. unfold bins. subst all. destruct ms, vs; rewrite ?list_max_app; cbn [list_max fold_right]; lia.
Qed.
Print Assumptions C31_compress.

(** C31: expanding a table of counts (any number of rows) lists every rank as often as counted, in order; NULL if all
    counts are zero. *)
Theorem C31_expand : forall d r c rows, mat d = Some (Gr r c (map (map INR) rows)) -> vect d = None ->
  rank_expand d = Ok (if total (concat rows) =? 0 then None else Some (map (fun k => Some (INR k)) (concat (map listed rows)))).
Proof. intros d r c rows Hm Hv. apply expand_ok; eauto. Qed.
Print Assumptions C31_expand.
Theorem C31_listed : forall counts k, count_occ Nat.eq_dec (listed counts) k = match counts !! k with Some n => n | None => 0 end.
Proof. intros counts k. unfold listed. rewrite count_listed. destruct (Nat.ltb_spec k 0); [lia|]. rewrite Nat.sub_0_r. auto. Qed.
Print Assumptions C31_listed.

(** the values of a vector all of whose cells were written *)
Definition all_written (v : list (option R)) (w : list R) : Prop := v = map Some w.

Lemma max_listed counts : forall k, list_max (listed_from k counts) <= k + length counts - 1.
Proof.
  intros k. apply list_max_le. revert k. induction counts as [|n l IH]; intros k; cbn; [constructor|].
  apply Forall_app. split.
  - apply Forall_replicate. lia.
  - eapply List.Forall_impl; [|apply IH]. cbn. intros a. destruct l; cbn; lia.
Qed.

(** C31: compressing an expansion restores the counts (of one row of counts; min_bins says how many there were). *)
Theorem C31_compress_expand : forall counts, 0 < total counts ->
  exists v w, rank_expand (counts_row (map INR counts)) = Ok (Some v) /\ all_written v w /\
    rank_compress (vec_only w) (Z.of_nat (length counts - 1)) = Ok (counts_row (map INR counts)).
Proof.
  intros counts Ht. assert (Hl : length (listed counts) = total counts) by apply listed_length.
  exists (map (fun k => Some (INR k)) (listed counts)), (map INR (listed counts)).
  split.
  { rewrite (C31_expand _ 1 (length counts) [counts]); cbn [mat vect counts_row map concat]; auto; [|rewrite map_length; auto].
    rewrite !app_nil_r. destruct (Nat.eqb_spec (total counts) 0); [lia|auto]. }
  split; [unfold all_written; rewrite map_map; auto|].
  assert (Hne : listed counts <> []) by (intros E; rewrite E in Hl; cbn in Hl; lia).
  destruct (C31_compress (vec_only (map INR (listed counts))) (length counts - 1) None (Some (listed counts))) as (row & H1 & H2 & H3).
  { split; auto. } { discriminate. } { congruence. }
  rewrite H1. cbn [app] in H2, H3. 
  assert (Hc : counts <> []) by (intros ->; cbn in Ht; lia). destruct counts as [|c0 cs]; [congruence|].
  pose proof (max_listed (c0 :: cs) 0) as Hmx. change (listed_from 0 (c0 :: cs)) with (listed (c0 :: cs)) in Hmx.
  assert (Hlr : length row = length (c0 :: cs)) by (rewrite H3; cbn [length] in *; lia).
  replace row with (map INR (c0 :: cs)); auto. apply list_eq. intros k.
  rewrite list_lookup_fmap. destruct (decide (k < length row)) as [Hk|Hk].
  - rewrite H2 by auto. rewrite C31_listed. destruct (lookup_lt_is_Some_2 (c0 :: cs) k) as [x Hx]; [lia|]. rewrite Hx. auto.
  - rewrite (lookup_ge_None_2 (c0 :: cs)), (lookup_ge_None_2 row) by lia. auto.
Qed.
Print Assumptions C31_compress_expand.

(** C31: expanding a compression gives back the observations, sorted. *)
Theorem C31_expand_compress : forall d min_bins ms vs, holds_nats d ms vs -> ms <> Some [] -> vs <> Some [] ->
  let all := match ms with Some l => l | None => [] end ++ match vs with Some l => l | None => [] end in
  all <> [] ->
  exists c ns, rank_compress d (Z.of_nat min_bins) = Ok c /\ rank_expand c = Ok (Some (map (fun k => Some (INR k)) ns)) /\
    Permutation ns all /\ StronglySorted le ns.
Proof.
  intros d mb ms vs H N1 N2 all Hne. destruct (C31_compress d mb ms vs H N1 N2) as (row & H1 & H2 & H3). fold all in H2, H3.
  set (counts := map (count_occ Nat.eq_dec all) (seq 0 (length row))).
  assert (Hr : row = map INR counts).
  { apply list_eq. intros k. unfold counts. rewrite map_map, list_lookup_fmap. destruct (decide (k < length row)) as [Hk|Hk].
    - rewrite H2, lookup_seq_lt by auto. auto.
    - rewrite (lookup_ge_None_2 row), (lookup_ge_None_2 (seq 0 (length row))) by (rewrite ?seq_length; lia). auto. }
  assert (HP : Permutation (listed counts) all).
  { apply (Permutation_count_occ Nat.eq_dec). intros k. rewrite C31_listed. unfold counts. rewrite list_lookup_fmap.
    destruct (decide (k < length row)) as [Hk|Hk].
    - rewrite lookup_seq_lt by auto. auto.
    - rewrite (lookup_ge_None_2 (seq 0 (length row))) by (rewrite seq_length; lia). cbn. symmetry. apply count_occ_not_In.
      intros Hin. pose proof (proj1 (list_max_le all _) (le_n _)) as HF. rewrite List.Forall_forall in HF. specialize (HF k Hin).
      rewrite H3 in Hk. destruct ms, vs; lia. }
  exists (counts_row row), (listed counts). split; auto. split; [|split; auto; apply listed_sorted].
  rewrite Hr. rewrite (C31_expand _ 1 (length counts) [counts]); cbn [mat vect counts_row map concat]; auto; [|rewrite map_length; auto].
  rewrite !app_nil_r. destruct (Nat.eqb_spec (total counts) 0) as [E|]; auto. exfalso.
  assert (length (listed counts) = 0) by (unfold listed; rewrite listed_length; auto). 
  apply Permutation_length in HP. destruct all; [congruence|]. cbn in HP. lia.
Qed.
Print Assumptions C31_expand_compress.

Example C31_nonvacuous : holds_nats (Pg (Some [2%R; 0%R]) (Some (Gr 1 2 [[1%R; 1%R]])) None None name_alloc None) (Some [1; 1]) (Some [2; 0])
  /\ listed [0; 2; 1] = [1; 1; 2] /\ 0 < total [0; 2; 1].
Proof.
  split; [split; cbn; repeat f_equal; lra|]. split; [reflexivity|]. cbn; lia.
Qed.

(** C31: counts held in the vector: apop_data_rank_expand dereferences the missing matrix; with a matrix too, the cells
    meant for them are left unwritten. *)
Theorem C31_vector_counts_refuted : rank_expand (vec_only [2%R]) = UB /\
  rank_expand (Pg (Some [2%R]) (Some (Gr 1 1 [[1%R]])) None None name_alloc None) = Ok (Some [Some 0%R; None; None]).
Proof.
  split.
  - unfold rank_expand. cbn. replace (0 + (0 + 2))%R with (INR 2) by (cbn; lra). rewrite trunc_INR. auto.
  - unfold rank_expand. cbn. replace (0 + 1 + (0 + 2))%R with (INR 3) by (cbn; lra). rewrite trunc_INR. cbn.
    replace 1%R with (INR 1) by auto. rewrite turns_INR. auto.
Qed.
Print Assumptions C31_vector_counts_refuted.
(** C31: min_bins is ignored for a set with both vector and matrix. *)
Theorem C31_min_bins_refuted : exists row, 
  rank_compress (Pg (Some [0%R]) (Some (Gr 1 1 [[0%R]])) None None name_alloc None) 5 = Ok (counts_row row) /\ length row = 1.
Proof.
  destruct (C31_compress (Pg (Some [0%R]) (Some (Gr 1 1 [[0%R]])) None None name_alloc None) 5 (Some [0]) (Some [0])) as (row & H1 & _ & H2);
    [split; reflexivity|discriminate|discriminate|]. exists row. auto.
Qed.
Print Assumptions C31_min_bins_refuted.

(** ---------- C32 ---------- *)
Lemma cat_found d r k start : d !! k = Some r -> forall delta fuel t i0,
  0 < length d -> i0 = start mod length d -> (i0 + t + delta) mod length d = k -> t + delta < length d -> delta < fuel ->
  exists j, cat_loop fuel d r start (length d) ((i0 + t) mod length d) = Ok (Z.of_nat j) /\ d !! j = Some r.
Proof.
  intros Hk delta. induction delta as [|delta IH]; intros fuel t i0 Hn Hi0 Hkt Hlt Hf; (destruct fuel as [|fuel]; [lia|]); cbn [cat_loop].
  - rewrite Nat.add_0_r in Hkt. rewrite Hkt, Hk, String.eqb_refl. eauto.
  - destruct (d !! ((i0 + t) mod length d)) as [s|] eqn:Es.
    2:{ apply lookup_ge_None_1 in Es. pose proof (Nat.mod_upper_bound (i0 + t) (length d) ltac:(lia)). lia. }
    destruct (String.eqb_spec s r) as [->|Hne]; [eauto|].
    assert (Hs : S ((i0 + t) mod length d) mod length d = (i0 + S t) mod length d).
    { replace (i0 + S t) with (1 + (i0 + t)) by lia. rewrite <- (Nat.add_mod_idemp_r 1 (i0 + t)) by lia. reflexivity. }
    rewrite Hs. destruct (Nat.eqb_spec ((i0 + S t) mod length d) start) as [E|E].
    + exfalso. pose proof (Nat.mod_upper_bound (i0 + S t) (length d) ltac:(lia)).
      assert (i0 = start) by (subst i0; apply Nat.mod_small; lia). 
      destruct (Nat.lt_ge_cases (i0 + S t) (length d)) as [Hc|Hc].
      * rewrite Nat.mod_small in E by lia. lia.
      * replace (i0 + S t) with ((i0 + S t - length d) + 1 * length d) in E by lia. rewrite Nat.mod_add in E by lia.
        rewrite Nat.mod_small in E by lia. lia.
    + apply (IH fuel (S t) i0); auto; try lia. rewrite <- Hkt. f_equal. lia.
Qed.
Lemma find_cat_found fuel d r start : r ∈ d -> length d <= fuel ->
  exists j, find_cat_index fuel d r start (length d) = Ok (Z.of_nat j) /\ d !! j = Some r.
Proof.
  intros Hin Hf. apply elem_of_list_lookup in Hin as [k Hk]. assert (Hkl := lookup_lt_Some _ _ _ Hk).
  unfold find_cat_index. destruct (Nat.eqb_spec (length d) 0); [lia|].
  set (i0 := start mod length d). pose proof (Nat.mod_upper_bound start (length d) ltac:(lia)) as Hi. fold i0 in Hi.
  set (delta := if k <? i0 then k + length d - i0 else k - i0).
  assert (Hd : delta < length d) by (unfold delta; destruct (Nat.ltb_spec k i0); lia).
  destruct (cat_found d r k start Hk delta fuel 0 i0) as (j & H1 & H2); auto; try lia.
  - unfold delta. destruct (Nat.ltb_spec k i0).
    + replace (i0 + 0 + (k + length d - i0)) with (k + 1 * length d) by lia. rewrite Nat.mod_add by lia. apply Nat.mod_small; lia.
    + rewrite Nat.mod_small by lia. lia.
  - rewrite Nat.add_0_r, Nat.mod_small in H1 by lia. eauto.
Qed.
(** C32: the search for a label that is listed ends, wherever it starts from, with a position holding that label. *)
Theorem C32_search_found : forall d r start, r ∈ d ->
  exists j, d !! j = Some r /\ forall fuel, length d <= fuel -> find_cat_index fuel d r start (length d) = Ok (Z.of_nat j).
Proof.
  intros d r start Hin. destruct (find_cat_found (length d) d r start Hin (le_n _)) as (j & H1 & H2). exists j. split; auto.
  assert (Hmono : forall f i s x, cat_loop f d r s (length d) i = Ok x -> forall f', f <= f' -> cat_loop f' d r s (length d) i = Ok x).
  { clear. induction f as [|f IH]; intros i s x H f' Hf; [discriminate|]. destruct f' as [|f']; [lia|]. cbn [cat_loop] in *.
    destruct (d !! i); auto. destruct (String.eqb _ _); auto. destruct (_ =? _); auto. eapply IH; eauto. lia. }
  intros fuel Hf. unfold find_cat_index in *. destruct (_ =? 0); auto. eapply Hmono; eauto.
Qed.
Print Assumptions C32_search_found.
Lemma cat_absent d r start : r ∉ d -> start < length d -> forall delta fuel t,
  t + delta = length d -> 0 < delta -> delta <= fuel -> cat_loop fuel d r start (length d) ((start + t) mod length d) = Ok (-2)%Z.
Proof.
  intros Hni Hs delta. induction delta as [|delta IH]; intros fuel t Ht Hd Hf; [lia|]. destruct fuel as [|fuel]; [lia|]. cbn [cat_loop].
  destruct (d !! ((start + t) mod length d)) as [s|] eqn:Es.
  2:{ apply lookup_ge_None_1 in Es. pose proof (Nat.mod_upper_bound (start + t) (length d) ltac:(lia)). lia. }
  destruct (String.eqb_spec s r) as [->|Hne]; [exfalso; apply Hni; eapply elem_of_list_lookup_2; eauto|].
  assert (Hm : S ((start + t) mod length d) mod length d = (start + S t) mod length d).
  { replace (start + S t) with (1 + (start + t)) by lia. rewrite <- (Nat.add_mod_idemp_r 1 (start + t)) by lia. reflexivity. }
  rewrite Hm. destruct (Nat.eqb_spec ((start + S t) mod length d) start) as [E|E]; auto.
  destruct delta as [|delta].
  - exfalso. apply E. replace (start + S t) with (start + 1 * length d) by lia. rewrite Nat.mod_add by lia. apply Nat.mod_small; auto.
  - apply IH; lia.
Qed.
(** C32: the search for a label that is not listed reports -2 after one round, if it started inside the list. *)
Theorem C32_search_absent : forall d r start fuel, r ∉ d -> start < length d -> length d <= fuel ->
  find_cat_index fuel d r start (length d) = Ok (-2)%Z.
Proof.
  intros d r start fuel Hni Hs Hf. unfold find_cat_index. destruct (Nat.eqb_spec (length d) 0); [lia|].
  rewrite <- (Nat.add_0_r start) at 2. apply cat_absent with (delta := length d); auto; lia.
Qed.
Print Assumptions C32_search_absent.
(** C32: from outside the list (which happens at the first record when there are at least as many column labels as row
    labels) the search for an absent label never ends. *)
Theorem C32_search_absent_refuted : forall d r start fuel, r ∉ d -> d <> [] -> length d <= start ->
  find_cat_index fuel d r start (length d) = Fuel.
Proof.
  intros d r start fuel Hni Hne Hs. assert (Hl : length d <> 0) by (destruct d; cbn; congruence).
  unfold find_cat_index. destruct (Nat.eqb_spec (length d) 0); [lia|].
  pose proof (Nat.mod_upper_bound start (length d) Hl) as Hb. revert Hb. generalize (start mod length d).
  induction fuel as [|fuel IH]; intros i Hi; cbn [cat_loop]; auto.
  destruct (lookup_lt_is_Some_2 d i Hi) as [s Es]. rewrite Es.
  destruct (String.eqb_spec s r) as [->|Hn]; [exfalso; apply Hni; eapply elem_of_list_lookup_2; eauto|].
  pose proof (Nat.mod_upper_bound (S i) (length d) Hl). destruct (Nat.eqb_spec (S i mod length d) start); [lia|]. apply IH; auto.
Qed.
Print Assumptions C32_search_absent_refuted.

(** the value of the last record with the given labels *)
Definition last_value (recs : list (string * string * string)) (r c : string) : option string :=
  match List.filter (fun '(r', c', _) => String.eqb r' r && String.eqb c' c) recs with
  | [] => None
  | x :: l => Some (snd (List.last (x :: l) x))
  end.
Lemma last_value_cons a b x recs r c : last_value ((a, b, x) :: recs) r c =
  match last_value recs r c with Some y => Some y | None => if String.eqb a r && String.eqb b c then Some x else None end.
Proof.
  unfold last_value. cbn [List.filter]. destruct (String.eqb a r && String.eqb b c) eqn:E.
  - destruct (List.filter _ recs) as [|y l]; auto.
    assert (Hd : forall (l : list (string * string * string)) z u v, List.last (z :: l) u = List.last (z :: l) v).
    { clear. induction l as [|a l IH]; intros z u v; [reflexivity|]. exact (IH a u v). }
    f_equal. f_equal. change (List.last ((a, b, x) :: y :: l) (a, b, x)) with (List.last (y :: l) (a, b, x)). apply Hd.
  - destruct (List.filter _ recs); auto.
Qed.

Section C32.
Context {E : Type} (zero : E) (num : string -> E).
Lemma xfill_ok fuel rl cl recs : NoDup rl -> NoDup cl -> length rl <= fuel -> length cl <= fuel ->
  Forall (fun '(r, c, _) => r ∈ rl /\ c ∈ cl) recs -> forall i j (m : grid E), wf_grid m -> gr m = length rl -> gc m = length cl ->
  exists m', xfill num fuel rl cl recs i j m = Ok (m', true) /\ wf_grid m' /\ gr m' = gr m /\ gc m' = gc m /\
    forall a b r c, rl !! a = Some r -> cl !! b = Some c ->
      cell m' a b = match last_value recs r c with Some x => Some (num x) | None => cell m a b end.
Proof.
  intros Nr Nc Fr Fc HF. induction HF as [|[[r c] x] recs [Hr Hc] HF IH]; intros i j m Hw Hgr Hgc; cbn [xfill].
  - exists m. auto 10.
  - destruct (find_cat_found fuel rl r i Hr Fr) as (i' & -> & Hi'). destruct (find_cat_found fuel cl c j Hc Fc) as (j' & -> & Hj').
    cbn [rbind]. destruct ((Z.of_nat i' =? -2)%Z || (Z.of_nat j' =? -2)%Z) eqn:Eb; [lia|]. rewrite !Nat2Z.id.
    assert (i' < gr m) by (rewrite Hgr; eapply lookup_lt_Some; eauto). assert (j' < gc m) by (rewrite Hgc; eapply lookup_lt_Some; eauto).
    destruct (IH i' j' (xset m i' j' (num x))) as (m' & H1 & H2 & H3 & H4 & H5); auto.
    { apply (gset_wf m i' j' (num x)); auto. }
    exists m'. split; auto. split; auto. split; auto. split; auto.
    intros a b r0 c0 Ha Hb. rewrite (H5 a b r0 c0 Ha Hb), last_value_cons. destruct (last_value recs r0 c0); auto.
    change (xset m i' j' (num x)) with (gset m i' j' (num x)). rewrite gset_cell by auto.
    destruct (String.eqb_spec r r0) as [->|Hn1]; cbn [andb].
    + assert (a = i') by (eapply (NoDup_lookup rl); eauto). subst a. rewrite Nat.eqb_refl. cbn [andb].
      destruct (String.eqb_spec c c0) as [->|Hn2].
      * assert (b = j') by (eapply (NoDup_lookup cl); eauto). subst b. rewrite Nat.eqb_refl. auto.
      * destruct (Nat.eqb_spec b j') as [->|]; auto. congruence.
    + destruct (Nat.eqb_spec a i') as [->|]; auto. congruence.
Qed.
End C32.

(** C32: if the labels of every record are among the (distinct) row and column labels, the crosstab has these labels and in
    each cell the value of the last record with its labels, zero if there is none; no error. *)
Theorem C32_crosstab : forall E (zero : E) num recs rl cl fuel, NoDup rl -> NoDup cl -> length rl <= fuel -> length cl <= fuel ->
  Forall (fun '(r, c, _) => r ∈ rl /\ c ∈ cl) recs ->
  exists m, db_to_crosstab zero num fuel (QRows recs) (QRows rl) (QRows cl) = Ok (Some (XO None rl cl (Some m)), true) /\
    wf_grid m /\ gr m = length rl /\ gc m = length cl /\
    forall i j r c, rl !! i = Some r -> cl !! j = Some c ->
      cell m i j = Some (match last_value recs r c with Some x => num x | None => zero end).
Proof.
  intros E zero num recs rl cl fuel Nr Nc Fr Fc HF. unfold db_to_crosstab.
  pose proof (add_all_row name_alloc rl) as (R1 & R2 & _). cbn in R1, R2.
  pose proof (add_all_col (add_all name_alloc rl "r") cl) as (C1 & C2 & _). rewrite R2 in C1. rewrite R1 in C2. cbn in C1.
  rewrite C1, C2.
  destruct (xfill_ok num fuel rl cl recs Nr Nc Fr Fc HF (length cl) 0
     (Gr (length rl) (length cl) (replicate (length rl) (replicate (length cl) zero)))) as (m & H1 & H2 & H3 & H4 & H5); auto.
  { split; cbn; [apply replicate_length|]. apply Forall_replicate. apply replicate_length. }
  rewrite H1. cbn [rbind]. exists m. split; auto. split; auto. split; auto. split; auto.
  intros i j r c Hi Hj. rewrite (H5 i j r c Hi Hj). destruct (last_value recs r c); auto.
  unfold cell. cbn [ga]. rewrite lookup_replicate_2 by (eapply lookup_lt_Some; eauto).
  rewrite lookup_replicate_2 by (eapply lookup_lt_Some; eauto). auto.
Qed.
Print Assumptions C32_crosstab.

(** C32: the failures. An empty answer to the first query gives NULL; a failed query for the labels gives error 'q'. *)
Theorem C32_failures : forall E (zero : E) num fuel recs (d1 d2 : qres string),
  (exists b, db_to_crosstab zero num fuel QNull d1 d2 = Ok (None, b)) /\
  ((forall l, d1 <> QRows l) \/ (forall l, d2 <> QRows l) -> exists o, db_to_crosstab zero num fuel (QRows recs) d1 d2 = Ok (Some o, true) /\ xerr o = Some "q"%char).
Proof.
  intros E zero num fuel recs d1 d2. split; [eexists; reflexivity|].
  intros [H|H]; cbn; [destruct d1; [eauto|eauto|exfalso; eapply H; eauto]|].
  destruct d1; [eauto|eauto|]. destruct d2; [eauto|eauto|exfalso; eapply H; eauto].
Qed.
Print Assumptions C32_failures.
(** C32: after an empty first query apop_opts.db_name_column stays NULL; an error of that query is not passed on as error
    code (documented: 'q'). *)
Theorem C32_name_column_refuted : forall E (zero : E) num fuel d1 d2, db_to_crosstab zero num fuel QNull d1 d2 = Ok (None, false).
Proof. reflexivity. Qed.
Print Assumptions C32_name_column_refuted.
Theorem C32_query_error_refuted : forall E (zero : E) num fuel d1 d2, exists o,
  db_to_crosstab zero num fuel QError d1 d2 = Ok (Some o, true) /\ xerr o = None.
Proof. intros. eexists; split; reflexivity. Qed.
Print Assumptions C32_query_error_refuted.

(** writing a crosstab to the database *)
Lemma rmapM_ok {A B} (f : A -> res B) (g : A -> B) l : Forall (fun x => f x = Ok (g x)) l -> rmapM f l = Ok (map g l).
Proof. induction 1 as [|x l Hx H IH]; cbn; auto. rewrite Hx. cbn. rewrite IH. auto. Qed.
Lemma zip_seq_in {A} (l : list A) i x s : In (i, x) (zip (seq s (length l)) l) -> s <= i /\ l !! (i - s) = Some x.
Proof.
  revert s. induction l as [|a l IH]; intros s; cbn; [tauto|]. intros [[= <- <-]|H]; [rewrite Nat.sub_diag; auto|].
  apply IH in H as [H1 H2]. split; [lia|]. replace (i - s) with (S (i - S s)) by lia. auto.
Qed.
Definition all_records (rows cols : list string) (g : list (list string)) : list (string * string * string) :=
  concat (map (fun '(i, r) => map (fun '(j, x) => (nth i rows EmptyString, nth j cols EmptyString, x)) (zip (seq 0 (length r)) r)) (zip (seq 0 (length g)) g)).
Lemma nth_of (l : list string) i s : l !! i = Some s -> nth i l EmptyString = s.
Proof. revert i. induction l as [|a l IH]; intros [|i]; cbn; try congruence. apply IH. Qed.
Lemma to_recs_ok pc rows cols rb cb g : length g <= length rows -> Forall (fun r => length r <= length cols) g ->
  to_recs pc rows cols rb cb g = Ok (all_records rows cols g).
Proof.
  intros Hr Hc. unfold to_recs, all_records.
  erewrite rmapM_ok; [cbn [rbind]; reflexivity|]. apply List.Forall_forall. intros [i r] Hin. apply zip_seq_in in Hin as [_ Hin].
  rewrite Nat.sub_0_r in Hin. assert (i < length g) by (eapply lookup_lt_Some; eauto).
  destruct (lookup_lt_is_Some_2 rows i) as [s Hs]; [lia|]. unfold label at 1. rewrite Hs. cbn [rbind]. rewrite (nth_of _ _ _ Hs).
  apply rmapM_ok. apply List.Forall_forall. intros [j x] Hj. apply zip_seq_in in Hj as [_ Hj]. rewrite Nat.sub_0_r in Hj.
  assert (j < length r) by (eapply lookup_lt_Some; eauto). rewrite List.Forall_forall in Hc.
  assert (length r <= length cols) by (apply Hc; apply elem_of_list_In; eapply elem_of_list_lookup_2; eauto).
  destruct (lookup_lt_is_Some_2 cols j) as [t Ht]; [lia|]. unfold label. rewrite Ht. cbn. rewrite (nth_of _ _ _ Ht). auto.
Qed.
Lemma in_all_records rows cols g r c x : In (r, c, x) (all_records rows cols g) <->
  exists i j l, g !! i = Some l /\ l !! j = Some x /\ r = nth i rows EmptyString /\ c = nth j cols EmptyString.
Proof.
  assert (HZ : forall {A} (l : list A) i x, In (i, x) (zip (seq 0 (length l)) l) <-> l !! i = Some x).
  { intros A l i a. split.
    - intros H. apply zip_seq_in in H as [_ H]. rewrite Nat.sub_0_r in H. auto.
    - intros H. apply elem_of_list_In. apply elem_of_list_lookup. exists i. rewrite lookup_zip_with, lookup_seq_lt by (eapply lookup_lt_Some; eauto).
      cbn. rewrite H. auto. }
  unfold all_records. rewrite in_concat. split.
  - intros (l & Hl & Hin). apply in_map_iff in Hl as ([i row] & <- & Hi). apply HZ in Hi.
    apply in_map_iff in Hin as ([j y] & [= <- <- <-] & Hj). apply HZ in Hj. eauto 10.
  - intros (i & j & l & Hi & Hj & -> & ->). eexists. split.
    + apply in_map_iff. exists (i, l). split; [reflexivity|]. apply HZ; auto.
    + cbn. apply in_map_iff. exists (j, x). split; auto. apply HZ; auto.
Qed.
Definition part_grid {A} (o : option (grid A)) : list (list A) := match o with Some g => ga g | None => [] end.
(** C32: apop_crosstab_to_db on a set with enough names inserts one record per matrix cell and then one per text cell. *)
Theorem C32_to_db : forall E (show : E -> string) (d : page E),
  (forall m, mat d = Some m -> wf_grid m /\ gr m <= length (rown (nms d)) /\ gc m <= length (coln (nms d))) ->
  (forall t, txt d = Some t -> wf_grid t /\ gr t <= length (rown (nms d)) /\ gc t <= length (txtn (nms d))) ->
  exists a b, crosstab_to_db show d = Ok (a ++ b) /\
    (forall r c x, In (r, c, x) a <-> exists i j l y, part_grid (mat d) !! i = Some l /\ l !! j = Some y /\ x = show y /\
        rown (nms d) !! i = Some r /\ coln (nms d) !! j = Some c) /\
    (forall r c x, In (r, c, x) b <-> exists i j l, part_grid (txt d) !! i = Some l /\ l !! j = Some x /\
        rown (nms d) !! i = Some r /\ txtn (nms d) !! j = Some c).
Proof.
  intros E show d Hm Ht. unfold crosstab_to_db.
  exists (all_records (rown (nms d)) (coln (nms d)) (map (map show) (part_grid (mat d)))), (all_records (rown (nms d)) (txtn (nms d)) (part_grid (txt d))).
  assert (Lm : length (part_grid (mat d)) <= length (rown (nms d)) /\ Forall (fun r => length r <= length (coln (nms d))) (part_grid (mat d))).
  { unfold part_grid. destruct (mat d) as [m|]; cbn; [|split; [lia|constructor]]. destruct (Hm m eq_refl) as ([H1 H2] & H3 & H4).
    split; [lia|]. eapply List.Forall_impl; [|exact H2]. cbn. lia. }
  assert (Lt : length (part_grid (txt d)) <= length (rown (nms d)) /\ Forall (fun r => length r <= length (txtn (nms d))) (part_grid (txt d))).
  { unfold part_grid. destruct (txt d) as [m|]; cbn; [|split; [lia|constructor]]. destruct (Ht m eq_refl) as ([H1 H2] & H3 & H4).
    split; [lia|]. eapply List.Forall_impl; [|exact H2]. cbn. lia. }
  assert (HN : forall (l : list string) i s, i < length l -> (s = nth i l EmptyString <-> l !! i = Some s)).
  { intros l i s Hi. destruct (lookup_lt_is_Some_2 l i Hi) as [y Hy]. rewrite (nth_of _ _ _ Hy), Hy. split; congruence. }
  split; [|split].
  - assert (HA : match mat d with Some m => to_recs "c" (rown (nms d)) (coln (nms d)) (bufsize (msz1 d)) (bufsize (Nat.max (msz2 d) (tsz2 d))) (map (map show) (ga m)) | None => Ok [] end
       = Ok (all_records (rown (nms d)) (coln (nms d)) (map (map show) (part_grid (mat d))))).
    { destruct Lm as [L1 L2]. unfold part_grid in *. destruct (mat d) as [m|]; [|reflexivity]. apply to_recs_ok; [rewrite map_length; auto|].
      rewrite List.Forall_map. eapply List.Forall_impl; [|exact L2]. cbn. intros. rewrite map_length. auto. }
    rewrite HA. cbn [rbind].
    assert (HB : match txt d with Some m => to_recs "t" (rown (nms d)) (txtn (nms d)) (bufsize (msz1 d)) (bufsize (Nat.max (msz2 d) (tsz2 d))) (ga m) | None => Ok [] end
       = Ok (all_records (rown (nms d)) (txtn (nms d)) (part_grid (txt d)))).
    { destruct Lt as [L1 L2]. unfold part_grid in *. destruct (txt d) as [m|]; [|reflexivity]. apply to_recs_ok; auto. }
    rewrite HB. auto.
  - intros r c x. rewrite in_all_records. destruct Lm as [L1 L2]. split.
    + intros (i & j & l & Hi & Hj & Hr & Hc). rewrite list_lookup_fmap in Hi. destruct (part_grid (mat d) !! i) as [l0|] eqn:El; [|discriminate].
      cbn in Hi. injection Hi as <-. rewrite list_lookup_fmap in Hj. destruct (l0 !! j) as [y|] eqn:Ey; [|discriminate]. cbn in Hj. injection Hj as <-.
      exists i, j, l0, y. split; auto. split; auto. split; auto.
      assert (i < length (part_grid (mat d))) by (eapply lookup_lt_Some; eauto). assert (j < length l0) by (eapply lookup_lt_Some; eauto).
      rewrite Forall_lookup in L2. specialize (L2 i l0 El). cbn in L2. split; apply HN; auto; lia.
    + intros (i & j & l & y & Hi & Hj & -> & Hr & Hc). exists i, j, (map show l). rewrite !list_lookup_fmap, Hi. split; auto.
      rewrite Hj. split; auto. split; apply HN; auto; eapply lookup_lt_Some; eauto.
  - intros r c x. rewrite in_all_records. destruct Lt as [L1 L2]. split.
    + intros (i & j & l & Hi & Hj & Hr & Hc). exists i, j, l. split; auto. split; auto.
      assert (i < length (part_grid (txt d))) by (eapply lookup_lt_Some; eauto). assert (j < length l) by (eapply lookup_lt_Some; eauto).
      rewrite Forall_lookup in L2. specialize (L2 i l Hi). cbn in L2. split; apply HN; auto; lia.
    + intros (i & j & l & Hi & Hj & Hr & Hc). exists i, j, l. split; auto. split; auto. split; apply HN; auto; eapply lookup_lt_Some; eauto.
Qed.
Print Assumptions C32_to_db.

(** C32: a matrix with distinct row names and distinct column names, written to a table and read back (labels in whatever
    order the database lists them), has at each pair of labels the original value, if %g and atof restore the numbers. *)
Theorem C32_roundtrip : forall E (zero : E) (show : E -> string) num (d : page E) m recs rl cl fuel,
  mat d = Some m -> wf_grid m -> txt d = None -> length (rown (nms d)) = gr m -> length (coln (nms d)) = gc m ->
  NoDup (rown (nms d)) -> NoDup (coln (nms d)) -> (forall i j x, cell m i j = Some x -> num (show x) = x) ->
  crosstab_to_db show d = Ok recs -> Permutation rl (rown (nms d)) -> Permutation cl (coln (nms d)) -> length rl <= fuel -> length cl <= fuel ->
  exists m', db_to_crosstab zero num fuel (QRows recs) (QRows rl) (QRows cl) = Ok (Some (XO None rl cl (Some m')), true) /\
    wf_grid m' /\ gr m' = gr m /\ gc m' = gc m /\
    forall i j i' j' r c, rown (nms d) !! i = Some r -> coln (nms d) !! j = Some c -> rl !! i' = Some r -> cl !! j' = Some c ->
      cell m' i' j' = cell m i j.
Proof.
  intros E zero show num d m recs rl cl fuel Em Hw Et Hlr Hlc Nr Nc Hns Hrec Pr Pc Fr Fc.
  destruct (C32_to_db E show d) as (a & b & H1 & H2 & H3).
  { intros m0 E0. rewrite Em in E0. injection E0 as <-. split; auto. lia. } { rewrite Et. discriminate. }
  assert (Hb : b = []). { destruct b as [|[[r c] x] b]; auto. exfalso. specialize (H3 r c x). rewrite Et in H3. destruct H3 as [H3 _].
    destruct (H3 (or_introl eq_refl)) as (i & j & l & Hi & _). discriminate. }
  subst b. rewrite app_nil_r in H1. rewrite Hrec in H1. injection H1 as ->.
  assert (HF : Forall (fun '(r, c, _) => r ∈ rl /\ c ∈ cl) a).
  { apply List.Forall_forall. intros [[r c] x] Hin. apply H2 in Hin as (i & j & l & y & _ & _ & _ & Hr & Hc).
    rewrite Pr, Pc. split; eapply elem_of_list_lookup_2; eauto. }
  assert (Nrl : NoDup rl) by (rewrite Pr; auto). assert (Ncl : NoDup cl) by (rewrite Pc; auto).
  destruct (C32_crosstab E zero num a rl cl fuel Nrl Ncl Fr Fc HF) as (m' & K1 & K2 & K3 & K4 & K5).
  exists m'. split; auto. split; auto. split; [rewrite K3, (Permutation_length Pr); auto|]. split; [rewrite K4, (Permutation_length Pc); auto|].
  intros i j i' j' r c Hi Hj Hi' Hj'. rewrite (K5 i' j' r c Hi' Hj').
  destruct (cell_is_Some m i j Hw) as [y Hy]; [rewrite <- Hlr; eapply lookup_lt_Some; eauto|rewrite <- Hlc; eapply lookup_lt_Some; eauto|].
  rewrite Hy. f_equal.
  assert (HL : last_value a r c = Some (show y)).
  { assert (Hu : forall x, In (r, c, x) a -> x = show y).
    { intros x Hx. apply H2 in Hx as (i2 & j2 & l & y2 & Hl & Hy2 & -> & Hr2 & Hc2).
      assert (i2 = i) by (eapply (NoDup_lookup (rown (nms d))); eauto). assert (j2 = j) by (eapply (NoDup_lookup (coln (nms d))); eauto). subst.
      unfold cell in Hy. unfold part_grid in Hl. rewrite Em in Hl. rewrite Hl in Hy. congruence. }
    assert (Hin : In (r, c, show y) a).
    { apply H2. unfold cell in Hy. destruct (ga m !! i) as [l|] eqn:El; [|discriminate]. exists i, j, l, y.
      unfold part_grid. rewrite Em. auto. }
    unfold last_value. destruct (List.filter _ a) as [|q l] eqn:Ef.
    - exfalso. assert (In (r, c, show y) (@nil (string * string * string))); [|auto]. rewrite <- Ef. apply filter_In. split; auto.
      rewrite !String.eqb_refl. auto.
    - f_equal. assert (Hl : In (List.last (q :: l) q) (q :: l)). { clear. revert q. induction l as [|z l IH]; intros q; [left; auto|].
        right. assert (Hd : List.last (q :: z :: l) q = List.last (z :: l) z). { clear. revert z. induction l as [|w l IH]; intros z; auto. cbn [List.last] in *. destruct l; auto. }
        rewrite Hd. apply IH. }
      revert Hl. generalize (List.last (q :: l) q). intros z Hl. rewrite <- Ef in Hl. apply filter_In in Hl as [Hl Hq]. destruct z as [[r0 c0] x0].
      cbn in *. apply andb_true_iff in Hq as [Hq1 Hq2]. apply String.eqb_eq in Hq1, Hq2. subst. auto. }
  rewrite HL. eapply Hns; eauto.
Qed.
Print Assumptions C32_roundtrip.

(** non-vacuity: three records for a 2x2 table, one pair twice *)
Example C32_nonvacuous :
  db_to_crosstab 0 (fun s => String.length s) 2 (QRows [("b", "y", "x"); ("a", "x", "xx"); ("b", "y", "xxx")]%string) (QRows ["a"; "b"]%string) (QRows ["x"; "y"]%string)
  = Ok (Some (XO None ["a"; "b"]%string ["x"; "y"]%string (Some (Gr 2 2 [[2; 0]; [0; 3]]))), true).
Proof. reflexivity. Qed.

(** C32: names missing (documented: r0, r1, ..., c0, c1, ... are used): the buffer for the made-up name of the last row is
    too small. *)
Lemma digits_fuel_enough f : forall n g, n <= f -> n <= g -> f <> 0 -> g <> 0 -> digits_fuel f n = digits_fuel g n.
Proof.
  induction f as [|f IH]; intros n g Hf Hg H1 H2; [lia|]. destruct g as [|g]; [lia|]. cbn [digits_fuel]. destruct (Nat.ltb_spec n 10); auto.
  f_equal. assert (n / 10 < n) by (apply Nat.div_lt; lia). apply IH; lia.
Qed.
Lemma digits_step n : 10 <= n -> digits n = S (digits (n / 10)).
Proof.
  intros H. unfold digits. destruct n as [|n]; [lia|]. cbn [digits_fuel]. destruct (Nat.ltb_spec (S n) 10); [lia|]. f_equal.
  assert (S n / 10 < S n) by (apply Nat.div_lt; lia). assert (1 <= S n / 10) by (apply Nat.div_le_lower_bound; lia).
  apply digits_fuel_enough; lia.
Qed.
Lemma digits_small n : n < 10 -> digits n = 1.
Proof. intros H. unfold digits. destruct n; auto. cbn [digits_fuel]. destruct (Nat.ltb_spec (S n) 10); auto; lia. Qed.
Lemma digits_pred n : digits (S n) <= S (digits n).
Proof.
  induction n as [n IH] using lt_wf_ind. destruct (Nat.lt_ge_cases (S n) 10) as [H|H]; [rewrite (digits_small (S n)); lia|].
  rewrite (digits_step (S n)) by auto. destruct (Nat.lt_ge_cases n 10) as [H1|H1].
  - assert (n = 9) by lia. subst. reflexivity.
  - rewrite (digits_step n) by auto. apply le_n_S.
    pose proof (Nat.div_mod (S n) 10 ltac:(lia)). pose proof (Nat.div_mod n 10 ltac:(lia)).
    pose proof (Nat.mod_upper_bound n 10 ltac:(lia)). pose proof (Nat.mod_upper_bound (S n) 10 ltac:(lia)).
    assert (S n / 10 = n / 10 \/ S n / 10 = S (n / 10)) as [->| ->] by lia; [lia|]. apply IH. lia.
Qed.
Theorem C32_unnamed_refuted : forall E (show : E -> string) (d : page E) m,
  mat d = Some m -> wf_grid m -> 0 < gr m -> length (rown (nms d)) < gr m -> crosstab_to_db show d = UB.
Proof.
  intros E show d m Em [Hw1 Hw2] Hg Hn. unfold crosstab_to_db. rewrite Em.
  assert (HU : forall {A B} (f : A -> res B) l, (forall x, In x l -> f x <> Fuel) -> (exists x, In x l /\ f x = UB) -> rmapM f l = UB).
  { intros A B f l. induction l as [|x l IH]; intros Hf [y [Hy Hb]]; [destruct Hy|]. cbn.
    destruct (f x) as [z| |] eqn:Ef; cbn; auto; [|exfalso; apply (Hf x); cbn; auto].
    destruct Hy as [->|Hy]; [congruence|]. rewrite IH; auto; [intros; apply Hf; cbn; auto|eauto]. }
  assert (HL : forall p l i b, label p l i b <> Fuel). { intros. unfold label. destruct (l !! i); [congruence|]. destruct (_ <=? _); congruence. }
  assert (HM : forall {A B} (f : A -> res B) l, (forall x, In x l -> f x <> Fuel) -> rmapM f l <> Fuel).
  { intros A B f l. induction l as [|x l IH]; intros Hf; cbn; [congruence|]. destruct (f x) eqn:Ef; cbn; try congruence; [|exfalso; apply (Hf x); cbn; auto].
    destruct (rmapM f l) eqn:Er; cbn; try congruence. exfalso. apply IH; auto. intros; apply Hf; cbn; auto. }
  unfold to_recs at 1. rewrite HU; auto.
  - intros [i r] _. pose proof (HL "r"%char (rown (nms d)) i (bufsize (msz1 d))) as Ha. destruct (label "r" _ i _); cbn [rbind]; try congruence.
    apply HM. intros [j x] _. pose proof (HL "c"%char (coln (nms d)) j (bufsize (Nat.max (msz2 d) (tsz2 d)))) as Hb.
    destruct (label "c" _ j _); cbn [rbind]; congruence.
  - destruct (lookup_lt_is_Some_2 (map (map show) (ga m)) (gr m - 1)) as [r Hr]; [rewrite map_length; lia|].
    exists (gr m - 1, r). split.
    + apply elem_of_list_In. apply elem_of_list_lookup. exists (gr m - 1).
      rewrite lookup_zip_with, lookup_seq_lt by (rewrite map_length; lia). cbn. rewrite Hr. auto.
    + unfold label. rewrite (lookup_ge_None_2 (rown (nms d))) by lia.
      destruct (Nat.leb_spec (2 + digits (gr m - 1)) (bufsize (msz1 d))) as [H|]; auto. exfalso. unfold msz1 in H. rewrite Em in H.
      unfold bufsize in H. destruct (Nat.eqb_spec (gr m) 0); [lia|]. pose proof (digits_pred (gr m - 1)) as Hp. replace (S (gr m - 1)) with (gr m) in Hp by lia. lia.
Qed.
Print Assumptions C32_unnamed_refuted.
