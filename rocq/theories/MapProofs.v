(** Proofs for MapModel.v. *)
From Verif Require Import DataModel DataProofs MapModel.
Local Open Scope list_scope.
Local Open Scope nat_scope.

(** -------- the parallel loop -------- *)
Definition mapped {A} (F : nat -> A -> A) (n : nat) (v : list A) : list A :=
  imap (fun i x => if i <? n then F i x else x) v.

Section Omp.
Context {A : Type} (F : nat -> A -> A).

Definition omp_inv (v0 : list A) (st : list A * list (pc A)) : Prop :=
  length st.1 = length v0 /\ length st.2 <= length v0 /\
  forall i, match st.2 !! i with
       | None | Some Ready => st.1 !! i = v0 !! i
       | Some (Computed y) => st.1 !! i = v0 !! i /\ option_map (F i) (v0 !! i) = Some y
       | Some Done => st.1 !! i = option_map (F i) (v0 !! i)
       end.

Lemma omp_step_inv v0 st i : omp_inv v0 st -> omp_inv v0 (omp_step F st i) /\ length (omp_step F st i).2 = length st.2.
Proof.
  destruct st as [v ts]. unfold omp_inv; cbn [fst snd]. intros (Hl & Ht & H).
  unfold omp_step. pose proof (H i) as Hi. destruct (ts !! i) as [t|] eqn:Ei; [|cbn; auto].
  assert (i < length ts) as Hlt by (eapply lookup_lt_Some; eauto).
  destruct t as [|y|]; [| |cbn; auto].
  - destruct (v !! i) as [x|] eqn:Ex; [|cbn; auto]. cbn [fst snd]. rewrite insert_length.
    split; [|auto]. split; [auto|]. split; [auto|]. intros j. destruct (decide (j = i)) as [->|Hj].
    + rewrite list_lookup_insert by auto. rewrite <- Hi. rewrite Ex. auto.
    + rewrite list_lookup_insert_ne by auto. apply H.
  - cbn [fst snd]. rewrite !insert_length. split; [|auto]. split; [auto|]. split; [auto|].
    intros j. destruct (decide (j = i)) as [->|Hj].
    + rewrite !list_lookup_insert by lia. destruct Hi as [_ Hi]. auto.
    + rewrite !list_lookup_insert_ne by auto. apply H.
Qed.

Definition need (t : option (pc A)) : nat := match t with Some Ready => 2 | Some (Computed _) => 1 | _ => 0 end.

Lemma omp_step_need v0 st i : omp_inv v0 st -> forall j,
  need ((omp_step F st i).2 !! j) <= need (st.2 !! j) - (if Nat.eq_dec i j then 1 else 0).
Proof.
  destruct st as [v ts]. unfold omp_inv; cbn [fst snd]. intros (Hl & Ht & H) j.
  unfold omp_step. pose proof (H i) as Hi. destruct (ts !! i) as [t|] eqn:Ei.
  2:{ cbn. destruct (Nat.eq_dec i j) as [->|]; [rewrite Ei; cbn|]; lia. }
  assert (i < length ts) as Hlt by (eapply lookup_lt_Some; eauto).
  destruct t as [|y|].
  - destruct (v !! i) as [x|] eqn:Ex; cbn [fst snd].
    + destruct (Nat.eq_dec i j) as [->|Hj].
      * rewrite list_lookup_insert by auto. rewrite Ei. cbn. lia.
      * rewrite list_lookup_insert_ne by auto. lia.
    + apply lookup_ge_None in Ex. lia.
  - cbn [fst snd]. destruct (Nat.eq_dec i j) as [->|Hj].
    + rewrite list_lookup_insert by auto. rewrite Ei. cbn. lia.
    + rewrite list_lookup_insert_ne by auto. lia.
  - cbn [snd]. destruct (Nat.eq_dec i j) as [->|]; [rewrite Ei; cbn|]; lia.
Qed.

Lemma omp_run v0 sched : forall st, omp_inv v0 st ->
  let st' := List.fold_left (omp_step F) sched st in
  omp_inv v0 st' /\ length st'.2 = length st.2 /\
  forall j, need (st'.2 !! j) <= need (st.2 !! j) - count_occ Nat.eq_dec sched j.
Proof.
  induction sched as [|i sched IH]; intros st Hinv; cbn [List.fold_left].
  - cbn. split; [auto|]. split; [auto|]. intros; lia.
  - destruct (omp_step_inv v0 st i Hinv) as [Hinv' Hlen].
    destruct (IH _ Hinv') as (H1 & H2 & H3). split; [exact H1|]. split; [congruence|].
    intros j. specialize (H3 j). pose proof (omp_step_need v0 st i Hinv j) as Hn.
    cbn [count_occ]. destruct (Nat.eq_dec i j); lia.
Qed.

Lemma omp_inv_init n v : n <= length v -> omp_inv v (v, replicate n Ready).
Proof.
  intros Hn. split; [auto|]. split; [cbn; rewrite replicate_length; auto|]. intros i. cbn.
  destruct (decide (i < n)) as [Hi|Hi].
  - rewrite lookup_replicate_2 by auto. auto.
  - rewrite (proj1 (lookup_replicate_None n Ready i)) by lia. auto.
Qed.

(** whatever the schedule, a finished loop has mapped its cells *)
Lemma omp_for_ok n v sched w : omp_for F n v sched = Ok w -> n <= length v /\ w = mapped F n v.
Proof.
  unfold omp_for. destruct (Nat.ltb_spec (length v) n) as [|Hn]; [discriminate|].
  destruct (omp_run v sched (v, replicate n Ready) (omp_inv_init n v Hn)) as (Hinv & Hlen & _).
  destruct (List.fold_left (omp_step F) sched (v, replicate n Ready)) as [v' ts] eqn:Er. cbn [fst snd] in *.
  destruct (forallb is_done ts) eqn:Ed; [|discriminate]. intros [= <-]. split; [auto|].
  destruct Hinv as (Hl & _ & H). cbn in *. rewrite replicate_length in Hlen.
  apply list_eq; intros i. unfold mapped. rewrite list_lookup_imap. specialize (H i). cbn in H.
  destruct (Nat.ltb_spec i n) as [Hi|Hi].
  - destruct (ts !! i) as [t|] eqn:Ei; [|apply lookup_ge_None in Ei; lia].
    rewrite forallb_forall in Ed. assert (is_done t = true) as Hd.
    { apply Ed, elem_of_list_In. eapply elem_of_list_lookup_2; eauto. }
    destruct t; try discriminate Hd.
    exact H.
  - rewrite (proj2 (lookup_ge_None ts i)) in H by lia. rewrite H. destruct (v !! i); auto.
Qed.

(** and a fair schedule finishes it *)
Lemma omp_for_fair n v sched : n <= length v -> (forall i, i < n -> 2 <= count_occ Nat.eq_dec sched i) ->
  omp_for F n v sched = Ok (mapped F n v).
Proof.
  intros Hn Hf.
  assert (exists w, omp_for F n v sched = Ok w) as [w Hw].
  { unfold omp_for. destruct (Nat.ltb_spec (length v) n) as [|_]; [lia|].
    destruct (omp_run v sched (v, replicate n Ready) (omp_inv_init n v Hn)) as (_ & Hlen & Hneed).
    destruct (List.fold_left (omp_step F) sched (v, replicate n Ready)) as [v' ts] eqn:Er. cbn [fst snd] in *.
    rewrite replicate_length in Hlen.
    assert (forallb is_done ts = true) as ->; [|eauto].
    rewrite forallb_forall. intros t Ht. apply elem_of_list_In, elem_of_list_lookup in Ht as [i Hi].
    assert (i < n) as Hin by (apply lookup_lt_Some in Hi; lia).
    specialize (Hneed i). rewrite Hi, lookup_replicate_2 in Hneed by auto. specialize (Hf i Hin).
    destruct t; cbn in *; auto; lia. }
  rewrite Hw. destruct (omp_for_ok _ _ _ _ Hw) as [_ ->]. auto.
Qed.
End Omp.

Section MapP.
Context {E : Type}.
Variable g : E.
Variable sch : scheduler.
Hypothesis Hfair : fair sch.
Implicit Types p : page E.

Lemma vectorloop_spec k (alias : bool) f vin (w : list E) :
  length w = length vin -> (alias = true -> w = vin) ->
  vectorloop sch k alias f vin (Some w) = Ok (Some (imap (fun i x => f x i) vin)).
Proof.
  intros Hl Ha. unfold vectorloop. rewrite omp_for_fair by (auto; lia). cbn [rbind]. do 2 f_equal.
  apply list_eq; intros i. unfold mapped. rewrite !list_lookup_imap.
  destruct (decide (i < length vin)) as [Hi|Hi].
  - destruct (lookup_lt_is_Some_2 vin i Hi) as [x Hx]. destruct (lookup_lt_is_Some_2 w i ltac:(lia)) as [y Hy].
    rewrite Hx, Hy. cbn. destruct (Nat.ltb_spec i (length vin)); [|lia].
    destruct alias; [|auto]. rewrite Ha in Hy by auto. congruence.
  - rewrite (proj2 (lookup_ge_None vin i)), (proj2 (lookup_ge_None w i)) by lia. auto.
Qed.

Definition lcell (byrow : bool) (m : grid E) (i k : nat) : option E := if byrow then cell m i k else cell m k i.
Definition lnum (byrow : bool) (m : grid E) := if byrow then gr m else gc m.
Definition llen (byrow : bool) (m : grid E) := if byrow then gc m else gr m.

Lemma omap_lookup_full (rows : list (list E)) j : Forall (fun r => j < length r) rows ->
  length (omap (fun r : list E => r !! j) rows) = length rows /\
  forall k, omap (fun r : list E => r !! j) rows !! k = match rows !! k with Some r => r !! j | None => None end.
Proof.
  induction 1 as [|r rows Hr _ [IHl IH]].
  - split; auto. 
  - destruct (lookup_lt_is_Some_2 r j Hr) as [x Hx]. cbn. rewrite Hx. cbn. split; [f_equal; auto|].
    intros [|k]; cbn; auto. 
Qed.

Lemma line_spec byrow (m : grid E) i : wf_grid m -> i < lnum byrow m ->
  length (line byrow m i) = llen byrow m /\ forall k, line byrow m i !! k = lcell byrow m i k.
Proof.
  destruct m as [r c a]. unfold wf_grid, line, mcol, lnum, llen, lcell, cell; cbn. intros [Hl Hf] Hi. destruct byrow.
  - destruct (a !! i) as [x|] eqn:Ex; [|apply lookup_ge_None in Ex; lia].
    rewrite Forall_lookup in Hf. split; eauto.
  - destruct (omap_lookup_full a i) as [H1 H2].
    { eapply List.Forall_impl; [|exact Hf]. cbn; intros; lia. }
    split; [lia|]. intros k. rewrite H2. auto.
Qed.

Lemma setline_spec byrow (m : grid E) i l : wf_grid m -> i < lnum byrow m -> length l = llen byrow m ->
  wf_grid (setline byrow m i l) /\
  (forall j k, lcell byrow (setline byrow m i l) j k = if decide (j = i) then l !! k else lcell byrow m j k).
Proof.
  destruct m as [r c a]. unfold wf_grid, lnum, llen, lcell, cell; cbn. intros [Hl Hf] Hi Hll. destruct byrow; cbn.
  - split.
    + split; [rewrite insert_length; auto|]. rewrite Forall_lookup in *. intros j x Hx.
      destruct (decide (j = i)) as [->|Hj].
      * rewrite list_lookup_insert in Hx by lia. injection Hx as <-. auto.
      * rewrite list_lookup_insert_ne in Hx by auto. eauto.
    + intros j k. destruct (decide (j = i)) as [->|Hj].
      * rewrite list_lookup_insert by lia. auto.
      * rewrite list_lookup_insert_ne by auto. auto.
  - split.
    + split; [rewrite zip_with_length; lia|]. rewrite Forall_lookup in *. intros j x Hx.
      apply lookup_zip_with_Some in Hx as (y & z & -> & Hy & Hz). rewrite insert_length. eauto.
    + intros j k. rewrite lookup_zip_with. destruct (a !! k) as [row|] eqn:Ek; cbn.
      * assert (k < length a) by (eapply lookup_lt_Some; eauto).
        destruct (lookup_lt_is_Some_2 l k ltac:(lia)) as [x Hx]. rewrite Hx; cbn.
        rewrite Forall_lookup in Hf. pose proof (Hf _ _ Ek). destruct (decide (j = i)) as [->|Hj].
        -- rewrite list_lookup_insert by lia. auto.
        -- rewrite list_lookup_insert_ne by auto. auto.
      * apply lookup_ge_None in Ek. rewrite (proj2 (lookup_ge_None l k)) by lia. destruct (decide (j = i)); auto.
Qed.

Lemma matloop_spec byrow (alias : bool) f : forall n i (min mout : grid E),
  wf_grid min -> wf_grid mout -> gr mout = gr min -> gc mout = gc min -> i + n = lnum byrow min ->
  (alias = true -> forall j k, i <= j -> lcell byrow mout j k = lcell byrow min j k) ->
  (forall j k, j < i -> lcell byrow mout j k = option_map (fun x => f x k) (lcell byrow min j k)) ->
  exists m', matloop sch byrow alias f n i min mout = Ok m' /\ wf_grid m' /\ gr m' = gr min /\ gc m' = gc min /\
  forall j k, lcell byrow m' j k = option_map (fun x => f x k) (lcell byrow min j k).
Proof.
  induction n as [|n IH]; intros i min mout Hwi Hwo Hr Hc Hn Hal Hdone; cbn [matloop].
  - exists mout. split; [auto|]. split; [auto|]. split; [auto|]. split; [auto|].
    intros j k. destruct (decide (j < i)); [auto|].
    assert (forall m : grid E, wf_grid m -> lnum byrow m = lnum byrow min -> lcell byrow m j k = None) as Hnone.
    { intros m Hw Hm. destruct (lcell byrow m j k) as [x|] eqn:Ex; [|auto]. exfalso.
      unfold lcell, lnum in *. destruct byrow; apply cell_Some_lt in Ex; auto; lia. }
    rewrite !Hnone; auto. unfold lnum. destruct byrow; lia.
  - assert (lnum byrow mout = lnum byrow min) as Hlo by (unfold lnum; destruct byrow; auto).
    assert (llen byrow mout = llen byrow min) as Hle by (unfold llen; destruct byrow; auto).
    destruct (line_spec byrow min i Hwi ltac:(lia)) as [Hl1 Hl2].
    destruct (line_spec byrow mout i Hwo ltac:(lia)) as [Ho1 Ho2].
    assert ((if alias then line byrow mout i else line byrow min i) = line byrow min i) as Hal'.
    { destruct alias; auto. apply list_eq; intros k. rewrite Ho2, Hl2. apply Hal; auto. }
    replace (line byrow (if alias then mout else min) i) with (line byrow min i)
      by (rewrite <- Hal' at 1; destruct alias; auto).
    rewrite vectorloop_spec; [|lia|].
    2:{ intros ->. exact Hal'. }
    cbn [rbind].
    destruct (setline_spec byrow mout i (imap (λ i0 x, f x i0) (line byrow min i)) Hwo) as [Hw' Hc']; [lia| |].
    { rewrite imap_length. lia. }
    apply IH; auto; try (cbn; lia).
    + intros Ha j k Hj. rewrite Hc'. destruct (decide (j = i)); [lia|]. apply Hal; auto. lia.
    + intros j k Hj. rewrite Hc'. destruct (decide (j = i)) as [->|].
      * rewrite list_lookup_imap, Hl2. destruct (lcell byrow min i k); auto.
      * apply Hdone. lia.
Qed.

(** which index the function is given for cell (i,j) of a matrix *)
Definition cell_index (m : grid E) (i j : nat) : nat := if gr m <=? gc m then j else i.
Definition mapped_grid (f : E -> nat -> E) (m m' : grid E) : Prop :=
  wf_grid m' /\ gr m' = gr m /\ gc m' = gc m /\
  forall i j, cell m' i j = option_map (fun x => f x (cell_index m i j)) (cell m i j).

Lemma matloop_map (alias : bool) f (m mo : grid E) : wf_grid m -> wf_grid mo -> gr mo = gr m -> gc mo = gc m ->
  (alias = true -> mo = m) ->
  exists m', matloop sch (gr m <=? gc m) alias f (Nat.min (gr m) (gc m)) 0 m mo = Ok m' /\ mapped_grid f m m'.
Proof.
  intros Hw Hwo Hr Hc Ha.
  destruct (matloop_spec (gr m <=? gc m) alias f (Nat.min (gr m) (gc m)) 0 m mo) as (m' & H1 & H2 & H3 & H4 & H5); auto.
  - unfold lnum. destruct (Nat.leb_spec (gr m) (gc m)); lia.
  - intros Ht j k _. rewrite Ha; auto.
  - intros j k Hj. lia.
  - exists m'. split; [auto|]. split; [auto|]. split; [auto|]. split; [auto|]. intros i j.
    unfold cell_index, lcell in *. destruct (gr m <=? gc m); apply H5.
Qed.
End MapP.
