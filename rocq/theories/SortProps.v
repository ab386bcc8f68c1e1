(** C20: sorting. *)
From Coq Require Import Sorting.Sorted Sorting.Permutation.
From Verif Require Import DataModel RmProofs NamesProps DataProps SortModel SortProofs.
Local Open Scope string_scope.
Local Open Scope list_scope.
Local Open Scope nat_scope.

(** [q] has the rows of [p] in the order given by [perm] (row i of q is row perm[i] of p), values, weights, text
    and row names together; everything else is unchanged *)
Definition reordered {E} (perm : list nat) (p q : page E) : Prop :=
  (forall i k v, perm !! i = Some k -> vect p = Some v -> exists w, vect q = Some w /\ w !! i = v !! k) /\
  (forall i k v, perm !! i = Some k -> wts p = Some v -> exists w, wts q = Some w /\ w !! i = v !! k) /\
  (forall i k v, perm !! i = Some k -> mat p = Some v -> exists w, mat q = Some w /\ ga w !! i = ga v !! k) /\
  (forall i k v, perm !! i = Some k -> txt p = Some v -> exists w, txt q = Some w /\ ga w !! i = ga v !! k) /\
  (forall i k, perm !! i = Some k -> rown (nms p) <> [] -> rown (nms q) !! i = rown (nms p) !! k) /\
  length (rown (nms q)) = length (rown (nms p)) /\ same_frame p q.

(** the key exists in the page *)
Definition has_key {E} (p : page E) (k : key) : Prop :=
  match k with
  | KVec => vect p <> None
  | KWts => wts p <> None
  | KCol j => exists m, mat p = Some m /\ j < gc m
  | KText j => exists t, txt p = Some t /\ j < gc t
  | KName => rown (nms p) <> []
  end.
Definition grids_ok {E} (p : page E) : Prop := (forall m, mat p = Some m -> wf_grid m) /\ (forall t, txt p = Some t -> wf_grid t).

Lemma column_len {A} (m : grid A) j : wf_grid m -> j < gc m -> length (column_of m j) = gr m.
Proof.
  intros [H1 H2] Hj. unfold column_of. rewrite <- H1. clear H1. induction H2 as [|r l Hr H IH]; cbn; auto.
  destruct (lookup_lt_is_Some_2 r j) as [x ->]; [lia|]. cbn. auto.
Qed.
Lemma has_valid {E} (p : page E) h k : regular p h -> grids_ok p -> has_key p k -> valid_key p h k.
Proof.
  intros (Rv & Rw & Rm & Rt & Rn) [Gm Gt]. unfold valid_key. destruct k; cbn.
  - destruct (vect p) eqn:Ev; [auto|congruence].
  - destruct (wts p) eqn:Ev; [auto|congruence].
  - intros (m & Hm & Hj). rewrite Hm; cbn. rewrite column_len; auto. apply (Rm m Hm).
  - intros (m & Hm & Hj). rewrite Hm; cbn. rewrite column_len; auto. apply (Rt m Hm).
  - intros Hn. destruct Rn; [congruence|auto].
Qed.

Section C20.
Context {E : Type} (leb : E -> E -> bool) (num_index : list E -> list nat) (str_index : list string -> list nat).

Lemma opt_lookup {A} perm (o : option (list A)) h i k v : (forall v, o = Some v -> length v = h) -> Forall (fun k => k < h) perm ->
  perm !! i = Some k -> o = Some v -> exists w, permute_opt perm o = Some w /\ w !! i = v !! k.
Proof.
  intros Hh HF Hi Ho. rewrite Ho. cbn. eexists; split; [reflexivity|].
  rewrite permute_lookup by (rewrite (Hh v Ho); auto). rewrite Hi. auto.
Qed.

Lemma C20_single_aux p h k desc : sorts leb num_index -> sorts ci_leb str_index ->
  regular p h -> grids_ok p -> has_key p k ->
  exists q perm, sort_keys leb num_index str_index [k] desc p = Ok q /\ Permutation perm (seq 0 h) /\ reordered perm p q /\
    StronglySorted (fun x y => if desc then key_le leb p k y x else key_le leb p k x y) perm.
Proof.
  intros Hnum Hstr HR HG HK. pose proof (has_valid p h k HR HG HK) as HV.
  destruct HR as (Rv & Rw & Rm & Rt & Rn).
  assert (HT : tall p h) by (unfold tall; auto).
  assert (Hgo : forall perm, Permutation perm (seq 0 h) -> exists q, rearrange p h perm = Ok q /\ reordered perm p q).
  { intros perm Hp. destruct (rearrange_ok p h perm HT Hp) as (q & Hq & HF & H1 & H2 & H3 & H4 & H5 & H6).
    exists q. split; auto. pose proof (perm_range Hp) as Hr. unfold reordered. rewrite H1, H2, H3, H4.
    split; [intros; eapply opt_lookup; eauto|]. split; [intros; eapply opt_lookup; eauto|].
    split. { intros i j v Hi Hv. rewrite Hv. cbn. eexists; split; [reflexivity|]. cbn.
             rewrite permute_lookup by (rewrite (proj2 (Rm v Hv)); auto). rewrite Hi; auto. }
    split. { intros i j v Hi Hv. rewrite Hv. cbn. eexists; split; [reflexivity|]. cbn.
             rewrite permute_lookup by (rewrite (proj2 (Rt v Hv)); auto). rewrite Hi; auto. }
    destruct Rn as [Rn|Rn].
    - rewrite H6 by (rewrite Rn; cbn; lia). rewrite Rn. auto.
    - rewrite (H5 Rn). split.
      + intros i j Hi _. rewrite permute_lookup by (rewrite Rn; auto). rewrite Hi; auto.
      + split; auto. apply permute_len_perm. rewrite Rn. auto. }
  unfold valid_key in HV. cbn [sort_keys]. unfold key_le.
  destruct (num_col p k) as [c|] eqn:Ec.
  - destruct (Hnum c) as [HP HS]. rewrite HV in HP |- *.
    pose proof (perm_range HP) as HPr. rewrite <- HV in HPr. apply SS_of_permute in HS; auto.
    destruct desc.
    + destruct (Hgo (rev (num_index c))) as (q & -> & HRe); [rewrite <- Permutation_rev; auto|]. cbn.
      exists q, (rev (num_index c)). split; auto. split; [rewrite <- Permutation_rev; auto|]. split; auto. apply SS_rev. auto.
    + destruct (Hgo (num_index c) HP) as (q & -> & HRe). cbn. exists q, (num_index c). auto.
  - destruct (str_col p k) as [c|] eqn:Es; [|tauto].
    destruct (Hstr c) as [HP HS]. rewrite HV in HP |- *.
    pose proof (perm_range HP) as HPr. rewrite <- HV in HPr. apply SS_of_permute in HS; auto.
    destruct desc.
    + destruct (Hgo (rev (str_index c))) as (q & -> & HRe); [rewrite <- Permutation_rev; auto|]. cbn.
      exists q, (rev (str_index c)). split; auto. split; [rewrite <- Permutation_rev; auto|]. split; auto. apply SS_rev. auto.
    + destruct (Hgo (str_index c) HP) as (q & -> & HRe). cbn. exists q, (str_index c). auto.
Qed.

Lemma permute_id_sim (p : page E) h : tall p h -> rown (nms p) = [] -> sim p (seq 0 h) p.
Proof.
  intros (Tv & Tw & Tm & Tt) Hn. unfold sim. split; [|split; [|split; [|split]]]; auto.
  - destruct (vect p) as [v|]; cbn; auto. rewrite <- (Tv v eq_refl). rewrite permute_seq. auto.
  - destruct (wts p) as [v|]; cbn; auto. rewrite <- (Tw v eq_refl). rewrite permute_seq. auto.
  - destruct (mat p) as [[r c a]|]; cbn; auto. destruct (Tm _ eq_refl) as [H1 H2]; cbn in *. rewrite seq_length, <- H2, permute_seq. congruence.
  - destruct (txt p) as [[r c a]|]; cbn; auto. destruct (Tt _ eq_refl) as [H1 H2]; cbn in *. rewrite seq_length, <- H2, permute_seq. congruence.
Qed.

Lemma C20_multi_aux p h keys desc : (forall a, leb a a = true) -> (forall a b c, leb a b = true -> leb b c = true -> leb a c = true) ->
  sorts leb num_index -> sorts ci_leb str_index ->
  regular p h -> 0 < h -> grids_ok p -> rown (nms p) = [] -> keys <> [] -> Forall (has_key p) keys -> Forall (case_consistent p) (removelast keys) ->
  exists q perm, sort_keys leb num_index str_index keys desc p = Ok q /\ Permutation perm (seq 0 h) /\ reordered perm p q /\
    StronglySorted (lex_le leb p desc keys) perm.
Proof.
  intros Hrf Htr Hnum Hstr HR Hh HG Hn Hne HK Hcc.
  assert (HV : Forall (valid_key p h) keys) by (eapply List.Forall_impl; [|exact HK]; intros; apply has_valid; auto).
  destruct HR as (Rv & Rw & Rm & Rt & Rn). assert (HT : tall p h) by (unfold tall; auto).
  destruct HG as [Gm Gt].
  destruct (sort_ok leb num_index str_index Hrf Htr Hnum Hstr p h HT Gm Gt Hn keys desc (seq 0 h) p) as (q & perm & Hq & HS & HP & HSS & HF); auto.
  { apply permute_id_sim; auto. }
  { unfold inr. apply List.Forall_forall. intros x Hx. apply in_seq in Hx. lia. }
  { rewrite seq_length. auto. }
  exists q, perm. split; auto. split; auto. split; auto.
  destruct HS as (H1 & H2 & H3 & H4 & H5). pose proof (perm_range HP) as Hr.
  unfold reordered. rewrite H1, H2, H3, H4, H5, Hn.
  split; [intros; eapply opt_lookup; eauto|]. split; [intros; eapply opt_lookup; eauto|].
  split. { intros i j v Hi Hv. rewrite Hv. cbn. eexists; split; [reflexivity|]. cbn.
           rewrite permute_lookup by (rewrite (proj2 (Rm v Hv)); auto). rewrite Hi; auto. }
  split. { intros i j v Hi Hv. rewrite Hv. cbn. eexists; split; [reflexivity|]. cbn.
           rewrite permute_lookup by (rewrite (proj2 (Rt v Hv)); auto). rewrite Hi; auto. }
  auto.
Qed.
End C20.

(** C20: sorting on one key (any part, row names included, ascending or descending) permutes whole rows, labels
    with them, and orders them by that key; for any library sorting routine that sorts. *)
Theorem C20_one_key : forall E (leb : E -> E -> bool) num_index str_index (p : page E) h k desc,
  sorts leb num_index -> sorts ci_leb str_index -> regular p h -> grids_ok p -> has_key p k ->
  exists q perm, sort_keys leb num_index str_index [k] desc p = Ok q /\ Permutation perm (seq 0 h) /\ reordered perm p q /\
    StronglySorted (fun x y => if desc then key_le leb p k y x else key_le leb p k x y) perm.
Proof. exact @C20_single_aux. Qed.
Print Assumptions C20_one_key.

(** C20: sorting on any list of keys permutes whole rows so that they are in lexicographic order.  Missing:
    row names (refuted below), text keys whose cells differ only in case (refuted below); in a descending sort
    only the first key is descending (the order [lex_le _ _ true]; refuted below). *)
Theorem C20_many_keys : forall E (leb : E -> E -> bool) num_index str_index (p : page E) h keys desc,
  (forall a, leb a a = true) -> (forall a b c, leb a b = true -> leb b c = true -> leb a c = true) ->
  sorts leb num_index -> sorts ci_leb str_index ->
  regular p h -> 0 < h -> grids_ok p -> rown (nms p) = [] -> keys <> [] -> Forall (has_key p) keys -> Forall (case_consistent p) (removelast keys) ->
  exists q perm, sort_keys leb num_index str_index keys desc p = Ok q /\ Permutation perm (seq 0 h) /\ reordered perm p q /\
    StronglySorted (lex_le leb p desc keys) perm.
Proof. exact @C20_multi_aux. Qed.
Print Assumptions C20_many_keys.

(** ---- a sorting routine for the examples ---- *)
Section ISort.
Context {A : Type} (le : A -> A -> bool).
Fixpoint ins (x : nat * A) (l : list (nat * A)) : list (nat * A) :=
  match l with [] => [x] | y :: l' => if le (snd x) (snd y) then x :: l else y :: ins x l' end.
Fixpoint isort (l : list (nat * A)) : list (nat * A) := match l with [] => [] | x :: l' => ins x (isort l') end.
Definition index_sort (l : list A) : list nat := map fst (isort (zip (seq 0 (length l)) l)).
Context (le_total : forall a b, le a b = true \/ le b a = true) (le_trans : forall a b c, le a b = true -> le b c = true -> le a c = true).
Lemma ins_perm x l : Permutation (ins x l) (x :: l).
Proof. induction l as [|y l IH]; cbn; auto. destruct (le (snd x) (snd y)); auto. rewrite IH. constructor. Qed.
Lemma isort_perm l : Permutation (isort l) l.
Proof. induction l as [|x l IH]; cbn; auto. rewrite ins_perm, IH. auto. Qed.
Lemma ins_sorted x l : StronglySorted (fun a b => le (snd a) (snd b) = true) l -> StronglySorted (fun a b => le (snd a) (snd b) = true) (ins x l).
Proof.
  induction 1 as [|y l H IH HF]; cbn; [repeat constructor|].
  destruct (le (snd x) (snd y)) eqn:El.
  - constructor; [constructor; auto|]. constructor; auto. eapply List.Forall_impl; [|exact HF]. cbn. eauto.
  - constructor; auto. rewrite List.Forall_forall in *. intros z Hz. rewrite ins_perm in Hz. destruct Hz as [<-|Hz]; auto.
    destruct (le_total (snd x) (snd y)); congruence.
Qed.
Lemma isort_sorted l : StronglySorted (fun a b => le (snd a) (snd b) = true) (isort l).
Proof. induction l as [|x l IH]; cbn; [constructor|]. apply ins_sorted; auto. Qed.
Lemma zip_seq_lookup (l : list A) : Forall (fun t => l !! t.1 = Some t.2) (zip (seq 0 (length l)) l).
Proof.
  apply Forall_lookup_2. intros i [k x] H. apply lookup_zip_with_Some in H as (? & ? & [= -> ->] & H1 & H2).
  apply lookup_seq in H1 as [-> _]. auto.
Qed.
Lemma index_sort_sorts : sorts le index_sort.
Proof.
  intros l. unfold index_sort. split.
  - rewrite isort_perm. rewrite fst_zip by (rewrite seq_length; lia). auto.
  - assert (HF : Forall (fun t => l !! t.1 = Some t.2) (isort (zip (seq 0 (length l)) l))).
    { rewrite isort_perm. apply zip_seq_lookup. }
    pose proof (isort_sorted (zip (seq 0 (length l)) l)) as HS.
    induction HS as [|[k x] s H IH HFs]; cbn; [constructor|]. inversion HF as [|? ? Hk HF']; subst. cbn in Hk. rewrite Hk. cbn.
    constructor; [apply IH; auto|]. clear - HFs HF'. rewrite List.Forall_forall in *. intros y Hy. 
    unfold permute in Hy. apply elem_of_list_In, elem_of_list_omap in Hy as (j & Hj & Hl). apply elem_of_list_In, in_map_iff in Hj as ([j' z] & Hj' & Hin).
    cbn in Hj'. subst j'. pose proof (HF' _ Hin) as Hz. cbn in Hz. rewrite Hz in Hl. injection Hl as <-. apply (HFs _ Hin).
Qed.
End ISort.

Definition nat_index := index_sort Nat.leb.
Definition text_index := index_sort ci_leb.
Lemma nat_index_sorts : sorts Nat.leb nat_index.
Proof. apply index_sort_sorts; intros; rewrite ?Nat.leb_le in *; lia. Qed.
Lemma text_index_sorts : sorts ci_leb text_index.
Proof. apply index_sort_sorts; unfold ci_leb; intros; [apply str_leb_total|eapply str_leb_trans; eauto]. Qed.

(** two columns and text, no names *)
Definition ex_sort : page nat :=
  Pg (Some [3; 1; 3; 2]) (Some (Gr 4 1 [[8]; [5]; [2]; [9]])) (Some [10; 20; 30; 40]) (Some (Gr 4 1 [["d"]; ["b"]; ["a"]; ["c"]])) name_alloc None.
Example C20_nonvacuous :
  regular ex_sort 4 /\ grids_ok ex_sort /\ Forall (has_key ex_sort) [KVec; KCol 0; KText 0] /\
  exists q, sort_keys Nat.leb nat_index text_index [KVec; KCol 0; KText 0] false ex_sort = Ok q /\
    vect q = Some [1; 2; 3; 3] /\ mat q = Some (Gr 4 1 [[5]; [9]; [2]; [8]]) /\ wts q = Some [20; 40; 30; 10] /\
    txt q = Some (Gr 4 1 [["b"]; ["c"]; ["a"]; ["d"]]).
Proof.
  split; [unfold regular; cbn; do 4 (split; [intros ? [= <-]; cbn; auto|]); auto|].
  split; [split; cbn; intros ? [= <-]; unfold wf_grid; cbn; auto 10|].
  split; [repeat constructor; cbn; try congruence; eexists; split; try reflexivity; cbn; lia|].
  eexists; split; [vm_compute; reflexivity|]. repeat split.
Qed.

Definition row_named (l : list string) : names := fold_left (fun n s => add1 n s "r") l name_alloc.
(** C20: when a block of ties is sorted on the next key the row names stay behind: the row that holds 5 was
    named "five" and is named "six" afterwards. *)
Theorem C20_names_lost_refuted : exists (p q : page nat),
  regular p 2 /\ hashes_ok (nms p) /\
  sort_keys Nat.leb nat_index text_index [KVec; KCol 0] false p = Ok q /\
  option_map ga (mat p) = Some [[6]; [5]] /\ rown (nms p) = ["six"; "five"] /\
  option_map ga (mat q) = Some [[5]; [6]] /\ rown (nms q) = ["six"; "five"].
Proof.
  exists (Pg (Some [1; 1]) (Some (Gr 2 1 [[6]; [5]])) None None (row_named ["six"; "five"]) None). eexists.
  split; [unfold regular; cbn; do 4 (split; [intros ? [= <-]; cbn; auto || discriminate|]); auto|].
  split; [vm_compute; auto|]. split; [vm_compute; reflexivity|]. repeat split.
Qed.
Print Assumptions C20_names_lost_refuted.

(** C20: after a sort the stored hashes of the row names are those of the old order, so looking up a row name
    finds nothing or the wrong row. *)
Theorem C20_name_lookup_refuted : exists (p q : page nat),
  regular p 2 /\ hashes_ok (nms p) /\ sort_keys Nat.leb nat_index text_index [KVec] false p = Ok q /\
  name_find (nms p) "five" "r" = Ok 1%Z /\
  rown (nms q) = ["five"; "six"] /\ ~ hashes_ok (nms q).
Proof.
  exists (Pg (Some [6; 5]) None None None (row_named ["six"; "five"]) None). eexists.
  split; [unfold regular; cbn; do 4 (split; [intros ? [= <-]; cbn; auto || discriminate|]); auto|].
  split; [vm_compute; auto|]. split; [vm_compute; reflexivity|].
  split; [vm_compute; reflexivity|]. split; [reflexivity|]. vm_compute. intros (H & _). inversion H.
Qed.
Print Assumptions C20_name_lookup_refuted.

(** C20: a descending sort on two keys sorts the second one ascending. *)
Theorem C20_descending_refuted : exists (p q : page nat),
  regular p 2 /\ sort_keys Nat.leb nat_index text_index [KVec; KCol 0] true p = Ok q /\
  vect q = Some [1; 1] /\ option_map ga (mat q) = Some [[5]; [6]].
Proof.
  exists (Pg (Some [1; 1]) (Some (Gr 2 1 [[6]; [5]])) None None name_alloc None). eexists.
  split; [unfold regular; cbn; do 4 (split; [intros ? [= <-]; cbn; auto || discriminate|]); auto|].
  split; [vm_compute; reflexivity|]. repeat split.
Qed.
Print Assumptions C20_descending_refuted.

(** C20: strings are compared regardless of case, but a block of equal strings that differ in case is not sorted
    on the next key. *)
Theorem C20_case_refuted : exists (p q : page nat),
  regular p 3 /\ sort_keys Nat.leb nat_index text_index [KText 0; KVec] false p = Ok q /\
  txt q = Some (Gr 3 1 [["a"]; ["A"]; ["a"]]) /\ vect q = Some [3; 2; 1].
Proof.
  exists (Pg (Some [3; 2; 1]) None None (Some (Gr 3 1 [["a"]; ["A"]; ["a"]])) name_alloc None). eexists.
  split; [unfold regular; cbn; do 4 (split; [intros ? [= <-]; cbn; auto || discriminate|]); auto|].
  split; [vm_compute; reflexivity|]. repeat split.
Qed.
Print Assumptions C20_case_refuted.

(** ---- the order of the keys ---- *)
Lemma smallest_spec x : forall cands best,
  match smallest_larger x cands best with
  | None => best = None /\ forall c, In c cands -> above x c.2 = false
  | Some b => (In b cands /\ above x b.2 = true \/ best = Some b) /\
              (forall c, In c cands -> above x c.2 = true -> (b.2 <= c.2)%Z) /\ (forall c, best = Some c -> (b.2 <= c.2)%Z)
  end.
Proof.
  induction cands as [|[k v] cands IH]; intros best; cbn.
  - destruct best; cbn; [|split; [auto|tauto]]. split; auto. split; [tauto|]. intros c [= <-]. lia.
  - match goal with |- context [smallest_larger x cands ?b] => specialize (IH b) end.
    destruct (above x v) eqn:Ea; cbn [andb] in *.
    + destruct best as [[k' v']|].
      * destruct (v <? v')%Z eqn:Ev.
        -- destruct (smallest_larger x cands (Some (k, v))) as [b|]; [|destruct IH; congruence].
           destruct IH as (H1 & H2 & H3). specialize (H3 _ eq_refl). cbn in H3. split; [|split].
           ++ destruct H1 as [[? ?]|[= <-]]; auto.
           ++ intros c [<-|Hc]; cbn; auto.
           ++ intros c [= <-]; cbn. lia.
        -- destruct (smallest_larger x cands (Some (k', v'))) as [b|]; [|destruct IH; congruence].
           destruct IH as (H1 & H2 & H3). specialize (H3 _ eq_refl) as H4. cbn in H4. split; [|split]; auto.
           ++ destruct H1 as [[? ?]|[= <-]]; auto.
           ++ intros c [<-|Hc]; cbn; auto. lia.
      * destruct (smallest_larger x cands (Some (k, v))) as [b|]; [|destruct IH; congruence].
        destruct IH as (H1 & H2 & H3). specialize (H3 _ eq_refl) as H4. cbn in H4. split; [|split].
        ++ destruct H1 as [[? ?]|[= <-]]; auto.
        ++ intros c [<-|Hc]; cbn; auto.
        ++ congruence.
    + destruct (smallest_larger x cands best) as [b|].
      * destruct IH as (H1 & H2 & H3). split; [tauto|]. split; auto. intros c [<-|Hc]; cbn; auto. congruence.
      * destruct IH as [H1 H2]. split; auto. intros c [<-|Hc]; auto.
Qed.
Lemma order_loop_spec cands : NoDup (map snd cands) -> forall n x,
  length (List.filter (fun c => above x c.2) cands) <= n ->
  exists l, order_loop n x cands = map fst l /\ Permutation l (List.filter (fun c => above x c.2) cands) /\
    StronglySorted (fun a b => (a.2 < b.2)%Z) l.
Proof.
  intros Hnd. induction n as [|n IH]; intros x Hn.
  - destruct (List.filter _ cands); [|cbn in Hn; lia]. exists []. split; auto. split; auto. constructor.
  - cbn [order_loop]. pose proof (smallest_spec x cands None) as Hs.
    destruct (smallest_larger x cands None) as [[k v]|].
    + destruct Hs as ([[H1 H1']|?] & H2 & _); [|congruence]. cbn in *.
      assert (HP : Permutation ((k, v) :: List.filter (fun c => above (Some v) c.2) cands) (List.filter (fun c => above x c.2) cands)).
      { apply NoDup_Permutation_bis.
        - assert (Hndc : List.NoDup cands) by (apply NoDup_ListNoDup; apply (NoDup_fmap_1 snd); auto).
          constructor; [|apply List.NoDup_filter; auto]. rewrite filter_In. cbn. intros [_ H]. lia.
        - (* lengths *) 
          assert (Hinc : incl (List.filter (fun c => above x c.2) cands) ((k, v) :: List.filter (fun c => above (Some v) c.2) cands)).
          { intros [k' v'] Hc. apply filter_In in Hc as [Hc Ha]. cbn in Ha. specialize (H2 _ Hc Ha). cbn in H2.
            destruct (decide (v' = v)) as [->|Hne].
            - left. f_equal. assert (Hndc := Hnd). 
              clear - Hnd H1 Hc. induction cands as [|[k2 v2] l IHl]; cbn in *; [tauto|]. inversion Hnd as [|? ? Hni Hnd']; subst.
              rewrite elem_of_list_In in Hni.
              destruct H1 as [H1|H1], Hc as [Hc|Hc]; [congruence| | |auto].
              + exfalso. injection H1 as -> ->. apply Hni. apply in_map_iff. exists (k', v); auto.
              + exfalso. injection Hc as -> ->. apply Hni. apply in_map_iff. exists (k, v); auto.
            - right. apply filter_In. cbn. split; auto. lia. }
          assert (Hndf : List.NoDup (List.filter (fun c => above x c.2) cands)).
          { apply List.NoDup_filter. apply NoDup_ListNoDup; apply (NoDup_fmap_1 snd); auto. }
          apply NoDup_incl_length; auto.
        - intros c [<-|Hc]; apply filter_In; cbn; auto. apply filter_In in Hc as [Hc Ha]. split; auto. cbn in Ha.
          destruct x; cbn in *; auto. lia. }
      destruct (IH (Some v)) as (l & Hl & HPl & HS).
      { apply Permutation_length in HP. cbn in HP. cbn. lia. }
      exists ((k, v) :: l). split; [cbn; f_equal; auto|]. split.
      * rewrite <- HP. constructor. exact HPl.
      * constructor; auto. apply List.Forall_forall. intros c Hc. rewrite HPl in Hc. apply filter_In in Hc as [_ Hc]. cbn in *. lia.
    + destruct Hs as [_ Hs]. exists []. split; auto. split; [|constructor].
      replace (List.filter (fun c => above x c.2) cands) with (@nil (key * Z)); auto.
      clear - Hs. induction cands as [|c cands IH]; cbn in *; auto. rewrite (Hs c) by auto. auto.
Qed.
Lemma C20_order_aux cands : NoDup (map snd cands) ->
  exists l, Permutation l cands /\ StronglySorted (fun a b => (a.2 < b.2)%Z) l /\ requested_keys cands = map fst l.
Proof.
  intros H. assert (Hf : List.filter (fun c : key * Z => above None c.2) cands = cands) by (cbn; clear; induction cands; cbn; congruence).
  destruct (order_loop_spec cands H (length cands) None) as (l & H1 & H2 & H3); [rewrite Hf; auto|].
  rewrite Hf in H2. exists l. auto.
Qed.
(** C20: with distinct ranks, the keys are used in increasing order of rank, each once. *)
Theorem C20_key_order : forall cands : list (key * Z), NoDup (map snd cands) ->
  exists l, Permutation l cands /\ StronglySorted (fun a b => (a.2 < b.2)%Z) l /\ requested_keys cands = map fst l.
Proof. exact C20_order_aux. Qed.
Print Assumptions C20_key_order.
(** C20: of two columns with the same rank only the earlier is sorted on (documented: ties of rank are broken by
    the earlier element; the later column should still be used). *)
Theorem C20_equal_rank_refuted : requested_keys [(KCol 0, 1%Z); (KCol 1, 1%Z)] = [KCol 0].
Proof. reflexivity. Qed.
Print Assumptions C20_equal_rank_refuted.

Lemma C20_data_aux E (leb : E -> E -> bool) ni si (g : E) d order desc q :
  sort_keys leb ni si (match order with Some c => requested_keys c | None => default_keys (head d) end) desc (head d) = Ok q ->
  data_sort leb ni si g d order desc true = Ok (set_head d q).
Proof. intros H. unfold data_sort. cbn [rbind]. rewrite H. auto. Qed.
(** C20: only the first page is sorted; the other pages stay as they are. *)
Theorem C20_first_page_only : forall E (leb : E -> E -> bool) ni si (g : E) d order desc e,
  data_sort leb ni si g d order desc true = Ok e -> tail (pages e) = tail (pages d).
Proof.
  intros E leb ni si g d order desc e. unfold data_sort. cbn [rbind].
  destruct (sort_keys _ _ _ _ _ _); cbn [rbind]; try discriminate. intros [= <-]. destruct d; auto.
Qed.
Print Assumptions C20_first_page_only.

(** ---- the default order ---- *)
(** the vector, then the matrix columns left to right, then the text columns, then the weights, then the row names *)
Definition key_before (a b : key) : Prop :=
  let part k := match k with KVec => 0 | KCol _ => 1 | KText _ => 2 | KWts => 3 | KName => 4 end in
  part a < part b \/ part a = part b /\ match a, b with KCol i, KCol j => i < j | KText i, KText j => i < j | _, _ => False end.
Lemma SS_keys (f : nat -> key) n s : (forall i j, i < j -> key_before (f i) (f j)) -> StronglySorted key_before (map f (seq s n)).
Proof.
  intros Hf. revert s. induction n as [|n IH]; intros s; cbn; constructor; auto.
  apply List.Forall_forall. intros k Hk. apply in_map_iff in Hk as (i & <- & Hi). apply in_seq in Hi. apply Hf. lia.
Qed.
Lemma SS_join (a b : list key) : StronglySorted key_before a -> StronglySorted key_before b ->
  (forall x y, In x a -> In y b -> key_before x y) -> StronglySorted key_before (a ++ b).
Proof. intros. apply SS_app. auto. Qed.
Lemma C20_default_aux {E} (p : page E) : (forall t, txt p = Some t -> 0 < gr t) ->
  (forall k, In k (default_keys p) <-> has_key p k) /\ StronglySorted key_before (default_keys p).
Proof.
  intros Ht. unfold default_keys. split.
  - intros k. rewrite !in_app_iff. 
    assert (H1 : In k (match vect p with Some _ => [KVec] | None => [] end) <-> k = KVec /\ vect p <> None).
    { destruct (vect p); cbn; intuition congruence. }
    assert (H2 : In k (match mat p with Some m => map KCol (seq 0 (gc m)) | None => [] end) <-> exists j m, k = KCol j /\ mat p = Some m /\ j < gc m).
    { destruct (mat p) as [m|]; cbn; [|naive_solver]. rewrite in_map_iff. setoid_rewrite in_seq. split.
      - intros (j & <- & Hj). exists j, m. split; auto. split; auto. lia.
      - intros (j & m' & -> & [= <-] & Hj). exists j. split; auto. lia. }
    assert (H3 : In k (match txt p with Some t => if gr t =? 0 then [] else map KText (seq 0 (gc t)) | None => [] end) <-> exists j m, k = KText j /\ txt p = Some m /\ j < gc m).
    { destruct (txt p) as [m|]; cbn; [|naive_solver]. specialize (Ht m eq_refl). destruct (gr m =? 0) eqn:E0; [lia|].
      rewrite in_map_iff. setoid_rewrite in_seq. split.
      - intros (j & <- & Hj). exists j, m. split; auto. split; auto. lia.
      - intros (j & m' & -> & [= <-] & Hj). exists j. split; auto. lia. }
    assert (H4 : In k (match wts p with Some _ => [KWts] | None => [] end) <-> k = KWts /\ wts p <> None).
    { destruct (wts p); cbn; intuition congruence. }
    assert (H5 : In k (match rown (nms p) with [] => [] | _ => [KName] end) <-> k = KName /\ rown (nms p) <> []).
    { destruct (rown (nms p)); cbn; intuition congruence. }
    rewrite H1, H2, H3, H4, H5. destruct k; cbn; split; try naive_solver.
  - apply SS_join; [destruct (vect p); repeat constructor| |].
    2:{ intros x y Hx Hy. destruct (vect p); cbn in Hx; [|tauto]. destruct Hx as [<-|[]].
        rewrite !in_app_iff in Hy. unfold key_before. left.
        destruct Hy as [Hy|[Hy|[Hy|Hy]]].
        - destruct (mat p); cbn in Hy; [|tauto]. apply in_map_iff in Hy as (? & <- & _). lia.
        - destruct (txt p) as [t|]; cbn in Hy; [|tauto]. destruct (gr t =? 0); cbn in Hy; [tauto|]. apply in_map_iff in Hy as (? & <- & _). lia.
        - destruct (wts p); cbn in Hy; [|tauto]. destruct Hy as [<-|[]]. lia.
        - destruct (rown (nms p)); cbn in Hy; [tauto|]. destruct Hy as [<-|[]]. lia. }
    apply SS_join; [destruct (mat p); [apply SS_keys; intros; right; auto|constructor]| |].
    2:{ intros x y Hx Hy. destruct (mat p); cbn in Hx; [|tauto]. apply in_map_iff in Hx as (? & <- & _).
        rewrite !in_app_iff in Hy. unfold key_before. left.
        destruct Hy as [Hy|[Hy|Hy]].
        - destruct (txt p) as [t|]; cbn in Hy; [|tauto]. destruct (gr t =? 0); cbn in Hy; [tauto|]. apply in_map_iff in Hy as (? & <- & _). lia.
        - destruct (wts p); cbn in Hy; [|tauto]. destruct Hy as [<-|[]]. lia.
        - destruct (rown (nms p)); cbn in Hy; [tauto|]. destruct Hy as [<-|[]]. lia. }
    apply SS_join; [destruct (txt p) as [t|]; [destruct (gr t =? 0); [constructor|apply SS_keys; intros; right; auto]|constructor]| |].
    2:{ intros x y Hx Hy. destruct (txt p) as [t|]; cbn in Hx; [|tauto]. destruct (gr t =? 0); cbn in Hx; [tauto|]. apply in_map_iff in Hx as (? & <- & _).
        rewrite !in_app_iff in Hy. unfold key_before. left.
        destruct Hy as [Hy|Hy].
        - destruct (wts p); cbn in Hy; [|tauto]. destruct Hy as [<-|[]]. lia.
        - destruct (rown (nms p)); cbn in Hy; [tauto|]. destruct Hy as [<-|[]]. lia. }
    apply SS_join; [destruct (wts p); repeat constructor|destruct (rown (nms p)); repeat constructor|].
    intros x y Hx Hy. unfold key_before. left. destruct (wts p); cbn in Hx; [|tauto]. destruct Hx as [<-|[]].
    destruct (rown (nms p)); cbn in Hy; [tauto|]. destruct Hy as [<-|[]]. lia.
Qed.
(** C20: without a requested order every column present is used: vector, matrix columns, text columns, weights, row names. *)
Theorem C20_default_keys : forall E (p : page E), (forall t, txt p = Some t -> 0 < gr t) ->
  (forall k, In k (default_keys p) <-> has_key p k) /\ StronglySorted key_before (default_keys p).
Proof. exact @C20_default_aux. Qed.
Print Assumptions C20_default_keys.

(** C20: apop_data_sort with no requested order, on a set without row names, leaves a rearrangement of whole rows in
    lexicographic order of all its columns. *)
Theorem C20_default_sort : forall E (leb : E -> E -> bool) ni si (g : E) d h desc,
  (forall a, leb a a = true) -> (forall a b c, leb a b = true -> leb b c = true -> leb a c = true) ->
  sorts leb ni -> sorts ci_leb si ->
  let p := head d in
  regular p h -> 0 < h -> grids_ok p -> rown (nms p) = [] -> (exists k, has_key p k) ->
  (forall k, has_key p k -> case_consistent p k) ->
  exists q perm keys, data_sort leb ni si g d None desc true = Ok (set_head d q) /\ Permutation perm (seq 0 h) /\ reordered perm p q /\
    (forall k, In k keys <-> has_key p k) /\ StronglySorted key_before keys /\ StronglySorted (lex_le leb p desc keys) perm.
Proof.
  intros E leb ni si g d h desc Hr Ht Hn Hs p HR Hh HG Hnm [k0 Hk0] Hcc.
  assert (Htx : forall t, txt p = Some t -> 0 < gr t).
  { intros t Et. destruct HR as (_ & _ & _ & Rt & _). destruct (Rt t Et). lia. }
  destruct (C20_default_aux p Htx) as [HK HS].
  destruct (C20_multi_aux leb ni si p h (default_keys p) desc) as (q & perm & H1 & H2 & H3 & H4); auto.
  - intros E0. apply HK in Hk0. rewrite E0 in Hk0. destruct Hk0.
  - apply List.Forall_forall. intros k Hk. apply HK. auto.
  - apply List.Forall_forall. intros k Hk. apply Hcc. apply HK.
    destruct (default_keys p) as [|k1 l] eqn:E0; [destruct Hk|].
    rewrite (app_removelast_last k1 (l := k1 :: l)) by discriminate. apply in_app_iff. auto.
  - exists q, perm, (default_keys p). split; [apply C20_data_aux; exact H1|auto].
Qed.
Print Assumptions C20_default_sort.
