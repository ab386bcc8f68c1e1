(** Proofs about rearrange and the sort. *)
From Coq Require Import Sorting.Sorted Sorting.Permutation.
From Verif Require Import DataModel RmProofs SortModel.
Local Open Scope string_scope.
Local Open Scope list_scope.
Local Open Scope nat_scope.

(** the list whose k-th element is element perm[k] of [l] *)
Definition permute {A} (perm : list nat) (l : list A) : list A := omap (fun k => l !! k) perm.

Lemma permute_app {A} a b (l : list A) : permute (a ++ b) l = permute a l ++ permute b l.
Proof. apply omap_app. Qed.
Lemma permute_length {A} perm (l : list A) : Forall (fun k => k < length l) perm -> length (permute perm l) = length perm.
Proof.
  induction 1 as [|k perm Hk H IH]; cbn; auto. destruct (lookup_lt_is_Some_2 l k Hk) as [x ->]. cbn. auto.
Qed.
Lemma permute_lookup {A} perm (l : list A) i : Forall (fun k => k < length l) perm ->
  permute perm l !! i = match perm !! i with Some k => l !! k | None => None end.
Proof.
  intros H. revert i. induction H as [|k perm Hk H IH]; intros i; cbn.
  - auto.
  - destruct (lookup_lt_is_Some_2 l k Hk) as [x Hx]. rewrite Hx. destruct i; cbn; auto.
Qed.
Lemma permute_seq {A} (l : list A) : permute (seq 0 (length l)) l = l.
Proof.
  apply list_eq; intros i. rewrite permute_lookup.
  - destruct (decide (i < length l)).
    + rewrite lookup_seq_lt by auto. auto.
    + rewrite !(proj2 (lookup_ge_None _ _)); auto; rewrite ?seq_length; lia.
  - apply List.Forall_forall. intros x Hx. apply in_seq in Hx. lia.
Qed.

(** simulation: the control flow of rearr does not look at the data *)
Section Sim.
Context {X R Y S : Type} (save : X -> nat -> R) (restore : X -> nat -> R -> X) (mv : X -> nat -> nat -> X).
Context (save' : Y -> nat -> S) (restore' : Y -> nat -> S -> Y) (mv' : Y -> nat -> nat -> Y).
Context (f : X -> Y) (fr : R -> S).
Context (Hsave : forall x i, fr (save x i) = save' (f x) i).
Context (Hrest : forall x i r, f (restore x i r) = restore' (f x) i (fr r)).
Context (Hmv : forall x i j, f (mv x i j) = mv' (f x) i j).
Definition rmap {A B} (h : A -> B) (r : res A) : res B := match r with Ok a => Ok (h a) | UB => UB | Fuel => Fuel end.

Lemma walk_sim fuel perm start : forall i sorted x,
  walk mv' fuel perm start i sorted (f x) = rmap (fun t => (f t.1.1, t.1.2, t.2)) (walk mv fuel perm start i sorted x).
Proof.
  induction fuel as [|n IH]; intros i sorted x; cbn; auto.
  destruct (perm !! i) as [j|]; cbn; auto. destruct (j =? start); cbn; auto.
  destruct (j <? length sorted); cbn; auto. rewrite <- Hmv. apply IH.
Qed.
Lemma outer_sim fuel perm : forall start sorted x,
  outer save' restore' mv' fuel perm start sorted (f x) = rmap f (outer save restore mv fuel perm start sorted x).
Proof.
  induction fuel as [|n IH]; intros start sorted x; cbn [outer]; auto.
  destruct (find_min_unsorted sorted start) as [s|]; cbn [rmap]; auto.
  rewrite walk_sim. destruct (walk mv _ perm s s _ x) as [[[x' s'] i]| |]; cbn [rmap rbind fst snd]; auto.
  rewrite <- Hsave, <- Hrest. apply IH.
Qed.
Lemma rearr_sim x h perm : rearr save' restore' mv' (f x) h perm = rmap f (rearr save restore mv x h perm).
Proof. apply outer_sim. Qed.
End Sim.

(** rearr on a list *)
Section OnList.
Context {A : Type} (l : list A) (perm : list nat).
Let n := length l.
Context (Hperm : Permutation perm (seq 0 n)).
Let lsave (x : list A) i := x !! i.

Local Lemma perm_len : length perm = n.
Proof. rewrite (Permutation_length Hperm), seq_length. auto. Qed.
Local Lemma perm_lt i j : perm !! i = Some j -> j < n.
Proof. intros H. apply elem_of_list_lookup_2, elem_of_list_In in H. rewrite Hperm in H. apply in_seq in H. lia. Qed.
Local Lemma perm_inj i i' j : perm !! i = Some j -> perm !! i' = Some j -> i = i'.
Proof.
  intros H H'. assert (Hnd : base.NoDup perm).
  { apply NoDup_ListNoDup. rewrite Hperm. apply seq_NoDup. }
  eapply NoDup_lookup; eauto.
Qed.

(** marked *)
Definition mk (M : list bool) k : Prop := M !! k = Some true.
Record inv_out (M : list bool) (x : list A) : Prop := {
  io_len : length M = n; io_lx : length x = n;
  io_in : forall k j, mk M k -> perm !! k = Some j -> mk M j /\ x !! k = l !! j;
  io_out : forall k, ~ mk M k -> x !! k = l !! k;
  io_pre : forall k, mk M k -> exists k', mk M k' /\ perm !! k' = Some k }.
Record inv_in (start i : nat) (M : list bool) (x : list A) : Prop := {
  ii_len : length M = n; ii_lx : length x = n;
  ii_start : mk M start; ii_i : mk M i;
  ii_in : forall k j, mk M k -> k <> i -> perm !! k = Some j -> mk M j /\ x !! k = l !! j;
  ii_out : forall k, ~ mk M k -> x !! k = l !! k;
  ii_pre : forall k, mk M k -> k <> start -> exists k', mk M k' /\ k' <> i /\ perm !! k' = Some k }.

Lemma mk_insert (M : list bool) j k : j < length M -> mk (<[j := true]> M) k <-> k = j \/ mk M k.
Proof.
  intros Hj. unfold mk. rewrite list_lookup_insert_Some. split.
  - intros [(-> & _ & _)|[_ H]]; auto.
  - intros [-> |H]; [left; auto|]. destruct (decide (k = j)) as [-> |]; [left; auto|right; auto].
Qed.
Fixpoint unmarked (M : list bool) : nat := match M with [] => 0 | b :: M' => (if b then 0 else 1) + unmarked M' end.
Lemma unmarked_insert (M : list bool) j : j < length M -> ~ mk M j -> S (unmarked (<[j := true]> M)) = unmarked M.
Proof.
  unfold mk. revert j; induction M as [|b M IH]; intros [|j] Hj Hn; cbn in *; try lia.
  - destruct b; [congruence|]. lia.
  - destruct b; rewrite <- (IH j); auto; lia.
Qed.
Lemma unmarked_le M : unmarked M <= length M.
Proof. induction M as [|[] M IH]; cbn; lia. Qed.

Lemma walk_ok fuel : forall start i M x, inv_in start i M x -> i < n -> unmarked M < fuel ->
  exists x' M' i' , walk (@move A) fuel perm start i M x = Ok (x', M', i') /\
    inv_in start i' M' x' /\ perm !! i' = Some start /\ i' < n /\ unmarked M' <= unmarked M /\ (forall k, mk M k -> mk M' k).
Proof.
  induction fuel as [|f IH]; intros start i M x HI Hi Hf; [lia|]. cbn.
  destruct (lookup_lt_is_Some_2 perm i) as [j Hj]; [rewrite perm_len; auto|]. rewrite Hj.
  pose proof (perm_lt _ _ Hj) as Hjn.
  destruct (Nat.eqb_spec j start) as [->|Hne].
  { exists x, M, i. do 5 (split; [auto|]). auto. }
  destruct HI. replace (j <? length M) with true by lia.
  assert (HjM : ~ mk M j).
  { intros Hm. destruct (ii_pre0 j Hm Hne) as (k' & _ & Hk' & Hp). apply Hk'. eapply perm_inj; eauto. }
  assert (HjM' : forall k, mk (<[j := true]> M) k <-> k = j \/ mk M k) by (intros; apply mk_insert; lia).
  destruct (lookup_lt_is_Some_2 x j) as [y Hy]; [lia|].
  assert (Hmv : move x i j = <[i := y]> x) by (unfold move; rewrite Hy; auto).
  assert (Hyl : l !! j = Some y) by (rewrite <- ii_out0; auto).
  assert (Hij : i <> j) by (intros ->; auto).
  assert (Hu : S (unmarked (<[j:=true]> M)) = unmarked M) by (apply unmarked_insert; auto; lia).
  destruct (IH start j (<[j := true]> M) (move x i j)) as (x' & M' & i' & HW & HI' & Hp & Hi' & Hle & Hmono).
  - rewrite Hmv. constructor.
    + rewrite insert_length; auto.
    + rewrite insert_length; auto.
    + apply HjM'; auto.
    + apply HjM'; auto.
    + intros k j' Hk Hkj Hkp. apply HjM' in Hk as [->|Hk]; [congruence|].
      destruct (decide (k = i)) as [->|Hki].
      * replace j' with j by congruence. split; [apply HjM'; auto|].
        rewrite list_lookup_insert by lia. auto.
      * destruct (ii_in0 k j' Hk Hki Hkp). split; [apply HjM'; auto|]. rewrite list_lookup_insert_ne by auto. auto.
    + intros k Hk. rewrite HjM' in Hk. assert (k <> i) by (intros ->; tauto). rewrite list_lookup_insert_ne by auto.
      apply ii_out0. tauto.
    + intros k Hk Hks. apply HjM' in Hk as [->|Hk].
      * exists i. split; [apply HjM'; auto|]. auto.
      * destruct (ii_pre0 k Hk Hks) as (k' & H1 & H2 & H3). exists k'. split; [apply HjM'; auto|].
        split; [|auto]. intros ->. auto.
  - auto.
  - lia.
  - exists x', M', i'. split; [auto|]. split; [auto|]. split; [auto|]. split; [auto|]. split; [lia|].
    intros k Hk. apply Hmono, HjM'; auto.
Qed.

Lemma first_false_spec (M : list bool) : match first_false M with
  | Some k => M !! k = Some false /\ forall j, j < k -> M !! j = Some true
  | None => forall k, k < length M -> M !! k = Some true end.
Proof.
  induction M as [|b M IH]; cbn. { intros; lia. }
  destruct b; cbn.
  - destruct (first_false M); cbn.
    + destruct IH as [H1 H2]. split; auto. intros [|j] Hj; cbn; auto. apply H2. lia.
    + intros [|k] Hk; cbn; auto. apply IH. lia.
  - split; auto. intros; lia.
Qed.

Lemma outer_ok fuel : forall start M x, inv_out M x -> unmarked M < fuel -> (forall k, k < start -> mk M k) ->
  exists x', outer lsave put (@move A) fuel perm start M x = Ok x' /\ x' = permute perm l.
Proof.
  induction fuel as [|f IH]; intros start M x HI Hf Hs; [lia|]. cbn [outer]. unfold find_min_unsorted.
  pose proof (first_false_spec (drop start M)) as HFF.
  destruct HI.
  assert (HplF : Forall (fun k => k < length l) perm).
  { apply List.Forall_forall. intros k Hk. rewrite Hperm in Hk. apply in_seq in Hk. fold n. lia. }
  destruct (first_false (drop start M)) as [k|]; cbn [option_map].
  2:{ exists x. split; auto. apply list_eq. intros i. rewrite permute_lookup by auto.
      destruct (decide (i < n)) as [Hi|Hi].
      - destruct (lookup_lt_is_Some_2 perm i) as [j Hj]; [rewrite perm_len; auto|]. rewrite Hj.
        apply io_in0; auto. destruct (decide (i < start)); [auto|]. unfold mk.
        specialize (HFF (i - start)). rewrite drop_length, lookup_drop in HFF. replace (start + (i - start)) with i in HFF by lia.
        apply HFF. lia.
      - rewrite !(proj2 (lookup_ge_None _ _)); auto; rewrite ?perm_len; lia. }
  rewrite lookup_drop in HFF. destruct HFF as [H1 H2]. set (s := start + k) in *.
  assert (Hsn : s < n). { rewrite <- io_len0. eapply lookup_lt_Some; eauto. }
  assert (HsM : ~ mk M s) by (unfold mk; congruence).
  assert (HMi : forall j, mk (<[s := true]> M) j <-> j = s \/ mk M j) by (intros; apply mk_insert; lia).
  pose proof (unmarked_insert M s ltac:(lia) HsM) as Hu.
  destruct (walk_ok (S (length perm)) s s (<[s := true]> M) x) as (x' & M' & i' & -> & HI' & Hp & Hi' & Hle & Hmono).
  - constructor.
    + rewrite insert_length; auto.
    + auto.
    + apply HMi; auto.
    + apply HMi; auto.
    + intros j j' Hj Hne Hjp. apply HMi in Hj as [->|Hj]; [congruence|]. destruct (io_in0 j j' Hj Hjp).
      split; [apply HMi; auto|auto].
    + intros j Hj. apply io_out0. rewrite HMi in Hj. tauto.
    + intros j Hj Hne. apply HMi in Hj as [->|Hj]; [congruence|]. destruct (io_pre0 j Hj) as (k' & Hk' & Hkp).
      exists k'. split; [apply HMi; auto|]. split; [intros ->; auto|auto].
  - auto.
  - pose proof (unmarked_le (<[s := true]> M)). rewrite insert_length, io_len0 in H. rewrite perm_len. lia.
  - cbn [rbind].
    assert (Hsv : lsave x s = l !! s) by (unfold lsave; apply io_out0; auto).
    destruct (lookup_lt_is_Some_2 l s Hsn) as [y Hy]. rewrite Hsv, Hy. cbn [put].
    destruct HI'. apply IH.
    + constructor.
      * auto.
      * rewrite insert_length; auto.
      * intros j j' Hj Hjp. destruct (decide (j = i')) as [->|Hne].
        { replace j' with s by congruence. split; auto. rewrite list_lookup_insert by lia. auto. }
        destruct (ii_in0 j j' Hj Hne Hjp). split; auto. rewrite list_lookup_insert_ne by auto. auto.
      * intros j Hj. rewrite list_lookup_insert_ne by (intros ->; auto). auto.
      * intros j Hj. destruct (decide (j = s)) as [->|Hne]; [exists i'; auto|].
        destruct (ii_pre0 j Hj Hne) as (k' & ? & ? & ?). eauto.
    + lia.
    + intros j Hj. apply Hmono, HMi. destruct (decide (j < start)); [auto|].
      right. specialize (H2 (j - start)). rewrite lookup_drop in H2. replace (start + (j - start)) with j in H2 by lia.
      apply H2. unfold s in Hj. lia.
Qed.
Lemma rearr_list : rearr lsave put (@move A) l n perm = Ok (permute perm l).
Proof.
  unfold rearr. destruct (outer_ok (S n) 0 (replicate n false) l) as (x' & -> & ->); auto.
  - constructor.
    + apply replicate_length.
    + auto.
    + unfold mk. intros k j Hk. apply lookup_replicate in Hk. destruct Hk; congruence.
    + auto.
    + unfold mk. intros k Hk. apply lookup_replicate in Hk. destruct Hk; congruence.
  - pose proof (unmarked_le (replicate n false)). rewrite replicate_length in H. lia.
  - intros; lia.
Qed.
End OnList.

Section Total.
Context {X R : Type} (save : X -> nat -> R) (restore : X -> nat -> R -> X) (mv : X -> nat -> nat -> X).
Lemma rearr_total x h perm : Permutation perm (seq 0 h) -> exists y, rearr save restore mv x h perm = Ok y.
Proof.
  intros Hp.
  pose proof (@rearr_sim X R unit unit save restore mv (fun _ _ => tt) (fun _ _ _ => tt) (fun _ _ _ => tt)
    (fun _ => tt) (fun _ => tt) (fun _ _ => eq_refl) (fun _ _ _ => eq_refl) (fun _ _ _ => eq_refl) x h perm) as H1.
  pose proof (@rearr_sim (list nat) (option nat) unit unit (fun x i => x !! i) put move (fun _ _ => tt) (fun _ _ _ => tt) (fun _ _ _ => tt)
    (fun _ => tt) (fun _ => tt) (fun _ _ => eq_refl) (fun _ _ _ => eq_refl) (fun _ _ _ => eq_refl) (seq 0 h) h perm) as H2.
  pose proof (rearr_list (seq 0 h) perm) as H3. rewrite seq_length in H3. rewrite (H3 Hp) in H2. cbn [rmap] in H2, H1.
  rewrite H2 in H1. destruct (rearr save restore mv x h perm); cbn [rmap] in H1; try discriminate. eauto.
Qed.
Context (P : X -> Prop) (Hmv : forall x i j, P x -> P (mv x i j)).
Context (Hre : forall x s x' i, P x -> P x' -> P (restore x' i (save x s))).
Lemma rearr_inv x h perm y : P x -> rearr save restore mv x h perm = Ok y -> P y.
Proof.
  assert (HW : forall fuel start i M x t, P x -> walk mv fuel perm start i M x = Ok t -> P t.1.1).
  { induction fuel as [|f IH]; cbn; intros start i M z t Hz Hw; [congruence|].
    destruct (perm !! i) as [j|]; [|congruence]. destruct (j =? start); [injection Hw as <-; auto|].
    destruct (j <? length M); [|congruence]. eapply IH; [|exact Hw]. auto. }
  assert (HO : forall fuel start M x y, P x -> outer save restore mv fuel perm start M x = Ok y -> P y).
  { induction fuel as [|f IH]; cbn [outer]; intros start M z w Hz Hw; [congruence|].
    destruct (find_min_unsorted M start) as [s|]; [|congruence].
    destruct (walk mv (S (length perm)) perm s s _ z) as [[[z' M'] i']| |] eqn:Ew; cbn [rbind] in Hw; try congruence.
    apply HW in Ew; [|auto]. cbn in Ew. eapply IH; [|exact Hw]. auto. }
  apply HO.
Qed.
End Total.

Section PageRearr.
Context {E : Type}.
Implicit Types p q : page E.

Definition olist {A} (o : option (list A)) : list A := match o with Some v => v | None => [] end.
Definition glist {A} (o : option (grid A)) : list (list A) := match o with Some g => ga g | None => [] end.

(** all parts present have [h] rows (row names aside) *)
Definition tall p (h : nat) : Prop :=
  (forall v, vect p = Some v -> length v = h) /\ (forall v, wts p = Some v -> length v = h) /\
  (forall m, mat p = Some m -> gr m = h /\ length (ga m) = h) /\ (forall t, txt p = Some t -> gr t = h /\ length (ga t) = h).

(** everything but the rows *)
Definition same_frame p q : Prop :=
  option_map (fun _ => tt) (vect q) = option_map (fun _ => tt) (vect p) /\
  option_map (fun _ => tt) (wts q) = option_map (fun _ => tt) (wts p) /\
  option_map (fun m => (gr m, gc m)) (mat q) = option_map (fun m => (gr m, gc m)) (mat p) /\
  option_map (fun m => (gr m, gc m)) (txt q) = option_map (fun m => (gr m, gc m)) (txt p) /\
  title (nms q) = title (nms p) /\ vecn (nms q) = vecn (nms p) /\ coln (nms q) = coln (nms p) /\ txtn (nms q) = txtn (nms p) /\
  rowh (nms q) = rowh (nms p) /\ colh (nms q) = colh (nms p) /\ txth (nms q) = txth (nms p) /\ err q = err p.

Lemma same_frame_move p p0 i j : same_frame p0 p -> same_frame p0 (move_row p i j).
Proof.
  destruct p as [v m w t n e], n. unfold same_frame, move_row; cbn.
  destruct v, m, w, t; cbn; auto.
Qed.
Lemma same_frame_put p p0 i r : same_frame p0 p -> same_frame p0 (put_row p i r).
Proof.
  destruct p as [v m w t n e], n. unfold same_frame, put_row; cbn.
  destruct v, m, w, t; cbn; auto.
Qed.
Lemma same_frame_refl p : same_frame p p.
Proof. unfold same_frame; auto 20. Qed.
Lemma same_frame_trans p q r : same_frame p q -> same_frame q r -> same_frame p r.
Proof. unfold same_frame. intuition congruence. Qed.

Lemma vect_sim p h perm : rearr (fun x i => x !! i) put move (olist (vect p)) h perm = rmap (fun q => olist (vect q)) (rearrange p h perm).
Proof.
  unfold rearrange. apply (rearr_sim _ _ _ _ _ _ (fun q : page E => olist (vect q)) (fun r : page E => row1 (vect r))).
  - intros x i. unfold row_view; cbn. destruct (vect x) as [v|]; cbn; auto. destruct (v !! i); auto.
  - intros x i r. unfold put_row; cbn. destruct (vect x) as [v|]; cbn; auto. destruct (row1 (vect r)); auto.
  - intros x i j. unfold move_row; cbn. destruct (vect x) as [v|]; cbn; auto.
Qed.
Lemma wts_sim p h perm : rearr (fun x i => x !! i) put move (olist (wts p)) h perm = rmap (fun q => olist (wts q)) (rearrange p h perm).
Proof.
  unfold rearrange. apply (rearr_sim _ _ _ _ _ _ (fun q : page E => olist (wts q)) (fun r : page E => row1 (wts r))).
  - intros x i. unfold row_view; cbn. destruct (wts x) as [v|]; cbn; auto. destruct (v !! i); auto.
  - intros x i r. unfold put_row; cbn. destruct (wts x) as [v|]; cbn; auto. destruct (row1 (wts r)); auto.
  - intros x i j. unfold move_row; cbn. destruct (wts x) as [v|]; cbn; auto.
Qed.
Lemma mat_sim p h perm : rearr (fun x i => x !! i) put move (glist (mat p)) h perm = rmap (fun q => glist (mat q)) (rearrange p h perm).
Proof.
  unfold rearrange. apply (rearr_sim _ _ _ _ _ _ (fun q : page E => glist (mat q)) (fun r : page E => grow1 (mat r))).
  - intros x i. unfold row_view; cbn. destruct (mat x) as [v|]; cbn; auto. destruct (ga v !! i); auto.
  - intros x i r. unfold put_row; cbn. destruct (mat x) as [v|]; cbn; auto. destruct (grow1 (mat r)); auto.
  - intros x i j. unfold move_row; cbn. destruct (mat x) as [v|]; cbn; auto.
Qed.
Lemma txt_sim p h perm : rearr (fun x i => x !! i) put move (glist (txt p)) h perm = rmap (fun q => glist (txt q)) (rearrange p h perm).
Proof.
  unfold rearrange. apply (rearr_sim _ _ _ _ _ _ (fun q : page E => glist (txt q)) (fun r : page E => grow1 (txt r))).
  - intros x i. unfold row_view; cbn. destruct (txt x) as [v|]; cbn; auto. destruct (ga v !! i); auto.
  - intros x i r. unfold put_row; cbn. destruct (txt x) as [v|]; cbn; auto. destruct (grow1 (txt r)); auto.
  - intros x i j. unfold move_row; cbn. destruct (txt x) as [v|]; cbn; auto.
Qed.
Lemma rown_sim p h perm : rearr (fun x i => x !! i) put move (rown (nms p)) h perm = rmap (fun q => rown (nms q)) (rearrange p h perm).
Proof.
  unfold rearrange. apply (rearr_sim _ _ _ _ _ _ (fun q : page E => rown (nms q)) (fun r : page E => row1 (Some (rown (nms r))))).
  - intros x i. unfold row_view; cbn. destruct (rown (nms x) !! i); auto.
  - intros x i r. unfold put_row; cbn. auto.
  - intros x i j. reflexivity.
Qed.

Lemma rearr_short {A} (l l' : list A) h perm : length l <= 1 -> rearr (fun x i => x !! i) put move l h perm = Ok l' -> l' = l.
Proof.
  intros Hl. apply (rearr_inv _ _ _ (fun x => x = l)); auto.
  - intros x i j ->. unfold move. destruct l as [|a [|b l]]; cbn in *; auto; try lia.
    destruct j; cbn; auto. destruct i; auto.
  - intros x s x' i -> ->. unfold put. destruct l as [|a [|b l]]; cbn in *; auto; try lia.
    destruct s; cbn; auto. destruct i; auto.
Qed.

Definition permute_opt {A} perm (o : option (list A)) := option_map (permute perm) o.
Definition permute_grid {A} perm (o : option (grid A)) := option_map (fun g => Gr (gr g) (gc g) (permute perm (ga g))) o.

Lemma rearrange_ok p h perm : tall p h -> Permutation perm (seq 0 h) ->
  exists q, rearrange p h perm = Ok q /\ same_frame p q /\
    vect q = permute_opt perm (vect p) /\ wts q = permute_opt perm (wts p) /\
    mat q = permute_grid perm (mat p) /\ txt q = permute_grid perm (txt p) /\
    (length (rown (nms p)) = h -> rown (nms q) = permute perm (rown (nms p))) /\
    (length (rown (nms p)) <= 1 -> rown (nms q) = rown (nms p)).
Proof.
  intros (Tv & Tw & Tm & Tt) Hp. destruct (rearr_total row_view put_row move_row p h perm Hp) as [q Hq].
  fold (rearrange p h perm) in Hq. exists q. split; auto.
  assert (HF : same_frame p q).
  { refine (rearr_inv _ _ _ (same_frame p) _ _ p h perm q (same_frame_refl p) Hq).
    - intros; apply same_frame_move; auto.
    - intros; apply same_frame_put; auto. }
  split; auto.
  assert (HL : forall A (l l' : list A), length l = h -> rearr (fun x i => x !! i) put move l h perm = Ok l' -> l' = permute perm l).
  { intros A l l' <- H. rewrite rearr_list in H by auto. congruence. }
  pose proof (vect_sim p h perm) as S1. pose proof (wts_sim p h perm) as S2. pose proof (mat_sim p h perm) as S3.
  pose proof (txt_sim p h perm) as S4. pose proof (rown_sim p h perm) as S5. rewrite Hq in *. cbn [rmap] in *.
  destruct HF as (F1 & F2 & F3 & F4 & _).
  split; [|split; [|split; [|split; [|split]]]].
  - destruct (vect p) as [v|], (vect q) as [v'|]; cbn in *; try congruence. f_equal. apply HL; auto.
  - destruct (wts p) as [v|], (wts q) as [v'|]; cbn in *; try congruence. f_equal. apply HL; auto.
  - destruct (mat p) as [[r c a]|], (mat q) as [[r' c' a']|]; cbn in *; try congruence. injection F3 as -> ->.
    f_equal. f_equal. apply HL; auto. apply (Tm _ eq_refl).
  - destruct (txt p) as [[r c a]|], (txt q) as [[r' c' a']|]; cbn in *; try congruence. injection F4 as -> ->.
    f_equal. f_equal. apply HL; auto. apply (Tt _ eq_refl).
  - intros Hn. apply HL; auto.
  - intros Hn. eapply rearr_short; eauto.
Qed.
End PageRearr.

Section PermLemmas.
Context {A : Type}.
Implicit Types l : list A.
Lemma permute_take n idxs l : Forall (fun k => k < length l) idxs -> permute (take n idxs) l = take n (permute idxs l).
Proof.
  intros H. revert n. induction H as [|k idxs Hk H IH]; intros [|n]; cbn; auto.
  destruct (lookup_lt_is_Some_2 l k Hk) as [x ->]. cbn. f_equal. apply IH.
Qed.
Lemma permute_drop n idxs l : Forall (fun k => k < length l) idxs -> permute (drop n idxs) l = drop n (permute idxs l).
Proof.
  intros H. revert n. induction H as [|k idxs Hk H IH]; intros [|n]; cbn; auto.
destruct (lookup_lt_is_Some_2 l k Hk) as [x ->]. cbn. apply IH.
Qed.
Lemma permute_permute perm idxs l : Forall (fun k => k < length l) idxs -> Forall (fun k => k < length idxs) perm ->
  permute perm (permute idxs l) = permute (permute perm idxs) l.
Proof.
  intros H1 H2. induction H2 as [|k perm Hk H IH]; auto. cbn.
  rewrite permute_lookup by auto. destruct (lookup_lt_is_Some_2 idxs k Hk) as [j Hj]. rewrite Hj. cbn.
  assert (Hjl : j < length l) by (rewrite Forall_lookup in H1; eauto).
  destruct (lookup_lt_is_Some_2 l j Hjl) as [x Hx]. rewrite Hx. cbn. f_equal. auto.
Qed.
Lemma permute_splice b s idxs l : Forall (fun k => k < length l) idxs -> Forall (fun k => k < length l) s ->
  permute (splice idxs b s) l = splice (permute idxs l) b (permute s l).
Proof.
  intros H1 H2. unfold splice. rewrite !permute_app, permute_take, permute_drop, permute_length by auto. auto.
Qed.
Lemma permute_In perm l x : In x (permute perm l) -> In x l.
Proof.
  unfold permute. intros H. apply elem_of_list_In, elem_of_list_omap in H as (k & _ & Hk).
  apply elem_of_list_In. eapply elem_of_list_lookup_2; eauto.
Qed.
End PermLemmas.
Lemma permute_perm {A} perm (l : list A) : Permutation perm (seq 0 (length l)) -> Permutation (permute perm l) l.
Proof.
  intros H. rewrite <- (permute_seq l) at 2. unfold permute. apply omap_Permutation. auto.
Qed.
Lemma perm_range {n perm} : Permutation perm (seq 0 n) -> Forall (fun k => k < n) perm.
Proof. intros H. rewrite H. apply List.Forall_forall. intros x Hx. apply in_seq in Hx. lia. Qed.
Lemma permute_len_perm {A} perm (l : list A) : Permutation perm (seq 0 (length l)) -> length (permute perm l) = length l.
Proof. intros H. apply Permutation_length, permute_perm; auto. Qed.

Section SortP.
Context {E : Type} (p0 : page E) (h0 : nat).
Implicit Types p q : page E.
Context (Tall : tall p0 h0).
Context (Wm : forall m, mat p0 = Some m -> wf_grid m) (Wt : forall t, txt p0 = Some t -> wf_grid t).

Definition sel_grid {A} (idxs : list nat) (o : option (grid A)) : option (grid A) :=
  option_map (fun g => Gr (length idxs) (gc g) (permute idxs (ga g))) o.
(** the page holds the rows of [p0] with these indices *)
Definition sim (idxs : list nat) p : Prop :=
  vect p = permute_opt idxs (vect p0) /\ wts p = permute_opt idxs (wts p0) /\
  mat p = sel_grid idxs (mat p0) /\ txt p = sel_grid idxs (txt p0) /\ rown (nms p) = [].
Definition inr (idxs : list nat) : Prop := Forall (fun k => k < h0) idxs.

Lemma sel_grid_len {A} (g : option (grid A)) idxs m : (forall m, g = Some m -> gr m = h0 /\ length (ga m) = h0) ->
  inr idxs -> sel_grid idxs g = Some m -> gr m = length idxs /\ length (ga m) = length idxs.
Proof.
  intros H Hi Hm. destruct g as [g0|]; cbn in Hm; [|congruence]. injection Hm as <-. cbn. split; auto.
  apply permute_length. destruct (H g0 eq_refl) as [_ ->]. auto.
Qed.
Lemma sim_tall idxs p : sim idxs p -> inr idxs -> tall p (length idxs).
Proof.
  intros (Hv & Hw & Hm & Ht & _) Hi. destruct Tall as (Tv & Tw & Tm & Tt). unfold tall. rewrite Hv, Hw, Hm, Ht. split; [|split; [|split]].
  - intros v Ev. destruct (vect p0) as [v0|] eqn:E0; cbn in Ev; [|congruence]. injection Ev as <-.
    apply permute_length. rewrite (Tv _ eq_refl). auto.
  - intros v Ev. destruct (wts p0) as [v0|] eqn:E0; cbn in Ev; [|congruence]. injection Ev as <-.
    apply permute_length. rewrite (Tw _ eq_refl). auto.
  - intros m Em. eapply sel_grid_len; eauto.
  - intros m Em. eapply sel_grid_len; eauto.
Qed.

Lemma perm_inr perm idxs : Permutation perm (seq 0 (length idxs)) -> inr idxs -> inr (permute perm idxs).
Proof.
  intros Hp Hi. unfold inr. rewrite (permute_perm perm idxs Hp). exact Hi.
Qed.

Lemma sel_permute {A} (g : option (grid A)) perm idxs : (forall m, g = Some m -> gr m = h0 /\ length (ga m) = h0) ->
  inr idxs -> Permutation perm (seq 0 (length idxs)) ->
  permute_grid perm (sel_grid idxs g) = sel_grid (permute perm idxs) g.
Proof.
  intros Hg Hi Hp. destruct g as [m|]; cbn; auto. destruct (Hg m eq_refl) as [_ Hl].
  rewrite permute_permute; [|rewrite Hl; auto|apply perm_range; auto].
  rewrite permute_len_perm by auto. auto.
Qed.
Lemma opt_permute {A} (o : option (list A)) perm idxs : (forall v, o = Some v -> length v = h0) ->
  inr idxs -> Permutation perm (seq 0 (length idxs)) ->
  permute_opt perm (permute_opt idxs o) = permute_opt (permute perm idxs) o.
Proof.
  intros Hg Hi Hp. destruct o as [v|]; cbn; auto. f_equal. apply permute_permute; [rewrite (Hg v eq_refl); auto|apply perm_range; auto].
Qed.

Lemma sim_rearrange idxs p perm : sim idxs p -> inr idxs -> Permutation perm (seq 0 (length idxs)) ->
  exists q, rearrange p (length idxs) perm = Ok q /\ sim (permute perm idxs) q /\ same_frame p q.
Proof.
  intros HS Hi Hp. pose proof (sim_tall _ _ HS Hi) as HT.
  destruct (rearrange_ok p (length idxs) perm HT Hp) as (q & Hq & HF & H1 & H2 & H3 & H4 & _ & H6).
  exists q. split; auto. split; auto. destruct HS as (Hv & Hw & Hm & Ht & Hn). destruct Tall as (Tv & Tw & Tm & Tt).
  unfold sim. rewrite H1, H2, H3, H4, Hv, Hw, Hm, Ht. rewrite H6 by (rewrite Hn; cbn; lia).
  rewrite !opt_permute, !sel_permute by auto. auto.
Qed.

Lemma inr_sub b len idxs : inr idxs -> inr (take len (drop b idxs)).
Proof. intros H. unfold inr in *. apply Forall_take, Forall_drop. auto. Qed.
Lemma view_vec_sim (o : option (list E)) idxs b len : (forall v, o = Some v -> length v = h0) -> inr idxs -> b + len <= length idxs ->
  view_vec (permute_opt idxs o) b len = permute_opt (take len (drop b idxs)) o.
Proof.
  intros Hg Hi Hb. destruct o as [v|]; cbn; auto. specialize (Hg v eq_refl).
  assert (Hf : Forall (fun k => k < length v) idxs) by (rewrite Hg; auto).
  rewrite permute_length by auto. replace (length idxs <? b + len) with false by lia.
  f_equal. rewrite permute_take, permute_drop; auto. apply Forall_drop; auto.
Qed.
Lemma sim_view idxs p b len : sim idxs p -> inr idxs -> b + len <= length idxs ->
  sim (take len (drop b idxs)) (view_rows p b len).
Proof.
  intros (Hv & Hw & Hm & Ht & Hn) Hi Hb. destruct Tall as (Tv & Tw & Tm & Tt). unfold sim, view_rows. cbn [vect wts mat txt nms rown].
  assert (Hlen : length (take len (drop b idxs)) = len) by (rewrite take_length, drop_length; lia).
  split; [|split; [|split; [|split]]].
  - rewrite Hv. apply view_vec_sim; auto.
  - rewrite Hw. apply view_vec_sim; auto.
  - rewrite Hm. destruct (mat p0) as [m|] eqn:Em; cbn; auto. destruct (Tm m eq_refl) as [T1 T2].
    replace (length idxs <? b + len) with false by lia. replace (gc m <? gc m) with false by lia. cbn [orb]. rewrite Hlen.
    f_equal. f_equal. assert (Hf : Forall (fun k => k < length (ga m)) idxs) by (rewrite T2; auto).
    rewrite permute_take, permute_drop by (auto; apply Forall_drop; auto).
    rewrite <- map_id. apply map_ext_in. intros r Hr. apply take_ge.
    destruct (Wm m eq_refl) as [_ W]. rewrite List.Forall_forall in W.
    rewrite (W r); auto. eapply permute_In. 
    rewrite <- permute_drop, <- permute_take in Hr; eauto. apply Forall_drop; auto.
  - rewrite Ht. destruct (txt p0) as [m|] eqn:Em; cbn; auto. destruct (Tt m eq_refl) as [T1 T2].
    replace (b + len <=? length idxs) with true by lia. rewrite Hlen.
    f_equal. f_equal. assert (Hf : Forall (fun k => k < length (ga m)) idxs) by (rewrite T2; auto).
    rewrite permute_take, permute_drop by (auto; apply Forall_drop; auto). auto.
  - rewrite Hn. rewrite drop_nil. apply take_nil.
Qed.
Lemma splice_len {A} (l : list A) b s : b + length s <= length l -> length (splice l b s) = length l.
Proof. intros H. unfold splice. rewrite !app_length, take_length, drop_length. lia. Qed.
Lemma sim_write_back idxs p b s q : sim idxs p -> inr idxs -> sim s q -> inr s -> b + length s <= length idxs ->
  sim (splice idxs b s) (write_back p b q) /\ same_frame p (write_back p b q).
Proof.
  intros (Hv & Hw & Hm & Ht & Hn) Hi (Qv & Qw & Qm & Qt & Qn) His Hb. destruct Tall as (Tv & Tw & Tm & Tt).
  split.
  - unfold sim, write_back; cbn [vect wts mat txt nms rown].
    rewrite Hv, Hw, Hm, Ht, Hn, Qv, Qw, Qm, Qt, Qn. split; [|split; [|split; [|split]]].
    + destruct (vect p0) as [v|] eqn:Ev; cbn; auto. rewrite permute_splice by (rewrite (Tv v eq_refl); auto). auto.
    + destruct (wts p0) as [v|] eqn:Ev; cbn; auto. rewrite permute_splice by (rewrite (Tw v eq_refl); auto). auto.
    + destruct (mat p0) as [v|] eqn:Ev; cbn; auto. rewrite permute_splice by (rewrite (proj2 (Tm v eq_refl)); auto). rewrite splice_len by auto. auto.
    + destruct (txt p0) as [v|] eqn:Ev; cbn; auto. rewrite permute_splice by (rewrite (proj2 (Tt v eq_refl)); auto). rewrite splice_len by auto. auto.
    + destruct b; auto.
  - unfold same_frame, write_back; cbn. rewrite Hv, Hw, Hm, Ht, Qv, Qw, Qm, Qt.
    destruct (vect p0), (wts p0), (mat p0), (txt p0); cbn; auto 20.
Qed.

(** pass2 on a list of indices *)
Section Pass2.
Context {V : Type} (get : page E -> nat -> option V) (end_eq bot_eq : V -> V -> bool) (sub : page E -> res (page E)).
Context (le1 : nat -> nat -> Prop) (rest : nat -> nat -> Prop) (val : nat -> option V).
Context (Hget : forall idxs p i x, sim idxs p -> inr idxs -> idxs !! i = Some x -> get p i = val x).
Context (Hval : forall x, x < h0 -> is_Some (val x)).
Context (le1_trans : forall x y z, x < h0 -> y < h0 -> z < h0 -> le1 x y -> le1 y z -> le1 x z).
Context (Hend : forall x y a b, x < h0 -> y < h0 -> val x = Some a -> val y = Some b -> (end_eq a b = true <-> le1 x y /\ le1 y x)).
Context (Hbot : forall x y a b, x < h0 -> y < h0 -> val x = Some a -> val y = Some b -> (bot_eq a b = true <-> le1 x y /\ le1 y x)).
Context (Hrefl : forall x, x < h0 -> le1 x x).
Context (Hsub : forall idxs p, sim idxs p -> inr idxs -> 0 < length idxs ->
   exists q idxs', sub p = Ok q /\ sim idxs' q /\ Permutation idxs' idxs /\ StronglySorted rest idxs').
Definition lt1 x y := le1 x y /\ ~ le1 y x.
Definition LEX x y := lt1 x y \/ (le1 x y /\ le1 y x) /\ rest x y.

Lemma SS_app {A} (R : A -> A -> Prop) (l1 l2 : list A) :
  StronglySorted R (l1 ++ l2) <-> StronglySorted R l1 /\ StronglySorted R l2 /\ (forall x y, In x l1 -> In y l2 -> R x y).
Proof.
  induction l1 as [|a l1 IH]; cbn.
  - split; [intros H; split; [constructor|split; [auto|tauto]]|tauto].
  - split.
    + intros H. inversion H as [|? ? H1 H2]; subst. apply IH in H1 as (H3 & H4 & H5).
      rewrite List.Forall_app in H2. destruct H2 as [H6 H7]. rewrite List.Forall_forall in H7.
      split; [constructor; auto|]. split; [auto|]. intros x y [->|Hx] Hy; auto.
    + intros (H1 & H2 & H3). inversion H1; subst. constructor.
      * apply IH. auto.
      * apply List.Forall_app. split; auto. apply List.Forall_forall. intros. apply H3; auto.
Qed.

Lemma run_sort p dn run todo : sim (dn ++ run ++ todo) p -> inr (dn ++ run ++ todo) -> run <> [] ->
  (forall x y, In x run -> In y run -> le1 x y) ->
  exists p' run', (if negb (length dn =? length (dn ++ run) - 1)
       then do q <- sub (view_rows p (length dn) (length (dn ++ run) - length dn)); Ok (write_back p (length dn) q) else Ok p) = Ok p' /\
     sim (dn ++ run' ++ todo) p' /\ Permutation run' run /\ StronglySorted LEX run' /\ same_frame p p'.
Proof.
  intros HS Hi Hne Heq. rewrite app_length.
  assert (Hlr : 0 < length run) by (destruct run; cbn; [congruence|lia]).
  destruct (Nat.eqb_spec (length dn) (length dn + length run - 1)) as [Hl|Hl]; cbn [negb].
  - exists p, run. split; auto. split; auto. split; auto. split; [|apply same_frame_refl].
    destruct run as [|a [|b run]]; cbn in *; try lia. repeat constructor.
  - replace (length dn + length run - length dn) with (length run) by lia.
    pose proof (sim_view _ _ (length dn) (length run) HS Hi ltac:(rewrite !app_length; lia)) as HV.
    rewrite drop_app, take_app in HV.
    assert (Hir : inr run). { unfold inr in *. rewrite !List.Forall_app in Hi. tauto. }
    destruct (Hsub _ _ HV Hir Hlr) as (q & run' & -> & HSq & HP & HSS). cbn [rbind].
    assert (Hir' : inr run') by (unfold inr in *; rewrite HP; auto).
    pose proof (Permutation_length HP) as HPl.
    destruct (sim_write_back _ _ (length dn) _ _ HS Hi HSq Hir' ltac:(rewrite !app_length; lia)) as [HW HF].
    exists (write_back p (length dn) q), run'. split; auto. split.
    { unfold splice in HW. rewrite take_app in HW. rewrite HPl in HW.
      rewrite drop_app_ge in HW by lia. replace (length dn + length run - length dn) with (length run) in HW by lia.
      rewrite drop_app in HW. auto. }
    split; auto. split; auto.
    clear - HSS HP Heq. assert (Heq' : forall x y, In x run' -> In y run' -> le1 x y).
    { intros x y Hx Hy. apply Heq; rewrite <- HP; auto. }
    clear HP Heq. induction HSS as [|a l H IH HF]; constructor.
    + apply IH. intros; apply Heq'; cbn; auto.
    + rewrite List.Forall_forall in HF |- *. intros y Hy. right. split; [split; apply Heq'; cbn; auto|auto].
Qed.

Lemma pass2_ok : forall todo dn run p lastx lastv, sim (dn ++ run ++ todo) p -> inr (dn ++ run ++ todo) ->
  (forall x y, In x run -> In y run -> le1 x y) -> In lastx run -> val lastx = Some lastv ->
  StronglySorted le1 (run ++ todo) -> StronglySorted LEX dn -> (forall x y, In x dn -> In y (run ++ todo) -> lt1 x y) ->
  exists q idxs', pass2 sub get end_eq bot_eq (S (length todo)) (length (dn ++ run ++ todo)) (length (dn ++ run)) (length dn) lastv p = Ok q /\
    sim idxs' q /\ Permutation idxs' (dn ++ run ++ todo) /\ StronglySorted LEX idxs' /\ same_frame p q.
Proof.
  induction todo as [|y todo IH]; intros dn run p lastx lastv HS Hi Heq Hin Hlv Hss Hdn Hx.
  - cbn [pass2 length]. rewrite app_nil_r in *. rewrite Nat.eqb_refl.
    destruct (run_sort p dn run [] ) as (p' & run' & Hr & HSp & HP & HSS & HF); rewrite ?app_nil_r; auto.
    { intros ->. inversion Hin. }
    rewrite Hr. rewrite app_nil_r in HSp. exists p', (dn ++ run'). split; auto. split; auto. split; [rewrite HP; auto|]. split; auto.
    apply SS_app. split; auto. split; auto. intros a b Ha Hb. left. apply Hx; auto. rewrite HP in Hb; auto.
  - assert (Hne : run <> []) by (intros ->; inversion Hin).
    assert (Hyr : y < h0). { unfold inr in Hi. rewrite !List.Forall_app in Hi. destruct Hi as (_ & _ & Hi). inversion Hi; auto. }
    assert (Hrr : forall x, In x run -> x < h0). { unfold inr in Hi. rewrite !List.Forall_app, !List.Forall_forall in Hi. intros x Hxr; destruct Hi as (_ & Hi & _); apply Hi; auto. }
    change (length (y :: todo)) with (S (length todo)).
    remember (S (length todo)) as lf eqn:Hlf. cbn [pass2]. subst lf. assert (length (dn ++ run) =? length (dn ++ run ++ y :: todo) = false) as -> by (rewrite !app_length; cbn; lia).
    assert (Hg : get p (length (dn ++ run)) = val y).
    { eapply Hget; [exact HS|auto|]. rewrite app_assoc. rewrite lookup_app_r by lia. rewrite Nat.sub_diag. auto. }
    destruct (Hval y Hyr) as [this Hthis]. rewrite Hg, Hthis.
    assert (Hlx : lastx < h0) by auto.
    pose proof (Hend y lastx this lastv Hyr Hlx Hthis Hlv) as He.
    pose proof (Hbot lastx y lastv this Hlx Hyr Hlv Hthis) as Hb.
    pose proof Hss as Hss'. apply SS_app in Hss' as (Hs1 & Hs2 & Hs3).
    destruct (end_eq this lastv) eqn:Ee.
    + (* same value: the run grows *)
      destruct (proj1 He eq_refl) as [E1 E2].
      assert (bot_eq lastv this = true) as -> by (apply Hb; auto). cbn [rbind].
      assert (Hassoc : dn ++ run ++ y :: todo = dn ++ (run ++ [y]) ++ todo) by (rewrite <- !app_assoc; auto).
      rewrite Hassoc in *. 
      destruct (IH dn (run ++ [y]) p y this) as (q & idxs' & Hq & HSq & HP & HL & HF); auto.
      * intros a b Ha Hb'. rewrite in_app_iff in Ha, Hb'. cbn in Ha, Hb'.
        assert (Hc : forall a, In a run -> le1 a y /\ le1 y a).
        { intros c Hc. split; eapply (le1_trans _ lastx); eauto. }
        destruct Ha as [Ha|[<-|[]]], Hb' as [Hb'|[<-|[]]]; auto; try apply Hc; auto.
      * apply in_app_iff. right; cbn; auto.
      * rewrite <- app_assoc. auto.
      * intros a b Ha Hb'. apply Hx; auto. rewrite <- app_assoc in Hb'. auto.
      * replace (length (dn ++ run ++ [y])) with (S (length (dn ++ run))) in Hq by (rewrite !app_length; cbn; lia).
        rewrite Hq. exists q, idxs'. auto.
    + (* a new value: the run is sorted *)
      assert (Hn : ~ (le1 y lastx /\ le1 lastx y)) by (intros H; apply He in H; congruence).
      assert (bot_eq lastv this = false) as ->.
      { destruct (bot_eq lastv this); auto. exfalso. apply Hn. destruct (proj1 Hb eq_refl); auto. }
      destruct (run_sort p dn run (y :: todo)) as (p' & run' & -> & HSp & HP & HSS & HF1); auto. cbn [rbind].
      assert (Hassoc : dn ++ run' ++ y :: todo = (dn ++ run') ++ [y] ++ todo) by (rewrite <- !app_assoc; auto).
      rewrite Hassoc in HSp.
      assert (HPall : Permutation ((dn ++ run') ++ [y] ++ todo) (dn ++ run ++ y :: todo)).
      { rewrite <- Hassoc. rewrite HP. auto. }
      assert (Hrun_lt : forall a b, In a run -> In b (y :: todo) -> lt1 a b).
      { intros a b Ha Hb'. assert (Hbr : b < h0). { unfold inr in Hi. rewrite !List.Forall_app, !List.Forall_forall in Hi. apply Hi; auto. }
        split; [apply Hs3; auto|]. intros Hba. apply Hn.
        assert (Hly : le1 lastx y) by (apply Hs3; cbn; auto).
        assert (Hyb : le1 y b). { destruct Hb' as [<-|Hb']; [auto|]. inversion Hs2; subst. rewrite List.Forall_forall in H2. auto. }
        split; auto. eapply le1_trans; [| | |exact Hyb|]; auto. eapply (le1_trans b a lastx); auto. }
      destruct (IH (dn ++ run') [y] p' y this) as (q & idxs' & Hq & HSq & HPq & HL & HF); auto.
      * unfold inr in *. rewrite HPall. auto.
      * intros a b [<-|[]] [<-|[]]. auto.
      * cbn; auto.
      * apply SS_app. split; auto. split; auto. intros a b Ha Hb'. left. rewrite HP in Hb'. apply Hx; auto. apply in_app_iff; auto.
      * intros a b Ha Hb'. apply in_app_iff in Ha as [Ha|Ha].
        -- apply Hx; auto. apply in_app_iff. auto.
        -- rewrite HP in Ha. apply Hrun_lt; auto.
      * pose proof (Permutation_length HPall) as HPl. rewrite HPl in Hq.
        pose proof (Permutation_length HP) as HPr.
        replace (length ((dn ++ run') ++ [y])) with (S (length (dn ++ run))) in Hq by (rewrite !app_length; cbn; lia).
        replace (length (dn ++ run')) with (length (dn ++ run)) in Hq by (rewrite !app_length; lia).
        rewrite Hq. exists q, idxs'. split; auto. split; auto. split; [rewrite HPq; auto|]. split; auto.
        eapply same_frame_trans; eauto.
Qed.
End Pass2.

End SortP.

(** ---- strings ---- *)
Lemma str_leb_refl a : str_leb a a = true.
Proof. induction a as [|c a IH]; cbn; auto. rewrite Nat.ltb_irrefl. auto. Qed.
Lemma str_leb_trans a : forall b c, str_leb a b = true -> str_leb b c = true -> str_leb a c = true.
Proof.
  induction a as [|x a IH]; intros [|y b] [|z c]; cbn; auto; try congruence.
  destruct (Nat.ltb_spec (nat_of_ascii x) (nat_of_ascii y)), (Nat.ltb_spec (nat_of_ascii y) (nat_of_ascii x)),
    (Nat.ltb_spec (nat_of_ascii y) (nat_of_ascii z)), (Nat.ltb_spec (nat_of_ascii z) (nat_of_ascii y)),
    (Nat.ltb_spec (nat_of_ascii x) (nat_of_ascii z)), (Nat.ltb_spec (nat_of_ascii z) (nat_of_ascii x));
    try lia; try congruence; auto. intros. eapply IH; eauto.
Qed.
Lemma str_leb_antisym a : forall b, str_leb a b = true -> str_leb b a = true -> a = b.
Proof.
  induction a as [|x a IH]; intros [|y b]; cbn; auto; try congruence.
  destruct (Nat.ltb_spec (nat_of_ascii x) (nat_of_ascii y)), (Nat.ltb_spec (nat_of_ascii y) (nat_of_ascii x)); try lia; try congruence.
  intros. assert (x = y) as ->.
  { rewrite <- (ascii_nat_embedding x), <- (ascii_nat_embedding y). f_equal. lia. }
  f_equal. auto.
Qed.
Lemma str_leb_total a : forall b, str_leb a b = true \/ str_leb b a = true.
Proof.
  induction a as [|x a IH]; intros [|y b]; cbn; auto.
  destruct (Nat.ltb_spec (nat_of_ascii x) (nat_of_ascii y)), (Nat.ltb_spec (nat_of_ascii y) (nat_of_ascii x)); auto.
Qed.
Lemma ci_leb_eq a b : ci_eq a b = true <-> ci_leb a b = true /\ ci_leb b a = true.
Proof.
  unfold ci_eq, ci_leb. rewrite String.eqb_eq. split.
  - intros ->. auto using str_leb_refl.
  - intros [H1 H2]. apply str_leb_antisym; auto.
Qed.

Section Keys.
Context {E : Type} (leb : E -> E -> bool).
Implicit Types p q : page E.

(** row x comes no later than row y by key k *)
Definition key_le p (k : key) (x y : nat) : Prop :=
  match num_col p k with
  | Some c => exists a b, c !! x = Some a /\ c !! y = Some b /\ leb a b = true
  | None => match str_col p k with
            | Some c => exists a b, c !! x = Some a /\ c !! y = Some b /\ ci_leb a b = true
            | None => False end
  end.
Fixpoint lex_le p (desc : bool) (keys : list key) (x y : nat) : Prop :=
  match keys with
  | [] => True
  | k :: rest =>
    let le := if desc then (fun x y => key_le p k y x) else key_le p k in
    (le x y /\ ~ le y x) \/ ((le x y /\ le y x) /\ lex_le p false rest x y)
  end.
Definition valid_key p h (k : key) : Prop :=
  match num_col p k, str_col p k with
  | Some c, _ => length c = h
  | None, Some c => length c = h
  | None, None => False end.
(** cells of a text key that differ only by case do not occur *)
Definition case_consistent p (k : key) : Prop :=
  forall c a b, str_col p k = Some c -> In a c -> In b c -> ci_eq a b = true -> a = b.

Lemma SS_of_permute {A} (R : A -> A -> Prop) (c : list A) l : Forall (fun k => k < length c) l ->
  StronglySorted R (permute l c) -> StronglySorted (fun x y => exists a b, c !! x = Some a /\ c !! y = Some b /\ R a b) l.
Proof.
  induction 1 as [|k l Hk H IH]; cbn; [constructor|].
  destruct (lookup_lt_is_Some_2 c k Hk) as [a Ha]. rewrite Ha. cbn. intros HS. inversion HS as [|? ? H1 H2]; subst.
  constructor; auto. rewrite List.Forall_forall in H2 |- *. intros y Hy.
  rewrite List.Forall_forall in H. destruct (lookup_lt_is_Some_2 c y (H y Hy)) as [b Hb].
  exists a, b. split; auto. split; auto. apply H2. apply elem_of_list_In, elem_of_list_omap. exists y.
  split; auto. apply elem_of_list_In; auto.
Qed.
Lemma SS_rev {A} (R : A -> A -> Prop) (l : list A) : StronglySorted R l -> StronglySorted (fun x y => R y x) (rev l).
Proof.
  induction 1 as [|a l H IH HF]; cbn; [constructor|]. apply SS_app. split; auto.
  split; [repeat constructor|]. intros x y Hx [<-|[]]. rewrite List.Forall_forall in HF. apply HF. rewrite in_rev; auto.
Qed.
Lemma permute_rev {A} l (c : list A) : permute (rev l) c = rev (permute l c).
Proof.
  induction l as [|k l IH]; [reflexivity|]. cbn [rev]. rewrite permute_app, IH. unfold permute; cbn. destruct (c !! k); cbn; auto. rewrite app_nil_r; auto.
Qed.
Lemma omap_full {A B} (f : A -> option B) (l : list A) : length (omap f l) = length l -> forall i, omap f l !! i = l !! i ≫= f.
Proof.
  induction l as [|a l IH]; intros Hl i; cbn in *; auto.
  destruct (f a) eqn:Ef; cbn in *.
  - destruct i; cbn; auto.
  - exfalso. assert (length (omap f l) <= length l) by (clear; induction l; cbn; auto; destruct (f a); cbn; lia). lia.
Qed.
Lemma column_permute {A} (m : grid A) j l r c : length (column_of m j) = length (ga m) ->
  column_of (Gr r c (permute l (ga m))) j = permute l (column_of m j).
Proof.
  unfold column_of; cbn. intros H. induction l as [|k l IH]; cbn; auto.
  rewrite (omap_full _ _ H k). destruct (ga m !! k) as [row|] eqn:Ek; cbn; auto.
  destruct (row !! j) eqn:Ej; cbn; [f_equal|]; auto.
Qed.
End Keys.

Section SortMain.
Context {E : Type} (leb : E -> E -> bool) (num_index : list E -> list nat) (str_index : list string -> list nat).
Context (leb_refl : forall a, leb a a = true) (leb_trans : forall a b c, leb a b = true -> leb b c = true -> leb a c = true).
Definition sorts {A} (le : A -> A -> bool) (ix : list A -> list nat) : Prop :=
  forall l, Permutation (ix l) (seq 0 (length l)) /\ StronglySorted (fun a b => le a b = true) (permute (ix l) l).
Context (Hnum : sorts leb num_index) (Hstr : sorts ci_leb str_index).
Context (p0 : page E) (h0 : nat) (Tall : tall p0 h0).
Context (Wm : forall m, mat p0 = Some m -> wf_grid m) (Wt : forall t, txt p0 = Some t -> wf_grid t).
Context (Hnon : rown (nms p0) = []).
Implicit Types p q : page E.
Notation SIM := (sim p0). Notation INR := (inr h0). Notation LE := (key_le leb p0).

Lemma sim_num_col idxs p k c : SIM idxs p -> num_col p0 k = Some c -> length c = h0 -> num_col p k = Some (permute idxs c).
Proof.
  intros (Hv & Hw & Hm & Ht & _) Hc Hl. destruct Tall as (_ & _ & Tm & _). destruct k; cbn in *.
  - rewrite Hv, Hc. auto.
  - rewrite Hw, Hc. auto.
  - rewrite Hm. destruct (mat p0) as [m|] eqn:Em; cbn in *; [|congruence]. injection Hc as <-. f_equal.
    apply (column_permute m j idxs 0 0). destruct (Tm m eq_refl). lia.
  - congruence.
  - congruence.
Qed.
Lemma sim_num_none idxs p k : SIM idxs p -> num_col p0 k = None -> num_col p k = None.
Proof.
  intros (Hv & Hw & Hm & Ht & _) Hc. destruct k; cbn in *; auto.
  - rewrite Hv, Hc. auto.
  - rewrite Hw, Hc. auto.
  - rewrite Hm. destruct (mat p0) as [m|] eqn:Em; cbn in *; congruence.
Qed.
Lemma sim_str_col idxs p k c : SIM idxs p -> str_col p0 k = Some c -> length c = h0 -> str_col p k = Some (permute idxs c).
Proof.
  intros (Hv & Hw & Hm & Ht & Hn) Hc Hl. destruct Tall as (_ & _ & _ & Tt). destruct k; cbn in *; try congruence.
  - rewrite Ht. destruct (txt p0) as [m|] eqn:Em; cbn in *; [|congruence]. injection Hc as <-. f_equal.
    apply (column_permute m j idxs 0 0). destruct (Tt m eq_refl). lia.
  - rewrite Hn. injection Hc as <-. rewrite Hnon. f_equal. clear. induction idxs; cbn; auto.
Qed.

Lemma sorted_last (le : nat -> nat -> Prop) l : (forall x y, le x y \/ ~ le x y) -> StronglySorted le l ->
  StronglySorted (fun x y => (le x y /\ ~ le y x) \/ ((le x y /\ le y x) /\ True)) l.
Proof.
  intros Hd. induction 1 as [|a l H IH HF]; constructor; auto.
  eapply List.Forall_impl; [|exact HF]. cbn. intros y Hy. destruct (Hd y a); auto.
Qed.
Lemma key_le_dec k x y : LE k x y \/ ~ LE k x y.
Proof.
  unfold key_le. destruct (num_col p0 k) as [c|].
  - destruct (c !! x) as [a|]; [|right; intros (? & ? & ? & _); congruence].
    destruct (c !! y) as [b|]; [|right; intros (? & ? & _ & ? & _); congruence].
    destruct (leb a b) eqn:El; [left; eauto|right]. intros (? & ? & [= <-] & [= <-] & ?). congruence.
  - destruct (str_col p0 k) as [c|]; [|tauto].
    destruct (c !! x) as [a|]; [|right; intros (? & ? & ? & _); congruence].
    destruct (c !! y) as [b|]; [|right; intros (? & ? & _ & ? & _); congruence].
    destruct (ci_leb a b) eqn:El; [left; eauto|right]. intros (? & ? & [= <-] & [= <-] & ?). congruence.
Qed.

Definition dle (desc : bool) k x y := if desc then LE k y x else LE k x y.

Lemma sort_ok : forall keys desc idxs p, keys <> [] ->
  Forall (valid_key p0 h0) keys -> Forall (case_consistent p0) (removelast keys) ->
  SIM idxs p -> INR idxs -> 0 < length idxs ->
  exists q idxs', sort_keys leb num_index str_index keys desc p = Ok q /\ SIM idxs' q /\ Permutation idxs' idxs /\
    StronglySorted (lex_le leb p0 desc keys) idxs' /\ same_frame p q.
Proof.
  induction keys as [|k rest IH]; intros desc idxs p Hne Hval Hcc HS Hi Hpos; [congruence|]. clear Hne.
  inversion Hval as [|? ? Hk Hrest]; subst.
  (* what the two kinds of key have in common *)
  assert (Hcommon : forall (perm : list nat), Permutation perm (seq 0 (length idxs)) ->
    StronglySorted (dle desc k) (permute perm idxs) ->
    forall V (get : page E -> nat -> option V) (end_eq bot_eq : V -> V -> bool) (val : nat -> option V),
    (rest <> [] -> forall idxs p i x, SIM idxs p -> INR idxs -> idxs !! i = Some x -> get p i = val x) ->
    (rest <> [] -> forall x, x < h0 -> is_Some (val x)) ->
    (rest <> [] -> forall x y a b, x < h0 -> y < h0 -> val x = Some a -> val y = Some b -> (end_eq a b = true <-> LE k x y /\ LE k y x)) ->
    (rest <> [] -> forall x y a b, x < h0 -> y < h0 -> val x = Some a -> val y = Some b -> (bot_eq a b = true <-> LE k x y /\ LE k y x)) ->
    (rest <> [] -> forall x y z, x < h0 -> y < h0 -> z < h0 -> LE k x y -> LE k y z -> LE k x z) ->
    (rest <> [] -> forall x, x < h0 -> LE k x x) ->
    exists q idxs',
      (do p1 <- rearrange p (length idxs) perm;
       match rest with
       | [] => Ok p1
       | _ => match get p1 0 with
              | None => UB
              | Some v0 => pass2 (sort_keys leb num_index str_index rest false) get end_eq bot_eq (length idxs) (length idxs) 1 0 v0 p1
              end
       end) = Ok q /\ SIM idxs' q /\ Permutation idxs' idxs /\ StronglySorted (lex_le leb p0 desc (k :: rest)) idxs' /\ same_frame p q).
  { intros perm Hperm Hsorted V get end_eq bot_eq val Hget Hv He Hb Htr Hrf.
    destruct (sim_rearrange p0 h0 Tall idxs p perm HS Hi Hperm) as (p1 & -> & HS1 & HF1). cbn [rbind].
    pose proof (permute_perm perm idxs Hperm) as HPp.
    pose proof (perm_inr h0 perm idxs Hperm Hi) as Hi1.
    set (ix1 := permute perm idxs) in *.
    assert (Hlex : forall x y, lex_le leb p0 desc (k :: rest) x y <->
       ((dle desc k x y /\ ~ dle desc k y x) \/ ((dle desc k x y /\ dle desc k y x) /\ lex_le leb p0 false rest x y))).
    { intros x y. cbn [lex_le]. unfold dle. destruct desc; reflexivity. }
    destruct rest as [|k2 rest'].
    - exists p1, ix1. split; auto. split; auto. split; auto. split; auto.
      assert (HSS : StronglySorted (fun x y => (dle desc k x y /\ ~ dle desc k y x) \/ ((dle desc k x y /\ dle desc k y x) /\ True)) ix1).
      { apply sorted_last; auto. intros x y. unfold dle. destruct desc; apply key_le_dec. }
      clear - HSS Hlex. induction HSS as [|a l H IH HF]; constructor; auto.
      eapply List.Forall_impl; [|exact HF]. intros y Hy. apply Hlex. exact Hy.
    - set (rest := k2 :: rest') in *. assert (Hnr : rest <> []) by (unfold rest; congruence).
      assert (Hl1 : length ix1 = length idxs) by (apply Permutation_length; auto).
      destruct ix1 as [|x0 todo] eqn:Eix; [cbn in Hl1; lia|].
      assert (Hx0 : x0 < h0) by (inversion Hi1; auto).
      rewrite (Hget Hnr _ _ 0 x0 HS1 Hi1 eq_refl). destruct (Hv Hnr x0 Hx0) as [v0 Hv0]. rewrite Hv0.
      pose proof (pass2_ok p0 h0 Tall Wm Wt get end_eq bot_eq (sort_keys leb num_index str_index rest false)
        (dle desc k) (lex_le leb p0 false rest) val (Hget Hnr) (Hv Hnr)) as HP2.
      destruct (HP2) with (todo := todo) (dn := @nil nat) (run := [x0]) (p := p1) (lastx := x0) (lastv := v0)
        as (q & idxs' & Hq & HSq & HPq & HL & HF).
      + intros x y z Hx Hy Hz. unfold dle. destruct desc; intros H1 H2; [eapply (Htr Hnr z y x)|eapply (Htr Hnr x y z)]; auto.
      + intros x y a b Hx Hy Ha Hb'. rewrite (He Hnr x y a b) by auto. unfold dle. destruct desc; tauto.
      + intros x y a b Hx Hy Ha Hb'. rewrite (Hb Hnr x y a b) by auto. unfold dle. destruct desc; tauto.
      + intros x Hx. unfold dle. destruct desc; apply (Hrf Hnr); auto.
      + intros ix p' HS' Hi' Hp'. destruct (IH false ix p') as (q & idxs' & H1 & H2 & H3 & H4 & _); auto.
        { inversion Hcc; auto. }
        exists q, idxs'. auto.
      + exact HS1.
      + exact Hi1.
      + intros x y [<-|[]] [<-|[]]. unfold dle. destruct desc; apply (Hrf Hnr); auto.
      + cbn; auto.
      + auto.
      + exact Hsorted.
      + constructor.
      + intros x y [].
      + cbn [app length] in Hq. cbn [length] in Hl1. rewrite <- Hl1.
        exists q, idxs'. split; [exact Hq|]. split; auto. split; [rewrite HPq; exact HPp|].
        split; [|eapply same_frame_trans; eauto].
        clear - HL Hlex. induction HL as [|a l H IH HF]; constructor; auto.
        eapply List.Forall_impl; [|exact HF]. intros y Hy. apply Hlex. exact Hy. }
  unfold valid_key in Hk. cbn [sort_keys].
  destruct (num_col p0 k) as [c|] eqn:Ec.
  - (* numeric key *)
    rewrite (sim_num_col idxs p k c HS Ec Hk).
    set (cc := permute idxs c). assert (Hcr : Forall (fun i => i < length c) idxs) by (rewrite Hk; auto).
    assert (Hlc : length cc = length idxs) by (apply permute_length; auto).
    destruct (Hnum cc) as [HP0 HSS0]. rewrite Hlc in HP0.
    set (perm := if desc then rev (num_index cc) else num_index cc).
    assert (HP : Permutation perm (seq 0 (length idxs))).
    { unfold perm. destruct desc; auto. rewrite <- Permutation_rev. auto. }
    assert (HSS : StronglySorted (dle desc k) (permute perm idxs)).
    { assert (Hir : Forall (fun i => i < length c) (permute perm idxs)) by (rewrite (permute_perm perm idxs HP); auto).
      unfold cc in HSS0. assert (HR : permute perm (permute idxs c) = permute (permute perm idxs) c).
      { apply permute_permute; auto. apply perm_range; auto. }
      unfold dle, key_le. rewrite Ec. unfold perm in *. destruct desc.
      - rewrite permute_rev in HR. apply SS_rev in HSS0. fold cc in HR, HSS0. rewrite HR in HSS0. 
        apply SS_of_permute in HSS0; auto. eapply StronglySorted_ind with (P := fun l => StronglySorted _ l); [constructor| |exact HSS0].
        intros a l Hl IHl HFa. constructor; auto. eapply List.Forall_impl; [|exact HFa]. cbn. intros y (a' & b' & ? & ? & ?). eauto.
      - fold cc in HR, HSS0. rewrite HR in HSS0. apply SS_of_permute in HSS0; auto. }
    rewrite Hlc. 
    apply (Hcommon perm HP HSS E (num_at k) (num_eqb leb) (num_eqb leb) (fun x => c !! x)).
    + intros _ ix p' i x HS' Hi' Hx. unfold num_at. rewrite (sim_num_col ix p' k c HS' Ec Hk).
      rewrite permute_lookup by (rewrite Hk; auto). rewrite Hx. auto.
    + intros _ x Hx. apply lookup_lt_is_Some_2. lia.
    + intros _ x y a b Hx Hy Ha Hb. unfold num_eqb, key_le. rewrite Ec, andb_true_iff. split.
      * intros [H1 H2]. split; eauto.
      * intros [(? & ? & H1 & H2 & ?) (? & ? & H3 & H4 & ?)]. rewrite Ha in *. rewrite Hb in *. split; congruence.
    + intros _ x y a b Hx Hy Ha Hb. unfold num_eqb, key_le. rewrite Ec, andb_true_iff. split.
      * intros [H1 H2]. split; eauto.
      * intros [(? & ? & H1 & H2 & ?) (? & ? & H3 & H4 & ?)]. rewrite Ha in *. rewrite Hb in *. split; congruence.
    + intros _ x y z _ _ _. unfold key_le. rewrite Ec. intros (a & b & H1 & H2 & H3) (b' & d & H4 & H5 & H6).
      exists a, d. split; auto. split; auto. apply (leb_trans a b d); congruence.
    + intros _ x Hx. unfold key_le. rewrite Ec. destruct (lookup_lt_is_Some_2 c x) as [a Ha]; [lia|]. eauto.
  - (* text key *)
    destruct (str_col p0 k) as [c|] eqn:Es; [|tauto].
    rewrite (sim_num_none idxs p k HS Ec). rewrite (sim_str_col idxs p k c HS Es Hk).
    set (cc := permute idxs c). assert (Hcr : Forall (fun i => i < length c) idxs) by (rewrite Hk; auto).
    assert (Hlc : length cc = length idxs) by (apply permute_length; auto).
    destruct (Hstr cc) as [HP0 HSS0]. rewrite Hlc in HP0.
    set (perm := if desc then rev (str_index cc) else str_index cc).
    assert (HP : Permutation perm (seq 0 (length idxs))).
    { unfold perm. destruct desc; auto. rewrite <- Permutation_rev. auto. }
    assert (HSS : StronglySorted (dle desc k) (permute perm idxs)).
    { assert (Hir : Forall (fun i => i < length c) (permute perm idxs)) by (rewrite (permute_perm perm idxs HP); auto).
      unfold cc in HSS0. assert (HR : permute perm (permute idxs c) = permute (permute perm idxs) c).
      { apply permute_permute; auto. apply perm_range; auto. }
      unfold dle, key_le. rewrite Ec, Es. unfold perm in *. destruct desc.
      - rewrite permute_rev in HR. apply SS_rev in HSS0. fold cc in HR, HSS0. rewrite HR in HSS0. 
        apply SS_of_permute in HSS0; auto. eapply StronglySorted_ind with (P := fun l => StronglySorted _ l); [constructor| |exact HSS0].
        intros a l Hl IHl HFa. constructor; auto. eapply List.Forall_impl; [|exact HFa]. cbn. intros y (a' & b' & ? & ? & ?). eauto.
      - fold cc in HR, HSS0. rewrite HR in HSS0. apply SS_of_permute in HSS0; auto. }
    rewrite Hlc. 
    assert (Hceq : rest <> [] -> case_consistent p0 k).
    { intros Hnr. destruct rest; [congruence|]. inversion Hcc; auto. }
    assert (Hkeq : forall x y a b, c !! x = Some a -> c !! y = Some b -> (LE k x y /\ LE k y x <-> ci_eq a b = true)).
    { intros x y a b Ha Hb. rewrite ci_leb_eq. unfold key_le. rewrite Ec, Es. split.
      - intros [(? & ? & H1 & H2 & ?) (? & ? & H3 & H4 & ?)]. rewrite Ha in *. rewrite Hb in *. split; congruence.
      - intros [H1 H2]. split; eauto. }
    apply (Hcommon perm HP HSS string (str_at k) ci_eq String.eqb (fun x => c !! x)).
    + intros _ ix p' i x HS' Hi' Hx. unfold str_at. rewrite (sim_str_col ix p' k c HS' Es Hk).
      rewrite permute_lookup by (rewrite Hk; auto). rewrite Hx. auto.
    + intros _ x Hx. apply lookup_lt_is_Some_2. lia.
    + intros _ x y a b Hx Hy Ha Hb. rewrite Hkeq by eauto. reflexivity.
    + intros Hnr x y a b Hx Hy Ha Hb. rewrite Hkeq by eauto. rewrite String.eqb_eq. split.
      * intros ->. apply ci_leb_eq. auto using str_leb_refl. unfold ci_leb. auto using str_leb_refl.
      * intros H. eapply (Hceq Hnr); eauto; apply elem_of_list_In; eapply elem_of_list_lookup_2; eauto.
    + intros _ x y z _ _ _. unfold key_le. rewrite Ec, Es. intros (a & b & H1 & H2 & H3) (b' & d & H4 & H5 & H6).
      exists a, d. split; auto. split; auto. unfold ci_leb in *. apply (str_leb_trans _ (lower_s b)); congruence.
    + intros _ x Hx. unfold key_le. rewrite Ec, Es. destruct (lookup_lt_is_Some_2 c x) as [a Ha]; [lia|].
      exists a, a. split; auto. split; auto. unfold ci_leb. apply str_leb_refl.
Qed.
End SortMain.
