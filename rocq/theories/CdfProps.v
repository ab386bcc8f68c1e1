(** C84: apop_cdf by draws.  Vocabulary in CdfSpec. *)
From Coq Require Import Reals Lra.
From Verif Require Import Base DataModel CdfModel CdfSpec.
Local Open Scope list_scope.

(** ** the invariant: a counter is at least the number of groups that share it *)
Definition shares (r : nat) (o : option group) : nat := match o with Some g => if g_rc g =? r then 1 else 0 | None => 0 end.
Fixpoint sharers (r : nat) (l : list (option group)) : nat := match l with [] => 0 | o :: l' => shares r o + sharers r l' end.
Lemma sharers_app r l l' : sharers r (l ++ l') = sharers r l + sharers r l'.
Proof. induction l; cbn; auto. lia. Qed.
Lemma sharers_insert r l : forall i o o', l !! i = Some o -> sharers r (<[i := o']> l) + shares r o = sharers r l + shares r o'.
Proof. induction l as [|x l IH]; intros [|i] o o' H; try discriminate; [injection H as ->; cbn; lia|]. specialize (IH _ _ o' H). change (<[S i := o']> (x :: l)) with (x :: <[i := o']> l). cbn [sharers]. lia. Qed.
Lemma sharers_in r l i o : l !! i = Some o -> shares r o <= sharers r l.
Proof. intros H. pose proof (sharers_insert r l i o None H). cbn in *. lia. Qed.
Definition inv (gs : list (option group)) (mats : list (option (list (list R)))) (rcs : list Z) : Prop :=
  (forall i g, gs !! i = Some (Some g) -> exists c, rcs !! g_rc g = Some c /\ (Z.of_nat (sharers (g_rc g) gs) <= c)%Z) /\
  (forall i g id, gs !! i = Some (Some g) -> g_made g = Some id -> exists rows, mats !! id = Some (Some rows)) /\
  (forall i j g h id, gs !! i = Some (Some g) -> gs !! j = Some (Some h) -> g_made g = Some id -> g_made h = Some id -> g_rc g = g_rc h).
Lemma lookup_ins {A} (l : list A) i j x y : <[i := x]> l !! j = Some y -> (i = j /\ x = y /\ (i < length l)%nat) \/ (i <> j /\ l !! j = Some y).
Proof. intros H. destruct (decide (i = j)) as [->|N]; [|right; rewrite list_lookup_insert_ne in H; auto]. assert (j < length l) by (apply lookup_lt_Some in H; now rewrite insert_length in H). rewrite list_lookup_insert in H by auto. injection H as ->. auto. Qed.
Lemma lookup_snoc {A} (l : list A) x j y : (l ++ [x]) !! j = Some y -> l !! j = Some y \/ (j = length l /\ x = y).
Proof. intros H. apply lookup_app_Some in H as [H|[L H]]; auto. destruct (j - length l) eqn:E; cbn in H; [injection H as ->; right; split; auto; lia|discriminate]. Qed.
(** dropping a group *)
Lemma inv_drop gs mats rcs i : inv gs mats rcs -> inv (<[i := None]> gs) mats rcs.
Proof.
  intros (A & B & C). repeat split.
  - intros j g H. apply lookup_ins in H as [(_ & [=] & _)|[N H]]. destruct (A j g H) as (c & E & L). exists c. split; auto. destruct (gs !! i) as [o|] eqn:Ei; [pose proof (sharers_insert (g_rc g) gs i o None Ei); cbn in *; lia|]. rewrite list_insert_ge; auto. apply lookup_ge_None_1 in Ei. lia.
  - intros j g id H. apply lookup_ins in H as [(_ & [=] & _)|[N H]]. eauto.
  - intros j k g h id H1 H2. apply lookup_ins in H1 as [(_ & [=] & _)|[N1 H1]]. apply lookup_ins in H2 as [(_ & [=] & _)|[N2 H2]]. eauto.
Qed.
(** freeing one *)
Lemma inv_free gs mats rcs i g id : inv gs mats rcs -> gs !! i = Some (Some g) -> g_made g = Some id -> exists c rows, rcs !! g_rc g = Some c /\ mats !! id = Some (Some rows) /\
  inv (<[i := None]> gs) (if (c - 1 =? 0)%Z then <[id := None]> mats else mats) (<[g_rc g := (c - 1)%Z]> rcs) /\ ((c - 1 = 0)%Z -> forall j h, j <> i -> gs !! j = Some (Some h) -> g_made h <> Some id).
Proof.
  intros (A & B & C) Hi Hm. destruct (A i g Hi) as (c & Ec & Lc). destruct (B i g id Hi Hm) as (rows & Er). exists c, rows. split; auto. split; auto.
  assert (Sh : forall r, sharers r (<[i := None]> gs) + (if g_rc g =? r then 1 else 0) = sharers r gs) by (intros r; pose proof (sharers_insert r gs i _ None Hi); cbn in *; lia).
  assert (Only : (c - 1 = 0)%Z -> forall j h, j <> i -> gs !! j = Some (Some h) -> g_made h <> Some id).
  { intros Z j h N Hj Hh. assert (E := C i j g h id Hi Hj Hm Hh). pose proof (sharers_in (g_rc g) (<[i := None]> gs) j (Some h)) as Q. rewrite list_lookup_insert_ne in Q by auto. specialize (Q Hj). cbn in Q. rewrite <- E, Nat.eqb_refl in Q. specialize (Sh (g_rc g)). rewrite Nat.eqb_refl in Sh. lia. }
  split; [|exact Only]. repeat split.
  - intros j h H. apply lookup_ins in H as [(_ & [=] & _)|[N H]]. destruct (A j h H) as (c' & E' & L'). specialize (Sh (g_rc h)). destruct (Nat.eqb_spec (g_rc g) (g_rc h)) as [E|E].
    + exists (c - 1)%Z. rewrite <- E. rewrite list_lookup_insert by (eapply lookup_lt_Some; eauto). split; auto. rewrite <- E in *. lia.
    + exists c'. rewrite list_lookup_insert_ne by auto. split; auto. lia.
  - intros j h id' H Hh. apply lookup_ins in H as [(_ & [=] & _)|[N H]]. destruct (B j h id' H Hh) as (r' & E'). exists r'. destruct (Z.eqb_spec (c - 1) 0) as [Z|Z]; auto. rewrite list_lookup_insert_ne; auto. intros ->. eapply Only; eauto.
  - intros j k h h' id' H1 H2. apply lookup_ins in H1 as [(_ & [=] & _)|[N1 H1]]. apply lookup_ins in H2 as [(_ & [=] & _)|[N2 H2]]. eauto.
Qed.
(** a new group *)
Lemma inv_fresh gs mats rcs i n : inv gs mats rcs -> inv (<[i := Some (Gp n None (length rcs))]> (<[i := None]> gs)) mats (rcs ++ [1%Z]).
Proof.
  intros I. pose proof (inv_drop gs mats rcs i I) as (A & B & C). set (gs' := <[i := None]> gs) in *. clearbody gs'. clear I. assert (Z0 : sharers (length rcs) gs' = 0).
  { destruct (sharers (length rcs) gs') eqn:E; auto. exfalso. assert (X : exists j h, gs' !! j = Some (Some h) /\ g_rc h = length rcs). { clear -E. revert n0 E. induction gs' as [|o l IH]; intros k E; cbn in E; [discriminate|]. destruct o as [h|]; cbn in E; [|destruct (IH _ E) as (j & h & H & Hr); exists (S j), h; auto]. destruct (Nat.eqb_spec (g_rc h) (length rcs)); [exists 0, h; auto|]. cbn in E. destruct (IH _ E) as (j & h' & H & Hr). exists (S j), h'. auto. } destruct X as (j & h & Hj & Hr). destruct (A j h Hj) as (c & Ec & _). apply lookup_lt_Some in Ec. lia. }
  assert (Sh : forall r, sharers r (<[i := Some (Gp n None (length rcs))]> gs') <= sharers r gs' + (if length rcs =? r then 1 else 0)). { intros r. destruct (gs' !! i) as [o|] eqn:Ei; [pose proof (sharers_insert r gs' i o (Some (Gp n None (length rcs))) Ei); cbn in *; lia|]. rewrite list_insert_ge; [lia|]. apply lookup_ge_None_1 in Ei. lia. }
  repeat split.
  - intros j g H. apply lookup_ins in H as [(_ & [= <-] & _)|[N H]].
    + cbn. exists 1%Z. rewrite lookup_app_r, Nat.sub_diag by lia. split; auto. specialize (Sh (length rcs)). rewrite Nat.eqb_refl in Sh. lia.
    + destruct (A j g H) as (c & Ec & L). pose proof (lookup_lt_Some _ _ _ Ec). exists c. rewrite lookup_app_l by auto. split; auto. specialize (Sh (g_rc g)). destruct (Nat.eqb_spec (length rcs) (g_rc g)); lia.
  - intros j g id H Hg. apply lookup_ins in H as [(_ & [= <-] & _)|[N H]]; [discriminate|eauto].
  - intros j k g h id H1 H2 E1 E2. apply lookup_ins in H1 as [(_ & [= <-] & _)|[N1 H1]]; [discriminate|]. apply lookup_ins in H2 as [(_ & [= <-] & _)|[N2 H2]]; [discriminate|eauto].
Qed.
(** one group more, with its counter *)
Lemma inv_copy gs mats rcs i g c : inv gs mats rcs -> gs !! i = Some (Some g) -> rcs !! g_rc g = Some c -> inv (gs ++ [Some g]) mats (<[g_rc g := (c + 1)%Z]> rcs).
Proof.
  intros (A & B & C) Hi Hc. assert (X : forall j h, (gs ++ [Some g]) !! j = Some (Some h) -> exists j', gs !! j' = Some (Some h)). { intros j h H. apply lookup_snoc in H as [H|[_ [= <-]]]; eauto. } repeat split.
  - intros j h H. apply X in H as (j' & H). destruct (A j' h H) as (c' & E' & L'). rewrite sharers_app. cbn. destruct (Nat.eqb_spec (g_rc g) (g_rc h)) as [E|E].
    + exists (c + 1)%Z. rewrite <- E in *. rewrite list_lookup_insert by (eapply lookup_lt_Some; eauto). split; auto. rewrite Hc in E'. injection E' as ->. lia.
    + exists c'. rewrite list_lookup_insert_ne by auto. split; auto. lia.
  - intros j h id H. apply X in H as (j' & H). eauto.
  - intros j k h h' id H1 H2. apply X in H1 as (j' & H1). apply X in H2 as (k' & H2). eauto.
Qed.
Lemma inv_none gs mats rcs : inv gs mats rcs -> inv (gs ++ [None]) mats rcs.
Proof.
  intros (A & B & C). assert (X : forall j h, (gs ++ [None]) !! j = Some (Some h) -> gs !! j = Some (Some h)). { intros j h H. apply lookup_snoc in H as [H|[_ [=]]]; eauto. } repeat split.
  - intros j h H. apply X in H. destruct (A j h H) as (c' & E' & L'). exists c'. split; auto. rewrite sharers_app. cbn. lia.
  - intros j h id H. apply X in H. eauto.
  - intros j k h h' id H1 H2. apply X in H1, H2. eauto.
Qed.
(** the draws *)
Lemma inv_draw gs mats rcs i g n rows : inv gs mats rcs -> gs !! i = Some (Some g) -> inv (<[i := Some (Gp n (Some (length mats)) (g_rc g))]> gs) (mats ++ [Some rows]) rcs.
Proof.
  intros (A & B & C) Hi. repeat split.
  - intros j h H. assert (Sh : forall r, sharers r (<[i := Some (Gp n (Some (length mats)) (g_rc g))]> gs) = sharers r gs) by (intros r; pose proof (sharers_insert r gs i _ (Some (Gp n (Some (length mats)) (g_rc g))) Hi); cbn in *; lia). rewrite Sh. apply lookup_ins in H as [(-> & [= <-] & _)|[N H]]; [exact (A _ _ Hi)|exact (A _ _ H)].
  - intros j h id H Hh. apply lookup_ins in H as [(-> & [= <-] & _)|[N H]]. + cbn in Hh. injection Hh as <-. exists rows. rewrite lookup_app_r, Nat.sub_diag by lia. reflexivity. + destruct (B j h id H Hh) as (r & E). exists r. rewrite lookup_app_l; auto. eapply lookup_lt_Some; eauto.
  - assert (X : forall j h, gs !! j = Some (Some h) -> g_made h <> Some (length mats)). { intros j h Hj Hh. destruct (B j h _ Hj Hh) as (r & E). apply lookup_lt_Some in E. lia. }
    intros j k h h' id H1 H2 E1 E2. apply lookup_ins in H1 as [(-> & [= <-] & _)|[N1 H1]], H2 as [(E & [= <-] & _)|[N2 H2]]; cbn in *; auto; [injection E1 as <-; exfalso; eapply X; eauto|injection E2 as <-; exfalso; eapply X; eauto|eauto].
Qed.
(** ** worlds *)
Section worlds.
Context {P G : Type} (draw : P -> G -> list R * G).
Notation world := (@world P G).
Definition grp (o : option (@model P)) : option group := match o with Some m => m_group m | None => None end.
Definition groups (w : world) : list (option group) := map grp (w_models w).
Definition inv_w (w : world) : Prop := inv (groups w) (w_mats w) (w_rcs w).
Lemma groups_live (w : world) i m : live w i m -> groups w !! i = Some (m_group m).
Proof. intros H. unfold groups. change (map ?f ?l) with (f <$> l). rewrite (list_lookup_fmap grp), H. reflexivity. Qed.
Lemma groups_insert (w : world) i o : map grp (<[i := o]> (w_models w)) = <[i := grp o]> (groups w).
Proof. apply (list_fmap_insert grp). Qed.
Lemma insert_same {A} (l : list A) i x : l !! i = Some x -> <[i := x]> l = l.
Proof. apply list_insert_id. Qed.
Lemma draws_move (w w' : world) i rows : (forall m, live w i m -> exists m', live w' i m' /\ m_group m' = m_group m) -> (forall id r, w_mats w !! id = Some (Some r) -> (exists m g, live w i m /\ m_group m = Some g /\ g_made g = Some id) -> w_mats w' !! id = Some (Some r)) -> draws_of w i rows -> draws_of w' i rows.
Proof. intros L M (m & g & id & Hl & Hg & Hm & Hr). destruct (L m Hl) as (m' & Hl' & Hg'). exists m', g, id. split; auto. split; [congruence|]. split; auto. apply M; eauto. Qed.
Lemma free_ok (w : world) i m : inv_w w -> live w i m -> exists w', match m_group m with Some g => free_group w g | None => Ok w end = Ok w' /\ w_models w' = w_models w /\ w_rng w' = w_rng w /\ inv (<[i := None]> (groups w)) (w_mats w') (w_rcs w') /\
  (forall j rows, j <> i -> draws_of w j rows -> draws_of w' j rows) /\ (forall id r, w_mats w' !! id = Some (Some r) -> w_mats w !! id = Some (Some r)).
Proof.
  intros I L. pose proof (groups_live w i m L) as Hg. destruct (m_group m) as [g|] eqn:Eg; [|exists w; split; [auto|]; split; [auto|]; split; [auto|]; split; [now apply inv_drop|auto]].
  unfold free_group. destruct (g_made g) as [id|] eqn:Em; [|exists w; split; [auto|]; split; [auto|]; split; [auto|]; split; [now apply inv_drop|auto]].
  destruct (inv_free _ _ _ i g id I Hg Em) as (c & rows & Ec & Er & I' & Only). rewrite Ec, Er. destruct (Z.eqb_spec (c - 1) 0) as [Z|Z].
  - eexists. split; [reflexivity|]. cbn. split; [auto|]. split; [auto|]. split; [exact I'|]. split.
    + intros j r N. apply draws_move. { intros m' H. eauto. } cbn. intros id' r' H (m' & g' & Hl & Hg' & Hm'). rewrite list_lookup_insert_ne; auto. intros ->. eapply (Only Z j g' N); eauto. rewrite <- Hg'. now apply groups_live.
    + intros id' r H. apply lookup_ins in H as [(_ & [=] & _)|[_ H]]. auto.
  - eexists. split; [reflexivity|]. cbn. split; [auto|]. split; [auto|]. split; [exact I'|]. auto.
Qed.
Lemma live_ins (w : world) i o j m mats rcs (s : G) : live w j m -> j <> i -> live (Wo (<[i := o]> (w_models w)) mats rcs s) j m.
Proof. unfold live. cbn. intros H N. rewrite list_lookup_insert_ne; auto. Qed.
Lemma free_model_ok (w : world) i m : inv_w w -> live w i m -> exists w', free_model w i = Ok w' /\ inv_w w' /\ (forall j rows, j <> i -> draws_of w j rows -> draws_of w' j rows) /\ (forall id r, w_mats w' !! id = Some (Some r) -> w_mats w !! id = Some (Some r)).
Proof.
  intros I L. unfold free_model. rewrite L. destruct (free_ok w i m I L) as (w1 & E & M & _ & I1 & D & Mt). rewrite E. cbn [rbind]. eexists. split; [reflexivity|]. split; [unfold inv_w, groups; cbn; rewrite M, groups_insert; exact I1|]. split; [|exact Mt].
  intros j rows N H. apply D in H; auto. revert H. apply draws_move; cbn; auto. intros m' Hl. exists m'. split; auto. apply live_ins; auto.
Qed.
Lemma add_group_ok (w : world) i m n : inv_w w -> live w i m -> exists w', add_group w i n = Ok w' /\ inv_w w' /\ (forall j rows, j <> i -> draws_of w j rows -> draws_of w' j rows) /\ (forall id r, w_mats w' !! id = Some (Some r) -> w_mats w !! id = Some (Some r)) /\
  w_rng w' = w_rng w /\ live w' i (Mo (m_par m) (m_dsize m) (Some (Gp (if n =? 0 then N.to_nat 10000 else n) None (length (w_rcs w'  ) - 1)))).
Proof.
  intros I L. unfold add_group. rewrite L. destruct (free_ok w i m I L) as (w1 & E & M & Rg & I1 & D & Mt). rewrite E. cbn [rbind]. eexists. split; [reflexivity|]. split.
  { unfold inv_w, groups. cbn. rewrite M, groups_insert. cbn. apply (inv_fresh _ _ _ i (if n =? 0 then N.to_nat 10000 else n)) in I1. rewrite !list_insert_insert in I1. exact I1. } split; [|split; [exact Mt|split; [exact Rg|]]].
  - intros j rows N H. apply D in H; auto. revert H. apply draws_move; cbn; auto. intros m' Hl. exists m'. split; auto. apply live_ins; auto.
  - unfold live. cbn. rewrite list_lookup_insert by (rewrite M; eapply lookup_lt_Some; eauto). rewrite app_length. cbn. repeat f_equal. lia.
Qed.
Lemma copy_ok (w : world) i m : inv_w w -> live w i m -> exists w', copy_model w i = Ok w' /\ inv_w w' /\ (forall j rows, draws_of w j rows -> draws_of w' j rows) /\ (forall id r, w_mats w' !! id = Some (Some r) -> w_mats w !! id = Some (Some r)) /\ live w' (length (w_models w)) m /\ w_mats w' = w_mats w.
Proof.
  intros I L. unfold copy_model. rewrite L. pose proof (groups_live w i m L) as Hg.
  assert (D : forall rcs j rows, draws_of w j rows -> draws_of (Wo (w_models w ++ [Some m]) (w_mats w) rcs (w_rng w)) j rows). { intros rcs j rows. apply draws_move; auto. intros m' Hl. exists m'. split; auto. unfold live in *. cbn. apply lookup_app_l_Some. auto. }
  assert (Lv : forall rcs, live (Wo (w_models w ++ [Some m]) (w_mats w) rcs (w_rng w)) (length (w_models w)) m). { intros rcs. unfold live. cbn. rewrite lookup_app_r, Nat.sub_diag by lia. reflexivity. }
  assert (Gr : map grp (w_models w ++ [Some m]) = groups w ++ [m_group m]) by (unfold groups; rewrite map_app; reflexivity).
  destruct (m_group m) as [g|] eqn:Eg.
  - destruct I as (A & B & C). destruct (A i g Hg) as (c & Ec & Lc). rewrite Ec. cbn [rbind]. eexists. split; [reflexivity|]. split; [|repeat split; auto]. unfold inv_w, groups. cbn [w_models w_mats w_rcs]. rewrite Gr. eapply inv_copy; eauto. repeat split; auto.
  - cbn [rbind]. eexists. split; [reflexivity|]. split; [|repeat split; auto]. unfold inv_w, groups. cbn [w_models w_mats w_rcs]. rewrite Gr. now apply inv_none.
Qed.
Lemma par_ok (w : world) i m p : inv_w w -> live w i m -> exists w', set_par w i p = Ok w' /\ inv_w w' /\ (forall j rows, draws_of w j rows -> draws_of w' j rows) /\ w_mats w' = w_mats w.
Proof.
  intros I L. unfold set_par. rewrite L. eexists. split; [reflexivity|]. split; [|split; [|reflexivity]].
  - unfold inv_w, groups. cbn [w_models w_mats w_rcs]. rewrite groups_insert. cbn [grp m_group]. rewrite insert_same by (now apply groups_live). exact I.
  - intros j rows. apply draws_move; auto. intros m' Hl. destruct (decide (j = i)) as [->|N]; [|exists m'; split; auto; now apply live_ins]. unfold live in *. cbn. rewrite list_lookup_insert by (eapply lookup_lt_Some; eauto). rewrite L in Hl. injection Hl as <-. eexists. split; reflexivity.
Qed.
Lemma new_ok (w : world) p d : inv_w w -> inv_w (new_model w p d) /\ (forall j rows, draws_of w j rows -> draws_of (new_model w p d) j rows).
Proof.
  intros I. split. { unfold inv_w, groups. cbn. rewrite map_app. now apply inv_none. } intros j rows. apply draws_move; auto. intros m' Hl. exists m'. split; auto. unfold live in *. cbn. apply lookup_app_l_Some. auto.
Qed.
(** ** counting *)
Lemma lte_ok v : forall ref, (length v <= length ref)%nat -> exists b, lte v ref = Ok b /\ (b = true <-> below v ref).
Proof.
  induction v as [|x v IH]; intros ref H; cbn [lte]. { exists true. split; auto. split; auto. intros _ k y r Hk. rewrite lookup_nil in Hk. discriminate. }
  destruct ref as [|r ref]; cbn in H; [lia|]. destruct (Rlt_dec r x) as [D|D].
  - exists false. split; auto. split; [discriminate|]. intros B. specialize (B 0 x r eq_refl eq_refl). lra.
  - destruct (IH ref ltac:(lia)) as (b & E & Hb). exists b. split; auto. rewrite Hb. split.
    + intros B [|k] y q Hy Hq; [injection Hy as <-; injection Hq as <-; lra|]. eapply (B k); eauto.
    + intros B k y q Hy Hq. apply (B (S k)); auto.
Qed.
Lemma tally_ok ref rows : Forall (fun v => length v <= length ref)%nat rows -> forall k0, exists k, tally rows ref k0 = Ok (k0 + k)%nat /\ count_below ref rows k.
Proof.
  induction 1 as [|v rows Hv H IH]; intros k0; cbn [tally]. { exists 0. split; [f_equal; lia|constructor]. } destruct (lte_ok v ref Hv) as (b & E & Hb). rewrite E. cbn [rbind]. destruct b.
  - destruct (IH (S k0)) as (k & E' & C). exists (S k). split; [rewrite E'; f_equal; lia|]. constructor; auto. now apply Hb.
  - destruct (IH k0) as (k & E' & C). exists k. split; auto. apply count_no; auto. intros B. apply Hb in B. discriminate.
Qed.
Lemma count_le ref rows k : count_below ref rows k -> (k <= length rows)%nat.
Proof. induction 1; cbn; lia. Qed.
Lemma count_all ref rows k : count_below ref rows k -> (k = length rows <-> Forall (fun v => below v ref) rows).
Proof. induction 1 as [|v rows k B C IH|v rows k B C IH]; cbn; [split; auto|rewrite Forall_cons_iff; rewrite <- IH; split; [intros; split; auto; lia|intros [_ ->]; auto]|]. pose proof (count_le _ _ _ C). split; [lia|]. intros F. apply Forall_cons_iff in F. tauto. Qed.
Lemma count_mono ref ref' rows k k' : (length ref = length ref' -> below ref ref') -> length ref = length ref' -> count_below ref rows k -> count_below ref' rows k' -> (k <= k')%nat.
Proof.
  intros Hb L C. specialize (Hb L). revert k'. assert (T : forall v, below v ref -> below v ref'). { intros v B i x r Hx Hr. destruct (lookup_lt_is_Some_2 ref i) as [y Hy]; [apply lookup_lt_Some in Hr; lia|]. specialize (B i x y Hx Hy). specialize (Hb i y r Hy Hr). lra. }
  induction C as [|v rows k B C IH|v rows k B C IH]; intros k' C'; inversion C'; subst; try (match goal with H : count_below ref' rows _ |- _ => apply IH in H end); auto; try lia; exfalso; auto.
Qed.
Lemma draw_many_len p n s : length (fst (draw_many draw p n s)) = n.
Proof. revert s. induction n as [|n IH]; intros s; cbn; auto. destruct (draw p s) as [x s1]. specialize (IH s1). destruct (draw_many draw p n s1) as [r s2]. cbn in *. lia. Qed.
Lemma draw_many_all (Q : list R -> Prop) p n s : (forall s, Q (fst (draw p s))) -> Forall Q (fst (draw_many draw p n s)).
Proof. intros H. revert s. induction n as [|n IH]; intros s; cbn; auto. pose proof (H s) as H0. destruct (draw p s) as [x s1]. specialize (IH s1). destruct (draw_many draw p n s1) as [r s2]. cbn in *. constructor; auto. Qed.
(** ** one call of apop_cdf *)
Lemma cdf_ok (w : world) i m ref n : (forall p s, length (fst (draw p s)) = n) -> (forall id r, w_mats w !! id = Some (Some r) -> Forall (fun v => length v = n) r) -> inv_w w -> live w i m ->
  exists w', inv_w w' /\ (forall id r, w_mats w' !! id = Some (Some r) -> Forall (fun v => length v = n) r) /\ (forall j rows, draws_of w j rows -> draws_of w' j rows) /\
    ((m_dsize m = 0%nat /\ cdf draw w i ref = Ok (None, w') /\ (forall g, m_group m = Some g -> g_made g = None)) \/
     (exists rows, draws_of w' i rows /\ cdf draw w i ref = (do k <- tally rows ref 0; Ok ((if (length rows =? 0)%nat then None else Some (INR k / INR (length rows))%R), w')) /\
       ((draws_of w i rows /\ w' = w) \/ (exists d, (forall g, m_group m = Some g -> g_made g = None /\ d = g_draws g) /\ (m_group m = None -> d = N.to_nat 10000) /\ (rows, w_rng w') = draw_many draw (m_par m) d (w_rng w))))).
Proof.
  intros Hd Hm I L. unfold cdf. rewrite L.
  assert (W1 : exists w1 g, match m_group m with Some _ => Ok w | None => add_group w i 0 end = Ok w1 /\ inv_w w1 /\ live w1 i (Mo (m_par m) (m_dsize m) (Some g)) /\ (forall id r, w_mats w1 !! id = Some (Some r) -> Forall (fun v => length v = n) r) /\ (forall j rows, draws_of w j rows -> draws_of w1 j rows) /\ w_rng w1 = w_rng w /\
    (forall g', m_group m = Some g' -> g = g' /\ w1 = w) /\ (m_group m = None -> g_draws g = N.to_nat 10000 /\ g_made g = None)).
  { destruct (m_group m) as [g|] eqn:Eg.
    - exists w, g. split; auto. split; auto. split; [destruct m; cbn in *; subst; auto|]. split; auto. split; auto. split; auto. split; [intros ? [= <-]; auto|discriminate].
    - destruct (add_group_ok w i m 0 I L) as (w1 & E & I1 & D1 & M1 & R1 & L1). cbn in L1. exists w1. eexists. split; [exact E|]. split; [auto|]. split; [exact L1|]. split; [eauto|]. split; [|split; [auto|split; [discriminate|cbn; auto]]].
      intros j rows H. apply D1; auto. intros ->. destruct H as (m' & g & id & Hl & Hg & _). unfold live in L, Hl. rewrite L in Hl. injection Hl as <-. congruence. }
  destruct W1 as (w1 & g & E1 & I1 & L1 & M1 & D1 & R1 & G1 & G2). rewrite E1. cbn [rbind]. rewrite L1. pose proof (groups_live _ _ _ L1) as Hg1. cbn in Hg1. destruct (g_made g) as [id|] eqn:Em.
  - destruct I1 as (A & B & C). destruct (B i g id Hg1 Em) as (rows & Er). rewrite Er. exists w1. split; [repeat split; auto|]. split; [auto|]. split; [auto|]. right. assert (Dr : draws_of w1 i rows) by (eexists _, g, id; cbn; eauto). exists rows. split; [auto|]. split; [reflexivity|]. left. destruct (m_group m) as [g'|] eqn:Eg'; [destruct (G1 _ eq_refl) as [-> ->]; auto|]. destruct (G2 eq_refl). congruence.
  - destruct (Nat.eqb_spec (m_dsize m) 0) as [Z|Z].
    { exists w1. split; [auto|]. split; [auto|]. split; [auto|]. left. split; auto. split; auto. intros g' Hg'. destruct (G1 _ Hg') as [-> _]. auto. }
    destruct (draw_many draw (m_par m) (g_draws g) (w_rng w1)) as [rows s'] eqn:Ed. cbn [w_mats]. rewrite lookup_app_r, Nat.sub_diag by lia. cbn [lookup list_lookup]. assert (F : Forall (fun v => length v = n) rows). { change rows with (fst (rows, s')). rewrite <- Ed. now apply draw_many_all. } exists (Wo (<[i := Some (Mo (m_par m) (m_dsize m) (Some (Gp (g_draws g) (Some (length (w_mats w1))) (g_rc g))))]> (w_models w1)) (w_mats w1 ++ [Some rows]) (w_rcs w1) s').
    assert (Li : (i < length (w_models w1))%nat) by (eapply lookup_lt_Some; exact L1).
    split. { unfold inv_w, groups. cbn [w_models w_mats w_rcs]. rewrite groups_insert. cbn [grp m_group]. now apply inv_draw. }
    split. { cbn. intros id r H. apply lookup_snoc in H as [H|[_ [= <-]]]; eauto. }
    split. { intros j rs H. apply D1 in H. destruct (decide (j = i)) as [->|N]. - destruct H as (m' & g' & id & Hl & Hg & Hmd & _). unfold live in L1, Hl. rewrite L1 in Hl. injection Hl as <-. cbn in Hg. injection Hg as <-. congruence. - revert H. apply draws_move; [intros m' Hl; exists m'; split; auto; now apply live_ins|]. cbn. intros id r Hr _. rewrite lookup_app_l; auto. eapply lookup_lt_Some; eauto. }
    right. exists rows. split. { eexists _, _, _. split; [unfold live; cbn; rewrite list_lookup_insert by auto; reflexivity|]. cbn. split; [reflexivity|]. split; [reflexivity|]. rewrite lookup_app_r, Nat.sub_diag by lia. reflexivity. }
    split; [reflexivity|]. right. exists (g_draws g). split; [intros g' Hg'; destruct (G1 _ Hg') as [-> _]; auto|]. split; [intros H; apply G2; auto|]. cbn. rewrite <- R1. auto.
Qed.
Lemma run_ok n (w : world) c w' : (forall p s, length (fst (draw p s)) = n) -> inv_w w -> (forall id r, w_mats w !! id = Some (Some r) -> Forall (fun v => length v = n) r) -> run draw w c = Ok w' -> inv_w w' /\ (forall id r, w_mats w' !! id = Some (Some r) -> Forall (fun v => length v = n) r) /\ (forall i rows, spares i c -> draws_of w i rows -> draws_of w' i rows).
Proof.
  intros Hd I M E. assert (Lv : forall i, (w_models w !! i = Some None \/ w_models w !! i = None) \/ exists m, live w i m). { intros i. unfold live. destruct (w_models w !! i) as [[m|]|]; eauto. }
  destruct c as [p d|i p|i k|i|i|i ref]; cbn in E.
  - injection E as <-. destruct (new_ok w p d I) as [A B]. split; auto.
  - destruct (Lv i) as [X|(m & L)]. { exfalso. unfold set_par in E. destruct X as [X|X]; rewrite X in E; discriminate. } destruct (par_ok w i m p I L) as (w1 & E1 & I1 & D1 & M1). rewrite E in E1. injection E1 as <-. split; auto. split; [rewrite M1; auto|auto].
  - destruct (Lv i) as [X|(m & L)]. { exfalso. unfold add_group in E. destruct X as [X|X]; rewrite X in E; discriminate. } destruct (add_group_ok w i m k I L) as (w1 & E1 & I1 & D1 & M1 & _). rewrite E in E1. injection E1 as <-. split; auto. split; [eauto|]. intros j rows Sp. apply D1. cbn in Sp. auto.
  - destruct (Lv i) as [X|(m & L)]. { exfalso. unfold free_model in E. destruct X as [X|X]; rewrite X in E; discriminate. } destruct (free_model_ok w i m I L) as (w1 & E1 & I1 & D1 & M1). rewrite E in E1. injection E1 as <-. split; auto. split; [eauto|]. intros j rows Sp. apply D1. cbn in Sp. auto.
  - destruct (Lv i) as [X|(m & L)]. { exfalso. unfold copy_model in E. destruct X as [X|X]; rewrite X in E; discriminate. } destruct (copy_ok w i m I L) as (w1 & E1 & I1 & D1 & M1 & _). rewrite E in E1. injection E1 as <-. split; auto. split; [eauto|]. auto.
  - destruct (Lv i) as [X|(m & L)]. { exfalso. unfold cdf in E. destruct X as [X|X]; rewrite X in E; discriminate. } destruct (cdf_ok w i m ref n Hd M I L) as (w1 & I1 & M1 & D1 & [(_ & E1 & _)|(rows & _ & E1 & _)]); rewrite E1 in E; cbn in E; [injection E as <-; auto|]. destruct (tally rows ref 0); cbn in E; [injection E as <-; auto|discriminate|discriminate].
Qed.
End worlds.
(** ** the theorems *)
Section C84.
Context {P G : Type} (draw : P -> G -> list R * G) (n : nat).
Notation world := (@world P G).
Hypothesis draw_size : forall p s, length (fst (draw p s)) = n.
Lemma reached_inv (w : world) : reached draw w -> inv_w w /\ (forall id r, w_mats w !! id = Some (Some r) -> Forall (fun v => length v = n) r).
Proof.
  induction 1 as [s|w c w' H [I M] E]. { split; [repeat split; intros; cbn in *; rewrite lookup_nil in *; discriminate|]. cbn. intros id r H. rewrite lookup_nil in H. discriminate. } destruct (run_ok draw n w c w' draw_size I M E) as (I' & M' & _). auto.
Qed.
(** after any history no call on a live model reads or frees draws that are gone *)
Theorem C84_safe (w : world) i m : reached draw w -> live w i m -> (exists w', free_model w i = Ok w') /\ (exists w', copy_model w i = Ok w') /\ (forall k, exists w', add_group w i k = Ok w') /\ (forall ref, (n <= length ref)%nat -> exists v w', cdf draw w i ref = Ok (v, w')).
Proof.
  intros H L. destruct (reached_inv w H) as [I M]. split; [destruct (free_model_ok w i m I L) as (w' & E & _); eauto|]. split; [destruct (copy_ok w i m I L) as (w' & E & _); eauto|]. split; [intros k; destruct (add_group_ok w i m k I L) as (w' & E & _); eauto|].
  intros ref Hn. destruct (cdf_ok draw w i m ref n draw_size M I L) as (w' & I' & M' & D & [(_ & E & _)|(rows & Dr & E & _)]); [eauto|]. assert (F : Forall (fun v => length v = n) rows) by (destruct Dr as (m' & g & id & _ & _ & _ & Hr); eauto). destruct (tally_ok ref rows) with (k0 := 0) as (k & Ek & _). { eapply Forall_impl; eauto. cbn. lia. } rewrite Ek in E. cbn in E. eauto.
Qed.
(** the value: the share of the draws that are below the point; draws are made at the first call only, from the parameters of that time, as many as the settings say *)
Theorem C84_share (w : world) i m ref v w' : reached draw w -> live w i m -> (n <= length ref)%nat -> m_dsize m <> 0%nat -> cdf draw w i ref = Ok (v, w') ->
  exists rows k, draws_of w' i rows /\ count_below ref rows k /\ (rows <> [] -> v = Some (INR k / INR (length rows))%R /\ (0 <= INR k / INR (length rows) <= 1)%R) /\
    (draws_of w i rows /\ w' = w \/ (forall r, ~ draws_of w i r) /\ exists d, length rows = d /\ (forall g, m_group m = Some g -> d = g_draws g) /\ (m_group m = None -> d = N.to_nat 10000) /\ (rows, w_rng w') = draw_many draw (m_par m) d (w_rng w)).
Proof.
  intros H L Hn Hd E. destruct (reached_inv w H) as [I M]. destruct (cdf_ok draw w i m ref n draw_size M I L) as (w1 & I' & M' & D & [(Z & _)|(rows & Dr & E1 & Old)]); [contradiction|]. assert (F : Forall (fun v => length v = n) rows) by (destruct Dr as (m' & g & id & _ & _ & _ & Hr); eauto). destruct (tally_ok ref rows) with (k0 := 0) as (k & Ek & C). { eapply Forall_impl; eauto. cbn. lia. }
  rewrite E1, Ek in E. cbn in E. injection E as <- <-. exists rows, k. split; [auto|]. split; [auto|]. split.
  - intros N. assert (P0 : (0 < length rows)%nat) by (destruct rows; [contradiction|cbn; lia]). destruct (Nat.eqb_spec (length rows) 0); [lia|]. split; auto. apply count_le in C. apply le_INR in C. apply lt_INR in P0. cbn in P0. pose proof (pos_INR k). split; [apply Rmult_le_pos; [lra|left; apply Rinv_0_lt_compat; lra]|]. apply (Rmult_le_reg_r (INR (length rows))); [lra|]. unfold Rdiv. rewrite Rmult_assoc, Rinv_l by lra. lra.
  - destruct Old as [O|(d & G1 & G2 & Ed)]; [left; auto|]. right. split.
    + intros r (m' & g & id & Hl & Hg & Hm & _). unfold live in L, Hl. rewrite L in Hl. injection Hl as <-. destruct (G1 g Hg). congruence.
    + exists d. split; [change rows with (fst (rows, w_rng w1)); rewrite Ed; apply draw_many_len|]. split; [intros g Hg; apply G1; auto|]. auto.
Qed.
(** a distribution function: monotone, and one just above all draws *)
Theorem C84_monotone (w : world) i m ref ref' v v' w1 w2 : reached draw w -> live w i m -> (n <= length ref)%nat -> length ref = length ref' -> below ref ref' -> m_dsize m <> 0%nat -> cdf draw w i ref = Ok (Some v, w1) -> cdf draw w1 i ref' = Ok (Some v', w2) -> (v <= v')%R /\ w2 = w1 /\ (forall rows, draws_of w1 i rows -> (v = 1%R <-> Forall (fun r => below r ref) rows)).
Proof.
  intros H L Hn Hl Hb Hd E1 E2. assert (H1 : reached draw w1). { eapply (reached_call draw w (Cdf i ref)); eauto. cbn. rewrite E1. reflexivity. }
  destruct (C84_share w i m ref (Some v) w1 H L Hn Hd E1) as (rows & k & D & C & V & _). assert (L1 : exists m1, live w1 i m1 /\ m_dsize m1 = m_dsize m).
  { clear -L E1. unfold cdf in E1. unfold live in *. rewrite L in E1. destruct (match m_group m with Some _ => Ok w | None => add_group w i 0 end) as [wa| |] eqn:Ea; try discriminate. cbn [rbind] in E1.
    assert (La : exists g, w_models wa !! i = Some (Some (Mo (m_par m) (m_dsize m) (Some g))) \/ wa = w). { destruct (m_group m) as [g|] eqn:Eg; [injection Ea as <-; exists g; auto|]. unfold add_group in Ea. rewrite L in Ea. rewrite Eg in Ea. cbn [rbind] in Ea. injection Ea as <-. cbn. eexists. left. rewrite list_lookup_insert by (eapply lookup_lt_Some; eauto). reflexivity. }
    destruct (w_models wa !! i) as [[[p ds [g|]]|]|] eqn:Ew; try discriminate. assert (Eds : ds = m_dsize m). { destruct La as (g' & [La|La]); [injection La as -> -> ->; auto|]. subst wa. rewrite L in Ew. injection Ew as ->. reflexivity. } subst ds.
    destruct (g_made g) as [id|].
    - destruct (w_mats wa !! id) as [[rows|]|]; try discriminate. destruct (tally rows ref 0); try discriminate. cbn in E1. injection E1 as _ <-. eauto.
    - destruct (m_dsize m =? 0); [discriminate|]. destruct (draw_many _ _ _ _) as [rows s]. cbn [w_mats] in E1. rewrite lookup_app_r, Nat.sub_diag in E1 by lia. cbn [lookup list_lookup] in E1. destruct (tally _ _ _); try discriminate. cbn in E1. injection E1 as _ <-. cbn. rewrite list_lookup_insert by (eapply lookup_lt_Some; eauto). eexists. split; [reflexivity|reflexivity]. }
  destruct L1 as (m1 & L1 & Hd1). destruct (C84_share w1 i m1 ref' (Some v') w2 H1 L1 ltac:(lia) ltac:(congruence) E2) as (rows' & k' & D' & C' & V' & Old). assert (Same : rows' = rows /\ w2 = w1).
  { destruct D as (m2 & g & id & Hl2 & Hg & Hm & Hr). destruct Old as [[(m3 & g3 & id3 & Hl3 & Hg3 & Hm3 & Hr3) ->]|[N _]]; [|exfalso; apply (N rows); eexists _, _, _; eauto]. unfold live in Hl2, Hl3. rewrite Hl2 in Hl3. injection Hl3 as <-. rewrite Hg in Hg3. injection Hg3 as <-. rewrite Hm in Hm3. injection Hm3 as <-. rewrite Hr in Hr3. injection Hr3 as <-. auto. }
  destruct Same as [-> ->]. assert (Ne : rows <> []). { intros ->. inversion C; subst. clear V V' C C' Old. destruct D as (m2 & g & id & Hl2 & Hg & Hm & Hr). unfold cdf in E2. unfold live in Hl2, L1. rewrite L1 in Hl2. injection Hl2 as <-. rewrite L1, Hg in E2. cbn [rbind] in E2. rewrite L1 in E2. destruct m1 as [p1 d1 g1]. cbn in Hg. subst g1. rewrite Hm, Hr in E2. cbn in E2. discriminate. }
  assert (P0 : (0 < INR (length rows))%R) by (apply (lt_INR 0); destruct rows; [contradiction|cbn; lia]). destruct (V Ne) as [[= ->] _]. destruct (V' Ne) as [[= ->] _]. split.
  - apply Rmult_le_compat_r; [left; apply Rinv_0_lt_compat; auto|]. apply le_INR. eapply count_mono; [intros _; exact Hb|auto|exact C|exact C'].
  - split; auto. intros rs Drs. assert (rs = rows). { destruct D as (m2 & g & id & Hl2 & Hg & Hm & Hr). destruct Drs as (m3 & g3 & id3 & Hl3 & Hg3 & Hm3 & Hr3). unfold live in Hl2, Hl3. rewrite Hl2 in Hl3. injection Hl3 as <-. rewrite Hg in Hg3. injection Hg3 as <-. rewrite Hm in Hm3. injection Hm3 as <-. rewrite Hr in Hr3. injection Hr3 as <-. auto. } subst rs. rewrite <- (count_all ref rows k C). split.
    + intros Q. apply INR_eq. apply (Rmult_eq_reg_r (/ INR (length rows))); [|apply Rinv_neq_0_compat; lra]. rewrite Rinv_r by lra. exact Q.
    + intros ->. field. lra.
Qed.
(** the draws stay those of the model through any calls that do not free it or set its group anew, and go to its copies *)
Theorem C84_kept (w w' : world) i rows : reached draw w -> draws_of w i rows -> later draw i w w' -> draws_of w' i rows.
Proof.
  intros H D La. revert H D. induction La as [w|w c w' w'' Sp E La IH]; intros H D; auto. destruct (reached_inv w H) as [I M]. destruct (run_ok draw n w c w' draw_size I M E) as (_ & _ & K). apply IH; [eapply reached_call; eauto|auto].
Qed.
Theorem C84_copy (w w' : world) i rows : reached draw w -> draws_of w i rows -> copy_model w i = Ok w' -> draws_of w' (length (w_models w)) rows /\ draws_of w' i rows.
Proof.
  intros H D E. destruct (reached_inv w H) as [I M]. pose proof D as (m & g & id & L & Hg & Hm & Hr). destruct (copy_ok w i m I L) as (w1 & E1 & I1 & D1 & _ & L1 & M1). rewrite E in E1. injection E1 as <-. split; [|auto]. exists m, g, id. rewrite M1. auto.
Qed.
(** so the same point has the same value at any later time *)
Theorem C84_same (w w1 w2 : world) i m ref v : reached draw w -> live w i m -> (n <= length ref)%nat -> m_dsize m <> 0%nat -> cdf draw w i ref = Ok (Some v, w1) -> later draw i w1 w2 -> cdf draw w2 i ref = Ok (Some v, w2).
Proof.
  intros H L Hn Hd E La. assert (H1 : reached draw w1). { eapply (reached_call draw w (Cdf i ref)); eauto. cbn. rewrite E. reflexivity. }
  destruct (reached_inv w H) as [I M]. destruct (cdf_ok draw w i m ref n draw_size M I L) as (wx & _ & _ & _ & [(Z & _)|(rows & Dr & Ex & _)]); [contradiction|]. rewrite Ex in E. destruct (tally rows ref 0) as [k| |] eqn:Et; try discriminate. cbn in E. injection E as Ev ->. pose proof (C84_kept w1 w2 i rows H1 Dr La) as (m2 & g & id & L2 & Hg & Hm & Hr).
  unfold cdf. unfold live in L2. rewrite L2, Hg. cbn [rbind]. rewrite L2. destruct m2 as [p2 d2 g2]. cbn in Hg. subst g2. rewrite Hm, Hr, Et. cbn. rewrite Ev. reflexivity.
Qed.
End C84.

(** ** what does not hold *)
Definition point_draw (p : R) (s : unit) : list R * unit := ([p], s).
Lemma reach_run {P G} (draw : P -> G -> list R * G) w c w' : reached draw w -> run draw w c = Ok w' -> reached draw w'.
Proof. intros. eapply reached_call; eauto. Qed.
(** new parameters, old draws: a point mass at 0 moved to 5 still has all its mass below 1/2 *)
Theorem C84_refuted_stale : ~ (forall (w : @world R unit) i m ref v w', reached point_draw w -> live w i m -> m_dsize m = length ref -> cdf point_draw w i ref = Ok (Some v, w') -> (forall s, ~ below (fst (point_draw (m_par m) s)) ref) -> v = 0%R).
Proof.
  intros H. set (g := Gp 1 (Some 0) 0). set (w1 := Wo [Some (Mo 0%R 1 (Some g))] [Some [[0%R]]] [1%Z] tt). set (w2 := Wo [Some (Mo 5%R 1 (Some g))] [Some [[0%R]]] [1%Z] tt). assert (Q : forall m0 : list (option (@model R)), (if Rlt_dec (1 / 2) 0 then @Ok bool false else Ok true) = Ok true). { intros _. destruct (Rlt_dec (1 / 2) 0); [lra|reflexivity]. }
  assert (R2 : reached point_draw w2). { apply (reach_run point_draw w1 (Par 0 5%R)); [|reflexivity]. apply (reach_run point_draw (Wo [Some (Mo 0%R 1 (Some (Gp 1 None 0)))] [] [1%Z] tt) (Cdf 0 [(1 / 2)%R])). 2: { cbn. rewrite (Q []). reflexivity. } apply (reach_run point_draw (Wo [Some (Mo 0%R 1 None)] [] [] tt) (Add 0 1)); [|reflexivity]. apply (reach_run point_draw (Wo [] [] [] tt) (New 0%R 1)); [|reflexivity]. constructor. }
  assert (E : cdf point_draw w2 0 [(1 / 2)%R] = Ok (Some (INR 1 / INR 1)%R, w2)). { cbn. rewrite (Q []). reflexivity. } specialize (H w2 0 _ [(1 / 2)%R] _ _ R2 eq_refl eq_refl E). cbn in H. assert (X : (1 / 1 = 0)%R); [|lra]. apply H. intros s B. specialize (B 0 5%R (1 / 2)%R eq_refl eq_refl). lra.
Qed.
(** draws made after a copy are not freed with the last of the models *)
Theorem C84_refuted_leak : ~ (forall w : @world R unit, reached point_draw w -> (forall i m, ~ live w i m) -> forall id rows, w_mats w !! id <> Some (Some rows)).
Proof.
  intros H. assert (Q : (if Rlt_dec (1 / 2) 0 then @Ok bool false else Ok true) = Ok true). { destruct (Rlt_dec (1 / 2) 0); [lra|reflexivity]. }
  set (g := Gp 1 (Some 0) 0). assert (R2 : reached point_draw (Wo [None; None] [Some [[0%R]]] [1%Z] tt)). { apply (reach_run point_draw (Wo [None; Some (Mo 0%R 1 (Some (Gp 1 None 0)))] [Some [[0%R]]] [1%Z] tt) (Free 1)); [|reflexivity]. apply (reach_run point_draw (Wo [Some (Mo 0%R 1 (Some g)); Some (Mo 0%R 1 (Some (Gp 1 None 0)))] [Some [[0%R]]] [2%Z] tt) (Free 0)); [|reflexivity]. apply (reach_run point_draw (Wo [Some (Mo 0%R 1 (Some (Gp 1 None 0))); Some (Mo 0%R 1 (Some (Gp 1 None 0)))] [] [2%Z] tt) (Cdf 0 [(1 / 2)%R])). 2: { cbn. rewrite Q. reflexivity. }
    apply (reach_run point_draw (Wo [Some (Mo 0%R 1 (Some (Gp 1 None 0)))] [] [1%Z] tt) (Copy 0)); [|reflexivity]. apply (reach_run point_draw (Wo [Some (Mo 0%R 1 None)] [] [] tt) (Add 0 1)); [|reflexivity]. apply (reach_run point_draw (Wo [] [] [] tt) (New 0%R 1)); [|reflexivity]. constructor. }
  specialize (H _ R2). apply (H ltac:(intros [|[|i]] m L; unfold live in L; cbn in L; rewrite ?lookup_nil in L; discriminate) 0 [[0%R]]). reflexivity.
Qed.
(** a case: a model with its draws, reached *)
Example C84_nonvacuous : exists w m, reached point_draw w /\ live w 0 m /\ m_dsize m <> 0%nat /\ draws_of w 0 [[0%R]].
Proof.
  set (g := Gp 1 (Some 0) 0). assert (Q : (if Rlt_dec (1 / 2) 0 then @Ok bool false else Ok true) = Ok true). { destruct (Rlt_dec (1 / 2) 0); [lra|reflexivity]. }
  exists (Wo [Some (Mo 0%R 1 (Some g))] [Some [[0%R]]] [1%Z] tt), (Mo 0%R 1 (Some g)). split; [|split; [reflexivity|split; [cbn; lia|eexists _, g, 0; repeat split; reflexivity]]]. apply (reach_run point_draw (Wo [Some (Mo 0%R 1 (Some (Gp 1 None 0)))] [] [1%Z] tt) (Cdf 0 [(1 / 2)%R])). 2: { cbn. rewrite Q. reflexivity. } apply (reach_run point_draw (Wo [Some (Mo 0%R 1 None)] [] [] tt) (Add 0 1)); [|reflexivity]. apply (reach_run point_draw (Wo [] [] [] tt) (New 0%R 1)); [|reflexivity]. constructor.
Qed.
Print Assumptions C84_safe. Print Assumptions C84_share. Print Assumptions C84_monotone. Print Assumptions C84_kept. Print Assumptions C84_copy. Print Assumptions C84_same. Print Assumptions C84_refuted_stale. Print Assumptions C84_refuted_leak.
