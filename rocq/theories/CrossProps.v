(** C42: cross models (transform/apop_cross.c). *)
From Verif Require Import DataModel TransModel.
Local Open Scope list_scope.
Local Open Scope nat_scope.

Section C42.
  Context {C A : Type} (op : A -> A -> A).
  Notation cheap := (list (cnode C)).
  (** ---------- specification ---------- *)
  (** a data set: a chain of pages at these addresses, that ends *)
  Inductive path (h : cheap) : option nat -> list nat -> Prop :=
  | path_nil : path h None []
  | path_cons a n l : h !! a = Some n -> path h (cmore n) l -> path h (Some a) (a :: l).
  Definition page_of (n : cnode C) : cpage C := CP (ctitle n) (ccols n) (cbody n).
  Definition pages_at (h : cheap) (l : list nat) (ps : list (cpage C)) : Prop := Forall2 (fun a p => exists n, h !! a = Some n /\ page_of n = p) l ps.
  Definition has_title (t : string) (p : cpage C) : bool := match pgtitle p with Some s => ci_eq s t | None => false end.
  (** the pages before the first of that title, and the others *)
  Fixpoint upto (t : string) (l : list (cpage C)) := match l with [] => [] | p :: r => if has_title t p then [] else p :: upto t r end.
  Fixpoint since (t : string) (l : list (cpage C)) := match l with [] => [] | p :: r => if has_title t p then l else since t r end.
  (** the log likelihood (p) of a tree of models: without a split page, each gets all the pages *)
  Fixpoint value (m : cmodel (C:=C) (A:=A)) (l : list (cpage C)) : A :=
    match m with Leaf _ f => f l | Cross None m1 m2 => op (value m1 l) (value m2 l) | Cross (Some t) m1 m2 => op (value m1 (upto t l)) (value m2 (since t l)) end.
  (** where a model splits, there is a first page, not wider than what the first model says of its matrix (a size of -1 counts as no limit) *)
  Definition narrow (p : cpage C) (m : cmodel (C:=C) (A:=A)) : Prop := match pgcols p with Some c => (cms2 m < 0)%Z \/ (Z.of_nat c <= cms2 m)%Z | None => True end.
  Fixpoint fits (m : cmodel (C:=C) (A:=A)) (l : list (cpage C)) : Prop :=
    match m with
    | Leaf _ _ => True
    | Cross None m1 m2 => fits m1 l /\ fits m2 l
    | Cross (Some t) m1 m2 => (exists p r, l = p :: r /\ narrow p m1) /\ fits m1 (upto t l) /\ fits m2 (since t l)
    end.
  (** ---------- proof ---------- *)
  Lemma path_fun h d l1 l2 : path h d l1 -> path h d l2 -> l1 = l2.
  Proof. intros H. revert l2. induction H as [|a n l Hn Hp IH]; intros l2 H2; inversion H2; subst; auto. f_equal. apply IH. congruence. Qed.
  Lemma path_app h l1 : forall d a l2, path h d (l1 ++ a :: l2) -> path h (Some a) (a :: l2).
  Proof. induction l1 as [|x l1 IH]; intros d a l2 H; inversion H; subst; [econstructor; eauto|eauto]. Qed.
  Lemma path_nodup h d l : path h d l -> NoDup l.
  Proof.
    intros H. induction H as [|a n l Hn Hp IH]; [constructor|]. constructor; auto. intros Hin. apply elem_of_list_split in Hin as (l1 & l2 & ->).
    pose proof (path_app _ _ _ _ _ Hp) as H2. assert (H1 : path h (Some a) (a :: l1 ++ a :: l2)) by (econstructor; eauto).
    pose proof (path_fun _ _ _ _ H1 H2) as E. injection E as E. apply (f_equal length) in E. rewrite app_length in E. cbn in E. lia.
  Qed.
  Lemma path_bound h d l : path h d l -> Forall (fun a => a < length h) l.
  Proof. intros H. induction H as [|a n l Hn Hp IH]; constructor; auto. eapply lookup_lt_Some; eauto. Qed.
  Lemma path_len h d l : path h d l -> length l <= length h.
  Proof.
    intros H. pose proof (path_nodup _ _ _ H) as N. pose proof (path_bound _ _ _ H) as B. rewrite <- (seq_length (length h) 0). apply submseteq_length. apply NoDup_submseteq; auto.
    intros x Hx. apply elem_of_seq. rewrite Forall_forall in B. specialize (B x (proj1 (elem_of_list_In _ _) Hx)). lia.
  Qed.
  Lemma chain_ok h d l : path h d l -> forall f ps, pages_at h l ps -> length l < f -> chain f h d = Ok ps.
  Proof.
    intros H. induction H as [|a n l Hn Hp IH]; intros f ps Hps Hf; inversion Hps as [|? p ? ps' (n' & Hn' & Hpg) Hps']; subst; (destruct f as [|f]; [cbn in Hf; lia|]); cbn [chain]; auto.
    rewrite Hn. assert (n' = n) as -> by congruence. rewrite (IH f ps') by (auto; cbn in Hf; lia). reflexivity.
  Qed.
  Lemma titled_page t n : titled t n = has_title t (page_of n).
  Proof. reflexivity. Qed.
  Lemma before_ok t h : forall l a ps, path h (Some a) (a :: l) -> pages_at h l ps -> forall f, length l < f ->
    exists l1 c l2, before f t h a = Ok c /\ a :: l = l1 ++ c :: l2 /\ exists ps1 ps2, ps = ps1 ++ ps2 /\ length ps1 = length l1 /\ upto t ps = ps1 /\ since t ps = ps2.
  Proof.
    induction l as [|b l IH]; intros a ps Hp Hps f Hf; (destruct f as [|f]; [cbn in Hf; lia|]); cbn [before]; inversion Hp as [|? n ? Hn Hp']; subst; rewrite Hn.
    - inversion Hps; subst. inversion Hp' as [HE|]; subst. exists [], a, []. split; auto. split; auto. exists [], []. auto.
    - inversion Hp' as [|? n' ? Hn' Hp'' HE]; subst. rewrite Hn'. inversion Hps as [|? p ? ps' (n0 & Hn0 & Hpg) Hps']; subst. assert (n0 = n') as -> by congruence.
      rewrite titled_page. cbn [upto since]. destruct (has_title t (page_of n')) eqn:Et.
      + exists [], a, (b :: l). split; auto. split; auto. exists [], (page_of n' :: ps'). auto.
      + assert (Hpb : path h (Some b) (b :: l)) by (econstructor; eauto). destruct (IH b ps' Hpb Hps' f) as (l1 & c & l2 & E1 & E2 & ps1 & ps2 & E3 & E4 & E5 & E6); [cbn in Hf; lia|].
        exists (a :: l1), c, l2. split; auto. split; [rewrite E2; auto|]. exists (page_of n' :: ps1), ps2. subst ps'. split; auto. split; [cbn; lia|]. split; [f_equal; auto|auto].
  Qed.
  Lemma set_more_length (h : cheap) a d : length (set_more h a d) = length h.
  Proof. unfold set_more. destruct (h !! a); auto. apply insert_length. Qed.
  Lemma set_more_ne (h : cheap) a d b : a <> b -> set_more h a d !! b = h !! b.
  Proof. intros H. unfold set_more. destruct (h !! a); auto. apply list_lookup_insert_ne. auto. Qed.
  Lemma set_more_eq (h : cheap) a n d : h !! a = Some n -> set_more h a d !! a = Some (CN (ctitle n) (ccols n) (cbody n) d).
  Proof. intros H. unfold set_more. rewrite H. apply list_lookup_insert. eapply lookup_lt_Some; eauto. Qed.
  Lemma set_more_back (h : cheap) a n : h !! a = Some n -> set_more (set_more h a None) a (cmore n) = h.
  Proof.
    intros H. apply list_eq. intros i. destruct (decide (i = a)) as [->|Hi].
    - rewrite (set_more_eq _ a (CN (ctitle n) (ccols n) (cbody n) None)) by (apply set_more_eq; auto). cbn. rewrite H. destruct n; auto.
    - rewrite !set_more_ne by auto. auto.
  Qed.
  Lemma path_avoid h c d0 d l : path h d l -> c ∉ l -> path (set_more h c d0) d l.
  Proof. intros H. induction H as [|a n l Hn Hp IH]; intros Hc; [constructor|]. apply not_elem_of_cons in Hc as [Hc1 Hc2]. econstructor; [rewrite set_more_ne by auto; eauto|auto]. Qed.
  Lemma path_cut h : forall l1 c l2 d, path h d (l1 ++ c :: l2) -> path (set_more h c None) d (l1 ++ [c]) /\ exists n, h !! c = Some n /\ path (set_more h c None) (cmore n) l2.
  Proof.
    intros l1 c l2 d H. pose proof (path_nodup _ _ _ H) as N. revert d H. induction l1 as [|x l1 IH]; intros d H; cbn in *; inversion H as [|? n ? Hn Hp]; subst; apply stdpp.list.NoDup_cons in N as [N1 N2].
    - split; [|exists n; split; auto; apply path_avoid; auto]. econstructor; [apply set_more_eq; eauto|]. constructor.
    - destruct (IH N2 _ Hp) as [H1 H2]. split; auto. econstructor; [|exact H1]. rewrite set_more_ne; auto. intros ->. apply N1. apply elem_of_app. right. left.
  Qed.
  Lemma pages_set_more h c d l ps : pages_at h l ps -> pages_at (set_more h c d) l ps.
  Proof.
    intros H. eapply Forall2_impl; [exact H|]. intros a p (n & Hn & Hp). destruct (decide (a = c)) as [->|Ha].
    - eexists. split; [apply set_more_eq; eauto|auto].
    - exists n. rewrite set_more_ne by auto. auto.
  Qed.
  Lemma as_draw_narrow n m : narrow (page_of n) m -> as_draw n m = false.
  Proof. unfold narrow, as_draw. cbn. destruct (ccols n) as [c|]; auto. intros H. destruct (Z.leb_spec 0 (cms2 m)); cbn; auto. destruct (Nat.ltb_spec (Z.to_nat (cms2 m)) c); auto. lia. Qed.
  (** C42: evaluating gives the value of the tree on the parts of the data set, and every page is as it was, with the next it had. *)
  Theorem C42_value : forall m h d l ps, path h d l -> pages_at h l ps -> fits m ps -> ceval op m h d = Ok (CVal (value m ps) h).
  Proof.
    induction m as [ms2 f|[t|] m1 IH1 m2 IH2]; intros h d l ps Hp Hps Hf; cbn [ceval value].
    - rewrite (chain_ok _ _ _ Hp _ ps Hps) by (apply path_len in Hp; lia). reflexivity.
    - destruct Hf as ((p & r & -> & Hn) & Hf1 & Hf2). inversion Hps as [|a ? l' ? (n & Hna & Hpg) Hps']; subst. inversion Hp as [|? n0 ? Hn0 Hp']; subst. assert (n0 = n) as -> by congruence. rewrite Hna.
      rewrite as_draw_narrow by exact Hn. rewrite titled_page. cbn [upto since] in *. destruct (has_title t (page_of n)) eqn:Et.
      + rewrite (IH1 h None [] []) by (auto; constructor). cbn [rbind]. rewrite (IH2 h (Some a) (a :: l') (page_of n :: r)) by auto. reflexivity.
      + destruct (before_ok t h l' a r Hp Hps' (S (length h))) as (l1 & c & l2 & E1 & E2 & ps1 & ps2 & E3 & E4 & E5 & E6); [apply path_len in Hp; cbn in Hp; lia|]. rewrite E1. cbn [rbind].
        rewrite E2 in Hp. destruct (path_cut _ _ _ _ _ Hp) as (Hc1 & nc & Hnc & Hc2). rewrite Hnc.
        assert (HP : pages_at h (l1 ++ c :: l2) ((page_of n :: ps1) ++ ps2)) by (rewrite <- E2; subst r; auto).
        replace (l1 ++ c :: l2) with ((l1 ++ [c]) ++ l2) in HP by (rewrite <- app_assoc; auto).
        apply Forall2_app_inv in HP as [HP1 HP2]; [|rewrite app_length; cbn; lia].
        rewrite E5, E6 in *. rewrite (IH1 (set_more h c None) (Some a) (l1 ++ [c]) (page_of n :: ps1)); auto; [|apply pages_set_more; auto]. cbn [rbind].
        rewrite (IH2 (set_more h c None) (cmore nc) l2 ps2); auto; [|apply pages_set_more; auto]. cbn [rbind]. rewrite set_more_back by auto. reflexivity.
    - destruct Hf as (Hf1 & Hf2). rewrite (IH1 h d l ps) by auto. cbn [rbind]. rewrite (IH2 h d l ps) by auto. reflexivity.
  Qed.
  (** C42: the two parts are the data set: nothing lost, nothing twice, nothing reordered; the second starts with the page of that title *)
  Theorem C42_split : forall t l, upto t l ++ since t l = l /\ Forall (fun p => has_title t p = false) (upto t l) /\ (since t l = [] \/ exists p r, since t l = p :: r /\ has_title t p = true).
  Proof.
    intros t l. induction l as [|p l (IH1 & IH2 & IH3)]; cbn; [repeat split; auto|]. destruct (has_title t p) eqn:E; cbn; [repeat split; eauto|]. rewrite IH1. repeat split; auto.
  Qed.
End C42.
(** ---------- draws ---------- *)
Section C42_draws.
  Context {A : Type}.
  (** what the models that are not crosses draw, in order; None if one fails *)
  Fixpoint draws (m : dmodel A) : option (list A) :=
    match m with DLeaf _ d => d | DCross _ m1 m2 => match draws m1, draws m2 with Some a, Some b => Some (a ++ b) | _, _ => None end end.
  (** every model draws as many numbers as it says, and a cross says the sum *)
  Fixpoint sized (m : dmodel A) : Prop :=
    match m with DLeaf z d => (0 <= z)%Z /\ (forall l, d = Some l -> z = Z.of_nat (length l)) | DCross z m1 m2 => sized m1 /\ sized m2 /\ z = (dsz m1 + dsz m2)%Z end.
  Lemma draws_len m : sized m -> (0 <= dsz m)%Z /\ forall l, draws m = Some l -> Z.of_nat (length l) = dsz m.
  Proof.
    induction m as [z d|z m1 IH1 m2 IH2]; cbn.
    - intros [H1 H2]. split; auto. intros l Hl. rewrite (H2 l Hl). auto.
    - intros (H1 & H2 & ->). destruct (IH1 H1) as [P1 Q1], (IH2 H2) as [P2 Q2]. split; [lia|]. intros l Hl. destruct (draws m1) as [a|]; [|discriminate]. destruct (draws m2) as [b|]; [|discriminate]. injection Hl as <-.
      rewrite app_length, Nat2Z.inj_add, (Q1 a), (Q2 b) by auto. auto.
  Qed.
  (** C42: a draw puts the draws of the models side by side from the start of the space given, leaves the rest, and fails iff one fails. *)
  Theorem C42_draw : forall m pre (buf post : list A), sized m -> Z.of_nat (length buf) = dsz m ->
    match draws m with
    | Some l => cross_draw m (pre ++ buf ++ post) (Z.of_nat (length pre)) = Ok (pre ++ l ++ post, true)
    | None => exists buf', cross_draw m (pre ++ buf ++ post) (Z.of_nat (length pre)) = Ok (pre ++ buf' ++ post, false) /\ length buf' = length buf
    end.
  Proof.
    induction m as [z [l|]|z m1 IH1 m2 IH2]; intros pre buf post Hs Hb; cbn [draws cross_draw].
    - destruct Hs as [H1 H2]. specialize (H2 l eq_refl). cbn in Hb. assert (length buf = length l) as E by lia. unfold dwrite. rewrite !app_length. destruct (Z.ltb_spec (Z.of_nat (length pre)) 0); [lia|].
      destruct (Z.ltb_spec (Z.of_nat (length pre + (length buf + length post))) (Z.of_nat (length pre) + Z.of_nat (length l))); [lia|]. cbn [orb rbind]. rewrite Nat2Z.id, take_app, <- E.
      rewrite <- drop_drop, drop_app, drop_app. auto.
    - eexists. split; eauto.
    - destruct Hs as (S1 & S2 & ->). cbn in Hb. destruct (draws_len _ S1) as [P1 Q1], (draws_len _ S2) as [P2 Q2].
      set (k := Z.to_nat (dsz m1)). assert (Hk : length (take k buf) = k) by (rewrite take_length; lia).
      assert (Hd : Z.of_nat (length (drop k buf)) = dsz m2) by (rewrite drop_length; lia).
      pose proof (IH1 pre (take k buf) (drop k buf ++ post) S1 ltac:(lia)) as G1. rewrite app_assoc in G1. rewrite <- (app_assoc _ _ _) in G1. rewrite (app_assoc (take k buf)), take_drop in G1.
      destruct (draws m1) as [a|]; [|].
      + rewrite G1. cbn [rbind]. specialize (Q1 a eq_refl). pose proof (IH2 (pre ++ a) (drop k buf) post S2 Hd) as G2. rewrite app_length, Nat2Z.inj_add, Q1 in G2. rewrite <- !app_assoc in G2.
        destruct (draws m2) as [b|]; [rewrite G2, <- !app_assoc; auto|]. destruct G2 as (b' & -> & L). exists (a ++ b'). rewrite <- !app_assoc. split; auto. rewrite app_length, L, drop_length. lia.
      + destruct G1 as (b' & -> & L). cbn [rbind]. exists (b' ++ drop k buf). rewrite <- !app_assoc. split; auto. rewrite app_length, L, Hk, drop_length. lia.
  Qed.
  Fixpoint concat_draws (l : list (dmodel A)) : option (list A) :=
    match l with [] => Some [] | m :: r => match draws m, concat_draws r with Some a, Some b => Some (a ++ b) | _, _ => None end end.
  (** C42: a cross of two or more models draws their draws in order, and its data size is the sum of theirs *)
  Theorem C42_many : forall l, 2 <= length l -> Forall sized l -> exists m, cross_base l = Some m /\ sized m /\ dsz m = fold_right (fun x s => (dsz x + s)%Z) 0%Z l /\ draws m = concat_draws l.
  Proof.
    induction l as [|m l IH]; intros Hl Hs; cbn in Hl; [lia|]. inversion Hs as [|? ? Hm Hs']; subst. destruct l as [|m' l]; [cbn in Hl; lia|].
    assert (G : exists m2, (match l with [] => Some m' | _ => cross_base (m' :: l) end) = Some m2 /\ sized m2 /\ dsz m2 = fold_right (fun x s => (dsz x + s)%Z) 0%Z (m' :: l) /\ draws m2 = concat_draws (m' :: l)).
    { destruct l as [|m'' l].
      - exists m'. inversion Hs'; subst. split; auto. split; auto. cbn. split; [lia|]. destruct (draws m'); auto. rewrite app_nil_r. auto.
      - apply IH; auto. cbn. lia. }
    destruct G as (m2 & E & S2 & D2 & W2). assert (HB : cross_base (m :: m' :: l) = match (match l with [] => Some m' | _ => cross_base (m' :: l) end) with
      Some m2 => Some (DCross (if (0 <=? dsz m)%Z && (0 <=? dsz m2)%Z then dsz m + dsz m2 else 0)%Z m m2) | None => None end) by reflexivity. rewrite HB. rewrite E.
    pose proof (proj1 (draws_len _ Hm)). pose proof (proj1 (draws_len _ S2)). destruct (Z.leb_spec 0 (dsz m)); [|lia]. destruct (Z.leb_spec 0 (dsz m2)); [|lia]. cbn [andb]. eexists. split; [reflexivity|]. cbn [sized dsz draws].
    split; [auto|]. split; [rewrite D2; auto|]. rewrite W2. cbn [concat_draws]. auto.
  Qed.
End C42_draws.
Print Assumptions C42_value.
Print Assumptions C42_split.
Print Assumptions C42_draw.
Print Assumptions C42_many.
(** an example: three pages, split at the second; the models count their pages *)
Definition cr_heap : list (cnode nat) := [CN None (Some 2) 5 (Some 2); CN (Some "z"%string) None 6 None; CN (Some "Second"%string) None 7 (Some 1)].
Definition cr_leaf : cmodel (C:=nat) (A:=nat) := Leaf (-1) (fun l => fold_right (fun p s => pgbody p + s) 0 l).
Example C42_nonvacuous : path cr_heap (Some 0) [0; 2; 1] /\
  let ps := [CP None (Some 2) 5; CP (Some "Second"%string) None 7; CP (Some "z"%string) None 6] in
  pages_at cr_heap [0; 2; 1] ps /\ fits (Cross (Some "second"%string) cr_leaf cr_leaf) ps /\
  ceval (fun a b => 100 * a + b) (Cross (Some "second"%string) cr_leaf cr_leaf) cr_heap (Some 0) = Ok (CVal 513 cr_heap) /\
  (exists m, cross_base [DLeaf 1 (Some [7]); DLeaf 2 (Some [8; 9]); DLeaf 1 (Some [4])] = Some m /\ cross_draw m [0; 0; 0; 0; 0] 1 = Ok ([0; 7; 8; 9; 4], true)).
Proof.
  split; [repeat (econstructor; [reflexivity|]); constructor|]. split; [repeat (constructor; [eexists; split; reflexivity|]); constructor|]. split; [|split; [reflexivity|eexists; split; reflexivity]].
  split; [|split; exact I]. eexists _, _. split; [reflexivity|]. left. reflexivity.
Qed.
(** Deviation: data wider than the first model's declared matrix (a cross declares 0 columns) are taken for draws and cut up, not evaluated as they are. *)
Theorem C42_wide_refuted : exists h : list (cnode nat), path h (Some 0) [0] /\ ceval Nat.add (Cross (Some "b"%string) (Cross None cr_leaf cr_leaf) cr_leaf) h (Some 0) = Ok CDraw.
Proof. exists [CN None (Some 1) 5 None]. split; [econstructor; [reflexivity|constructor]|reflexivity]. Qed.
(** Deviation: no data (NULL) with a split page is a crash; so is it for the first model when it splits too and the data start with the split page. *)
Theorem C42_null_refuted : ceval Nat.add (Cross (Some "b"%string) cr_leaf cr_leaf) ([] : list (cnode nat)) None = UB.
Proof. reflexivity. Qed.
(** Deviation: the cross of one model is NULL, not a copy of that model. *)
Theorem C42_one_refuted : forall m : dmodel nat, cross_base [m] = None.
Proof. reflexivity. Qed.
(** Deviation: a first model whose data size is to be found out (-1) makes the second draw go before the space given. *)
Theorem C42_size_refuted : exists m, cross_base [DLeaf (-1) (Some [7]); DLeaf 1 (Some [8])] = Some m /\ cross_draw m [0; 0] 0 = UB.
Proof. eexists. split; reflexivity. Qed.
