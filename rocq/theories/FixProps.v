(** C43: fixed parameters (transform/apop_fix_params.c). *)
From Verif Require Import DataModel AccessProps TransModel.
Local Open Scope list_scope.
Local Open Scope nat_scope.

Section C43.
Context {V : Type}.
Notation num := (option V).
(** ---------- specification: the free parameters are the NaNs of the parameters as given, page by page, each page's vector first and then its matrix row by row ---------- *)
Definition places (p : page num) : list place :=
  (match vect p with Some v => map InVec (seq 0 (length v)) | None => [] end) ++
  (match mat p with Some m => flat_map (fun i => map (InMat i) (seq 0 (gc m))) (seq 0 (gr m)) | None => [] end).
Definition nan_at (p : page num) (l : place) : bool := match content p l with Some None => true | _ => false end.
Fixpoint free_from (ps : list (page num)) (k : nat) : list (nat * place) :=
  match ps with [] => [] | p :: r => map (pair k) (List.filter (nan_at p) (places p)) ++ free_from r (S k) end.
Definition free_places (ps : list (page num)) : list (nat * place) := free_from ps 0.
Definition good_pages (ps : list (page num)) : Prop := Forall (fun p => forall m, mat p = Some m -> wf_grid m) ps.
(** [tab] is a table of the free parameters of [base], whatever its values *)
Definition pos (e : entry V) : nat * Z * nat := (erow e, ecol e, epage e).
Definition is_table (base : list (page num)) (tab : list (entry V)) : Prop := map pos tab = map pos (table_prep base 0).

(** ---------- proofs ---------- *)
Definition pl (e : entry V) : place := if (ecol e =? -1)%Z then InVec (erow e) else InMat (erow e) (Z.to_nat (ecol e)).
Definition key (e : entry V) : nat * place := (epage e, pl e).
Lemma flat_if {A B} (P : A -> bool) (f : A -> B) l : flat_map (fun x => if P x then [f x] else []) l = map f (List.filter P l).
Proof. induction l as [|a l IH]; cbn; auto. destruct (P a); cbn; rewrite IH; auto. Qed.
Lemma flat_ext {A B} (f g : A -> list B) l : (forall x, In x l -> f x = g x) -> flat_map f l = flat_map g l.
Proof. induction l as [|a l IH]; cbn; intros H; auto. rewrite H, IH; auto. Qed.
Lemma filter_map {A B} (f : A -> B) P (l : list A) : List.filter P (map f l) = map f (List.filter (fun x => P (f x)) l).
Proof. induction l as [|a l IH]; cbn; auto. destruct (P (f a)); cbn; rewrite IH; auto. Qed.
Lemma filter_flat {A B} (f : A -> list B) P (l : list A) : List.filter P (flat_map f l) = flat_map (fun x => List.filter P (f x)) l.
Proof. induction l as [|a l IH]; cbn; auto. rewrite List.filter_app, IH. auto. Qed.
Lemma map_flat {A B C} (f : B -> C) (g : A -> list B) (l : list A) : map f (flat_map g l) = flat_map (fun x => map f (g x)) l.
Proof. induction l as [|a l IH]; cbn; auto. rewrite map_app, IH. auto. Qed.
Lemma missing_keys p k : map key (find_missing p k) = map (pair k) (List.filter (nan_at p) (places p)).
Proof.
  unfold find_missing, places. rewrite List.filter_app, !map_app. f_equal.
  - destruct (vect p) as [v|] eqn:Ev; auto. rewrite filter_map, !map_map. rewrite (flat_ext _ (fun i => if nan_at p (InVec i) then [En i (-1) k None] else [])).
    + rewrite flat_if, map_map. auto.
    + intros i _. unfold nan_at, content. rewrite Ev. destruct (v !! i) as [[x|]|]; auto.
  - destruct (mat p) as [m|] eqn:Em; auto. rewrite filter_flat, !map_flat. apply flat_ext. intros i _. rewrite filter_map, map_map.
    rewrite (flat_ext _ (fun j => if nan_at p (InMat i j) then [En i (Z.of_nat j) k None] else [])).
    + rewrite flat_if, map_map. apply map_ext. intros j. unfold key, pl. cbn. replace (Z.of_nat j =? -1)%Z with false by lia. rewrite Nat2Z.id. auto.
    + intros j _. unfold nan_at, content. rewrite Em. destruct (cell m i j) as [[x|]|]; auto.
Qed.
Lemma table_keys ps : forall k, map key (table_prep ps k) = free_from ps k.
Proof. induction ps as [|p ps IH]; intros k; cbn; auto. rewrite map_app, missing_keys, IH. auto. Qed.
Lemma key_pos (a b : list (entry V)) : map pos a = map pos b -> map key a = map key b.
Proof.
  revert b. induction a as [|x a IH]; intros [|y b] H; try discriminate; auto. cbn in H. injection H as H1 H2 H3 H4. cbn. f_equal; auto. unfold key, pl. rewrite H1, H2, H3. auto.
Qed.
Lemma table_key base tab : is_table base tab -> map key tab = free_places base.
Proof. intros H. rewrite (key_pos _ _ H). apply table_keys. Qed.
Lemma places_nodup p : NoDup (places p).
Proof.
  unfold places. apply NoDup_app. split; [|split].
  - destruct (vect p); [|constructor]. apply (NoDup_fmap_2_strong _ _); [intros; congruence|apply NoDup_seq].
  - intros x Hx Hy. destruct (vect p); [|inversion Hx]. apply elem_of_list_fmap in Hx as (i & -> & _). destruct (mat p); [|inversion Hy].
    apply elem_of_list_In, in_flat_map in Hy as (j & _ & Hy). apply in_map_iff in Hy as (? & ? & _). discriminate.
  - destruct (mat p) as [m|]; [|constructor]. assert (G : forall k s, NoDup (flat_map (fun i => map (InMat i) (seq 0 (gc m))) (seq s k))); [|apply G].
    induction k as [|k IH]; intros s; cbn; [constructor|]. apply NoDup_app. split; [|split]; [apply (NoDup_fmap_2_strong _ _); [intros; congruence|apply NoDup_seq]| |apply IH].
    intros x Hx Hy. apply elem_of_list_fmap in Hx as (i & -> & _). apply elem_of_list_In, in_flat_map in Hy as (j & Hj & Hy). apply in_map_iff in Hy as (? & [= -> ->] & _). apply in_seq in Hj. lia.
Qed.
Lemma free_page ps : forall k x l, In (x, l) (free_from ps k) -> k <= x /\ exists p, ps !! (x - k) = Some p /\ In l (places p) /\ nan_at p l = true.
Proof.
  induction ps as [|p ps IH]; intros k x l H; cbn in H; [destruct H|]. apply in_app_or in H as [H|H].
  - apply in_map_iff in H as (l' & [= -> ->] & H). apply filter_In in H as [H1 H2]. split; [lia|]. exists p. rewrite Nat.sub_diag. auto.
  - apply IH in H as (H1 & q & H2 & H3). split; [lia|]. exists q. split; auto. replace (x - k) with (S (x - S k)) by lia. auto.
Qed.
Lemma free_nodup ps : forall k, NoDup (free_from ps k).
Proof.
  induction ps as [|p ps IH]; intros k; cbn; [constructor|]. apply NoDup_app. split; [|split; [|apply IH]].
  - apply (NoDup_fmap_2_strong _ _); [intros; congruence|]. apply NoDup_ListNoDup, List.NoDup_filter, NoDup_ListNoDup, places_nodup.
  - intros [x l] Hx Hy. apply elem_of_list_fmap in Hx as (i & [= -> ->] & _). apply elem_of_list_In, free_page in Hy as [Hy _]. lia.
Qed.
Fixpoint sorted_from (ct : nat) (tab : list (entry V)) : Prop := match tab with [] => True | e :: r => ct <= epage e /\ sorted_from (epage e) r end.
Lemma sorted_weaken tab : forall a b, a <= b -> sorted_from b tab -> sorted_from a tab.
Proof. destruct tab; cbn; auto. intros a b H [H1 H2]. split; auto. lia. Qed.
Lemma sorted_page k l1 l2 : Forall (fun e : entry V => epage e = k) l1 -> sorted_from (S k) l2 -> sorted_from k (l1 ++ l2).
Proof. intros H1 H2. induction l1 as [|e l1 IH]; cbn; [eapply sorted_weaken; [|exact H2]; lia|]. inversion H1; subst. split; [lia|]. auto. Qed.
Lemma missing_page p k : Forall (fun e : entry V => epage e = k) (find_missing p k).
Proof.
  apply List.Forall_forall. intros e He. assert (Hk : In (key e) (map key (find_missing p k))) by (apply in_map; auto). rewrite missing_keys in Hk. apply in_map_iff in Hk as (l & E & _). injection E as <- _. auto.
Qed.
Lemma table_sorted ps : forall k, sorted_from k (table_prep ps k).
Proof. induction ps as [|p ps IH]; intros k; cbn; auto. apply sorted_page; [apply missing_page|auto]. Qed.
Lemma sorted_pos (a b : list (entry V)) : map pos a = map pos b -> forall ct, sorted_from ct b -> sorted_from ct a.
Proof. revert b. induction a as [|x a IH]; intros [|y b] H ct Hs; try discriminate; cbn in *; auto. injection H as H1 H2 H3 H4. rewrite H3. destruct Hs. split; eauto. Qed.
Lemma frame_where (p q : page num) r c : frame p q -> where_is q r c = where_is p r c.
Proof.
  intros (H1 & H2 & H3 & _). unfold where_is. destruct (vect p) as [v|], (vect q) as [v'|]; try discriminate; destruct (mat p) as [m|], (mat q) as [m'|]; try discriminate; cbn in *; auto;
    repeat match goal with H : Some _ = Some _ |- _ => injection H as H end; rewrite ?H1, ?H2, ?H3; auto.
Qed.
Lemma frame_refl (p : page num) : (forall m, mat p = Some m -> wf_grid m) -> frame p p.
Proof. intros H. repeat split; auto; apply H; auto. Qed.
Lemma frame_trans (p q r : page num) : frame p q -> frame q r -> frame p r.
Proof. intros (A1 & A2 & A3 & A4 & A5 & A6 & A7 & A8) (B1 & B2 & B3 & B4 & B5 & B6 & B7 & B8). repeat split; try congruence; apply B4; auto. Qed.
Definition fits (ps : list (page num)) (e : entry V) : Prop := exists p, ps !! epage e = Some p /\ where_is p (Z.of_nat (erow e)) (ecol e) = pl e.
Lemma fill_ok tab : forall ps ct, good_pages ps -> sorted_from ct tab -> Forall (fits ps) tab -> NoDup (map key tab) ->
  exists ps', predict_fill ps ct tab = Ok ps' /\ length ps' = length ps /\
    (forall k p, ps !! k = Some p -> exists p', ps' !! k = Some p' /\ frame p p' /\
      (forall e, In e tab -> epage e = k -> content p' (pl e) = Some (eval e)) /\ (forall l, ~ In (k, l) (map key tab) -> content p' l = content p l)).
Proof.
  induction tab as [|e tab IH]; intros ps ct Hg Hs Hf Hn; cbn [predict_fill].
  - exists ps. split; auto. split; auto. intros k p Hp. exists p. split; auto. split; [apply frame_refl; exact (Forall_lookup_1 _ _ _ _ Hg Hp)|]. split; [intros e []|auto].
  - destruct Hs as [Hs1 Hs2]. inversion Hf as [|? ? (p & Hp & Hwh) Hf2]; subst. cbn in Hn. apply stdpp.list.NoDup_cons in Hn as [Hn1 Hn2].
    destruct (Nat.ltb_spec (epage e) ct); [lia|]. rewrite Hp.
    pose proof (Forall_lookup_1 _ _ _ _ Hg Hp) as Hgp. pose proof (set_at_place p (Z.of_nat (erow e)) (ecol e) (eval e) Hgp) as Hset. rewrite Hwh in Hset.
    assert (Hnw : pl e <> Nowhere) by (unfold pl; destruct (_ =? _)%Z; discriminate).
    assert (Hset' : frame p (fst (set_at p (Z.of_nat (erow e)) (ecol e) (eval e))) /\ forall l', content (fst (set_at p (Z.of_nat (erow e)) (ecol e) (eval e))) l' = if bool_decide (l' = pl e) then Some (eval e) else content p l').
    { destruct (pl e) eqn:E; [| |congruence]; destruct Hset as (_ & A & B); split; auto. }
    destruct Hset' as [HF HC]. set (q := fst _) in *. set (ps1 := <[epage e := q]> ps).
    assert (L1 : length ps1 = length ps) by apply insert_length. assert (Hlt : epage e < length ps) by (eapply lookup_lt_Some; eauto).
    destruct (IH ps1 (epage e)) as (ps' & E1 & E2 & E3); auto.
    + apply Forall_insert; auto. destruct HF as (_ & _ & _ & A & _). auto.
    + apply List.Forall_forall. intros e' He'. eapply List.Forall_forall in Hf2; [|exact He']. destruct Hf2 as (p' & Hp' & Hw'). destruct (decide (epage e' = epage e)) as [Ee|Ne].
      * exists q. rewrite Ee in *. unfold ps1. rewrite list_lookup_insert by auto. split; auto. rewrite Hp in Hp'. injection Hp' as <-. rewrite (frame_where p q) by auto. auto.
      * exists p'. unfold ps1. rewrite list_lookup_insert_ne by auto. auto.
    + exists ps'. split; [auto|]. split; [lia|]. intros k p0 Hp0. destruct (decide (k = epage e)) as [->|Ne].
      * rewrite Hp in Hp0. injection Hp0 as <-. destruct (E3 (epage e) q) as (p' & F1 & F2 & F3 & F4); [apply list_lookup_insert; auto|]. exists p'. split; auto. split; [eapply frame_trans; eauto|]. split.
        -- intros e' [<-|He'] Hk; [|auto]. rewrite F4, HC, bool_decide_true; auto. intros Hin. apply Hn1, elem_of_list_In. exact Hin.
        -- intros l Hl. cbn in Hl. rewrite F4 by (intros X; apply Hl; auto). rewrite HC. rewrite bool_decide_false; auto. intros ->. apply Hl. left. auto.
      * destruct (E3 k p0) as (p' & F1 & F2 & F3 & F4); [unfold ps1; rewrite list_lookup_insert_ne by auto; auto|]. exists p'. split; auto. split; auto. split.
        -- intros e' [<-|He'] Hk; [congruence|auto].
        -- intros l Hl. apply F4. intros X. apply Hl. right. auto.
Qed.
Lemma in_places_where (p : page num) e : (forall m, mat p = Some m -> wf_grid m) -> (-1 <= ecol e)%Z -> In (pl e) (places p) -> where_is p (Z.of_nat (erow e)) (ecol e) = pl e.
Proof.
  intros Hw Hc Hin. unfold places in Hin. unfold where_is, pl in *. apply in_app_or in Hin as [Hin|Hin].
  - destruct (vect p) as [v|]; [|destruct Hin]. apply in_map_iff in Hin as (i & E & Hi). apply in_seq in Hi. destruct (Z.eqb_spec (ecol e) (-1)) as [->|]; [|discriminate]. injection E as ->.
    destruct (mat p); cbn; rewrite Nat2Z.id; destruct (_ && _) eqn:G; auto; lia.
  - destruct (mat p) as [m|]; [|destruct Hin]. apply in_flat_map in Hin as (i & Hi & Hin). apply in_map_iff in Hin as (j & E & Hj). apply in_seq in Hi, Hj.
    destruct (Z.eqb_spec (ecol e) (-1)); [discriminate|]. injection E as -> ->. rewrite Nat2Z.id. destruct (vect p); destruct (_ && _) eqn:G; auto; lia.
Qed.
Lemma table_cols ps : forall k, Forall (fun e : entry V => (-1 <= ecol e)%Z) (table_prep ps k).
Proof.
  induction ps as [|p ps IH]; intros k; cbn; [constructor|]. apply Forall_app. split; [|auto]. apply List.Forall_forall. intros e He. unfold find_missing in He. apply in_app_or in He as [He|He].
  - destruct (vect p); [|destruct He]. apply in_flat_map in He as (i & _ & He). destruct (_ !! _) as [[]|]; cbn in He; try tauto. destruct He as [<-|[]]. cbn. lia.
  - destruct (mat p); [|destruct He]. apply in_flat_map in He as (i & _ & He). apply in_flat_map in He as (j & _ & He). destruct (cell _ _ _) as [[]|]; cbn in He; try tauto. destruct He as [<-|[]]. cbn. lia.
Qed.
Lemma cols_pos (a b : list (entry V)) : map pos a = map pos b -> Forall (fun e => (-1 <= ecol e)%Z) b -> Forall (fun e => (-1 <= ecol e)%Z) a.
Proof. revert b. induction a as [|x a IH]; intros [|y b] H Hf; try discriminate; constructor; cbn in H; injection H as H1 H2 H3 H4; inversion Hf; subst; [rewrite H2; auto|eauto]. Qed.
Lemma table_fits base cur tab : good_pages base -> Forall2 frame base cur -> is_table base tab -> Forall (fits cur) tab.
Proof.
  intros Hg H2 Ht. apply List.Forall_forall. intros e He. assert (Hk : In (key e) (free_places base)) by (rewrite <- (table_key _ _ Ht); apply in_map; auto).
  unfold key in Hk. apply free_page in Hk as (_ & p & Hp & Hin & _). rewrite Nat.sub_0_r in Hp. destruct (Forall2_lookup_l _ _ _ _ _ H2 Hp) as (q & Hq & HF). exists q. split; auto.
  rewrite (frame_where p q) by auto. apply in_places_where; auto; [exact (Forall_lookup_1 _ _ _ _ Hg Hp)|].
  pose proof (cols_pos _ _ Ht (table_cols base 0)) as Hc. eapply List.Forall_forall in Hc; eauto.
Qed.
(** C43: unpacking a vector of free parameters puts its i-th element in the i-th free place, and changes nothing else: not the fixed parameters, shapes,
    weights, text or names.  [cur]: the parameters now, of the shape of those given ([base]). *)
Theorem C43_unpack : forall base cur tab v, good_pages base -> Forall2 frame base cur -> is_table base tab -> length v = length (free_places base) ->
  exists cur' tab', fp_unpack cur tab v = Ok (cur', tab') /\ is_table base tab' /\ Forall2 frame cur cur' /\
    (forall i k l, free_places base !! i = Some (k, l) -> exists p', cur' !! k = Some p' /\ content p' l = v !! i) /\
    (forall k l p p', cur !! k = Some p -> cur' !! k = Some p' -> ~ In (k, l) (free_places base) -> content p' l = content p l).
Proof.
  intros base cur tab v Hg H2 Ht Hv. pose proof (table_key _ _ Ht) as HK. assert (HL : length tab = length (free_places base)) by (rewrite <- HK, map_length; auto).
  unfold fp_unpack. destruct (Nat.eqb_spec (length v) (length tab)) as [HE|]; [|lia]. set (tab' := zip_with _ tab v).
  assert (HP : map pos tab' = map pos tab). { unfold tab'. clear - HE. revert v HE. induction tab as [|e tab IH]; intros [|x v] HE; try discriminate; cbn; auto. f_equal. apply IH. auto. }
  assert (Ht' : is_table base tab') by (unfold is_table; rewrite HP; auto). assert (HK' : map key tab' = free_places base) by (apply table_key; auto).
  assert (Hgc : good_pages cur). { apply Forall_lookup. intros k p Hp. destruct (Forall2_lookup_r _ _ _ _ _ H2 Hp) as (b & Hb & (_ & _ & _ & A & _)). auto. }
  destruct (fill_ok tab' cur 0) as (cur' & E1 & E2 & E3); auto.
  - eapply sorted_pos; [exact Ht'|apply table_sorted].
  - apply (table_fits base cur); auto.
  - rewrite HK'. apply free_nodup.
  - rewrite E1. cbn [rbind]. eexists _, _. split; [reflexivity|]. split; [auto|]. split; [|split].
    + apply Forall2_same_length_lookup_2; [auto|]. intros k p p' Hp Hp'. destruct (E3 _ _ Hp) as (q & Hq & HF & _). congruence.
    + intros i k l Hi. assert (Hi' : map key tab' !! i = Some (k, l)) by (rewrite HK'; auto). rewrite list_lookup_fmap in Hi'. destruct (tab' !! i) as [e|] eqn:Ee; [|discriminate]. cbn in Hi'. injection Hi' as Hk Hl.
      assert (Hfit : Forall (fits cur) tab') by (apply (table_fits base cur); auto). pose proof (Forall_lookup_1 _ _ _ _ Hfit Ee) as (p & Hp & _). rewrite Hk in Hp. destruct (E3 _ _ Hp) as (p' & Hp' & _ & HC & _). exists p'. split; auto.
      rewrite <- Hl, HC; auto; [|apply elem_of_list_In; eapply elem_of_list_lookup_2; eauto]. unfold tab' in Ee. rewrite lookup_zip_with in Ee. destruct (tab !! i) as [e0|]; [|discriminate]. cbn in Ee. destruct (v !! i) as [x|]; [|discriminate]. cbn in Ee. injection Ee as <-. auto.
    + intros k l p p' Hp Hp' Hni. destruct (E3 _ _ Hp) as (q & Hq & _ & _ & HC). assert (q = p') as -> by congruence. apply HC. rewrite HK'. auto.
Qed.
(** any history of unpackings, from the parameters given *)
Fixpoint unpacks (cur : list (page num)) (tab : list (entry V)) (vs : list (list num)) : res (list (page num) * list (entry V)) :=
  match vs with [] => Ok (cur, tab) | v :: r => do (c, t) <- fp_unpack cur tab v; unpacks c t r end.
(** C43: in every history the fixed parameters have the values given, and the free ones are the last vector. *)
Theorem C43_history : forall base tab n vs v, good_pages base -> fix_params base = Some (tab, n) -> Forall (fun w => length w = n) (vs ++ [v]) ->
  n = length (free_places base) /\
  exists cur tab', unpacks base tab (vs ++ [v]) = Ok (cur, tab') /\ Forall2 frame base cur /\
    (forall i k l, free_places base !! i = Some (k, l) -> exists p', cur !! k = Some p' /\ content p' l = v !! i) /\
    (forall k l p p', base !! k = Some p -> cur !! k = Some p' -> ~ In (k, l) (free_places base) -> content p' l = content p l).
Proof.
  intros base tab n vs v Hg Hfp Hlen.
  assert (Ht : is_table base tab /\ n = length tab) by (unfold fix_params in Hfp; unfold is_table; destruct (table_prep base 0); [discriminate|]; injection Hfp as <- <-; auto). destruct Ht as [Ht Hn].
  assert (HN : n = length (free_places base)) by (rewrite <- (table_key _ _ Ht), map_length; auto). split; [auto|].
  assert (H0 : Forall2 frame base base). { apply Forall2_same_length_lookup_2; auto. intros k p q Hp Hq. assert (p = q) as <- by congruence. apply frame_refl. exact (Forall_lookup_1 _ _ _ _ Hg Hp). }
  assert (G : forall vs cur0 tab0, is_table base tab0 -> Forall2 frame base cur0 -> Forall (fun w => length w = n) (vs ++ [v]) ->
    (forall k l p p', base !! k = Some p -> cur0 !! k = Some p' -> ~ In (k, l) (free_places base) -> content p' l = content p l) ->
    exists cur tab', unpacks cur0 tab0 (vs ++ [v]) = Ok (cur, tab') /\ Forall2 frame base cur /\
      (forall i k l, free_places base !! i = Some (k, l) -> exists p', cur !! k = Some p' /\ content p' l = v !! i) /\
      (forall k l p p', base !! k = Some p -> cur !! k = Some p' -> ~ In (k, l) (free_places base) -> content p' l = content p l)).
  { clear vs Hlen Hfp tab Ht Hn. assert (Tr : forall a b c, Forall2 frame a b -> Forall2 (@frame num) b c -> Forall2 frame a c).
    { intros a b c A B. apply Forall2_same_length_lookup_2; [rewrite (Forall2_length _ _ _ A); apply (Forall2_length _ _ _ B)|]. intros k x z Hx Hz. destruct (Forall2_lookup_l _ _ _ _ _ A Hx) as (y & Hy & Fy).
      eapply frame_trans; [exact Fy|]. eapply Forall2_lookup_lr; eauto. }
    induction vs as [|w vs IH]; intros cur0 tab0 Ht H1 Hl HF; cbn [app unpacks]; inversion Hl as [|? ? Hl1 Hl2]; subst.
    - destruct (C43_unpack base cur0 tab0 v Hg H1 Ht) as (c & t & E & Ht' & HFr & A & B); [congruence|]. rewrite E. cbn [rbind unpacks]. eexists _, _. split; [reflexivity|]. split; [eapply Tr; eauto|]. split; [auto|].
      intros k l p p' Hp Hp' Hni. destruct (Forall2_lookup_l _ _ _ _ _ H1 Hp) as (q & Hq & _). rewrite (B k l q p') by auto. eauto.
    - destruct (C43_unpack base cur0 tab0 w Hg H1 Ht) as (c & t & E & Ht' & HFr & A & B); [congruence|]. rewrite E. cbn [rbind]. apply IH; auto; [eapply Tr; eauto|].
      intros k l p p' Hp Hp' Hni. destruct (Forall2_lookup_l _ _ _ _ _ H1 Hp) as (q & Hq & _). rewrite (B k l q p') by auto. eauto. }
  apply G; auto. intros k l p p' Hp Hp' _. congruence.
Qed.
(** C43: packing reads the free parameters back in the same order if they are all on the first page. *)
Theorem C43_pack : forall base p rest tab, good_pages base -> Forall2 frame base (p :: rest) -> is_table base tab -> Forall (fun x => fst x = 0) (free_places base) ->
  exists v, fp_pack (p :: rest) tab = Ok v /\ length v = length (free_places base) /\ forall i k l, free_places base !! i = Some (k, l) -> v !! i = content p l.
Proof.
  intros base p rest tab Hg H2 Ht H0. rewrite <- (table_key _ _ Ht) in *. pose proof (table_fits _ _ _ Hg H2 Ht) as Hfit.
  assert (Hgp : forall m, mat p = Some m -> wf_grid m). { destruct (Forall2_lookup_r _ _ _ 0 p H2 eq_refl) as (b & _ & (_ & _ & _ & A & _)). auto. }
  unfold fp_pack. generalize 0%Z at 2. clear Ht H2 Hg. induction tab as [|e tab IH]; intros i; cbn [fp_pack_from].
  - exists []. split; auto. split; auto. intros i' k l Hi. discriminate.
  - cbn in H0. inversion H0 as [|? ? He H0']; subst. cbn in He. inversion Hfit as [|? ? (q & Hq & Hwh) Hfit2]; subst. rewrite He in Hq. cbn in Hq. injection Hq as <-.
    pose proof (get_at_place p (Z.of_nat (erow e)) (ecol e) Hgp) as HGet. rewrite Hwh in HGet.
    assert (HG : exists x, content p (pl e) = Some x /\ get_at p (Z.of_nat (erow e)) (ecol e) = Got x) by (revert HGet; unfold pl; destruct (_ =? _)%Z; auto).
    destruct HG as (x & Hx & ->). cbn [rbind].
    assert (Hst : ((i <? 0 - 1)%Z && match tab with e' :: _ => negb (epage e' =? epage e) | [] => false end) = false).
    { destruct tab as [|e' tab']; [apply andb_false_r|]. cbn in H0'. inversion H0' as [|? ? He' _]; subst. cbn in He'. rewrite He, He', Nat.eqb_refl. apply andb_false_r. }
    rewrite Hst. destruct (IH H0' Hfit2 (i + 1)%Z) as (l & -> & L & HL). cbn [rbind]. exists (x :: l). split; auto. split; [cbn; auto|]. intros [|i'] k l' Hi; cbn in Hi |- *; [injection Hi as <- <-; auto|eauto].
Qed.
(** C43: no NaN, no free parameter: the model is only copied. *)
Theorem C43_none : forall base, fix_params base = None <-> free_places base = [].
Proof.
  intros base. unfold fix_params. pose proof (table_keys base 0) as H. unfold free_places. destruct (table_prep base 0); cbn in H; rewrite <- H; split; intros; auto; discriminate.
Qed.
End C43.
Print Assumptions C43_unpack.
Print Assumptions C43_history.
Print Assumptions C43_pack.
Print Assumptions C43_none.
(** an example: two pages; the free parameters are the vector's second and the matrix's first cell, and the second page's vector *)
Definition fp_base : list (page (option nat)) :=
  [Pg (Some [Some 7; None]) (Some (Gr 1 2 [[None; Some 8]])) None None name_alloc None; Pg (Some [None]) None None None name_alloc None].
Example C43_nonvacuous : good_pages fp_base /\ free_places fp_base = [(0, InVec 1); (0, InMat 0 0); (1, InVec 0)] /\
  exists tab, fix_params fp_base = Some (tab, 3) /\ exists tab', fp_unpack fp_base tab [Some 1; Some 2; Some 3] =
    Ok ([Pg (Some [Some 7; Some 1]) (Some (Gr 1 2 [[Some 2; Some 8]])) None None name_alloc None; Pg (Some [Some 3]) None None None name_alloc None], tab').
Proof.
  split; [|split; [reflexivity|]]; [|eexists; split; [reflexivity|]; eexists; reflexivity].
  constructor; [|constructor; [discriminate|constructor]]. intros m [= <-]. split; auto. constructor; auto.
Qed.
(** Deviation: nothing sets the count on which packing relies to go on to the next page, so the second page's parameter is read from the first. *)
Theorem C43_pages_refuted : exists (base cur : list (page (option nat))) tab, fix_params base = Some (tab, 2) /\ fp_unpack base tab [Some 1; Some 2] = Ok (cur, zip_with (fun e x => En (erow e) (ecol e) (epage e) x) tab [Some 1; Some 2]) /\
  fp_pack cur tab = Ok [Some 1; Some 1].
Proof.
  exists [Pg (Some [None]) None None None name_alloc None; Pg (Some [None]) None None None name_alloc None], [Pg (Some [Some 1]) None None None name_alloc None; Pg (Some [Some 2]) None None None name_alloc None], [En 0 (-1) 0 None; En 0 (-1) 1 None].
  split; [|split]; reflexivity.
Qed.
