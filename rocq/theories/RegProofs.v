(** Lemmas on the registries. *)
From Verif Require Import Base NamesModel RegModel.
Local Open Scope string_scope.
Local Open Scope list_scope.
Local Open Scope nat_scope.

Section V.
Context {F : Type} (null : F).
Implicit Types (v : vtab F) (l : list (vtab F)) (a : list (Z * F)) (s : vstate F).

(** first binding in an association list *)
Fixpoint alook (h : Z) a : option F :=
  match a with [] => None | (h', f) :: a' => if (h =? h')%Z then Some f else alook h a' end.
Definition live v := take (ct v) (cells v).
Definition vok v := ct v <= length (cells v) /\ NoDup (map fst (live v)).
Definition lok l := Forall (fun v => vhash v <> 0%Z /\ vok v) l.
Definition sok s := match s with Some l => lok l | None => True end.
Definition slook s th h : option F :=
  match s with
  | None => None
  | Some l => match l !! find_tab th l with Some v => alook h (live v) | None => None end
  end.

Lemma alook_app h a b : alook h (a ++ b) = match alook h a with Some f => Some f | None => alook h b end.
Proof. induction a as [|[h' f] a IH]; cbn; auto. destruct (h =? h')%Z; auto. Qed.
Lemma alook_None h a : alook h a = None <-> h ∉ map fst a.
Proof.
  induction a as [|[h' f] a IH]; cbn; [split; auto; intros _ H; inversion H|]. rewrite elem_of_cons.
  destruct (Z.eqb_spec h h') as [->|]; [split; [discriminate|intros H; destruct H; auto]|]. rewrite IH. intuition congruence.
Qed.
Lemma find_cell_spec h n a : n <= length a ->
  match find_cell h n a with
  | Some k => k < n /\ exists f, a !! k = Some (h, f) /\ alook h (take n a) = Some f
  | None => alook h (take n a) = None
  end.
Proof.
  revert n; induction a as [|[h' f] a IH]; intros [|n] Hn; cbn in *; auto.
  destruct (Z.eqb_spec h h') as [->|].
  - split; [lia|]. exists f. auto.
  - specialize (IH n ltac:(lia)). destruct (find_cell h n a) as [k|]; cbn; auto.
    destruct IH as (Hk & g & Hg & Ha). split; [lia|]. exists g. auto.
Qed.
Lemma alook_lookup h a k f : NoDup (map fst a) -> a !! k = Some (h, f) -> alook h a = Some f.
Proof.
  revert k; induction a as [|[h' g] a IH]; intros [|k] Hn H; cbn in *; try discriminate.
  - injection H as -> ->. rewrite Z.eqb_refl. auto.
  - inversion Hn; subst. destruct (Z.eqb_spec h h') as [->|]; [|eauto].
    destruct H2. apply (elem_of_list_fmap_1_alt fst a (h', f) h'); [exact (elem_of_list_lookup_2 a k _ H)|auto].
Qed.
Lemma alook_delete h k f a : NoDup (map fst a) -> a !! k = Some (h, f) ->
  forall h', alook h' (take k a ++ drop (S k) a) = if (h' =? h)%Z then None else alook h' a.
Proof.
  revert k; induction a as [|[h0 g] a IH]; intros [|k] Hn H h'; cbn in *; try discriminate.
  - injection H as -> ->. inversion Hn; subst. destruct (Z.eqb_spec h' h) as [->|]; auto.
    rewrite drop_0. apply alook_None. auto.
  - inversion Hn; subst. rewrite (IH k H3 H).
    destruct (Z.eqb_spec h' h0) as [->|]; auto. destruct (Z.eqb_spec h0 h) as [->|]; auto.
    destruct H2. apply (elem_of_list_fmap_1_alt fst a (h, f) h); [exact (elem_of_list_lookup_2 a k _ H)|auto].
Qed.

Lemma crealloc_take junk a m n : m <= length a -> m <= n -> take m (crealloc junk a n) = take m a.
Proof.
  intros Hm Hn. unfold crealloc. apply list_eq; intros i. destruct (decide (i < m)).
  - rewrite !lookup_take by auto. rewrite list_lookup_fmap, lookup_seq_lt by lia. cbn. destruct (lookup_lt_is_Some_2 a i) as [x Hx]; [lia|].
    unfold cell_at. rewrite Hx. auto.
  - rewrite !lookup_take_ge by lia. auto.
Qed.
(** adding a cell *)
Lemma add_cell junk v h (f : F) : vok v -> alook h (live v) = None ->
  let n := S (ct v) in let v' := Vt (vhash v) n (<[n - 1 := (h, f)]> (crealloc junk (cells v) n)) in
  vok v' /\ live v' = live v ++ [(h, f)].
Proof.
  intros [Hc Hn] Ha n v'. assert (Hl : live v' = live v ++ [(h, f)]).
  { unfold live, v'. cbn [ct cells]. replace (n - 1) with (ct v) by (unfold n; lia).
    assert (length (crealloc junk (cells v) n) = n) as Hlen by (unfold crealloc; rewrite map_length, seq_length; auto).
    rewrite take_ge by (rewrite insert_length; lia).
    assert (take (ct v) (crealloc junk (cells v) n) = take (ct v) (cells v)) as Ht.
    { apply crealloc_take; unfold n; lia. }
    rewrite <- Ht. rewrite <- (take_drop (ct v) (crealloc junk (cells v) n)) at 1.
    rewrite insert_app_r_alt by (rewrite take_length; lia).
    rewrite take_length, Hlen, Nat.min_l by (unfold n; lia). replace (ct v - ct v) with 0 by lia. f_equal.
    assert (length (drop (ct v) (crealloc junk (cells v) n)) = 1) as Hd by (rewrite drop_length; unfold n in *; lia).
    destruct (drop (ct v) (crealloc junk (cells v) n)) as [|x [|y d]]; cbn in Hd; try lia. auto. }
  split; [|auto]. split.
  - unfold v'. cbn [ct cells]. rewrite insert_length. unfold crealloc. rewrite map_length, seq_length. lia.
  - rewrite Hl, map_app. cbn. apply NoDup_app. split; [auto|]. split; [|apply NoDup_singleton].
    intros x Hx Hx'. apply elem_of_list_singleton in Hx'. subst. apply alook_None in Ha. auto.
Qed.
(** dropping one *)
Lemma memmove_live junk a k n : k < n -> n <= length a ->
  take (n - 1) (fst (memmove junk a k (n - k))) = take k (take n a) ++ drop (S k) (take n a) /\
  length (fst (memmove junk a k (n - k))) = length a.
Proof.
  intros Hk Hn. unfold memmove. cbn [fst]. split.
  - rewrite take_take, Nat.min_l by lia.
    apply list_eq; intros i.
    assert (length (take k a) = k) as Hlk by (rewrite take_length; lia).
    destruct (decide (i < k)).
    { rewrite lookup_take by lia. rewrite !lookup_app_l by (rewrite take_length; lia). auto. }
    rewrite (lookup_app_r (take k a)) by lia. rewrite Hlk.
    destruct (decide (i < n - 1)).
    + rewrite lookup_take by lia. rewrite lookup_app_r by lia. rewrite Hlk.
      rewrite lookup_app_l by (rewrite map_length, seq_length; lia). rewrite list_lookup_fmap, lookup_seq_lt by lia. cbn.
      rewrite lookup_drop, lookup_take by lia. destruct (lookup_lt_is_Some_2 a (k + 1 + (i - k))) as [x Hx]; [lia|].
      unfold cell_at. rewrite Hx. cbn. rewrite <- Hx. f_equal. lia.
    + rewrite lookup_take_ge by lia. symmetry. apply lookup_ge_None. rewrite drop_length, take_length. lia.
  - rewrite !app_length, take_length, map_length, seq_length, drop_length. lia.
Qed.
Lemma drop_cell junk v h k (f : F) : vok v -> k < ct v -> cells v !! k = Some (h, f) ->
  let v' := Vt (vhash v) (ct v - 1) (fst (memmove junk (cells v) k (ct v - k))) in
  vok v' /\ forall h', alook h' (live v') = if (h' =? h)%Z then None else alook h' (live v).
Proof.
  intros [Hc Hn] Hk Hf v'. destruct (memmove_live junk (cells v) k (ct v) Hk Hc) as [H1 H2].
  assert (live v' = take k (live v) ++ drop (S k) (live v)) as Hl by exact H1.
  split.
  - split; [unfold v'; cbn [ct cells]; rewrite H2; lia|]. rewrite Hl.
    rewrite map_app, <- (firstn_map fst), <- (skipn_map fst). clear -Hn. revert k.
    induction (map fst (live v)) as [|x l IH]; intros [|k]; cbn; auto; inversion Hn; subst; auto.
    constructor; [|apply IH; auto]. intros Hx. apply H1. apply elem_of_app in Hx. rewrite <- (take_drop k l), elem_of_app.
    destruct Hx as [Hx|Hx]; [auto|]. right. rewrite <- (take_drop 1 (drop k l)), elem_of_app. right. rewrite drop_drop.
    replace (k + 1) with (S k) by lia. auto.
  - intros h'. rewrite Hl. apply (alook_delete h k f); auto. unfold live. rewrite lookup_take; auto.
Qed.

Lemma find_tab_spec th l : lok l -> th <> 0%Z ->
  match l !! find_tab th l with
  | Some v => vhash v = th /\ vok v
  | None => find_tab th l = length l
  end.
Proof.
  intros Hl Hth. induction Hl as [|v l [Hv Hok] Hl IH]; cbn; auto.
  destruct (Z.eqb_spec (vhash v) 0); [congruence|]. destruct (Z.eqb_spec (vhash v) th); cbn; auto.
  destruct (l !! find_tab th l); auto.
Qed.
Lemma find_tab_ext l l' : map vhash l = map vhash l' -> forall th, find_tab th l = find_tab th l'.
Proof.
  revert l'; induction l as [|v l IH]; intros [|v' l'] H th; cbn in *; try discriminate; auto. injection H as -> H.
  rewrite (IH l' H). auto.
Qed.
Lemma find_tab_app th l v : lok l ->
  find_tab th (l ++ [v]) = if decide (find_tab th l < length l) then find_tab th l else
    length l + (if (vhash v =? 0)%Z then 0 else if (vhash v =? th)%Z then 0 else 1).
Proof.
  intros Hl. induction Hl as [|w l [Hw Hok] Hl IH]; cbn.
  - destruct (vhash v =? 0)%Z; [auto|destruct (vhash v =? th)%Z; auto].
  - destruct (Z.eqb_spec (vhash w) 0); [congruence|]. destruct (Z.eqb_spec (vhash w) th); [destruct (decide (0 < S (length l))); [auto|lia]|].
    rewrite IH. destruct (decide (find_tab th l < length l)), (decide (S (find_tab th l) < S (length l))); try lia; auto.
Qed.
Lemma map_insert_same l i v v' : l !! i = Some v -> vhash v' = vhash v -> map vhash (<[i := v']> l) = map vhash l.
Proof.
  intros H E. rewrite <- (list_insert_id l i v H) at 2. revert H. revert i. clear -E.
  induction l as [|w l IH]; intros [|i] H; cbn in *; try discriminate; [congruence|]. f_equal. auto.
Qed.
(** replacing a table by one with the same hash *)
Lemma slook_insert l i v v' th th' h : lok l -> l !! i = Some v -> find_tab th l = i -> vhash v = th -> vhash v' = th -> th' <> 0%Z ->
  slook (Some (<[i := v']> l)) th' h = if (th' =? th)%Z then alook h (live v') else slook (Some l) th' h.
Proof.
  intros Hl Hi Hf Hv Hv' Hth'. cbn. rewrite (find_tab_ext (<[i := v']> l) l) by (apply (map_insert_same l i v v'); congruence).
  pose proof (find_tab_spec th' l Hl Hth') as HS.
  destruct (Z.eqb_spec th' th) as [->|Hne].
  - rewrite Hf, list_lookup_insert; [auto|]. eapply lookup_lt_Some; eauto.
  - rewrite list_lookup_insert_ne; [auto|]. intros E. rewrite <- E, Hi in HS. destruct HS as [HS _]. congruence.
Qed.
Lemma lok_insert l i v' : lok l -> vhash v' <> 0%Z -> vok v' -> lok (<[i := v']> l).
Proof. intros Hl Hv Hok. apply Forall_insert; auto. Qed.

Lemma vadd_spec junk s t (f : F) h : sok s -> name_hash t <> 0%Z ->
  sok (vadd null junk s t f h) /\
  forall th' h', th' <> 0%Z -> slook (vadd null junk s t f h) th' h' =
    if (th' =? name_hash t)%Z && (h' =? h)%Z
    then Some (default f (slook s th' h'))
    else slook s th' h'.
Proof.
  intros Hs Ht. unfold vadd. set (l := default [] s). set (th := name_hash t) in *.
  assert (Hl : lok l) by (unfold l; destruct s; cbn; [exact Hs|constructor]).
  assert (Hsl : forall th' h', slook s th' h' = slook (Some l) th' h').
  { intros. unfold l. destruct s; cbn; auto. }
  pose proof (find_tab_spec th l Hl Ht) as HS.
  set (l1 := if (vhash (tab_at l (find_tab th l)) =? 0)%Z then take (find_tab th l) l ++ [Vt th 0 [(0%Z, null)]] else l).
  assert (H1 : exists v, l1 !! find_tab th l = Some v /\ vhash v = th /\ vok v /\ lok l1 /\ find_tab th l1 = find_tab th l /\
            forall th' h', th' <> 0%Z -> slook (Some l1) th' h' = slook (Some l) th' h').
  { unfold l1, tab_at. destruct (l !! find_tab th l) as [v|] eqn:Ev; cbn.
    - destruct HS as [Hv Hok]. destruct (Z.eqb_spec (vhash v) 0); [congruence|]. exists v. repeat split; auto; apply Hok.
    - rewrite HS, take_ge by lia. exists (Vt th 0 [(0%Z, null)]).
      assert (vok (Vt th 0 [(0%Z, null)])) as Hok by (split; [cbn; lia|constructor]).
      split; [rewrite lookup_app_r, Nat.sub_diag by lia; auto|]. split; [auto|]. split; [auto|].
      split; [apply Forall_app; split; [auto|repeat constructor; auto; apply Hok]|].
      split.
      { rewrite find_tab_app by auto. rewrite HS. destruct decide; [lia|]. cbn. destruct (Z.eqb_spec th 0); [congruence|]. rewrite Z.eqb_refl. lia. }
      intros th' h' Hth'. unfold slook. rewrite find_tab_app by auto. cbn [vhash]. destruct (Z.eqb_spec th 0); [congruence|].
      destruct (decide (find_tab th' l < length l)); [rewrite lookup_app_l by auto; auto|].
      rewrite (proj2 (lookup_ge_None l _)) by lia. destruct (Z.eqb_spec th th').
      + rewrite lookup_app_r by lia. replace (length l + 0 - length l) with 0 by lia. cbn. auto.
      + rewrite (proj2 (lookup_ge_None (l ++ _) _)) by (rewrite app_length; cbn; lia). auto. }
  clearbody l1. destruct H1 as (v & Hv & Hvh & Hok & Hl1 & Hf1 & Hsame). unfold tab_at. rewrite Hv. cbn [default from_option id].
  assert (Hold : forall h', slook (Some l) th h' = alook h' (live v)).
  { intros h'. rewrite <- Hsame by auto. cbn. rewrite Hf1, Hv. auto. }
  pose proof (find_cell_spec h (ct v) (cells v) (proj1 Hok)) as HC.
  destruct (find_cell h (ct v) (cells v)) as [k|].
  - destruct HC as (_ & g & _ & Hg). split; [cbn [sok]; auto|]. intros th' h' Hth'. rewrite Hsame, Hsl by auto.
    destruct (Z.eqb_spec th' th) as [->|]; [|auto]. destruct (Z.eqb_spec h' h) as [->|]; [|auto]. cbn.
    change (slook (Some l) th h = Some (default f (slook (Some l) th h))). rewrite Hold. fold (live v) in Hg. rewrite Hg. auto.
  - fold (live v) in HC. destruct (add_cell junk v h f Hok HC) as [Hok' Hlive]. split.
    + cbn [sok]. apply lok_insert; auto. cbn. congruence.
    + intros th' h' Hth'. rewrite (slook_insert l1 (find_tab th l) v _ th) by (auto; cbn; congruence).
      rewrite Hlive, alook_app. cbn. rewrite Hsl, <- (Hsame th') by auto.
      destruct (Z.eqb_spec th' th) as [->|]; [|auto]. rewrite Hsame, Hold by auto. cbn [andb].
      destruct (Z.eqb_spec h' h) as [->|]; [rewrite HC; auto|]. destruct (alook h' (live v)); auto.
Qed.
Lemma vget_spec s t h : sok s -> name_hash t <> 0%Z -> vget null s t h = default null (slook s (name_hash t) h).
Proof.
  intros Hs Ht. unfold vget, slook. destruct s as [l|]; [|auto]. cbn [sok] in Hs.
  pose proof (find_tab_spec (name_hash t) l Hs Ht) as HS. unfold tab_at. destruct (l !! find_tab (name_hash t) l) as [v|]; [|auto].
  cbn. destruct HS as [Hv [Hok _]]. destruct (Z.eqb_spec (vhash v) 0); [congruence|].
  pose proof (find_cell_spec h (ct v) (cells v) Hok) as HC. fold (live v) in HC.
  destruct (find_cell h (ct v) (cells v)) as [k|]; [|rewrite HC; auto]. destruct HC as (_ & f & H1 & H2). rewrite H1, H2. auto.
Qed.
Lemma vdrop_spec junk s t h : sok s -> name_hash t <> 0%Z ->
  let r := vdrop junk s t h in
  sok (snd r) /\ (fst (fst r) = 0 <-> slook s (name_hash t) h <> None) /\ (fst (fst r) = 0 \/ fst (fst r) = 1) /\
  forall th' h', th' <> 0%Z -> slook (snd r) th' h' =
    if (th' =? name_hash t)%Z && (h' =? h)%Z then None else slook s th' h'.
Proof.
  intros Hs Ht r. unfold r, vdrop. destruct s as [l|].
  2:{ cbn. split; [auto|]. split; [split; congruence|]. split; [auto|]. intros. destruct (_ && _); auto. }
 cbn [sok] in Hs.  set (th := name_hash t) in *.
  pose proof (find_tab_spec th l Hs Ht) as HS. unfold tab_at. destruct (l !! find_tab th l) as [v|] eqn:Ev; cbn [default from_option id].
  - destruct HS as [Hv Hok]. pose proof (find_cell_spec h (ct v) (cells v) (proj1 Hok)) as HC. fold (live v) in HC.
    assert (Hold : forall h', slook (Some l) th h' = alook h' (live v)) by (intros; cbn; rewrite Ev; auto).
    destruct (find_cell h (ct v) (cells v)) as [k|].
    + destruct HC as (Hk & f & H1 & H2). pose proof (drop_cell junk v h k f Hok Hk H1) as HD.
      destruct (memmove junk (cells v) k (ct v - k)) as [c o]. cbn [fst snd] in *. destruct HD as [Hok' Hd].
      split; [cbn [sok]; apply lok_insert; auto; cbn; congruence|].
      split; [rewrite Hold, H2; split; [congruence|auto]|]. split; [auto|].
      intros th' h' Hth'. rewrite (slook_insert l (find_tab th l) v _ th) by (auto; cbn; congruence).
      rewrite Hd. destruct (Z.eqb_spec th' th) as [->|]; [|auto]. cbn [andb]. destruct (h' =? h)%Z; auto.
    + cbn [fst snd]. split; [cbn [sok]; auto|]. split; [rewrite Hold, HC; split; congruence|]. split; [auto|].
      intros th' h' _. destruct (Z.eqb_spec th' th) as [->|]; [|auto]. destruct (Z.eqb_spec h' h) as [->|]; [|auto].
      cbn [andb]. rewrite Hold. auto.
  - cbn [no_tab ct cells find_cell fst snd]. split; [cbn [sok]; auto|]. cbn [slook]. rewrite Ev. split; [split; congruence|]. split; [auto|].
    intros th' h' _. destruct (Z.eqb_spec th' th) as [->|]; [|auto]. destruct (Z.eqb_spec h' h) as [->|]; cbn; auto. rewrite Ev. auto.
Qed.
End V.

Section Set_.
Context {G : Type} (null : G).
Implicit Types (e : sentry G) (lv a : list (sentry G)) (s : settings G).
Definition named e := sname e <> "".
Fixpoint elook (h : Z) lv : option (sentry G) :=
  match lv with [] => None | e :: lv' => if (h =? shash e)%Z then Some e else elook h lv' end.
(** the array shows exactly the entries [lv] *)
Definition shows_entries s lv : Prop :=
  match s with
  | None => lv = []
  | Some a => exists z rest, a = lv ++ z :: rest /\ sname z = "" /\ Forall named lv
  end.
Definition others (h : Z) lv := List.filter (fun e => negb (shash e =? h)%Z) lv.
Definition those (h : Z) lv := map sgroup (List.filter (fun e => (shash e =? h)%Z) lv).

Lemma named_eqb e : named e -> (sname e =? "")%string = false.
Proof. intros H. apply String.eqb_neq. exact H. Qed.
Lemma live_ct_spec lv z rest : Forall named lv -> sname z = "" -> live_ct (lv ++ z :: rest) = Ok (length lv).
Proof.
  intros H Hz. induction H as [|e lv He H IH]; cbn; [rewrite Hz; auto|]. rewrite (named_eqb e He), IH. auto.
Qed.
Lemma find_group_spec h lv z rest : Forall named lv -> sname z = "" -> find_group h (lv ++ z :: rest) = Ok (elook h lv).
Proof.
  intros H Hz. induction H as [|e lv He H IH]; cbn; [rewrite Hz; auto|]. rewrite (named_eqb e He), IH. destruct (h =? shash e)%Z; auto.
Qed.
Lemma get_entry_spec s lv t : shows_entries s lv -> get_entry s t = Ok (elook (name_hash t) lv).
Proof.
  destruct s as [a|]; cbn; [|intros ->; auto]. intros (z & rest & -> & Hz & Hn). apply find_group_spec; auto.
Qed.
Lemma rm_loop_spec h ct : forall suf fuel pre z rest freed, length suf < fuel -> Forall named (pre ++ suf) -> sname z = "" ->
  length (pre ++ suf) <= ct -> ct < length (pre ++ suf ++ z :: rest) ->
  exists rest', rm_loop fuel h ct (pre ++ suf ++ z :: rest) (length pre) freed
     = Ok (pre ++ others h suf ++ z :: rest', freed ++ those h suf).
Proof.
  induction suf as [|e suf IH]; intros fuel pre z rest freed Hf Hn Hz Hct Hlen.
  - destruct fuel as [|fuel]; [lia|]. exists rest. cbn [rm_loop app]. rewrite lookup_app_r, Nat.sub_diag by lia. cbn.
    rewrite Hz. cbn. rewrite app_nil_r. auto.
  - destruct fuel as [|fuel]; [cbn in Hf; lia|]. cbn [rm_loop].
    rewrite lookup_app_r, Nat.sub_diag by lia. cbn [lookup list_lookup app].
    assert (named e) as He. { apply Forall_app in Hn as [_ Hn]. inversion Hn; auto. }
    rewrite (named_eqb e He). unfold others, those in *. cbn [List.filter]. destruct (Z.eqb_spec (shash e) h) as [Eh|Eh]; cbn [negb].
    + destruct (Nat.ltb_spec (length (pre ++ e :: suf ++ z :: rest)) (ct + 1)) as [Hlt|Hge].
      { rewrite !app_length in *. cbn in *. rewrite app_length in *. cbn in *. lia. }
      rewrite take_app.
      assert (exists rest', drop (S (length pre)) (take (S ct) (pre ++ e :: suf ++ z :: rest)) ++ drop ct (pre ++ e :: suf ++ z :: rest)
               = suf ++ z :: rest' /\ length (suf ++ z :: rest') = S (length (suf ++ z :: rest))) as (rest' & -> & HL).
      { exists (take (S ct - length pre - 1 - length suf - 1) rest ++ drop ct (pre ++ e :: suf ++ z :: rest)).
        split.
        - rewrite take_app_ge by (rewrite app_length in Hct; cbn in Hct; lia).
          rewrite drop_app_ge by lia. replace (S (length pre) - length pre) with 1 by lia.
          rewrite app_length in Hct. cbn [length] in Hct.
          replace (S ct - length pre) with (S (ct - length pre)) by lia. cbn [take drop].
          rewrite take_app_ge by lia.
          replace (ct - length pre - length suf) with (S (S (ct - length pre) - 1 - length suf - 1)) by lia. cbn [take]. rewrite ?drop_0. rewrite <- ?app_assoc. cbn [app]. auto.
        - rewrite !app_length. cbn. rewrite !app_length, take_length, drop_length, !app_length. cbn. rewrite !app_length in *. cbn in *.
          rewrite !app_length in *. cbn in *. lia. }
      destruct (IH fuel pre z rest' (freed ++ [sgroup e])) as (r2 & Hr2); auto.
      * cbn in Hf. lia.
      * apply Forall_app in Hn as [H1 H2]. inversion H2; subst. apply Forall_app; auto.
      * rewrite app_length in *. cbn in *. lia.
      * rewrite app_length, HL. rewrite !app_length in *. cbn in *. rewrite !app_length in *. cbn in *. lia.
      * exists r2. rewrite Hr2. cbn [map]. rewrite <- app_assoc. auto.
    + destruct (IH fuel (pre ++ [e]) z rest freed) as (r2 & Hr2); auto.
      * cbn in Hf. lia.
      * rewrite <- app_assoc. auto.
      * rewrite !app_length in *. cbn in *. lia.
      * rewrite !app_length in *. cbn in *. rewrite ?app_length in *. cbn in *. lia.
      * exists r2. rewrite app_length in Hr2. cbn [length] in Hr2. replace (length pre + 1) with (S (length pre)) in Hr2 by lia.
        rewrite <- !app_assoc in Hr2. exact Hr2.
Qed.
Lemma others_named h lv : Forall named lv -> Forall named (others h lv).
Proof. intros H. unfold others. induction H; cbn; auto. destruct (negb _); auto. Qed.
Lemma remove_spec s lv t : shows_entries s lv ->
  exists s', remove_group s t = Ok (s', those (name_hash t) lv) /\ shows_entries s' (others (name_hash t) lv).
Proof.
  destruct s as [a|]; cbn [shows_entries].
  - intros (z & rest & -> & Hz & Hn). unfold remove_group. rewrite live_ct_spec by auto. cbn [rbind].
    destruct (rm_loop_spec (name_hash t) (length lv) lv (2 * length (lv ++ z :: rest) + 2) [] z rest []) as (r & Hr); auto.
    + rewrite app_length. lia.
    + cbn. rewrite app_length. cbn. lia.
    + cbn [app length] in Hr. rewrite Hr. cbn. eexists. split; [reflexivity|]. cbn. exists z, r. split; [auto|]. split; [auto|].
      apply others_named; auto.
  - intros ->. cbn. eexists. split; [reflexivity|]. cbn. auto.
Qed.
Lemma elook_others h lv : elook h lv = None -> others h lv = lv /\ those h lv = [].
Proof.
  unfold others, those. induction lv as [|e lv IH]; cbn; auto. rewrite (Z.eqb_sym (shash e)).
  destruct (h =? shash e)%Z eqn:E; [discriminate|]. intros H. cbn. destruct (IH H) as [H1 H2]. rewrite H1, H2. auto.
Qed.
Lemma alloc_spec s lv t cp (g : G) : shows_entries s lv -> t <> "" ->
  exists s', group_alloc null s t cp g = Ok (s', those (name_hash t) lv) /\
    shows_entries s' (others (name_hash t) lv ++ [Se (substring 0 100 t) (name_hash t) g cp]).
Proof.
  intros Hs Ht. unfold group_alloc, get_grp. rewrite (get_entry_spec s lv) by auto. cbn [rbind].
  assert (exists s1, match option_map sgroup (elook (name_hash t) lv) with Some _ => remove_group s t | None => Ok (s, []) end
            = Ok (s1, those (name_hash t) lv) /\ shows_entries s1 (others (name_hash t) lv)) as (s1 & -> & H1).
  { destruct (elook (name_hash t) lv) eqn:Ee; cbn.
    - apply remove_spec; auto.
    - destruct (elook_others _ _ Ee) as [-> ->]. exists s. auto. }
  cbn [rbind]. set (lv1 := others (name_hash t) lv) in *.
  assert (settings_ct s1 = Ok (length lv1) /\ take (length lv1) (default [] s1) = lv1 /\ Forall named lv1) as (-> & H2 & H3).
  { destruct s1 as [a|]; cbn in H1.
    - destruct H1 as (z & rest & -> & Hz & Hn). cbn. rewrite live_ct_spec by auto. split; [auto|]. split; [|auto].
      unfold default. cbn. rewrite take_app. auto.
    - rewrite H1. cbn. auto. }
  cbn [rbind]. eexists. split; [reflexivity|]. cbn [shows_entries]. rewrite H2. exists (sentinel null), [].
  split; [rewrite <- app_assoc; auto|]. split; [auto|]. apply Forall_app. split; [auto|]. constructor; [|auto].
  unfold named. cbn [sname]. destruct t; [congruence|]. cbn. discriminate.
Qed.
Lemma elook_app h lv lv' : elook h (lv ++ lv') = match elook h lv with Some e => Some e | None => elook h lv' end.
Proof. induction lv as [|e lv IH]; cbn; auto. destruct (h =? shash e)%Z; auto. Qed.
Lemma elook_others_spec h h' lv : elook h' (others h lv) = if (h' =? h)%Z then None else elook h' lv.
Proof.
  unfold others. induction lv as [|e lv IH]; cbn; [destruct (h' =? h)%Z; auto|].
  destruct (Z.eqb_spec (shash e) h) as [E|E]; cbn [negb].
  - rewrite IH. destruct (Z.eqb_spec h' h) as [->|]; auto. destruct (Z.eqb_spec h' (shash e)); [congruence|auto].
  - cbn. rewrite IH. destruct (Z.eqb_spec h' (shash e)) as [->|]; auto. destruct (Z.eqb_spec (shash e) h); [congruence|auto].
Qed.
Lemma others_hash h lv : NoDup (map shash lv) -> NoDup (map shash (others h lv)) /\ h ∉ map shash (others h lv).
Proof.
  unfold others. intros H. split.
  - induction lv as [|e lv IH]; cbn; [constructor|]. cbn in H. inversion H; subst.
    destruct (negb _); cbn; auto. constructor; auto. intros Hin. apply H2. apply elem_of_list_fmap in Hin as (x & -> & Hx).
    apply elem_of_list_fmap. exists x. split; auto. apply elem_of_list_In, filter_In in Hx as [Hx _]. apply elem_of_list_In. auto.
  - intros Hin. apply elem_of_list_fmap in Hin as (x & Hx & Hin). apply elem_of_list_In, filter_In in Hin as [_ Hb].
    rewrite <- Hx, Z.eqb_refl in Hb. discriminate.
Qed.
Lemma those_spec h lv : NoDup (map shash lv) -> those h lv = match elook h lv with Some e => [sgroup e] | None => [] end.
Proof.
  unfold those. induction lv as [|e lv IH]; cbn; intros Hn; auto. inversion Hn; subst. rewrite (Z.eqb_sym (shash e)).
  destruct (Z.eqb_spec h (shash e)) as [->|]; auto. cbn. rewrite IH by auto.
  destruct (elook (shash e) lv) as [e'|] eqn:E; auto. exfalso. apply H1. clear -E. induction lv as [|x lv IH]; cbn in *; [discriminate|].
  destruct (Z.eqb_spec (shash e) (shash x)) as [->|]; [apply elem_of_list_here|]. apply elem_of_list_further; auto.
Qed.

(** copying *)
Definition copied e : sentry G := Se (sname e) (shash e) (match scopy e with Some f => f (sgroup e) | None => sgroup e end) (scopy e).
Definition plain e : Prop := named e /\ String.length (sname e) <= 100 /\ shash e = name_hash (sname e).
Lemma substring_all (t : string) : forall n, String.length t <= n -> substring 0 n t = t.
Proof. induction t as [|c t IH]; intros [|n] H; cbn in *; auto; [lia|]. rewrite IH by lia. auto. Qed.
Lemma elook_self lv e : NoDup (map shash lv) -> e ∈ lv -> elook (shash e) lv = Some e.
Proof.
  intros Hn He. induction He as [x l|x y l He IH]; cbn; [rewrite Z.eqb_refl; auto|]. cbn in Hn. inversion Hn; subst.
  destruct (Z.eqb_spec (shash x) (shash y)) as [E|]; auto. destruct H1. rewrite <- E. apply elem_of_list_fmap. eauto.
Qed.
Lemma elook_not_in h lv : h ∉ map shash lv -> elook h lv = None.
Proof.
  induction lv as [|e lv IH]; cbn; auto. rewrite elem_of_cons. intros H. destruct (Z.eqb_spec h (shash e)) as [->|]; [destruct H; auto|].
  apply IH. auto.
Qed.
Lemma copy_all_spec s lv : shows_entries s lv -> NoDup (map shash lv) -> Forall plain lv -> forall suf pre z rest out,
  lv = pre ++ suf -> sname z = "" -> s <> None -> shows_entries out (map copied pre) ->
  exists out', copy_all null s (suf ++ z :: rest) out false = Ok (out', false) /\ shows_entries out' (map copied lv).
Proof.
  intros Hs Hn Hp. induction suf as [|e suf IH]; intros pre z rest out E Hz Hne Ho.
  - cbn. rewrite Hz. cbn. exists out. split; [auto|]. rewrite app_nil_r in E. congruence.
  - cbn [copy_all app]. assert (plain e) as (Hnm & Hlen & Hh).
    { rewrite E in Hp. apply Forall_app in Hp as [_ Hp]. inversion Hp; auto. }
    unfold copy_group. rewrite (named_eqb e Hnm). destruct s as [a|]; [|congruence].
    rewrite (get_entry_spec (Some a) lv) by auto. cbn [rbind]. rewrite <- Hh. rewrite elook_self; auto.
    2:{ rewrite E. apply elem_of_app. right. apply elem_of_list_here. }
    destruct (alloc_spec out (map copied pre) (sname e) (scopy e) (match scopy e with Some f => f (sgroup e) | None => sgroup e end) Ho Hnm)
      as (o2 & -> & Ho2).
    cbn [rbind fst]. cbn [orb].
    apply (IH (pre ++ [e]) z rest o2); auto.
    + rewrite E, <- app_assoc. auto.
    + rewrite map_app. cbn [map]. unfold copied at 2. rewrite (substring_all _ _ Hlen), <- Hh in Ho2.
      destruct (elook_others (shash e) (map copied pre)) as [E1 _]; [|rewrite E1 in Ho2; auto].
      apply elook_not_in. rewrite map_map. cbn [shash copied]. intros Hin. rewrite E, map_app in Hn. apply NoDup_app in Hn as (_ & Hd & _).
      apply (Hd (shash e) Hin). apply elem_of_list_here.
Qed.
Lemma elook_copied h lv : elook h (map copied lv) = option_map copied (elook h lv).
Proof. induction lv as [|e lv IH]; cbn; auto. destruct (h =? shash e)%Z; auto. Qed.
End Set_.
