(** Proofs about FactModel: orders, unique elements, binary search, the loop that makes factors and dummies. *)
From Coq Require Import Reals Lra Sorting.
From Verif Require FixProps.
From Verif Require Import DataModel AccessProps FactModel.
Local Open Scope list_scope.
Local Open Scope nat_scope.

(** ---------- orders ---------- *)
Definition good_cmp {A} (cmp : A -> A -> comparison) : Prop :=
  (forall x y, cmp x y = Eq <-> x = y) /\ (forall x y, cmp y x = CompOpp (cmp x y)) /\ (forall x y z, cmp x y = Lt -> cmp y z = Lt -> cmp x z = Lt).
Lemma ncmp_good : good_cmp ncmp.
Proof.
  split; [|split].
  - intros [x|] [y|]; cbn; try (split; [discriminate|discriminate]); [|tauto]. destruct (Rlt_dec x y), (Rlt_dec y x); split; try discriminate; try (intros [= ->]; lra); intros _; f_equal; lra.
  - intros [x|] [y|]; cbn; auto. destruct (Rlt_dec x y), (Rlt_dec y x); auto; lra.
  - intros [x|] [y|] [z|]; cbn; try discriminate; auto. destruct (Rlt_dec x y); [|destruct (Rlt_dec y x); discriminate]. destruct (Rlt_dec y z); [|destruct (Rlt_dec z y); discriminate]. destruct (Rlt_dec x z); auto; lra.
Qed.
Lemma scmp_good : good_cmp scmp.
Proof.
  split; [|split].
  - induction x as [|c x IH]; intros [|d y]; cbn; try (split; discriminate); [tauto|]. destruct (Nat.compare_spec (nat_of_ascii c) (nat_of_ascii d)) as [H|H|H].
    + assert (c = d) as -> by (rewrite <- (ascii_nat_embedding c), H, ascii_nat_embedding; auto). rewrite IH. split; [intros ->; auto|intros [= ->]; auto].
    + split; [discriminate|]. intros [= -> ->]. lia.
    + split; [discriminate|]. intros [= -> ->]. lia.
  - induction x as [|c x IH]; intros [|d y]; cbn; auto. rewrite (Nat.compare_antisym (nat_of_ascii c)). destruct (Nat.compare _ _); cbn; auto.
  - induction x as [|c x IH]; intros [|d y] [|e z]; cbn; try discriminate; auto.
    destruct (Nat.compare_spec (nat_of_ascii c) (nat_of_ascii d)), (Nat.compare_spec (nat_of_ascii d) (nat_of_ascii e)), (Nat.compare_spec (nat_of_ascii c) (nat_of_ascii e)); try discriminate; try lia; auto. apply IH.
Qed.

Section ord.
  Context {A : Type} (cmp : A -> A -> comparison) (G : good_cmp cmp).
  Definition ssorted (l : list A) : Prop := StronglySorted (fun a b => cmp a b = Lt) l.
  Lemma c_eq x y : cmp x y = Eq <-> x = y. Proof. apply G. Qed.
  Lemma c_op x y : cmp y x = CompOpp (cmp x y). Proof. apply G. Qed.
  Lemma c_tr x y z : cmp x y = Lt -> cmp y z = Lt -> cmp x z = Lt. Proof. apply G. Qed.
  Lemma c_gt x y : cmp x y = Gt -> cmp y x = Lt. Proof. intros H. rewrite c_op, H. auto. Qed.
  Lemma oinsert_in x l y : In y (oinsert cmp x l) <-> y = x \/ In y l.
  Proof. induction l as [|z l IH]; cbn; [intuition|]. destruct (cmp x z); cbn; rewrite ?IH; intuition. Qed.
  Lemma oinsert_sorted x l : ssorted l -> ~ In x l -> ssorted (oinsert cmp x l).
  Proof.
    induction l as [|y l IH]; intros Hs Hn; cbn; [repeat constructor|]. inversion Hs as [|? ? Hs' Hf]; subst. destruct (cmp x y) eqn:E.
    - apply c_eq in E. subst. destruct Hn. left. auto.
    - constructor; auto. constructor; auto. eapply List.Forall_impl; [|exact Hf]. intros z Hz. eapply c_tr; eauto.
    - constructor; [apply IH; auto; intros X; apply Hn; right; auto|]. apply List.Forall_forall. intros z Hz. apply oinsert_in in Hz as [->|Hz]; [apply c_gt; auto|]. rewrite List.Forall_forall in Hf. auto.
  Qed.
  Lemma oinsert_len x l : length (oinsert cmp x l) = S (length l).
  Proof. induction l as [|y l IH]; cbn; auto. destruct (cmp x y); cbn; auto. Qed.
  Lemma osort_in l y : In y (osort cmp l) <-> In y l.
  Proof. induction l as [|x l IH]; cbn; [tauto|]. rewrite oinsert_in, IH. intuition. Qed.
  Lemma osort_len l : length (osort cmp l) = length l.
  Proof. induction l as [|x l IH]; cbn; auto. rewrite oinsert_len. auto. Qed.
  Lemma osort_sorted l : List.NoDup l -> ssorted (osort cmp l).
  Proof. induction l as [|x l IH]; intros H; cbn; [constructor|]. inversion H; subst. change (fold_right (oinsert cmp) [] l) with (osort cmp l). apply oinsert_sorted; [apply IH; auto|]. rewrite osort_in. auto. Qed.
  Lemma ssorted_nodup l : ssorted l -> List.NoDup l.
  Proof.
    induction l as [|x l IH]; intros H; [constructor|]. inversion H as [|? ? Hs Hf]; subst. constructor; auto. intros Hin. rewrite List.Forall_forall in Hf. specialize (Hf x Hin).
    assert (cmp x x = Eq) by (apply c_eq; auto). congruence.
  Qed.
  (** a list is determined by its elements if sorted *)
  Lemma ssorted_unique l1 : forall l2, ssorted l1 -> ssorted l2 -> (forall x, In x l1 <-> In x l2) -> l1 = l2.
  Proof.
    induction l1 as [|x l1 IH]; intros l2 H1 H2 He.
    - destruct l2 as [|y l2]; auto. exfalso. apply (He y). left. auto.
    - destruct l2 as [|y l2]; [exfalso; apply (He x); left; auto|]. inversion H1 as [|? ? S1 F1]; subst. inversion H2 as [|? ? S2 F2]; subst. rewrite List.Forall_forall in F1, F2.
      assert (E : x = y).
      { destruct (proj1 (He x) (or_introl eq_refl)) as [->|Hx]; auto. destruct (proj2 (He y) (or_introl eq_refl)) as [->|Hy]; auto. pose proof (F1 y Hy) as A1. pose proof (F2 x Hx) as A2. rewrite c_op, A1 in A2. discriminate. }
      subst y. f_equal. apply IH; auto. intros z. pose proof (ssorted_nodup _ H1) as N1. pose proof (ssorted_nodup _ H2) as N2. inversion N1; subst. inversion N2; subst. split; intros Hz.
      + destruct (proj1 (He z) (or_intror Hz)) as [->|]; auto. contradiction.
      + destruct (proj2 (He z) (or_intror Hz)) as [->|]; auto. contradiction.
  Qed.
  Lemma existsb_in x l : existsb (is_eq cmp x) l = true <-> In x l.
  Proof.
    rewrite existsb_exists. unfold is_eq. split.
    - intros (y & Hy & E). destruct (cmp x y) eqn:C; try discriminate. apply c_eq in C. subst. auto.
    - intros H. exists x. split; auto. rewrite (proj2 (c_eq x x)); auto.
  Qed.
  Lemma add_sorted e x : ssorted e -> existsb (is_eq cmp x) e = false -> ssorted (osort cmp (e ++ [x])).
  Proof.
    intros Hs Hx. apply osort_sorted. apply (Permutation_NoDup (Permutation_app_comm [x] e)). cbn. constructor; [|apply ssorted_nodup; auto]. intros H. apply existsb_in in H. congruence.
  Qed.
  Lemma unique_loop_ok v : forall cap prior e, ssorted e -> (prior = length e -> S (length e) <= cap) -> exists u, unique_loop cmp v cap prior e = Ok u /\ ssorted u /\ forall x, In x u <-> In x e \/ In x v.
  Proof.
    induction v as [|x v IH]; intros cap prior e Hs Hc; cbn [unique_loop]; [exists e; split; auto; split; auto; cbn; tauto|].
    set (cap' := if prior =? length e then cap else S (length e)). assert (Hc' : S (length e) <= cap') by (unfold cap'; destruct (Nat.eqb_spec prior (length e)); auto; lia).
    destruct (existsb (is_eq cmp x) e) eqn:Ex.
    - destruct (IH cap' (length e) e Hs) as (u & E & Hu & Hi); auto. exists u. split; auto. split; auto. intros y. rewrite Hi. cbn. split; [tauto|]. intros [?|[<-|?]]; auto. left. apply existsb_in. auto.
    - destruct (Nat.ltb_spec (length e) cap'); [|lia]. destruct (IH cap' (length e) (osort cmp (e ++ [x]))) as (u & E & Hu & Hi); [apply add_sorted; auto|rewrite osort_len, app_length; cbn; lia|].
      exists u. split; auto. split; auto. intros y. rewrite Hi, osort_in, in_app_iff. cbn. tauto.
  Qed.
  Lemma tunique_loop_ok v : forall cap e, ssorted e -> S (length e) <= cap -> exists u, tunique_loop cmp v cap e = Ok u /\ ssorted u /\ forall x, In x u <-> In x e \/ In x v.
  Proof.
    induction v as [|x v IH]; intros cap e Hs Hc; cbn [tunique_loop]; [exists e; split; auto; split; auto; cbn; tauto|].
    destruct (existsb (is_eq cmp x) e) eqn:Ex.
    - destruct (IH cap e Hs Hc) as (u & E & Hu & Hi). exists u. split; auto. split; auto. intros y. rewrite Hi. cbn. split; [tauto|]. intros [?|[<-|?]]; auto. left. apply existsb_in. auto.
    - destruct (Nat.ltb_spec (length e) cap); [|lia]. cbv zeta. destruct (IH (S (length (osort cmp (e ++ [x])))) (osort cmp (e ++ [x]))) as (u & E & Hu & Hi); [apply add_sorted; auto|lia|].
      exists u. split; auto. split; auto. intros y. rewrite Hi, osort_in, in_app_iff. cbn. tauto.
  Qed.
  Lemma unique_ok v : exists u, unique_elements cmp v = Ok u /\ ssorted u /\ forall x, In x u <-> In x v.
  Proof. destruct (unique_loop_ok v 0 107 []) as (u & E & Hs & Hi); [constructor|discriminate|]. exists u. split; auto. split; auto. intros x. rewrite Hi. cbn. tauto. Qed.
  Lemma tunique_ok v : v <> [] -> exists u, tunique_elements cmp v = Ok u /\ ssorted u /\ forall x, In x u <-> In x v.
  Proof. destruct v as [|y v]; [congruence|]. intros _. destruct (tunique_loop_ok v 2 [y]) as (u & E & Hs & Hi); [repeat constructor|cbn; lia|]. exists u. split; auto. split; auto. intros x. rewrite Hi. cbn. tauto. Qed.
  (** ---------- binary search ---------- *)
  Lemma ssorted_lookup l : ssorted l -> forall i j x y, l !! i = Some x -> l !! j = Some y -> (i < j)%nat -> cmp x y = Lt.
  Proof.
    induction l as [|z l IH]; intros Hs i j x y Hi Hj Hij; [discriminate|]. inversion Hs as [|? ? Hs' Hf]; subst. rewrite List.Forall_forall in Hf. destruct j as [|j]; [lia|]. cbn in Hj. destruct i as [|i]; cbn in Hi.
    - injection Hi as <-. apply Hf. apply elem_of_list_In. eapply elem_of_list_lookup_2; eauto.
    - eapply IH; eauto. lia.
  Qed.
  Lemma bsearch_loop_ok l x : ssorted l -> forall f lo hi, lo <= hi <= length l -> hi - lo < f -> (forall i y, l !! i = Some y -> y = x -> lo <= i < hi) ->
    match bsearch_loop cmp f l x lo hi with Some k => l !! k = Some x | None => ~ In x l end.
  Proof.
    intros Hs. induction f as [|f IH]; intros lo hi Hr Hf Hb; [lia|]. cbn [bsearch_loop]. destruct (Nat.ltb_spec lo hi).
    - set (m := (lo + hi) / 2). assert (Hm : lo <= m < hi) by (unfold m; split; [apply Nat.div_le_lower_bound; lia|apply Nat.div_lt_upper_bound; lia]). destruct (l !! m) as [y|] eqn:Ey; [|apply lookup_ge_None in Ey; lia].
      destruct (cmp x y) eqn:C.
      + apply c_eq in C. congruence.
      + apply IH; [lia|lia|]. intros i z Hi Hz. specialize (Hb i z Hi Hz). split; [lia|]. destruct (Nat.lt_ge_cases i m); auto. destruct (Nat.eq_dec i m) as [->|Hne].
        * subst z. rewrite Ey in Hi. injection Hi as ->. rewrite (proj2 (c_eq x x)) in C; [discriminate|auto].
        * subst z. pose proof (ssorted_lookup l Hs m i y x Ey Hi ltac:(lia)) as C2. rewrite c_op, C in C2. discriminate.
      + apply IH; [lia|lia|]. intros i z Hi Hz. specialize (Hb i z Hi Hz). split; [|lia]. destruct (Nat.le_gt_cases (S m) i); auto. destruct (Nat.eq_dec i m) as [->|Hne].
        * subst z. rewrite Ey in Hi. injection Hi as ->. rewrite (proj2 (c_eq x x)) in C; [discriminate|auto].
        * subst z. pose proof (ssorted_lookup l Hs i m x y Hi Ey ltac:(lia)) as C2. congruence.
    - intros Hin. apply elem_of_list_In, elem_of_list_lookup in Hin as (i & Hi). specialize (Hb i x Hi eq_refl). lia.
  Qed.
  Lemma bsearch_ok l x : ssorted l -> match bsearch cmp l x with Some k => l !! k = Some x | None => ~ In x l end.
  Proof. intros Hs. unfold bsearch. apply bsearch_loop_ok; auto; [lia|lia|]. intros i y Hi _. apply lookup_lt_Some in Hi. lia. Qed.
  Lemma bsearch_found l x : ssorted l -> In x l -> exists k, bsearch cmp l x = Some k /\ l !! k = Some x.
  Proof. intros Hs Hin. pose proof (bsearch_ok l x Hs). destruct (bsearch cmp l x); [eauto|contradiction]. Qed.
  Lemma sorted_lookup_inj l i j x : ssorted l -> l !! i = Some x -> l !! j = Some x -> i = j.
  Proof.
    intros Hs Hi Hj. destruct (Nat.lt_trichotomy i j) as [H|[H|H]]; auto; exfalso; [pose proof (ssorted_lookup l Hs i j x x Hi Hj H) as C|pose proof (ssorted_lookup l Hs j i x x Hj Hi H) as C]; rewrite (proj2 (c_eq x x)) in C; auto; discriminate.
  Qed.
End ord.

(** ---------- the loop, when every value is a known category ---------- *)
Section loops.
  Context (g : num) {A : Type} (cmp : A -> A -> comparison) (G : good_cmp cmp) (text keep : bool) (outcol : Z).
  Context (d : page num) (read : page num -> nat -> res A) (bad : A -> bool) (cats : list A) (Hs : ssorted cmp cats).
  (** the position of a row's category, or one less without the first *)
  Definition shown : list A := if keep then cats else tail cats.
  Lemma shown_lookup j c : shown !! j = Some c <-> cats !! (if keep then j else S j) = Some c.
  Proof. unfold shown. destruct keep; [tauto|]. destruct cats; cbn; [|tauto]. split; discriminate. Qed.
  Lemma loop_dummy_mat : forall n i out m vals, mat out = Some m -> wf_grid m -> i + n <= gr m -> gc m = length shown -> length vals = n ->
    (forall r x, vals !! r = Some x -> read d (i + r) = Ok x /\ In x cats) ->
    exists m', core_loop g cmp text true keep outcol d read bad n i cats out = Ok (cats, set_mat out (Some m')) /\ wf_grid m' /\ gr m' = gr m /\ gc m' = gc m /\
      forall r j, r < gr m -> j < gc m -> cell m' r j = (if (i <=? r) then match vals !! (r - i) with
         | Some x => match shown !! j with Some c => if is_eq cmp c x then Some (Some 1%R) else cell m r j | None => cell m r j end | None => cell m r j end else cell m r j).
  Proof.
    induction n as [|n IH]; intros i out m vals Hm Hw Hr Hc Hl Hv; cbn [core_loop].
    - exists m. split; [|split; [auto|split; [auto|split; [auto|]]]]. { f_equal. f_equal. destruct out; cbn in *; subst; auto. }
      intros r j Hr' Hj. destruct vals; [|discriminate]. destruct (i <=? r); auto.
    - destruct vals as [|x vals]; [discriminate|]. destruct (Hv 0 x eq_refl) as [Hx Hin]. rewrite Nat.add_0_r in Hx. rewrite Hx. cbn [rbind]. destruct (bsearch_found cmp G cats x Hs Hin) as (k & Hk & Hkx). rewrite Hk. cbn [rbind].
      assert (P : exists m1, place true keep outcol out i k = Ok (set_mat out (Some m1)) /\ wf_grid m1 /\ gr m1 = gr m /\ gc m1 = gc m /\
        forall r j, r < gr m -> j < gc m -> cell m1 r j = (if r =? i then match shown !! j with Some c => if is_eq cmp c x then Some (Some 1%R) else cell m r j | None => cell m r j end else cell m r j)).
      { assert (Hone : forall j0, shown !! j0 = Some x -> exists m1, set1 out i j0 = Ok (set_mat out (Some m1)) /\ wf_grid m1 /\ gr m1 = gr m /\ gc m1 = gc m /\
          forall r j, r < gr m -> j < gc m -> cell m1 r j = (if r =? i then match shown !! j with Some c => if is_eq cmp c x then Some (Some 1%R) else cell m r j | None => cell m r j end else cell m r j)).
        { intros j0 Hj0. assert (Hlt : j0 < gc m) by (rewrite Hc; eapply lookup_lt_Some; eauto). unfold set1. rewrite Hm. destruct (Nat.ltb_spec i (gr m)); [|lia]. destruct (Nat.ltb_spec j0 (gc m)); [|lia]. cbn [andb].
          eexists. split; [reflexivity|]. split; [apply gset_wf; auto|]. split; [auto|]. split; [auto|]. intros r j Hr' Hj. rewrite gset_cell by auto. destruct (Nat.eqb_spec r i) as [->|]; cbn [andb]; auto.
          destruct (Nat.eqb_spec j j0) as [->|Hne]; [rewrite Hj0; unfold is_eq; rewrite (proj2 (c_eq cmp G x x)) by auto; auto|].
          destruct (shown !! j) as [c|] eqn:Ec; auto. unfold is_eq. destruct (cmp c x) eqn:C; auto. apply (c_eq cmp G) in C. subst c. exfalso. apply Hne. apply shown_lookup in Ec, Hj0.
          pose proof (sorted_lookup_inj cmp G cats _ _ x Hs Ec Hj0). destruct keep; lia. }
        unfold place. destruct keep eqn:Ek.
        - apply Hone. apply shown_lookup. rewrite Ek. auto.
        - destruct k as [|k].
          + exists m. split; [f_equal; destruct out; cbn in *; subst; auto|]. repeat (split; [auto|]). intros r j Hr' Hj. destruct (Nat.eqb_spec r i); auto. destruct (shown !! j) as [c|] eqn:Ec; auto. unfold is_eq. destruct (cmp c x) eqn:C; auto.
            apply (c_eq cmp G) in C. subst c. apply shown_lookup in Ec. rewrite Ek in Ec. pose proof (sorted_lookup_inj cmp G cats _ _ x Hs Ec Hkx). discriminate.
          + apply Hone. apply shown_lookup. rewrite Ek. auto. }
      destruct P as (m1 & E1 & W1 & R1 & C1 & Cell1). rewrite E1. cbn [rbind].
      destruct (IH (S i) (set_mat out (Some m1)) m1 vals) as (m' & E & W & R' & C' & Cell); auto; [lia|congruence|..].
      { intros r y Hy. specialize (Hv (S r) y Hy). rewrite Nat.add_succ_r in Hv. exact Hv. }
      exists m'. rewrite E. split; [destruct out; auto|]. split; [auto|]. split; [congruence|]. split; [congruence|]. intros r j Hr' Hj. rewrite Cell by congruence.
      rewrite (Cell1 r j) by auto. destruct (Nat.leb_spec (S i) r).
      + destruct (Nat.leb_spec i r); [|lia]. destruct (Nat.eqb_spec r i); [lia|]. replace (r - i) with (S (r - S i)) by lia. auto.
      + destruct (Nat.eqb_spec r i) as [->|]; destruct (Nat.leb_spec i i) || destruct (Nat.leb_spec i r); try lia; [|destruct (Nat.leb_spec i r); [lia|auto]]. rewrite Nat.sub_diag. auto.
  Qed.
  (** without a matrix: the only category is the one left out *)
  Lemma loop_dummy_none : forall n i out vals, length vals = n -> shown = [] -> keep = false -> (forall r x, vals !! r = Some x -> read d (i + r) = Ok x /\ In x cats) ->
    core_loop g cmp text true keep outcol d read bad n i cats out = Ok (cats, out).
  Proof.
    induction n as [|n IH]; intros i out vals Hl Hsh Hk Hv; cbn [core_loop]; [auto|]. destruct vals as [|x vals]; [discriminate|]. destruct (Hv 0 x eq_refl) as [Hx Hin]. rewrite Nat.add_0_r in Hx. rewrite Hx. cbn [rbind].
    destruct (bsearch_found cmp G cats x Hs Hin) as (k & Hbk & Hkx). rewrite Hbk. cbn [rbind]. assert (HP : place true keep outcol out i k = Ok out).
    { unfold shown in Hsh. rewrite Hk in Hsh. unfold place. rewrite Hk. clear - Hsh Hkx. destruct cats as [|c0 cr]; [discriminate|]. cbn in Hsh. subst cr. destruct k as [|k]; [auto|destruct k; discriminate]. }
    rewrite HP. cbn [rbind]. apply (IH (S i) out vals); auto. intros r y Hy. specialize (Hv (S r) y Hy). rewrite Nat.add_succ_r in Hv. exact Hv.
  Qed.
  (** factors: [read] must see the same values after the earlier rows are written *)
  Lemma loop_factor : forall n i out vals, (forall m, mat out = Some m -> wf_grid m) -> length vals = n ->
    (forall r, i <= r < i + n -> where_is out (Z.of_nat r) outcol <> Nowhere) ->
    (forall r x, vals !! r = Some x -> In x cats /\ forall q, frame out q -> (forall l, (forall r', i <= r' < i + r -> l <> where_is out (Z.of_nat r') outcol) -> content q l = content out l) -> read q (i + r) = Ok x) ->
    exists q, core_loop g cmp text false keep outcol d read bad n i cats out = Ok (cats, q) /\ frame out q /\
      (forall r x, vals !! r = Some x -> exists k, cats !! k = Some x /\ content q (where_is out (Z.of_nat (i + r)) outcol) = Some (number k)) /\
      (forall l, (forall r, i <= r < i + n -> l <> where_is out (Z.of_nat r) outcol) -> content q l = content out l).
  Proof.
    induction n as [|n IH]; intros i out vals Hw Hl Hp Hv; cbn [core_loop].
    - exists out. split; auto. split; [repeat split; auto; apply Hw; auto|]. split; [intros r x Hr; destruct vals; discriminate|auto].
    - destruct vals as [|x vals]; [discriminate|]. destruct (Hv 0 x eq_refl) as [Hin Hx]. rewrite Nat.add_0_r in Hx.
      assert (Hrefl : frame out out) by (repeat split; auto; apply Hw; auto). rewrite (Hx out Hrefl) by auto. cbn [rbind]. destruct (bsearch_found cmp G cats x Hs Hin) as (k & Hbk & Hkx). rewrite Hbk. cbn [rbind]. unfold place. cbn [rbind].
      set (out1 := fst (set_at out (Z.of_nat i) outcol (number k))).
      pose proof (set_at_place out (Z.of_nat i) outcol (number k) Hw) as HS. fold out1 in HS. pose proof (Hp i ltac:(lia)) as Hpi.
      assert (HS' : frame out out1 /\ forall l, content out1 l = if bool_decide (l = where_is out (Z.of_nat i) outcol) then Some (number k) else content out l).
      { revert HS. destruct (where_is out (Z.of_nat i) outcol) as [a|a b|]; [| |congruence]; intros (_ & F & X); split; auto. }
      clear HS. destruct HS' as (F1 & X1).
      assert (Wh : forall r, where_is out1 r outcol = where_is out r outcol).
      { intros r. apply FixProps.frame_where. auto. }
      destruct (IH (S i) out1 vals) as (q & E & F & V & O); auto.
      + apply F1.
      + intros r Hr. rewrite Wh. apply Hp. lia.
      + intros r y Hy. destruct (Hv (S r) y Hy) as [Hy1 Hy2]. split; auto. intros q Fq Hq. replace (S i + r) with (i + S r) by lia. apply Hy2.
        * destruct F1 as (a1 & a2 & a3 & a4 & a5 & a6 & a7 & a8), Fq as (b1 & b2 & b3 & b4 & b5 & b6 & b7 & b8). repeat split; try congruence; apply b4; auto.
        * intros l Hl'. rewrite Hq; [|intros r' Hr'; rewrite Wh; apply Hl'; lia]. rewrite X1. case_bool_decide as Z1; auto. exfalso. apply (Hl' i); [lia|auto].
      + exists q. split; auto. split; [destruct F1 as (a1 & a2 & a3 & a4 & a5 & a6 & a7 & a8), F as (b1 & b2 & b3 & b4 & b5 & b6 & b7 & b8); repeat split; try congruence; apply b4; auto|]. split.
        * intros r y Hy. destruct r as [|r]; cbn in Hy.
          -- injection Hy as <-. exists k. split; auto. rewrite Nat.add_0_r. rewrite O; [rewrite X1, bool_decide_true; auto|]. intros r Hr. rewrite Wh. intros Heq.
             assert (Inj : forall a b, where_is out (Z.of_nat a) outcol = where_is out (Z.of_nat b) outcol -> where_is out (Z.of_nat a) outcol <> Nowhere -> a = b).
             { intros a b. unfold where_is. destruct (vect out) as [v|], (mat out) as [m|]; repeat case_match; try congruence; intros [= ?]; intros; lia. }
             apply Inj in Heq; auto. lia.
          -- destruct (V r y Hy) as (k' & Hk' & Hc'). exists k'. split; auto. rewrite <- Hc', Wh. do 2 f_equal. lia.
        * intros l Hl'. rewrite O; [|intros r Hr; rewrite Wh; apply Hl'; lia]. rewrite X1. case_bool_decide as Z1; auto. exfalso. apply (Hl' i); [lia|auto].
  Qed.
End loops.
