(** C66: unique elements.  C67: factors and dummies (apop_regression.m4.c). *)
From Coq Require Import Reals Lra Sorting.
From Verif Require FixProps.
From Verif Require SplitProps DataProps RmProofs.
From Verif Require Import NamesProofs AccessProps StatsModel FactModel FactProofs DataModel.
Local Open Scope list_scope.
Local Open Scope nat_scope.

(** ---------- specification ---------- *)
(** numbers: NaN is the greatest; strings: the order of bytes, a proper prefix comes first *)
Definition num_lt (a b : num) : Prop := match a, b with Some x, Some y => (x < y)%R | Some _, None => True | None, _ => False end.
Definition str_lt (a b : string) : Prop :=
  (exists c s, b = (a ++ String c s)%string) \/ exists p c d s t, a = (p ++ String c s)%string /\ b = (p ++ String d t)%string /\ nat_of_ascii c < nat_of_ascii d.
(** [u]: the distinct elements of [v] in order *)
Definition unique_sorted {A} (lt : A -> A -> Prop) (v u : list A) : Prop := StronglySorted lt u /\ forall x, In x u <-> In x v.
Lemma ncmp_lt a b : ncmp a b = Lt <-> num_lt a b.
Proof. destruct a as [x|], b as [y|]; cbn; try (split; [discriminate|tauto]); [|tauto]. destruct (Rlt_dec x y); [tauto|]. destruct (Rlt_dec y x); split; try discriminate; lra. Qed.
Lemma scmp_lt a : forall b, scmp a b = Lt <-> str_lt a b.
Proof.
  induction a as [|c a IH]; intros [|d b]; cbn.
  - split; [discriminate|]. intros [(c & s & H)|(p & c & d & s & t & H & _)]; [discriminate|destruct p; discriminate].
  - split; [|auto]. intros _. left. exists d, b. auto.
  - split; [discriminate|]. intros [(x & s & H)|(p & x & d & s & t & _ & H & _)]; [discriminate|destruct p; discriminate].
  - destruct (Nat.compare_spec (nat_of_ascii c) (nat_of_ascii d)) as [H|H|H].
    + assert (c = d) as -> by (rewrite <- (ascii_nat_embedding c), H, ascii_nat_embedding; auto). rewrite IH. split.
      * intros [(x & s & ->)|(p & x & y & s & t & -> & -> & Hl)]; [left; exists x, s; auto|right; exists (String d p), x, y, s, t; auto].
      * intros [(x & s & E)|(p & x & y & s & t & E1 & E2 & Hl)]; [injection E as ->; left; eauto|]. destruct p as [|z p]; cbn in E1, E2.
        -- injection E1 as -> ->. injection E2 as -> ->. lia.
        -- injection E1 as -> ->. injection E2 as ->. right. exists p, x, y, s, t. auto.
    + split; [|auto]. intros _. right. exists EmptyString, c, d, a, b. auto.
    + split; [discriminate|]. intros [(x & s & E)|(p & x & y & s & t & E1 & E2 & Hl)]; [injection E as -> ->; lia|]. destruct p as [|z p]; cbn in E1, E2; [injection E1 as -> ->; injection E2 as -> ->; lia|]. injection E1 as -> ->. injection E2 as -> ->. lia.
Qed.
Lemma ssorted_iff {A} (cmp : A -> A -> comparison) (lt : A -> A -> Prop) u : (forall a b, cmp a b = Lt <-> lt a b) -> ssorted cmp u <-> StronglySorted lt u.
Proof. intros H. unfold ssorted. induction u as [|x u IH]; [split; constructor|]. split; intros S; inversion S as [|? ? S1 S2]; subst; constructor; try (apply IH; auto); eapply List.Forall_impl; try exact S2; intros y; apply H. Qed.

(** ---------- C66 ---------- *)
(** C66: no input writes outside the space allocated, and the result is the distinct elements in order *)
Theorem C66_vector : forall v, exists u, unique_elements ncmp v = Ok u /\ unique_sorted num_lt v u.
Proof. intros v. destruct (unique_ok ncmp ncmp_good v) as (u & E & H1 & H2). exists u. split; auto. split; auto. apply (ssorted_iff ncmp num_lt u ncmp_lt). auto. Qed.
Theorem C66_text : forall v, v <> [] -> exists u, tunique_elements scmp v = Ok u /\ unique_sorted str_lt v u.
Proof. intros v Hv. destruct (tunique_ok scmp scmp_good v Hv) as (u & E & H1 & H2). exists u. split; auto. split; auto. apply (ssorted_iff scmp str_lt u scmp_lt). auto. Qed.
(** which determines the result *)
Theorem C66_only_one : forall v u1 u2, (unique_sorted num_lt v u1 -> unique_sorted num_lt v u2 -> u1 = u2).
Proof.
  intros v u1 u2 [S1 I1] [S2 I2]. apply (ssorted_unique ncmp ncmp_good); [apply (ssorted_iff ncmp num_lt u1 ncmp_lt); auto|apply (ssorted_iff ncmp num_lt u2 ncmp_lt); auto|]. intros x. rewrite I1, I2. tauto.
Qed.
Theorem C66_only_one_text : forall v u1 u2, (unique_sorted str_lt v u1 -> unique_sorted str_lt v u2 -> u1 = u2).
Proof.
  intros v u1 u2 [S1 I1] [S2 I2]. apply (ssorted_unique scmp scmp_good); [apply (ssorted_iff scmp str_lt u1 scmp_lt); auto|apply (ssorted_iff scmp str_lt u2 scmp_lt); auto|]. intros x. rewrite I1, I2. tauto.
Qed.
Print Assumptions C66_vector.
Print Assumptions C66_text.
Print Assumptions C66_only_one.
Print Assumptions C66_only_one_text.
Example C66_nonvacuous : tunique_elements scmp ["b"; "a"; "b"; "aa"]%string = Ok ["a"; "aa"; "b"]%string /\ unique_sorted num_lt [None; Some 2; Some 1; Some 2; None]%R [Some 1; Some 2; None]%R.
Proof. split; [reflexivity|]. split; [repeat constructor; cbn; lra|]. intros x. cbn. intuition. Qed.
(** Deviation: no rows of text are a crash, not an empty list. *)
Theorem C66_empty_refuted : tunique_elements scmp [] = UB.
Proof. reflexivity. Qed.

(** ---------- C67 ---------- *)
Lemma colv_cell {A} (m : grid A) j : wf_grid m -> j < gc m -> forall i, colv m j !! i = cell m i j.
Proof.
  destruct m as [r c a]. intros [_ H2] Hj i. unfold colv, cell. cbn in *. revert i.
  induction a as [|x a IH]; intros i; [destruct i; reflexivity|]. apply List.Forall_cons_iff in H2 as [Hx H2].
  destruct (x !! j) as [y|] eqn:E; [|apply lookup_ge_None in E; lia]. cbn [omap list_omap]. rewrite E. destruct i as [|i]; [cbn; auto|]. cbn. apply IH; auto.
Qed.
Lemma colv_len {A} (m : grid A) j : wf_grid m -> j < gc m -> length (colv m j) = gr m.
Proof.
  destruct m as [r c a]. intros [H1 H2] Hj. unfold colv. cbn in *. subst r. induction a as [|x a IH]; auto. apply List.Forall_cons_iff in H2 as [Hx H2].
  destruct (x !! j) as [y|] eqn:E; [|apply lookup_ge_None in E; lia]. cbn [omap list_omap]. rewrite E. cbn. auto.
Qed.
Lemma one_column_colv l : colv (one_column l) 0 = l.
Proof. unfold colv, one_column. cbn. induction l as [|x l IH]; cbn; auto. f_equal. auto. Qed.
Lemma one_column_wf l : wf_grid (one_column l).
Proof. split; [cbn; rewrite map_length; auto|]. cbn. induction l; constructor; auto. Qed.

Section C67.
  Context (g : num) (show_i : Z -> string) (show_g : num -> string).
  (** ---------- specification ---------- *)
  (** the page of dummies for the values [vals], one column for each of [cats], named [labels] *)
  Definition is_dummies {A} (vals cats : list A) (labels : list string) (o : page num) : Prop :=
    coln (nms o) = labels /\ rown (nms o) = [] /\ vect o = None /\ txt o = None /\
    match mat o with
    | None => cats = []
    | Some m => wf_grid m /\ gr m = length vals /\ gc m = length cats /\
        forall i j x c, vals !! i = Some x -> cats !! j = Some c -> (x = c -> cell m i j = Some (Some 1%R)) /\ (x <> c -> cell m i j = Some (Some 0%R))
    end.
  (** the page of categories: text and numbers *)
  Definition text_categories (title_ : string) (cats : list string) (f : page num) : Prop :=
    title (nms f) = Some title_ /\ txt f = Some (one_column cats) /\ vect f = Some (map number (seq 0 (length cats))).
  Definition num_categories (title_ : string) (cats : list num) (f : page num) : Prop :=
    title (nms f) = Some title_ /\ vect f = Some cats /\ txt f = (if length cats =? 0 then None else Some (one_column (map show_g cats))).
  (** the values written for the values [vals] at the places of column [outcol]; nothing else is changed *)
  Definition is_factors {A} (vals cats : list A) (outcol : Z) (p q : page num) : Prop :=
    frame p q /\ (forall i x, vals !! i = Some x -> exists k, cats !! k = Some x /\ content q (where_is p (Z.of_nat i) outcol) = Some (Some (INR k))) /\
    (forall l, (forall i, i < length vals -> l <> where_is p (Z.of_nat i) outcol) -> content q l = content p l).
  Definition untitled (T : string) (d : adata num) : Prop := Forall (fun p => title (nms p) <> Some T) (pages d).
  (** the first page of that title is number k *)
  Definition first_titled (T : string) (d : adata num) (k : nat) (f : page num) : Prop :=
    pages d !! k = Some f /\ title (nms f) = Some T /\ forall j p, j < k -> pages d !! j = Some p -> title (nms p) <> Some T.
  (** ---------- proof ---------- *)
  Definition core_with (d1 : adata num) (k : nat) (col : Z) (text dummy keep : bool) (outcol : Z) : res (adata num * option (page num) * page num) :=
    do f <- match pages d1 !! k with Some f => Ok f | None => UB end;
    do s <- rows_of (head d1) col text;
    let out n := if dummy then data_alloc_filled (Some 0%R) 0 s (Z.of_nat (if keep then n else n - 1)) else head d1 in
    if text then
      do cats <- text_cats f;
      do (cats', o) <- core_loop g scmp true dummy keep outcol (head d1) (read_text (Z.to_nat col)) has_pct s 0 cats (out (length cats));
      let f' := set_txt (set_vec f (Some (match vect f with Some v => v | None => [] end ++ map number (seq (length cats) (length cats' - length cats)))))
                        (Some (one_column cats')) in
      let f' := if length cats =? length cats' then f else f' in
      if dummy then
        do n <- dummy_names (nms o) EmptyString (if keep then cats' else tail cats');
        Ok (set_page d1 k f', Some (set_nms o n), f')
      else Ok (set_page (set_head d1 o) k f', None, f')
    else
      do cats <- num_cats f;
      do (cats', o) <- core_loop g ncmp false dummy keep outcol (head d1) (read_num col) (fun _ => false) s 0 cats (out (length cats));
      let f' := set_vec f (Some cats') in
      if dummy then
        do n <- dummy_names (nms o) EmptyString (map (fun x => (factor_basename show_i (nms (head d1)) col false ++ " dummy " ++ show_g x)%string) (if keep then cats' else tail cats'));
        Ok (set_page d1 k f', Some (set_nms o n), f')
      else Ok (set_page (set_head d1 o) k f', None, f').
  Lemma core_eq d col text dummy keep outcol : core g show_i show_g d col text dummy keep outcol =
    do found <- get_page d (title_ok true (catname show_i (nms (head d)) col text));
    do (d1, k) <- match found with
      | Some k => Ok (d, k)
      | None => do f <- factor_page show_i show_g (head d) col text; do d' <- append d (Last f); Ok (d', length (pages d)) end;
    core_with d1 k col text dummy keep outcol.
  Proof. reflexivity. Qed.
  Lemma title_true T (p : page num) : title_ok true T p = true <-> title (nms p) = Some T.
  Proof. unfold title_ok. destruct (title (nms p)); [|split; discriminate]. destruct (String.eqb_spec s T); split; congruence. Qed.
  Lemma get_untitled T d : acyclic d = true -> untitled T d -> get_page d (title_ok true T) = Ok None.
  Proof.
    unfold untitled. induction d as [p|p|p r IH]; cbn; intros Ha Hu; [|discriminate|]; inversion Hu as [|? ? H1 H2]; subst; destruct (title_ok true T p) eqn:E; try (apply title_true in E; contradiction); auto. rewrite IH; auto.
  Qed.
  Lemma get_first T d : forall k f, acyclic d = true -> first_titled T d k f -> get_page d (title_ok true T) = Ok (Some k).
  Proof.
    induction d as [p|p|p r IH]; cbn; intros k f Ha (Hk & Ht & Hj); [|discriminate|].
    - destruct k; [|discriminate]. cbn in Hk. injection Hk as <-. apply title_true in Ht. rewrite Ht. auto.
    - destruct k as [|k]; cbn in Hk.
      + injection Hk as <-. apply title_true in Ht. rewrite Ht. auto.
      + destruct (title_ok true T p) eqn:E; [apply title_true in E; exfalso; apply (Hj 0 p); auto; lia|]. rewrite (IH k f); auto. split; auto. split; auto. intros j q Hl Hq. apply (Hj (S j) q); auto. lia.
  Qed.
  Lemma set_page_id d : forall k f, pages d !! k = Some f -> set_page d k f = d.
  Proof. induction d as [p|p|p r IH]; intros [|k] f H; cbn in *; try discriminate; try (injection H as <-; auto). f_equal. auto. Qed.
  Lemma set_page_head d o : forall k f, 1 <= k -> pages d !! k = Some f -> set_page (set_head d o) k f = set_head d o.
  Proof. intros k f Hk H. apply set_page_id. rewrite pages_set_head. rewrite pages_head in H. destruct k; [lia|]. auto. Qed.
  Lemma where_row (p : page num) a b c1 c2 : where_is p (Z.of_nat a) c1 = where_is p (Z.of_nat b) c2 -> where_is p (Z.of_nat a) c1 <> Nowhere -> a = b.
  Proof. unfold where_is. destruct (vect p) as [v|], (mat p) as [m|]; repeat case_match; try congruence; intros [= ?]; intros; lia. Qed.
  (** the dummies made, for known categories *)
  Lemma dummies_with {A} (cmp : A -> A -> comparison) (Hg : good_cmp cmp) text keep outcol d read bad cats vals : ssorted cmp cats -> vals <> [] ->
    (forall r x, vals !! r = Some x -> read d r = Ok x /\ In x cats) ->
    exists o, core_loop g cmp text true keep outcol d read bad (length vals) 0 cats (data_alloc_filled (Some 0%R) 0 (length vals) (Z.of_nat (if keep then length cats else length cats - 1))) = Ok (cats, o) /\
      nms o = name_alloc /\ is_dummies vals (if keep then cats else tail cats) [] o.
  Proof.
    intros Hs Hne Hv. set (shown_ := if keep then cats else tail cats). assert (Hl : (if keep then length cats else length cats - 1) = length shown_) by (unfold shown_; destruct keep; auto; destruct cats; cbn; lia). rewrite Hl.
    assert (Hcat : cats <> []) by (destruct vals as [|x vals]; [congruence|]; destruct (Hv 0 x eq_refl) as [_ Hin]; destruct cats; [destruct Hin|discriminate]).
    assert (Hn : 0 < length vals) by (destruct vals; [congruence|cbn; lia]).
    unfold data_alloc_filled, alloc_shape. destruct (Z.eqb_spec (Z.of_nat (length shown_)) 0) as [Hz|Hz].
    - destruct (Nat.eqb_spec (length vals) 0); [lia|]. cbn [Nat.eqb]. rewrite andb_false_r. assert (E0 : shown_ = []) by (destruct shown_; [auto|cbn in Hz; lia]).
      assert (Hk : keep = false) by (unfold shown_ in E0; destruct keep; auto; contradiction). exists (Pg None None None None name_alloc None). split.
      + apply (loop_dummy_none g cmp Hg text keep outcol d read bad cats Hs _ _ _ vals); auto. 
      + split; auto. repeat split; auto. 
    - destruct (Z.ltb_spec 0 (Z.of_nat (length shown_))); [|lia]. destruct (Nat.ltb_spec 0 (length vals)); [|lia]. cbn [andb Nat.eqb]. rewrite Nat2Z.id.
      set (m := new_grid _ _ _). destruct (loop_dummy_mat g cmp Hg text keep outcol d read bad cats Hs (length vals) 0 (Pg None (Some m) None None name_alloc None) m vals) as (m' & E & W & R1 & C1 & Cell); auto.
      + split; [cbn; apply replicate_length|]. cbn. apply List.Forall_forall. intros x Hx. apply elem_of_list_In, elem_of_replicate in Hx as [-> _]. apply replicate_length.
      + exists (Pg None (Some m') None None name_alloc None). split; [exact E|]. split; auto. cbn in R1, C1. repeat split; auto; try apply W.
        * intros ->. rewrite Cell by (cbn; apply lookup_lt_Some in H1; apply lookup_lt_Some in H2; auto). cbn [Nat.leb]. rewrite Nat.sub_0_r, H1. change (shown keep cats) with shown_. rewrite H2. unfold is_eq. rewrite (proj2 (c_eq cmp Hg c c)); auto.
        * intros Hne'. rewrite Cell by (cbn; apply lookup_lt_Some in H1; apply lookup_lt_Some in H2; auto). cbn [Nat.leb]. rewrite Nat.sub_0_r, H1. change (shown keep cats) with shown_. rewrite H2. unfold is_eq. destruct (cmp c x) eqn:C; [apply (c_eq cmp Hg) in C; congruence|..];
          unfold cell, m, new_grid; cbn; (rewrite lookup_replicate_2 by (eapply lookup_lt_Some; eauto)); apply lookup_replicate_2; eapply lookup_lt_Some; eauto.
  Qed.
  Lemma fresh_text p t col : txt p = Some t -> wf_grid t -> 0 < gr t -> col < gc t -> Forall (fun s => has_pct s = false) (colv t col) ->
    exists u f, factor_page show_i show_g p (Z.of_nat col) true = Ok f /\ unique_sorted str_lt (colv t col) u /\ text_categories (catname show_i (nms p) (Z.of_nat col) true) u f /\ text_cats f = Ok u.
  Proof.
    intros Ht Hw Hr Hc Hp. unfold factor_page, text_column. rewrite Ht, Nat2Z.id. destruct (Nat.ltb_spec col (gc t)); [|lia]. cbn [rbind].
    destruct (C66_text (colv t col)) as (u & -> & Hu); [intros E; apply (f_equal length) in E; rewrite colv_len in E by auto; cbn in E; lia|]. cbn [rbind].
    assert (Hpu : existsb has_pct u = false). { apply not_true_is_false. intros H'. apply existsb_exists in H' as (x & Hx & Hx'). apply Hu in Hx. rewrite List.Forall_forall in Hp. rewrite Hp in Hx'; [discriminate|auto]. }
    rewrite Hpu. exists u. eexists. split; [reflexivity|]. split; auto. split; [repeat split|]. unfold text_cats. cbn -[maxsize one_column no_pct]. unfold maxsize, vsz, msz1, tsz1. cbn -[Nat.max no_pct].
    rewrite map_length, seq_length, Nat.max_0_l, Nat.max_id, Nat.eqb_refl. cbn [andb]. replace (no_pct (one_column u)) with true; [f_equal; apply one_column_colv|].
    unfold no_pct. cbn. symmetry. apply negb_true_iff. rewrite <- Hpu. clear. induction u as [|x u IH]; cbn; auto. rewrite IH, orb_false_r. auto.
  Qed.
  (** C67: dummies of a text column: one column for each distinct text, in order (without the first, if that is not kept), 1 where the row has that text and 0 elsewhere, named by the text; and a page of
      the categories is added to the data set *)
  Theorem C67_dummies_text : forall d col t keep, acyclic d = true -> txt (head d) = Some t -> wf_grid t -> 0 < gr t -> col < gc t ->
    Forall (fun s => has_pct s = false /\ String.length s < 1000) (colv t col) -> untitled (catname show_i (nms (head d)) (Z.of_nat col) true) d ->
    exists u d' o f, data_to_dummies g show_i show_g d (Z.of_nat col) true keep = Ok (FOut d' o) /\ unique_sorted str_lt (colv t col) u /\
      pages d' = pages d ++ [f] /\ text_categories (catname show_i (nms (head d)) (Z.of_nat col) true) u f /\
      is_dummies (colv t col) (if keep then u else tail u) (if keep then u else tail u) o.
  Proof.
    intros d col t keep Ha Ht Hw Hr Hc Hp Hu. destruct (fresh_text (head d) t col Ht Hw Hr Hc) as (u & f & Ef & Us & Tc & Ecats); [eapply List.Forall_impl; [|exact Hp]; intros ? [? _]; auto|].
    unfold data_to_dummies, dummies_check. unfold tsz2. rewrite Ht. destruct (Z.leb_spec 0 (Z.of_nat col)); [|lia]. destruct (Z.ltb_spec (Z.of_nat col) (Z.of_nat (gc t))); [|lia]. cbn [andb rbind].
    rewrite core_eq, get_untitled by auto. cbn [rbind]. rewrite Ef. cbn [rbind]. destruct (append_spec d (Last f) Ha) as (d' & Ed & Hpg & _). rewrite Ed. cbn [rbind]. cbn [pages] in Hpg.
    assert (Hh : head d' = head d) by (rewrite pages_head, (pages_head d) in Hpg; cbn in Hpg; congruence).
    unfold core_with. assert (Hf : pages d' !! length (pages d) = Some f) by (rewrite Hpg, lookup_app_r, Nat.sub_diag by lia; auto). rewrite Hf. cbn [rbind]. rewrite Hh. unfold rows_of, tsz1. rewrite Ht. cbn [rbind]. rewrite Ecats. cbn [rbind]. rewrite Nat2Z.id.
    assert (Hl : gr t = length (colv t col)) by (rewrite colv_len; auto). rewrite Hl.
    destruct (dummies_with scmp scmp_good true keep 0%Z (head d) (read_text col) has_pct u (colv t col)) as (o & Eo & Hn & HD).
    - apply (ssorted_iff scmp str_lt u scmp_lt). apply Us.
    - intros E. rewrite E in Hl. cbn in Hl. lia.
    - intros r x Hx. split; [|apply Us; apply elem_of_list_In; eapply elem_of_list_lookup_2; eauto]. unfold read_text. rewrite Ht. rewrite colv_cell in Hx by auto. rewrite Hx. auto.
    - rewrite Eo. cbn [rbind]. rewrite Nat.eqb_refl. unfold dummy_names. rewrite Hn. set (lab := if keep then u else tail u).
      assert (HL : existsb (fun s => 1000 <=? String.length s) lab = false).
      { apply not_true_is_false. intros H'. apply existsb_exists in H' as (x & Hx & Hx'). assert (Hxu : In x u) by (unfold lab in Hx; destruct keep; auto; destruct u; [destruct Hx|right; auto]). apply Us in Hxu. rewrite List.Forall_forall in Hp. destruct (Hp x Hxu) as [_ Hlen]. apply Nat.leb_le in Hx'. lia. }
      rewrite HL. cbn [rbind]. exists u, d', (set_nms o (add_all name_alloc lab "c")), f. rewrite (set_page_id d' _ f) by auto. split; [reflexivity|]. split; auto. split; auto. split; auto.
      destruct HD as (_ & _ & D3 & D4 & D5). destruct (add_all_col name_alloc lab) as (A1 & A2 & _). split; [cbn -[add_all]; rewrite A1; auto|]. split; [cbn -[add_all]; rewrite A2; auto|]. split; [auto|]. split; [auto|]. exact D5.
  Qed.
  (** C67: with a page of categories that has all the texts, these are the columns, and the page is left as it is *)
  Theorem C67_dummies_text_known : forall d col t keep k f cats, acyclic d = true -> txt (head d) = Some t -> wf_grid t -> 0 < gr t -> col < gc t ->
    first_titled (catname show_i (nms (head d)) (Z.of_nat col) true) d k f -> text_categories (catname show_i (nms (head d)) (Z.of_nat col) true) cats f -> mat f = None -> StronglySorted str_lt cats ->
    (forall x, In x (colv t col) -> In x cats) -> Forall (fun s => has_pct s = false /\ String.length s < 1000) cats ->
    exists o, data_to_dummies g show_i show_g d (Z.of_nat col) true keep = Ok (FOut d o) /\ is_dummies (colv t col) (if keep then cats else tail cats) (if keep then cats else tail cats) o.
  Proof.
    intros d col t keep k f cats Ha Ht Hw Hr Hc Hf (T1 & T2 & T3) Hmf Hs Hin Hp.
    unfold data_to_dummies, dummies_check. unfold tsz2. rewrite Ht. destruct (Z.leb_spec 0 (Z.of_nat col)); [|lia]. destruct (Z.ltb_spec (Z.of_nat col) (Z.of_nat (gc t))); [|lia]. cbn [andb rbind].
    rewrite core_eq, (get_first _ d k f) by auto. cbn [rbind]. unfold core_with. destruct Hf as (Hf & _ & _). rewrite Hf. cbn [rbind]. unfold rows_of, tsz1. rewrite Ht. cbn [rbind].
    assert (Ecats : text_cats f = Ok cats).
    { unfold text_cats. rewrite T2. unfold maxsize, vsz, msz1, tsz1. rewrite T2, T3, Hmf, map_length, seq_length. cbn [one_column gr gc]. rewrite Nat.max_0_l, Nat.max_id, Nat.eqb_refl. cbn [andb]. change (0 <? 1) with true. cbn [andb].
      replace (no_pct _) with true; [f_equal; apply one_column_colv|]. unfold no_pct. cbn. symmetry. apply negb_true_iff. clear - Hp. induction cats as [|x u IH]; cbn; auto. inversion Hp as [|? ? [P1 _] P2]; subst. rewrite P1. cbn. auto. }
    rewrite Ecats. cbn [rbind]. rewrite Nat2Z.id. assert (Hl : gr t = length (colv t col)) by (rewrite colv_len; auto). rewrite Hl.
    destruct (dummies_with scmp scmp_good true keep 0%Z (head d) (read_text col) has_pct cats (colv t col)) as (o & Eo & Hn & HD).
    - apply (ssorted_iff scmp str_lt cats scmp_lt). auto.
    - intros E. rewrite E in Hl. cbn in Hl. lia.
    - intros r x Hx. split; [|apply Hin; apply elem_of_list_In; eapply elem_of_list_lookup_2; eauto]. unfold read_text. rewrite Ht. rewrite colv_cell in Hx by auto. rewrite Hx. auto.
    - rewrite Eo. cbn [rbind]. rewrite Nat.eqb_refl. unfold dummy_names. rewrite Hn. set (lab := if keep then cats else tail cats).
      assert (HL : existsb (fun s => 1000 <=? String.length s) lab = false).
      { apply not_true_is_false. intros H'. apply existsb_exists in H' as (x & Hx & Hx'). assert (Hxu : In x cats) by (unfold lab in Hx; destruct keep; auto; destruct cats; [destruct Hx|right; auto]). rewrite List.Forall_forall in Hp. destruct (Hp x Hxu) as [_ Hlen]. apply Nat.leb_le in Hx'. lia. }
      rewrite HL. cbn [rbind]. exists (set_nms o (add_all name_alloc lab "c")). rewrite (set_page_id d _ f) by auto. split; [reflexivity|].
      destruct HD as (_ & _ & D3 & D4 & D5). destruct (add_all_col name_alloc lab) as (A1 & A2 & _). split; [cbn -[add_all]; rewrite A1; auto|]. split; [cbn -[add_all]; rewrite A2; auto|]. split; [auto|]. split; [auto|]. exact D5.
  Qed.
  Lemma fresh_num p col vals : num_column p col = Ok vals ->
    exists u f, factor_page show_i show_g p col false = Ok f /\ unique_sorted num_lt vals u /\ num_categories (catname show_i (nms p) col false) u f /\ num_cats f = Ok u.
  Proof.
    intros Hv. unfold factor_page. rewrite Hv. cbn [rbind]. destruct (C66_vector vals) as (u & -> & Hu). cbn [rbind]. exists u. eexists. split; [reflexivity|]. split; auto. split; [repeat split|].
    unfold num_cats. cbn -[maxsize one_column]. unfold maxsize, vsz, msz1, tsz1. cbn -[Nat.max one_column]. destruct (Nat.eqb_spec (length u) 0) as [E|E].
    - rewrite E. auto.
    - cbn [one_column gr]. rewrite map_length, Nat.max_0_l, Nat.max_id, Nat.eqb_refl. auto.
  Qed.
  (** C67: dummies of a matrix column: the same *)
  Theorem C67_dummies_num : forall d col m keep, acyclic d = true -> mat (head d) = Some m -> wf_grid m -> 0 < gr m -> col < gc m ->
    let base := factor_basename show_i (nms (head d)) (Z.of_nat col) false in let label x := (base ++ " dummy " ++ show_g x)%string in
    Forall (fun x => String.length (label x) < 1000) (colv m col) -> untitled (catname show_i (nms (head d)) (Z.of_nat col) false) d ->
    exists u d' o f, data_to_dummies g show_i show_g d (Z.of_nat col) false keep = Ok (FOut d' o) /\ unique_sorted num_lt (colv m col) u /\
      pages d' = pages d ++ [f] /\ num_categories (catname show_i (nms (head d)) (Z.of_nat col) false) u f /\
      is_dummies (colv m col) (if keep then u else tail u) (map label (if keep then u else tail u)) o.
  Proof.
    intros d col m keep Ha Hm Hw Hr Hc base label Hp Hu.
    assert (HC : num_column (head d) (Z.of_nat col) = Ok (colv m col)). { unfold num_column. rewrite Hm. destruct (Z.eqb_spec (Z.of_nat col) (-1)); [lia|]. destruct (Z.leb_spec 0 (Z.of_nat col)); [|lia]. destruct (Z.ltb_spec (Z.of_nat col) (Z.of_nat (gc m))); [|lia]. cbn. rewrite Nat2Z.id. auto. }
    destruct (fresh_num (head d) (Z.of_nat col) _ HC) as (u & f & Ef & Us & Tc & Ecats).
    unfold data_to_dummies, dummies_check. destruct (Z.eqb_spec (Z.of_nat col) (-1)); [lia|]. rewrite Hm. destruct (Z.leb_spec 0 (Z.of_nat col)) as [Hz|]; [|lia]. destruct (Z.ltb_spec (Z.of_nat col) (Z.of_nat (gc m))); [|lia]. cbn [andb rbind].
    rewrite core_eq, get_untitled by auto. cbn [rbind]. rewrite Ef. cbn [rbind]. destruct (append_spec d (Last f) Ha) as (d' & Ed & Hpg & _). rewrite Ed. cbn [rbind]. cbn [pages] in Hpg.
    assert (Hh : head d' = head d) by (rewrite pages_head, (pages_head d) in Hpg; cbn in Hpg; congruence).
    unfold core_with. assert (Hf : pages d' !! length (pages d) = Some f) by (rewrite Hpg, lookup_app_r, Nat.sub_diag by lia; auto). rewrite Hf. cbn [rbind]. rewrite Hh. unfold rows_of. apply Z.leb_le in Hz. rewrite Hz, Hm. cbn [rbind]. rewrite Ecats. cbn [rbind].
    assert (Hl : gr m = length (colv m col)) by (rewrite colv_len; auto). rewrite Hl.
    destruct (dummies_with ncmp ncmp_good false keep 0%Z (head d) (read_num (Z.of_nat col)) (fun _ => false) u (colv m col)) as (o & Eo & Hn & HD).
    - apply (ssorted_iff ncmp num_lt u ncmp_lt). apply Us.
    - intros E. rewrite E in Hl. cbn in Hl. lia.
    - intros r x Hx. split; [|apply Us; apply elem_of_list_In; eapply elem_of_list_lookup_2; eauto]. rewrite colv_cell in Hx by auto. unfold read_num, get_at, uses_vector. destruct (Z.eqb_spec (Z.of_nat col) (-1)); [lia|]. rewrite Hm, andb_false_r. cbn [andb orb].
      destruct (Z.ltb_spec (Z.of_nat r) 0); [lia|]. destruct (Z.ltb_spec (Z.of_nat col) 0); [lia|]. cbn [orb]. rewrite !Nat2Z.id, Hx. auto.
    - rewrite Eo. cbn [rbind]. unfold dummy_names. rewrite Hn. set (sh := if keep then u else tail u). fold base. change (map _ sh) with (map label sh).
      assert (HL : existsb (fun s => 1000 <=? String.length s) (map label sh) = false).
      { apply not_true_is_false. intros H'. apply existsb_exists in H' as (s & Hx & Hx'). apply in_map_iff in Hx as (x & <- & Hx). assert (Hxu : In x u) by (unfold sh in Hx; destruct keep; auto; destruct u; [destruct Hx|right; auto]). apply Us in Hxu. rewrite List.Forall_forall in Hp. specialize (Hp x Hxu). apply Nat.leb_le in Hx'. lia. }
      rewrite HL. cbn [rbind]. exists u, d', (set_nms o (add_all name_alloc (map label sh) "c")), f.
      replace (set_vec f (Some u)) with f by (destruct Tc as (_ & Tv & _); destruct f; cbn in *; subst; auto). rewrite (set_page_id d' _ f) by auto. split; [reflexivity|]. split; auto. split; auto. split; auto.
      destruct HD as (_ & _ & D3 & D4 & D5). destruct (add_all_col name_alloc (map label sh)) as (A1 & A2 & _). split; [cbn -[add_all]; rewrite A1; auto|]. split; [cbn -[add_all]; rewrite A2; auto|]. split; [auto|]. split; [auto|]. exact D5.
  Qed.
  (** the factors written, for known categories *)
  Lemma factors_with {A} (cmp : A -> A -> comparison) (Hg : good_cmp cmp) text keep outcol p read bad cats vals : ssorted cmp cats ->
    (forall m, mat p = Some m -> wf_grid m) -> (forall i, i < length vals -> where_is p (Z.of_nat i) outcol <> Nowhere) ->
    (forall r x, vals !! r = Some x -> In x cats /\ forall q, frame p q -> (forall l, (forall r', r' < r -> l <> where_is p (Z.of_nat r') outcol) -> content q l = content p l) -> read q r = Ok x) ->
    exists q, core_loop g cmp text false keep outcol p read bad (length vals) 0 cats p = Ok (cats, q) /\ is_factors vals cats outcol p q.
  Proof.
    intros Hs Hw Hpl Hv. destruct (loop_factor g cmp Hg text keep outcol p read bad cats Hs (length vals) 0 p vals) as (q & E & F & V & O); auto.
    - intros r Hr. apply Hpl. lia.
    - intros r x Hx. destruct (Hv r x Hx) as [H1 H2]. split; auto. intros q Hq HO. apply H2; auto. intros l Hl. apply HO. intros r' Hr'. apply Hl. lia.
    - exists q. split; auto. split; auto. split; [intros i x Hi; destruct (V i x Hi) as (k & K1 & K2); exists k; auto|]. intros l Hl. apply O. intros r Hr. apply Hl. lia.
  Qed.
  (** C67: factors of a text column: every row of the column asked for gets the position of its text among the distinct texts in order; nothing else changes but that a page of the categories is added *)
  Theorem C67_factors_text : forall d col t outcol, acyclic d = true -> txt (head d) = Some t -> wf_grid t -> 0 < gr t -> col < gc t ->
    Forall (fun s => has_pct s = false) (colv t col) -> untitled (catname show_i (nms (head d)) (Z.of_nat col) true) d ->
    (forall m, mat (head d) = Some m -> wf_grid m) -> (outcol = -1)%Z \/ mat (head d) <> None -> (forall i, i < gr t -> where_is (head d) (Z.of_nat i) outcol <> Nowhere) ->
    exists u d' q f, data_to_factors g show_i show_g d (Z.of_nat col) outcol true = Ok (FOut d' f) /\ unique_sorted str_lt (colv t col) u /\
      pages d' = q :: tail (pages d) ++ [f] /\ text_categories (catname show_i (nms (head d)) (Z.of_nat col) true) u f /\ is_factors (colv t col) u outcol (head d) q.
  Proof.
    intros d col t outcol Ha Ht Hw Hr Hc Hp Hu Hwm Hom Hpl. destruct (fresh_text (head d) t col Ht Hw Hr Hc Hp) as (u & f & Ef & Us & Tc & Ecats).
    unfold data_to_factors, factors_check. unfold tsz2. rewrite Ht. destruct (Z.leb_spec 0 (Z.of_nat col)); [|lia]. destruct (Z.ltb_spec (Z.of_nat col) (Z.of_nat (gc t))); [|lia]. cbn [andb rbind]. cbv zeta.
    set (r1 := match vect (head d) with Some _ => _ | None => _ end). assert (P1 : r1 = Ok (head d)).
    { unfold r1. specialize (Hpl 0 Hr). destruct (vect (head d)) eqn:Ev; auto. destruct (Z.eqb_spec outcol (-1)) as [->|]; auto. exfalso. apply Hpl. unfold where_is. rewrite Ev. destruct (mat (head d)); auto. cbn [Z.leb Z.compare]. rewrite !andb_false_r. auto. }
    rewrite P1. cbn [rbind]. set (r2 := match mat (head d) with Some _ => _ | None => _ end). assert (P2 : r2 = Ok (head d)).
    { unfold r2. destruct (mat (head d)); auto. destruct Hom as [->|]; [auto|congruence]. }
    rewrite P2. cbn [rbind]. replace (set_head d (head d)) with d by (destruct d; auto).
    rewrite core_eq, get_untitled by auto. cbn [rbind]. rewrite Ef. cbn [rbind]. destruct (append_spec d (Last f) Ha) as (d' & Ed & Hpg & _). rewrite Ed. cbn [rbind]. cbn [pages] in Hpg.
    assert (Hh : head d' = head d) by (rewrite pages_head, (pages_head d) in Hpg; cbn in Hpg; congruence).
    unfold core_with. assert (Hf : pages d' !! length (pages d) = Some f) by (rewrite Hpg, lookup_app_r, Nat.sub_diag by lia; auto). rewrite Hf. cbn [rbind]. rewrite Hh. unfold rows_of, tsz1. rewrite Ht. cbn [rbind]. rewrite Ecats. cbn [rbind]. rewrite Nat2Z.id.
    assert (Hl : gr t = length (colv t col)) by (rewrite colv_len; auto). rewrite Hl.
    destruct (factors_with scmp scmp_good true true outcol (head d) (read_text col) has_pct u (colv t col)) as (q & Eq & HF).
    - apply (ssorted_iff scmp str_lt u scmp_lt). apply Us.
    - auto.
    - intros i Hi. apply Hpl. lia.
    - intros r x Hx. split; [apply Us; apply elem_of_list_In; eapply elem_of_list_lookup_2; eauto|]. intros q (_ & _ & _ & _ & _ & Q & _) _. unfold read_text. rewrite Q, Ht. rewrite colv_cell in Hx by auto. rewrite Hx. auto.
    - rewrite Eq. cbn [rbind]. rewrite Nat.eqb_refl. rewrite set_page_head; [|rewrite pages_head; cbn; lia|auto]. eexists u, _, q, f. split; [reflexivity|]. split; auto. split; [|split; auto]. rewrite pages_set_head, Hpg. f_equal. rewrite (pages_head d). auto.
  Qed.
  (** C67: factors of a matrix column or of the vector, which may be written over themselves *)
  Theorem C67_factors_num : forall d incol outcol vals, acyclic d = true -> num_column (head d) incol = Ok vals -> vals <> [] -> (forall m, mat (head d) = Some m -> wf_grid m) ->
    untitled (catname show_i (nms (head d)) incol false) d ->
    (outcol = -1)%Z \/ mat (head d) <> None -> (forall i, i < length vals -> where_is (head d) (Z.of_nat i) outcol <> Nowhere) ->
    exists u d' q f, data_to_factors g show_i show_g d incol outcol false = Ok (FOut d' f) /\ unique_sorted num_lt vals u /\
      pages d' = q :: tail (pages d) ++ [f] /\ num_categories (catname show_i (nms (head d)) incol false) u f /\ is_factors vals u outcol (head d) q.
  Proof.
    intros d incol outcol vals Ha Hv Hne Hwm Hu Hom Hpl. destruct (fresh_num (head d) incol vals Hv) as (u & f & Ef & Us & Tc & Ecats).
    assert (Hn : 0 < length vals) by (destruct vals; [congruence|cbn; lia]).
    assert (HW : rows_of (head d) incol false = Ok (length vals) /\ factors_check (head d) incol false = true /\ forall r x, vals !! r = Some x -> get_at (head d) (Z.of_nat r) incol = Got x).
    { unfold num_column in Hv. unfold rows_of, factors_check, get_at, uses_vector. destruct (Z.eqb_spec incol (-1)) as [->|Hi].
      - destruct (vect (head d)) as [v|] eqn:Ev; [|discriminate]. injection Hv as ->. cbn [Z.leb Z.compare]. split; auto. split; auto. intros r x Hx. cbn [orb]. destruct (Z.ltb_spec (Z.of_nat r) 0); [lia|]. rewrite Nat2Z.id, Hx. auto.
      - destruct (mat (head d)) as [m|] eqn:Em; [|discriminate]. destruct (Z.leb_spec 0 incol); [|discriminate]. destruct (Z.ltb_spec incol (Z.of_nat (gc m))); [|discriminate]. cbn in Hv. injection Hv as <-. specialize (Hwm m eq_refl).
        split; [rewrite colv_len by (auto; lia); auto|]. split; auto. intros r x Hx. rewrite colv_cell in Hx by (auto; lia). rewrite andb_false_r. cbn [andb orb]. destruct (Z.ltb_spec (Z.of_nat r) 0); [lia|]. destruct (Z.ltb_spec incol 0); [lia|]. cbn [orb]. rewrite Nat2Z.id, Hx. auto. }
    destruct HW as (HR & HC & HG). unfold data_to_factors. rewrite HC. cbv zeta.
    set (r1 := match vect (head d) with Some _ => _ | None => _ end). assert (P1 : r1 = Ok (head d)).
    { unfold r1. specialize (Hpl 0 Hn). destruct (vect (head d)) eqn:Ev; auto. destruct (Z.eqb_spec outcol (-1)) as [->|]; auto. exfalso. apply Hpl. unfold where_is. rewrite Ev. destruct (mat (head d)); auto. cbn [Z.leb Z.compare]. rewrite !andb_false_r. auto. }
    rewrite P1. cbn [rbind]. set (r2 := match mat (head d) with Some _ => _ | None => _ end). assert (P2 : r2 = Ok (head d)).
    { unfold r2. destruct (mat (head d)); auto. destruct Hom as [->|]; [auto|congruence]. }
    rewrite P2. cbn [rbind]. replace (set_head d (head d)) with d by (destruct d; auto).
    rewrite core_eq, get_untitled by auto. cbn [rbind]. rewrite Ef. cbn [rbind]. destruct (append_spec d (Last f) Ha) as (d' & Ed & Hpg & _). rewrite Ed. cbn [rbind]. cbn [pages] in Hpg.
    assert (Hh : head d' = head d) by (rewrite pages_head, (pages_head d) in Hpg; cbn in Hpg; congruence).
    unfold core_with. assert (Hf : pages d' !! length (pages d) = Some f) by (rewrite Hpg, lookup_app_r, Nat.sub_diag by lia; auto). rewrite Hf. cbn [rbind]. rewrite Hh, HR. cbn [rbind]. rewrite Ecats. cbn [rbind].
    destruct (factors_with ncmp ncmp_good false true outcol (head d) (read_num incol) (fun _ => false) u vals) as (q & Eq & HF).
    - apply (ssorted_iff ncmp num_lt u ncmp_lt). apply Us.
    - auto.
    - auto.
    - intros r x Hx. split; [apply Us; apply elem_of_list_In; eapply elem_of_list_lookup_2; eauto|]. intros q Fq HO. unfold read_num.
      pose proof (get_at_place (head d) (Z.of_nat r) incol Hwm) as H1. rewrite (HG r x Hx) in H1. pose proof (get_at_place q (Z.of_nat r) incol ltac:(apply Fq)) as H2. rewrite (FixProps.frame_where (head d) q) in H2 by auto.
      assert (Hx1 : content (head d) (where_is (head d) (Z.of_nat r) incol) = Some x /\ where_is (head d) (Z.of_nat r) incol <> Nowhere).
      { destruct (where_is (head d) (Z.of_nat r) incol); [destruct H1 as (y & Y1 & [= ->])|destruct H1 as (y & Y1 & [= ->])|destruct H1; discriminate]; split; auto; discriminate. }
      destruct Hx1 as [Hx1 Hx2]. rewrite <- HO in Hx1 by (intros r' Hr' E; apply where_row in E; auto; lia).
      destruct (where_is (head d) (Z.of_nat r) incol); [| |congruence]; destruct H2 as (y & Y1 & ->); congruence.
    - rewrite Eq. cbn [rbind]. replace (set_vec f (Some u)) with f by (destruct Tc as (_ & Tv & _); destruct f; cbn in *; subst; auto). rewrite set_page_head; [|rewrite pages_head; cbn; lia|auto]. eexists u, _, q, f. split; [reflexivity|]. split; auto. split; [|split; auto]. rewrite pages_set_head, Hpg. f_equal. rewrite (pages_head d). auto.
  Qed.
  (** C67: a missing vector or matrix is made first, for text: of as many rows as the text *)
  Theorem C67_factors_space : forall d col t, txt (head d) = Some t ->
    (vect (head d) = None -> data_to_factors g show_i show_g d col (-1) true = data_to_factors g show_i show_g (set_head d (set_vec (head d) (Some (replicate (gr t) g)))) col (-1) true) /\
    (forall outcol, (0 <= outcol)%Z -> mat (head d) = None -> data_to_factors g show_i show_g d col outcol true =
       data_to_factors g show_i show_g (set_head d (set_mat (head d) (Some (new_grid (gr t) (S (Z.to_nat outcol)) (Some 0%R))))) col outcol true).
  Proof.
    intros d col t Ht. assert (HS : forall q, head (set_head d q) = q) by (intros; destruct d; auto). assert (HSS : forall q q', set_head (set_head d q) q' = set_head d q') by (intros; destruct d; auto). split.
    - intros Hv. unfold data_to_factors. rewrite !HS. unfold factors_check, tsz2, tsz1. cbn [txt vect mat set_vec]. rewrite Ht, Hv. cbn [Z.eqb Z.leb Z.compare rbind]. destruct (mat (head d)); cbn [Z.eqb Pos.eqb rbind]; rewrite HSS; destruct (_ && _); auto.
    - intros outcol Ho Hm. unfold data_to_factors. rewrite !HS. unfold factors_check, tsz2, tsz1. cbn [txt vect mat set_mat]. rewrite Ht, Hm. destruct (Z.leb_spec 0 outcol); [|lia]. destruct (Z.eqb_spec outcol (-1)); [lia|].
      destruct (_ && _); auto. destruct (vect (head d)); cbn [rbind]; rewrite HSS; auto.
  Qed.
  (** C67: the title of the page of categories: the column's name where it has one *)
  Theorem C67_titles : forall n,
    (forall col s, txtn n !! col = Some s -> catname show_i n (Z.of_nat col) true = ("<categories for " ++ s ++ ">")%string) /\
    (forall col s, coln n !! col = Some s -> catname show_i n (Z.of_nat col) false = ("<categories for " ++ s ++ ">")%string) /\
    (forall s, vecn n = Some s -> catname show_i n (-1) false = ("<categories for " ++ s ++ ">")%string) /\
    (vecn n = None -> catname show_i n (-1) false = "<categories for vector>"%string) /\
    (forall col, length (coln n) <= col -> catname show_i n (Z.of_nat col) false = ("<categories for " ++ ("column " ++ show_i (Z.of_nat col)) ++ ">")%string) /\
    (forall col, length (coln n) <= col -> length (txtn n) <= col -> catname show_i n (Z.of_nat col) true = ("<categories for " ++ ("text column " ++ show_i (Z.of_nat col)) ++ ">")%string).
  Proof.
    intros n. unfold catname, factor_basename. split; [|split; [|split; [|split; [|split]]]].
    - intros col s H. assert (col < length (txtn n)) by (eapply lookup_lt_Some; eauto). destruct (Z.ltb_spec (Z.of_nat col) (Z.of_nat (length (txtn n)))); [|lia]. cbn [andb]. rewrite Nat2Z.id, H. auto.
    - intros col s H. assert (col < length (coln n)) by (eapply lookup_lt_Some; eauto). cbn [andb]. destruct (Z.eqb_spec (Z.of_nat col) (-1)); [lia|]. destruct (Z.leb_spec 0 (Z.of_nat col)); [|lia]. destruct (Z.ltb_spec (Z.of_nat col) (Z.of_nat (length (coln n)))); [|lia]. cbn [andb]. rewrite Nat2Z.id, H. auto.
    - intros s H. cbn. rewrite H. auto.
    - intros H. cbn. rewrite H. auto.
    - intros col H. cbn [andb]. destruct (Z.eqb_spec (Z.of_nat col) (-1)); [lia|]. destruct (Z.ltb_spec (Z.of_nat col) (Z.of_nat (length (coln n)))); [lia|]. rewrite andb_false_r. auto.
    - intros col H1 H2. destruct (Z.ltb_spec (Z.of_nat col) (Z.of_nat (length (txtn n)))); [lia|]. cbn [andb]. destruct (Z.eqb_spec (Z.of_nat col) (-1)); [lia|]. destruct (Z.ltb_spec (Z.of_nat col) (Z.of_nat (length (coln n)))); [lia|]. rewrite andb_false_r. auto.
  Qed.
  (** C67: appending at the end: the dummies come after the columns there were, whose names are filled up with empty ones; nothing else changes *)
  Theorem C67_append : forall d o m mo col text, mat (head d) = Some m -> mat o = Some mo -> vect o = None -> txt o = None -> gr m = gr mo -> coln (nms o) <> [] -> length (coln (nms (head d))) <= gc m ->
    exists d' q, dummies_append g d o col text false true = Ok d' /\ pages d' = q :: tail (pages d) /\ mat q = Some (Gr (gr m) (gc m + gc mo) (zip_with (++) (ga m) (ga mo))) /\
      coln (nms q) = coln (nms (head d)) ++ replicate (gc m - length (coln (nms (head d)))) EmptyString ++ coln (nms o) /\
      vect q = vect (head d) /\ wts q = wts (head d) /\ txt q = txt (head d) /\ rown (nms q) = rown (nms (head d)) /\ txtn (nms q) = txtn (nms (head d)) /\ title (nms q) = title (nms (head d)) /\ vecn (nms q) = vecn (nms (head d)).
  Proof.
    intros d o m mo col text Hm Hmo Hv Ht Hr Hn Hl. unfold dummies_append. cbn [andb rbind]. unfold data_stack. cbn [negb orb Ascii.eqb Bool.eqb]. cbn -[stack_body]. unfold stack_body. cbn [head]. rewrite Hv, Ht, Hmo. cbn -[name_stack pad_names mstack].
    destruct (Nat.eqb_spec (length (coln (nms o))) 0) as [E|E]; [destruct (coln (nms o)); [congruence|discriminate]|]. cbn -[name_stack pad_names mstack].
    eexists _, _. split; [reflexivity|]. rewrite pages_set_head. split; [reflexivity|]. cbn -[name_stack pad_names mstack]. rewrite Hm. cbn [mstack]. rewrite Hr, Nat.eqb_refl. split; [auto|]. unfold name_stack, msz2. rewrite Hm.
    assert (HT : list_of (nms o) "c" = (coln (nms o), colh (nms o))) by reflexivity.
    cbn -[add_all pad_names]. destruct (add_all_col (pad_names (nms (head d)) (gc m - length (coln (nms (head d)))) "c") (coln (nms o))) as (A1 & A2 & A3 & A4 & A5 & _).
    destruct (add_all_col (nms (head d)) (replicate (gc m - length (coln (nms (head d)))) EmptyString)) as (B1 & B2 & B3 & B4 & B5 & _).
    split; [rewrite A1; unfold pad_names; rewrite B1, <- app_assoc; auto|]. rewrite A2, A3, A4, A5. unfold pad_names. rewrite B2, B3, B4, B5. repeat split; auto.
  Qed.
  (** C67: removing the source column (which is done before appending): the other columns and their names stay, and all else *)
  Theorem C67_remove : forall d o m col, mat (head d) = Some m -> wf_grid m -> col < gc m -> gc m <= S (gr m) -> length (coln (nms (head d))) <= gc m ->
    exists d' q, dummies_append g d o (Z.of_nat col) false true false = Ok d' /\ pages d' = q :: tail (pages d) /\ DataProps.holds_cols (map (fun j => negb (j =? col)) (seq 0 (gc m))) (head d) q m /\
      dummies_append g d o (Z.of_nat col) false true true = dummies_append g d' o (Z.of_nat col) false false true.
  Proof.
    intros d o m col Hm Hw Hc Hs Hn. set (fl := map (fun j => j =? col) (seq 0 (gc m))). destruct (DataProps.C10_rm_columns num (head d) m fl) as (q & Eq & HQ); auto; try lia; [unfold fl; rewrite map_length, seq_length; auto|].
    assert (E2 : rm_columns (head d) (<[col := true]> (replicate (S (gr m)) false)) = Ok q).
    { rewrite (RmProofs.rm_columns_spec (head d) m) in Eq |- * by (auto; try lia; unfold fl; rewrite ?map_length, ?seq_length, ?insert_length, ?replicate_length; lia).
      replace (take (gc m) (<[col:=true]> (replicate (S (gr m)) false))) with (take (gc m) fl); [exact Eq|]. unfold fl. assert (HR : forall i, i < S (gr m) -> replicate (S (gr m)) false !! i = Some false) by (intros; apply lookup_replicate_2; auto). assert (HL : length (replicate (S (gr m)) false) = S (gr m)) by apply replicate_length. revert HR HL. generalize (replicate (S (gr m)) false). intros rep HR HL. apply list_eq. intros i.
      destruct (Nat.lt_ge_cases i (gc m)) as [Hi|Hi].
      - rewrite !lookup_take by auto. rewrite list_lookup_fmap, lookup_seq_lt by auto. cbn. destruct (Nat.eqb_spec i col) as [->|Hne].
        + rewrite list_lookup_insert; auto. lia.
        + rewrite list_lookup_insert_ne, HR by (auto; lia). auto.
      - rewrite !lookup_take_ge by auto. auto. }
    exists (set_head d q), q. unfold dummies_append, msz1. rewrite Hm. cbn [andb negb]. destruct (Z.leb_spec 0 (Z.of_nat col)); [|lia]. destruct (Z.leb_spec (Z.of_nat col) (Z.of_nat (gr m))); [|lia]. cbn [andb]. rewrite Nat2Z.id, E2. cbn [rbind].
    split; auto. rewrite pages_set_head. split; auto. split; auto. unfold fl in HQ. rewrite map_map in HQ. exact HQ.
  Qed.
  (** C67: appending in place, in a data set without column names: the columns up to the source, the dummies, the rest *)
  Theorem C67_insert : forall d o m mo col, mat (head d) = Some m -> wf_grid m -> 0 < gr m -> S col < gc m -> coln (nms (head d)) = [] ->
    (forall v, vect (head d) = Some v -> 0 < length v) -> (forall v, wts (head d) = Some v -> 0 < length v) -> mat o = Some mo -> gr mo = gr m -> length (ga mo) = gr mo ->
    dummies_insert g d o (Z.of_nat col) =
      Ok (Some (Gr (gr m) (gc m + gc mo) (zip_with (fun r ro => take (S col) r ++ ro ++ drop (S col) r) (ga m) (ga mo))), replicate (S col) (Some EmptyString) ++ map Some (coln (nms o))).
  Proof.
    intros d o m mo col Hm Hw Hr Hc Hn Hv Hwt Ho Hro Hlo. unfold dummies_insert. replace (Z.of_nat col + 1)%Z with (Z.of_nat (S col)) by lia.
    destruct (SplitProps.C08_column_split num g d (S col) m) as (a & b & -> & (_ & _ & _ & _ & M & _ & _ & _ & _ & N1 & N2 & _)); auto. cbn [rbind head]. destruct (M m Hm) as [Ma Mb]. cbn [Nat.eqb] in Ma.
    unfold msz2. rewrite Ma, Mb, Ho, N1, N2, Hn, take_nil, drop_nil. cbn [map app length SplitProps.left gc]. rewrite Nat.sub_0_r, app_nil_r. f_equal. f_equal. unfold mstack. cbn [SplitProps.left SplitProps.right gr gc ga].
    rewrite Hro, Nat.eqb_refl. cbn [gr gc ga]. rewrite Nat.eqb_refl. f_equal. f_equal; [lia|]. destruct Hw as [Hl _]. rewrite <- Hl in Hro. rewrite <- Hlo in Hro. revert Hro. generalize (ga mo). generalize (ga m). clear. intros l. induction l as [|x l IH]; intros [|y k] H; cbn in *; auto; try discriminate. rewrite <- app_assoc. f_equal. apply IH. lia.
  Qed.
End C67.
Print Assumptions C67_dummies_text.
Print Assumptions C67_dummies_text_known.
Print Assumptions C67_dummies_num.
Print Assumptions C67_factors_text.
Print Assumptions C67_factors_num.
Print Assumptions C67_factors_space.
Print Assumptions C67_titles.
Print Assumptions C67_append.
Print Assumptions C67_remove.
Print Assumptions C67_insert.

(** ---------- a case, and deviations ---------- *)
Definition show0 (_ : Z) : string := "0"%string.
Definition showg (_ : num) : string := "g"%string.
Definition tdata (l : list string) : adata num := Last (Pg (Some (map (fun _ => Some 0%R) l)) None None (Some (one_column l)) (add1 name_alloc "pet"%string "t"%char) None).
Definition categories (title_ : string) (l : list string) : page num := Pg (Some (map number (seq 0 (length l)))) None None (Some (one_column l)) (Nm (Some title_) None [] [] [] [] [] []) None.
Example C67_nonvacuous :
  (exists d' o, data_to_dummies None show0 showg (tdata ["cat"; "dog"; "cat"; "ant"]%string) 0 true false = Ok (FOut d' o) /\
     mat o = Some (Gr 4 2 [[Some 1; Some 0]; [Some 0; Some 1]; [Some 1; Some 0]; [Some 0; Some 0]])%R /\ coln (nms o) = ["cat"; "dog"]%string /\ length (pages d') = 2) /\
  (exists d' f, data_to_factors None show0 showg (tdata ["cat"; "dog"; "cat"; "ant"]%string) 0 (-1) true = Ok (FOut d' f) /\ vect (head d') = Some (map number [1; 2; 1; 0]) /\ text_categories "<categories for pet>" ["ant"; "cat"; "dog"]%string f).
Proof. split; eexists _, _; (split; [reflexivity|]); repeat split. Qed.
Example C67_nonvacuous_num : exists d : adata num, acyclic d = true /\ num_column (head d) 0 = Ok [Some 5; Some 2; Some 5]%R /\ untitled (catname show0 (nms (head d)) 0 false) d.
Proof. exists (Last (Pg None (Some (Gr 3 2 [[Some 5; None]; [Some 2; None]; [Some 5; None]]%R)) None None name_alloc None)). repeat split. constructor; [discriminate|constructor]. Qed.
Example C67_nonvacuous_insert : dummies_insert None (Last (Pg None (Some (Gr 1 2 [[Some 5; Some 6]]%R)) None None name_alloc None)) (Pg None (Some (Gr 1 1 [[Some 1]]%R)) None None (add1 name_alloc "x"%string "c"%char) None) 0
  = Ok (Some (Gr 1 3 [[Some 5; Some 1; Some 6]]%R), [Some ""; Some "x"]%string).
Proof. reflexivity. Qed.

(** Deviation: dummies of the vector are refused whenever there is a vector. *)
Theorem C67_dummies_vector_refuted : forall g show_i show_g d v keep, vect (head d) = Some v -> data_to_dummies g show_i show_g d (-1) false keep = Ok FErr.
Proof. intros g show_i show_g d v keep H. unfold data_to_dummies, dummies_check. cbn. rewrite H. auto. Qed.
(** Deviation: a text with a percent sign is a format string. *)
Theorem C67_percent_refuted : data_to_dummies None show0 showg (tdata ["100%"]%string) 0 true false = UB /\ data_to_factors None show0 showg (tdata ["100%"]%string) 0 (-1) true = UB.
Proof. split; reflexivity. Qed.
(** Deviation: with a page of categories that does not have all the texts, new texts are put after the last, where the search does not find them: here the second m has a category of its own, though
    the first has one.  The dummies then have two columns named m. *)
Theorem C67_new_category_refuted : exists d' f, data_to_factors None show0 showg (Cons (head (tdata ["m"; "m"]%string)) (Last (categories "<categories for pet>" ["a"; "z"]%string))) 0 (-1) true = Ok (FOut d' f) /\
  vect (head d') = Some (map number [2; 3]) /\ txt f = Some (one_column ["a"; "z"; "m"; "m"]%string).
Proof. eexists _, _. split; [reflexivity|]. split; reflexivity. Qed.
(** Deviation: a new number gives the user's matrix, which is read and written, the number of categories for its number of columns, the last column set to zero: here the second column, [9], is gone and
    the number 5 has been lost. *)
Definition numpage (m : grid num) : page num := Pg None (Some m) None None name_alloc None.
Definition numcats (v : list num) : page num := Pg (Some v) None None None (Nm (Some ("<categories for column 0>")%string) None [] [] [] [] [] []) None.
Lemma search1 : bsearch ncmp [Some 1%R] (Some 5%R) = None.
Proof. unfold bsearch. cbn -[ncmp]. replace (ncmp (Some 5%R) (Some 1%R)) with Gt by (cbn; destruct (Rlt_dec 5 1); [lra|]; destruct (Rlt_dec 1 5); [auto|lra]). reflexivity. Qed.
Lemma search2 : bsearch ncmp [Some 1%R; Some 2%R] (Some 5%R) = None.
Proof. unfold bsearch. cbn -[ncmp]. change (Nat.ltb 0 2) with true. cbn -[ncmp]. replace (ncmp (Some 5%R) (Some 2%R)) with Gt by (cbn; destruct (Rlt_dec 5 2); [lra|]; destruct (Rlt_dec 2 5); [auto|lra]). reflexivity. Qed.
Lemma search3 : bsearch ncmp [Some 1%R; Some 2%R] (Some 1%R) = Some 0.
Proof. unfold bsearch. cbn -[ncmp]. change (Nat.ltb 0 2) with true. cbn -[ncmp]. replace (ncmp (Some 1%R) (Some 2%R)) with Lt by (cbn; destruct (Rlt_dec 1 2); [auto|lra]). cbn -[ncmp]. replace (ncmp (Some 1%R) (Some 1%R)) with Eq by (cbn; destruct (Rlt_dec 1 1); [lra|auto]). reflexivity. Qed.
Theorem C67_new_number_refuted : exists d' f, data_to_factors None show0 showg (Cons (numpage (Gr 1 3 [[Some 5; Some 9; Some 8]]%R)) (Last (numcats [Some 1]%R))) 0 0 false = Ok (FOut d' f) /\
  mat (head d') = Some (Gr 1 2 [[number 1; Some 0]]%R) /\ vect f = Some [Some 1; Some 5]%R.
Proof.
  set (P := numpage (Gr 1 3 [[Some 5; Some 9; Some 8]]%R)).
  assert (L : core_loop None ncmp false false true 0 P (read_num 0) (fun _ => false) 1 0 [Some 1]%R P = Ok ([Some 1; Some 5]%R, numpage (Gr 1 2 [[number 1; Some 0]]%R))).
  { cbn [core_loop]. change (read_num 0 P 0) with (Ok (Some 5%R)). cbn [rbind]. rewrite search1. reflexivity. }
  eexists _, _. split; [|split].
  - unfold data_to_factors. change (factors_check _ _ _) with true. cbn iota. cbv zeta. change (match vect _ with Some _ => _ | None => _ end) with (Ok P) at 1. cbn [rbind]. change (match mat _ with Some _ => _ | None => _ end) with (Ok P) at 1. cbn [rbind].
    rewrite core_eq. change (get_page _ _) with (Ok (Some 1)). cbn [rbind]. unfold core_with. change (match pages _ !! _ with Some _ => _ | None => _ end) with (Ok (numcats [Some 1]%R)). cbn [rbind]. change (rows_of _ _ _) with (Ok 1). cbn [rbind].
    change (num_cats _) with (Ok [Some 1]%R). cbn [rbind]. change (head (set_head _ P)) with P. rewrite L. cbn [rbind]. reflexivity.
  - reflexivity.
  - reflexivity.
Qed.
(** Deviation: without keep_first, a new number adds two columns, the first never set (garbage), and one name. *)
Theorem C67_new_number_dummy_refuted : forall g, exists d' o, data_to_dummies g show0 showg (Cons (numpage (Gr 2 1 [[Some 1]; [Some 5]]%R)) (Last (numcats [Some 1; Some 2]%R))) 0 false false = Ok (FOut d' o) /\
  mat o = Some (Gr 2 3 [[Some 0%R; g; Some 0%R]; [Some 0; Some 1; Some 0]%R]) /\ length (coln (nms o)) = 2.
Proof.
  intros g. set (P := numpage (Gr 2 1 [[Some 1]; [Some 5]]%R)). set (P0 := data_alloc_filled (Some 0%R) 0 2 1).
  assert (L : core_loop g ncmp false true false 0 P (read_num 0) (fun _ => false) 2 0 [Some 1; Some 2]%R P0 = Ok ([Some 1; Some 2; Some 5]%R, numpage (Gr 2 3 [[Some 0%R; g; Some 0%R]; [Some 0; Some 1; Some 0]%R]))).
  { cbn [core_loop]. change (read_num 0 P 0) with (Ok (Some 1%R)). cbn [rbind]. rewrite search3. cbn [rbind place]. change (read_num 0 P 1) with (Ok (Some 5%R)). cbn [rbind]. rewrite search2. reflexivity. }
  eexists _, _. split; [|split; [|]].
  - unfold data_to_dummies. change (dummies_check _ _ _) with (Ok true). cbn [rbind].
    rewrite core_eq. change (get_page _ _) with (Ok (Some 1)). cbn [rbind]. unfold core_with. change (match pages _ !! _ with Some _ => _ | None => _ end) with (Ok (numcats [Some 1; Some 2]%R)). cbn [rbind]. change (rows_of _ _ _) with (Ok 2). cbn [rbind].
    change (num_cats _) with (Ok [Some 1; Some 2]%R). cbn [rbind]. change (head (Cons P _)) with P. change (data_alloc_filled (Some 0%R) 0 2 (Z.of_nat (length [Some 1; Some 2]%R - 1))) with P0. rewrite L. cbn [rbind]. reflexivity.
  - reflexivity.
  - reflexivity.
Qed.
(** Deviation: appending in place after the last column crashes (and 'i' for text crashes or splits the matrix by the number of the text column). *)
Theorem C67_insert_last_refuted : dummies_insert None (Last (numpage (Gr 1 1 [[Some 5]]%R))) (numpage (Gr 1 1 [[Some 1]]%R)) 0 = UB.
Proof. reflexivity. Qed.
(** Deviation: appending in place frees the names there were and keeps the pointers ([None]) before the new ones. *)
Theorem C67_insert_names_refuted : forall g d o m mo col, mat (head d) = Some m -> wf_grid m -> 0 < gr m -> S col < gc m -> length (coln (nms (head d))) = gc m ->
    (forall v, vect (head d) = Some v -> 0 < length v) -> (forall v, wts (head d) = Some v -> 0 < length v) -> mat o = Some mo ->
    exists m' n, dummies_insert g d o (Z.of_nat col) = Ok (m', replicate (gc m) None ++ n) /\ length n = gc m + length (coln (nms o)).
Proof.
  intros g d o m mo col Hm Hw Hr Hc Hn Hv Hwt Ho. unfold dummies_insert. replace (Z.of_nat col + 1)%Z with (Z.of_nat (S col)) by lia.
  destruct (SplitProps.C08_column_split num g d (S col) m) as (a & b & -> & (_ & _ & _ & _ & M & _ & _ & _ & _ & N1 & N2 & _)); auto. cbn [rbind head]. destruct (M m Hm) as [Ma Mb]. cbn [Nat.eqb] in Ma.
  unfold msz2. rewrite Ma. cbn [SplitProps.left gc]. eexists _, (map Some (coln (nms a)) ++ map Some (coln (nms o)) ++ map Some (coln (nms b))).
  rewrite app_length, !map_length. replace (S col - _) with 0 by (rewrite ?map_length, Hn; lia). cbn [replicate]. rewrite app_nil_r, <- app_assoc. split.
  - f_equal. f_equal. f_equal. rewrite <- Hn. generalize (coln (nms (head d))). intros l. induction l as [|x l IH]; cbn; auto. f_equal. auto.
  - rewrite !app_length, !map_length, N1, N2, take_length, drop_length. lia.
Qed.
Print Assumptions C67_insert_names_refuted.
(** Deviation: the list of columns to remove has the length of a column: a column with a number above that of the rows is marked outside it. *)
Theorem C67_remove_refuted : forall g d o m col, mat (head d) = Some m -> gr m < col -> dummies_append g d o (Z.of_nat col) false true false = UB.
Proof. intros g d o m col Hm Hc. unfold dummies_append, msz1. rewrite Hm. cbn [andb negb]. destruct (Z.leb_spec (Z.of_nat col) (Z.of_nat (gr m))); [lia|]. rewrite andb_false_r. auto. Qed.
(** Deviation: a text column without a name has its categories under the name of the matrix column of its number, where those of the matrix column go, too. *)
Theorem C67_title_collision_refuted : forall show_i n s, txtn n = [] -> coln n !! 0 = Some s -> catname show_i n 0 true = catname show_i n 0 false.
Proof. intros show_i n s H1 H2. unfold catname, factor_basename. rewrite H1. cbn [length Z.of_nat]. change (0 <? 0)%Z with false. cbn [andb]. destruct (coln n); [discriminate|]. cbn. cbn in H2. injection H2 as ->. auto. Qed.
(** Deviation: the vector made for the factors of a matrix column has as many elements as the matrix has columns; there being no matrix to get the factors of the vector, the program crashes. *)
Theorem C67_space_refuted : forall g show_i show_g,
  data_to_factors g show_i show_g (Last (Pg (Some [Some 5]%R) None None None name_alloc None)) (-1) 0 false = UB /\
  forall p m, vect p = None -> mat p = Some m -> 0 < gc m -> data_to_factors g show_i show_g (Last p) 0 (-1) false = data_to_factors g show_i show_g (Last (set_vec p (Some (replicate (gc m) g)))) 0 (-1) false.
Proof.
  intros g show_i show_g. split; [reflexivity|]. intros p m Hv Hm Hc. unfold data_to_factors, factors_check. cbn [head mat vect set_vec]. rewrite Hv, Hm. cbn [Z.eqb Z.leb Z.compare andb rbind]. destruct (Z.ltb_spec 0 (Z.of_nat (gc m))); [|lia]. cbn [Pos.eqb rbind set_head]. auto.
Qed.

(** ---------- C68: R squared ---------- *)
From Verif Require Import StatsSpec StatsProofs.
Section C68.
  Local Open Scope R_scope.
  Lemma sum_sq l : fold_left (fun s x => s + x * x) l 0 = Rsum (map (fun x => x ^ 2) l).
  Proof.
    assert (H : forall a, fold_left (fun s x => s + x * x) l a = a + Rsum (map (fun x => x ^ 2) l)). { induction l as [|x l IH]; intros a; cbn [fold_left map]; [rewrite Rsum_nil; lra|]. rewrite IH, Rsum_cons. lra. }
    rewrite H. lra.
  Qed.
  Lemma sum_f l : fold_left (fun s x => s + x) l 0 = Rsum l.
  Proof. assert (H : forall a, fold_left (fun s x => s + x) l a = a + Rsum l). { induction l as [|x l IH]; intros a; cbn [fold_left]; [rewrite Rsum_nil; lra|]. rewrite IH, Rsum_cons. lra. } rewrite H. lra. Qed.
  (** C68: without weights: SST is the sum of the squared deviations from the mean, SSE that of the squared residuals, SSR their difference, R squared is 1 - SSE/SST *)
  Theorem C68_r_squared : forall cols y e, (2 <= length y)%nat -> let sst := Rsum (map (fun x => (x - avg y) ^ 2) y) in let sse := Rsum (map (fun x => x ^ 2) e) in sst <> 0 ->
    exists o, r_squared cols y e None = Some o /\ o_sst o = sst /\ o_sse o = sse /\ o_ssr o = sst - sse /\ o_rsq o = Some (1 - sse / sst) /\
      (INR (length y) - INR (cols - 1) <> 0 -> o_adj o = Some (1 - (INR (length y) - 1) / (INR (length y) - INR (cols - 1)) * (sse / sst))).
  Proof.
    intros cols y e Hy sst sse Hs. unfold r_squared. rewrite sum_sq, var_plain by auto. cbv zeta. fold sse. assert (Hn : INR (length y) - 1 <> 0) by (apply le_INR in Hy; cbn in Hy; lra).
    replace (svar y * (INR (length y) - 1)) with sst by (unfold svar, sst; field; auto). rewrite cdiv_ok by auto. cbn [option_map]. eexists. split; [reflexivity|]. cbn. do 3 (split; [auto|]). split; auto.
    intros Hc. rewrite cdiv_ok by auto. f_equal. lra.
  Qed.
  (** C68: between 0 and 1 when the residuals are those of a fit whose squares sum to no more than those of the constant *)
  Theorem C68_range : forall cols y e o r, (2 <= length y)%nat -> Rsum (map (fun x => x ^ 2) e) <= Rsum (map (fun x => (x - avg y) ^ 2) y) -> Rsum (map (fun x => (x - avg y) ^ 2) y) <> 0 ->
    r_squared cols y e None = Some o -> o_rsq o = Some r -> 0 <= r <= 1.
  Proof.
    intros cols y e o r Hy Hle Hs Eo Er. destruct (C68_r_squared cols y e Hy Hs) as (o' & E' & _ & _ & _ & Hr & _). rewrite E' in Eo. injection Eo as ->. rewrite Hr in Er. injection Er as <-.
    assert (H0 : forall l, 0 <= Rsum (map (fun x => x ^ 2) l)) by (induction l as [|x l IH]; [cbn; lra|]; cbn [map]; rewrite Rsum_cons; pose proof (pow2_ge_0 x); lra). pose proof (H0 e). set (a := Rsum (map _ e)) in *. set (b := Rsum (map (fun x => (x - avg y) ^ 2) y)) in *.
    change (0 <= 1 - a / b <= 1). assert (0 < b) by lra. assert (0 <= a / b) by (apply Rmult_le_pos; [lra|left; apply Rinv_0_lt_compat; lra]). assert (a / b <= 1) by (apply Rmult_le_reg_r with b; [lra|]; replace (a / b * b) with a by (field; lra); lra). lra.
  Qed.
  Lemma zip_sum y : forall w mu, length w = length y ->
    Rsum (zip_with (fun a x => a * (x - mu) ^ 2) w y) = Rsumf (fun p : R * R => snd p * (fst p * fst p)) (combine y w) - 2 * mu * Rsum (zip_with Rmult w y) + mu * mu * Rsum w /\
    Rsumf (fun p : R * R => snd p * fst p) (combine y w) = Rsum (zip_with Rmult w y).
  Proof.
    induction y as [|x y IH]; intros [|a w] mu H; try discriminate; [cbn; unfold Rsumf; cbn; lra|]. cbn in H. destruct (IH w mu ltac:(lia)) as [H1 H2]. cbn [zip_with combine]. rewrite !Rsum_cons, !Rsumf_cons, H1, H2. cbn [fst snd]. split; lra.
  Qed.
  (** C68: with weights of total W: SSE is the weighted sum of squared residuals; SST is the weighted sum of squared deviations from the weighted mean times (n-1)/(W-1), so it is that sum when the weights
      add up to the number of rows *)
  Theorem C68_weighted : forall cols y e w, (2 <= length y)%nat -> length w = length y -> length e = length y -> 11 / 10 <= Rsum w ->
    let n := INR (length y) in let W := Rsum w in
    let mu := Rsum (zip_with Rmult w y) / W in let sst := Rsum (zip_with (fun a x => a * (x - mu) ^ 2) w y) * ((n - 1) / (W - 1)) in let sse := Rsum (zip_with (fun a x => a * x ^ 2) w e) in sst <> 0 ->
    (W = n -> sst = Rsum (zip_with (fun a x => a * (x - mu) ^ 2) w y)) /\
    exists o, r_squared cols y e (Some w) = Some o /\ o_sst o = sst /\ o_sse o = sse /\ o_ssr o = sst - sse /\ o_rsq o = Some (1 - sse / sst) /\
      (n - INR (cols - 1) <> 0 -> o_adj o = Some (1 - (n - 1) / (n - INR (cols - 1)) * (sse / sst))).
  Proof.
    intros cols y e w Hy Hw He HW n W mu sst sse Hs. assert (Hn : n - 1 <> 0) by (unfold n; apply le_INR in Hy; cbn in Hy; lra). split.
    - intros E. unfold sst. rewrite E. field. auto.
    - unfold r_squared. assert (Hne : y <> []) by (destruct y; [cbn in Hy; lia|discriminate]). rewrite Hw, He, Nat.eqb_refl, sum_f, var_weighted by auto. cbv zeta.
      assert (Esse : Rsum (zip_with (fun a b => a * b * b) w e) = sse). { unfold sse. rewrite <- He in Hw. clear - Hw. revert e Hw. induction w as [|a w IH]; intros [|x e] H; try discriminate; auto. cbn [zip_with]. rewrite !Rsum_cons, IH by (cbn in H; lia). lra. }
      rewrite Esse. destruct (zip_sum y w mu Hw) as [Z1 Z2]. rewrite Z2. fold W n.
      match goal with |- context [o_sst _ = _] => idtac end.
      assert (Esst : (Rsumf (fun p : R * R => snd p * (fst p * fst p)) (combine y w) / W - Rsum (zip_with Rmult w y) / W * (Rsum (zip_with Rmult w y) / W)) * W / (W - 1) * (n - 1) = sst).
      { unfold sst. rewrite Z1. unfold mu. fold W. assert (W <> 0 /\ W - 1 <> 0) as [? ?] by (unfold W; lra). field. auto. }
      rewrite Esst, cdiv_ok by auto. cbn [option_map]. eexists. split; [reflexivity|]. cbn. do 3 (split; [auto|]). split; auto. intros Hc. rewrite cdiv_ok by auto. f_equal. lra.
  Qed.
  Print Assumptions C68_r_squared.
  Print Assumptions C68_range.
  Print Assumptions C68_weighted.
  Example C68_nonvacuous : exists o, r_squared 2 [1; 2; 3; 6] [-1/2; 1/2; 1/2; -1/2] None = Some o /\ o_rsq o = Some (1 - 1 / 14) /\ o_adj o = Some (1 - 3 / 3 * (1 / 14)).
  Proof.
    destruct (C68_r_squared 2 [1; 2; 3; 6] [-1/2; 1/2; 1/2; -1/2]) as (o & E & _ & _ & _ & H1 & H2); [cbn; lia|unfold avg; cbn; lra|]. exists o. split; auto. rewrite H1, H2 by (cbn; lra). unfold avg. cbn. split; f_equal; field.
  Qed.
  (** Deviation: the weighted R squared depends on the scale of the weights: with weights 2 each, the residuals' sum doubles and SST does not.  Here all weights are k: with 4 rows R squared goes down as k goes up. *)
  Theorem C68_weights_scale_refuted : exists o1 o2, r_squared 2 [0; 0; 2; 2] [1; 0; 0; 0] (Some [1; 1; 1; 1]) = Some o1 /\ r_squared 2 [0; 0; 2; 2] [1; 0; 0; 0] (Some [4; 4; 4; 4]) = Some o2 /\
    o_rsq o1 = Some (1 - 1 / 4) /\ o_rsq o2 = Some (1 - 5 / 4).
  Proof.
    destruct (C68_weighted 2 [0; 0; 2; 2] [1; 0; 0; 0] [1; 1; 1; 1]) as (_ & o1 & E1 & _ & _ & _ & H1 & _); [cbn; lia|reflexivity|reflexivity|cbn; lra|cbn; lra|].
    destruct (C68_weighted 2 [0; 0; 2; 2] [1; 0; 0; 0] [4; 4; 4; 4]) as (_ & o2 & E2 & _ & _ & _ & H2 & _); [cbn; lia|reflexivity|reflexivity|cbn; lra|cbn; lra|].
    exists o1, o2. split; auto. split; auto. rewrite H1, H2. cbn. split; f_equal; field.
  Qed.
  (** Deviation: the documented adjusted R squared, R^2 - (k-1)/(n-k-1) (1-R^2) for k columns, is not what is computed. *)
  Theorem C68_adjusted_refuted : exists o r, r_squared 2 [1; 2; 3; 6] [-1/2; 1/2; 1/2; -1/2] None = Some o /\ o_rsq o = Some r /\ o_adj o <> Some (r - (2 - 1) / (4 - 2 - 1) * (1 - r)).
  Proof.
    destruct (C68_r_squared 2 [1; 2; 3; 6] [-1/2; 1/2; 1/2; -1/2]) as (o & E & _ & _ & _ & H1 & H2); [cbn; lia|unfold avg; cbn; lra|]. exists o. eexists. split; [exact E|]. split; [exact H1|]. rewrite H2 by (cbn; lra). unfold avg. cbn. intros [= H]. lra.
  Qed.
End C68.
