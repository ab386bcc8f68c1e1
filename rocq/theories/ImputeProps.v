(** C114: filling in missing data (apop_ml_impute) and predictions (apop_predict). *)
From Coq Require Import Reals Lra.
From Verif Require Import DataModel AccessProps TransModel FixProps ImputeModel.
Local Open Scope list_scope.
Local Open Scope nat_scope.

Section C114.
Context {V P : Type}.
Notation num := (option V).
Notation pages := (list (page num)).
(** ---------- specification ---------- *)
(** [c] is the data set [d], the i-th of whose missing numbers (page by page, the vector, then the matrix row by row: FixProps.free_places) is
    replaced by the i-th element of [v], and which is unchanged in everything else *)
Definition filled (d : pages) (v : list num) (c : pages) : Prop :=
  Forall2 frame d c /\
  (forall i k l, free_places d !! i = Some (k, l) -> exists p, c !! k = Some p /\ content p l = v !! i) /\
  (forall k l p q, d !! k = Some p -> c !! k = Some q -> ~ In (k, l) (free_places d) -> content q l = content p l).
(** there is only one such *)
Lemma filled_frame_eq (p q : page num) : frame p q -> (forall m, mat p = Some m -> wf_grid m) -> (forall l, content p l = content q l) -> p = q.
Proof.
  intros (Hv & Hr & Hc & Hw & H1 & H2 & H3 & H4) Hp HC. destruct p as [v m w t n e], q as [v' m' w' t' n' e']; cbn in *. subst.
  assert (v = v') as ->.
  { destruct v as [v|], v' as [v'|]; try discriminate; auto. f_equal. apply list_eq. intros i. exact (HC (InVec i)). }
  assert (m = m') as ->; [|reflexivity].
  destruct m as [m|], m' as [m'|]; try discriminate; auto. f_equal. injection Hr as Hr. injection Hc as Hc.
  apply grid_eq; auto. intros i j _ _. exact (HC (InMat i j)).
Qed.

Lemma filled_one : forall d v c1 c2, good_pages d -> filled d v c1 -> filled d v c2 -> c1 = c2.
Proof.
  intros d v c1 c2 Hg (F1 & A1 & B1) (F2 & A2 & B2). apply list_eq_same_length with (n := length d); [symmetry; apply (Forall2_length _ _ _ F2)|symmetry; apply (Forall2_length _ _ _ F1)|].
  intros k x y _ Hx Hy. destruct (Forall2_lookup_r _ _ _ _ _ F1 Hx) as (p & Hp & P1). pose proof (Forall2_lookup_lr _ _ _ _ _ _ F2 Hp Hy) as P2.
  apply filled_frame_eq.
  - destruct P1 as (V1 & V2 & V3 & V4 & V5 & V6 & V7 & V8), P2 as (W1 & W2 & W3 & W4 & W5 & W6 & W7 & W8). repeat split; try congruence. auto. all: apply W4; auto.
  - destruct P1 as (_ & _ & _ & W & _). exact W.
  - intros l. destruct (in_dec (fun a b : nat * place => decide (a = b)) (k, l) (free_places d)) as [Hi|Hi].
    + apply elem_of_list_In, elem_of_list_lookup in Hi as (i & Hi). destruct (A1 _ _ _ Hi) as (p1 & E1 & Q1), (A2 _ _ _ Hi) as (p2 & E2 & Q2). congruence.
    + rewrite (B1 k l p x), (B2 k l p y); auto.
Qed.
(** the value of the penalty at a data set and parameters *)
Definition penalty (m : imodel V P) (c : pages) (pars : P) : R := match im_cons m with Some f => fst (f c pars) | None => 0%R end.
(** what a probe should see if the data set were [c] *)
Definition value (m : imodel V P) (pars : P) (c : pages) (e : @probe V) : R :=
  match e with Objective _ => (penalty m c pars - im_ll m c pars)%R | Likelihood _ => im_ll m c pars end.
(** a constraint that is met moves nothing *)
Definition calm (m : imodel V P) : Prop := forall f c pars, im_cons m = Some f -> fst (f c pars) = 0%R -> snd (f c pars) = pars.
Definition first_page_only (d : pages) : Prop := Forall (fun x => fst x = 0) (free_places d).

(** ---------- proofs ---------- *)
Definition inv (d : pages) (s : istate V P) : Prop :=
  Forall2 frame d (is_data s) /\ is_table d (is_tab s) /\
  (forall k l p q, d !! k = Some p -> is_data s !! k = Some q -> ~ In (k, l) (free_places d) -> content q l = content p l).
Lemma unpack_filled d s v : good_pages d -> inv d s -> length v = length (free_places d) ->
  exists c t, fp_unpack (is_data s) (is_tab s) v = Ok (c, t) /\ is_table d t /\ filled d v c.
Proof.
  intros Hg (H1 & H2 & H3) Hv. destruct (C43_unpack d (is_data s) (is_tab s) v Hg H1 H2 Hv) as (c & t & E & Ht & HF & A & B).
  exists c, t. split; [auto|]. split; [auto|]. split; [|split; [auto|]].
  - apply Forall2_same_length_lookup_2; [rewrite (Forall2_length _ _ _ H1); apply (Forall2_length _ _ _ HF)|]. intros k x z Hx Hz.
    destruct (Forall2_lookup_l _ _ _ _ _ H1 Hx) as (y & Hy & Fy). eapply frame_trans; [exact Fy|]. eapply Forall2_lookup_lr; eauto.
  - intros k l p q Hp Hq Hni. destruct (Forall2_lookup_l _ _ _ _ _ H1 Hp) as (y & Hy & _). rewrite (B k l y q) by auto. eauto.
Qed.
Lemma filled_inv d v c t pars : is_table d t -> filled d v c -> inv d (IS c t pars).
Proof. intros Ht (A & _ & B). split; [|split]; auto. Qed.
Lemma pack_filled d v c t : good_pages d -> d <> [] -> is_table d t -> filled d v c -> first_page_only d -> length v = length (free_places d) -> fp_pack c t = Ok v.
Proof.
  intros Hg Hd Ht (A & B & _) H0 Hv. destruct c as [|p rest]; [apply Forall2_length in A; destruct d; [congruence|discriminate]|].
  destruct (C43_pack d p rest t Hg A Ht H0) as (w & -> & Lw & Hw). f_equal. apply list_eq_same_length with (n := length v); auto; [congruence|].
  intros i x y Hi Hx Hy. rewrite Hv in Hi. apply lookup_lt_is_Some_2 in Hi as ((k & l) & Hi). pose proof (Hw _ _ _ Hi) as E1. destruct (B _ _ _ Hi) as (p' & Hp' & E2).
  assert (k = 0) as ->. { apply elem_of_list_lookup_2, elem_of_list_In in Hi. eapply List.Forall_forall in H0; [|exact Hi]. exact H0. }
  cbn in Hp'. injection Hp' as <-. congruence.
Qed.
Section one.
Variables (m : imodel V P) (d : pages) (pars : P).
Hypotheses (Hg : good_pages d) (Hd : d <> []) (Hcalm : calm m) (Hpage : first_page_only d \/ im_cons m = None).
Lemma probe_ok e s : inv d s -> is_pars s = pars -> length (point e) = length (free_places d) ->
  exists c s', do_probe m e s = Ok (value m pars c e, point e, s') /\ filled d (point e) c /\ is_data s' = c /\ inv d s' /\ is_pars s' = pars.
Proof.
  intros Hi Hp Hl. destruct (unpack_filled d s (point e) Hg Hi Hl) as (c & t & E & Ht & Hf).
  destruct e as [v|v]; cbn [do_probe point] in *.
  - unfold shell, fixed_constraint. rewrite E. cbn [rbind]. rewrite Hp.
    assert (S1 : swap_constraint m (IS c t pars) = (penalty m c pars, IS c t pars)).
    { unfold swap_constraint, penalty. cbn [is_data is_tab is_pars]. destruct (im_cons m) as [f|] eqn:Ef; auto. specialize (Hcalm f c pars Ef). destruct (f c pars) as [o w]; cbn [fst snd] in *.
      destruct (Req_EM_T o 0); [rewrite Hcalm by auto|]; auto. }
    rewrite S1.
    assert (S2 : forall X (a b : X), (if Req_EM_T (penalty m c pars) 0 then a else b) = a \/ (first_page_only d /\ (if Req_EM_T (penalty m c pars) 0 then a else b) = b)).
    { intros X a b. destruct (Req_EM_T _ _) as [Hz|Hz]; auto. destruct Hpage as [|Hn]; auto. exfalso. apply Hz. unfold penalty. rewrite Hn. auto. }
    assert (S3 : (if Req_EM_T (penalty m c pars) 0 then Ok (penalty m c pars, v, IS c t pars)
             else do w <- fp_pack (is_data (IS c t pars)) (is_tab (IS c t pars)); Ok (penalty m c pars, w, IS c t pars)) = Ok (penalty m c pars, v, IS c t pars)).
    { edestruct S2 as [-> | [H0 ->]]; auto. cbn [is_data is_tab]. rewrite (pack_filled d v) by auto. auto. }
    rewrite S3. cbn [rbind]. unfold fixed_ll.
    destruct (unpack_filled d (IS c t pars) v Hg (filled_inv _ _ _ _ _ Ht Hf) Hl) as (c' & t' & E' & Ht' & Hf'). rewrite E'. cbn [rbind is_pars].
    pose proof (filled_one _ _ _ _ Hg Hf Hf') as <-. eexists c, _. split; [reflexivity|]. split; auto. split; auto. split; auto. eapply filled_inv; eauto.
  - unfold fixed_ll. rewrite E. cbn [rbind]. rewrite Hp. eexists c, _. split; [reflexivity|]. split; auto. split; auto. split; auto. eapply filled_inv; eauto.
Qed.
Lemma search_ok : forall es s, inv d s -> is_pars s = pars -> Forall (fun e => length (point e) = length (free_places d)) es ->
  exists l s', search m es s = Ok (l, s') /\ inv d s' /\ is_pars s' = pars /\
    Forall2 (fun e x => exists c, filled d (point e) c /\ x = (value m pars c e, point e)) es l.
Proof.
  induction es as [|e es IH]; intros s Hi Hp Hl; cbn [search].
  - exists [], s. auto.
  - apply Forall_cons_1 in Hl as [H1 H2]. destruct (probe_ok e s Hi Hp H1) as (c & s1 & E & Hf & Hc & Hi1 & Hp1). rewrite E. cbn [rbind].
    destruct (IH s1 Hi1 Hp1 H2) as (l & s2 & E2 & Hi2 & Hp2 & HF). rewrite E2. cbn [rbind]. eexists _, s2. split; [reflexivity|]. split; auto. split; auto. constructor; auto.
    exists c. auto.
Qed.
End one.

Lemma inv_start d tab n pars : good_pages d -> fix_params d = Some (tab, n) -> inv d (IS d tab pars).
Proof.
  intros Hg Hfp. assert (Ht : is_table d tab) by (unfold fix_params in Hfp; unfold is_table; destruct (table_prep d 0); [discriminate|]; injection Hfp as <- <-; auto).
  split; [|split; [exact Ht|]].
  - apply Forall2_same_length_lookup_2; auto. intros k p q Hp Hq. cbn in Hq. assert (p = q) as <- by congruence. apply frame_refl. exact (Forall_lookup_1 _ _ _ _ Hg Hp).
  - intros k l p q Hp Hq _. cbn in Hq. congruence.
Qed.
Lemma impute_some fit ns (m : imodel V P) pars d es best : d <> [] -> ml_impute fit ns d (Some (m, pars)) es best =
  match fix_params d with None => Ok INothing | Some (tab, _) => do (l, s) <- fixed_est m es best (IS d tab pars); Ok (IFilled (is_data s) l (is_pars s)) end.
Proof. destruct d; [congruence|reflexivity]. Qed.
(** C114: imputation with a model.  Whatever the search tries and ends with: no cell that was there, shape, name, text or weight is changed, the i-th missing
    number is the i-th element of the search's result; the parameters of the model are as before; and each value the search sees is that of the model's own log
    likelihood, at the model's own parameters, of the data filled in with the point tried (less the penalty), which is left where it was. *)
Theorem C114_impute : forall fit ns (m : imodel V P) pars d es best, good_pages d -> free_places d <> [] -> calm m -> first_page_only d \/ im_cons m = None ->
  Forall (fun e => length (point e) = length (free_places d)) es -> length best = length (free_places d) ->
  exists d' seen, ml_impute fit ns d (Some (m, pars)) es best = Ok (IFilled d' seen pars) /\ filled d best d' /\
    Forall2 (fun e x => exists c, filled d (point e) c /\ x = (value m pars c e, point e)) es seen.
Proof.
  intros fit ns m pars d es best Hg Hne Hc Hp Hes Hb. assert (Hd : d <> []) by (intros ->; apply Hne; auto).
  rewrite impute_some by auto.
  destruct (fix_params d) as [[tab n]|] eqn:Ef; [|apply C43_none in Ef; congruence].
  unfold fixed_est. destruct (search_ok m d pars Hg Hd Hc Hp es (IS d tab pars) (inv_start _ _ _ _ Hg Ef) eq_refl Hes) as (l & s & E & Hi & Hpp & HF). rewrite E. cbn [rbind].
  destruct (unpack_filled d s best Hg Hi Hb) as (c & t & E2 & Ht & Hf). rewrite E2. cbn [rbind is_data is_pars]. rewrite Hpp. eauto.
Qed.
Lemma free_page_in (ps : pages) : forall k j p l, ps !! j = Some p -> In l (places p) -> nan_at p l = true -> In (k + j, l) (free_from ps k).
Proof.
  induction ps as [|p0 ps IH]; intros k j p l Hj Hl Hn; [discriminate|]. cbn. apply in_or_app. destruct j as [|j]; cbn in Hj.
  - left. injection Hj as ->. rewrite Nat.add_0_r. apply in_map. apply filter_In. auto.
  - right. replace (k + S j) with (S k + j) by lia. eapply IH; eauto.
Qed.
Lemma frame_places (p q : page num) : frame p q -> places q = places p.
Proof.
  intros (Hv & Hr & Hc & _). unfold places. f_equal.
  - destruct (vect p), (vect q); try discriminate; auto. injection Hv as ->. auto.
  - destruct (mat p), (mat q); try discriminate; auto. injection Hr as ->. injection Hc as ->. auto.
Qed.
(** C114: if the search's result has no NaN, then no number is missing afterwards *)
Theorem C114_complete : forall (d : pages) best d', filled d best d' -> Forall (fun x => x <> None) best -> length best = length (free_places d) -> free_places d' = [].
Proof.
  intros d best d' (A & B & C) Hb Hl. destruct (free_places d') as [|[k l] r] eqn:E; auto. exfalso.
  assert (Hin : In (k, l) (free_places d')) by (rewrite E; left; auto). unfold free_places in Hin. apply free_page in Hin as (_ & q & Hq & Hpl & Hn). rewrite Nat.sub_0_r in Hq.
  destruct (Forall2_lookup_r _ _ _ _ _ A Hq) as (p & Hp & HF).
  destruct (in_dec (fun a b : nat * place => decide (a = b)) (k, l) (free_places d)) as [Hi|Hi].
  - apply elem_of_list_In, elem_of_list_lookup in Hi as (i & Hi). destruct (B _ _ _ Hi) as (q' & Hq' & Hc). assert (q' = q) as -> by congruence.
    unfold nan_at in Hn. rewrite Hc in Hn. destruct (best !! i) as [[x|]|] eqn:Eb; try discriminate. apply (Forall_lookup_1 _ _ _ _ Hb) in Eb. congruence.
  - pose proof (C _ _ _ _ Hp Hq Hi) as Hc. apply Hi. apply (free_page_in d 0 k p l); auto; [rewrite <- (frame_places p q); auto|]. unfold nan_at in *. rewrite <- Hc. auto.
Qed.
(** C114: nothing is missing: the data are not touched, nothing is searched; the only thing done is to estimate the model again *)
Theorem C114_nothing : forall fit ns (b : imodel V P * P) d es best, d <> [] -> free_places d = [] -> ml_impute fit ns d (Some b) es best = Ok INothing.
Proof.
  intros fit ns [m pars] d es best Hd Hf. rewrite impute_some by auto. apply C43_none in Hf. rewrite Hf. auto.
Qed.
(** C114: without a model, it is the Multivariate Normal fitted to the complete rows: the outcome is that of an imputation with that; NULL, the data untouched, if there are none. *)
Theorem C114_default : forall fit ns p rest es best o, listwise_delete None is_nan ns (to_adata p rest) false = Ok o ->
  ml_impute (V := V) (P := P) fit ns (p :: rest) None es best = match o with None => Ok INull | Some l => ml_impute fit ns (p :: rest) (Some (fit l)) es best end.
Proof. intros fit ns p rest es best o H. unfold ml_impute. rewrite H. cbn [rbind]. destruct o; auto. Qed.
(** ---------- predictions ---------- *)
Lemma existsb_lookup {A} (f : A -> bool) (l : list A) : existsb f l = true <-> exists i x, l !! i = Some x /\ f x = true.
Proof.
  rewrite List.existsb_exists. split.
  - intros (x & Hx & Hf). apply elem_of_list_In, elem_of_list_lookup in Hx as (i & Hi). eauto.
  - intros (i & x & Hi & Hf). exists x. split; auto. apply elem_of_list_In. eapply elem_of_list_lookup_2; eauto.
Qed.
Lemma page_nan_spec (p : page num) : (forall m, mat p = Some m -> wf_grid m) -> page_nan p = true <-> exists l, In l (places p) /\ nan_at p l = true.
Proof.
  intros Hw. unfold page_nan. rewrite orb_true_iff. split.
  - intros [H|H].
    + apply existsb_lookup in H as (i & x & Hi & Hx). destruct x; [discriminate|]. destruct (vect p) as [v|] eqn:Ev; [|discriminate]. exists (InVec i). split.
      * unfold places. rewrite Ev. apply in_or_app. left. apply in_map, in_seq. apply lookup_lt_Some in Hi. lia.
      * unfold nan_at, content. rewrite Ev, Hi. auto.
    + apply existsb_lookup in H as (i & r & Hi & Hr). apply existsb_lookup in Hr as (j & x & Hj & Hx). destruct x; [discriminate|]. destruct (mat p) as [g|] eqn:Eg; [|discriminate]. destruct (Hw g eq_refl) as [W1 W2].
      pose proof (Forall_lookup_1 _ _ _ _ W2 Hi) as Wr. cbn in Wr. exists (InMat i j). split.
      * unfold places. rewrite Eg. apply in_or_app. right. apply in_flat_map. exists i. apply lookup_lt_Some in Hi, Hj. split; [apply in_seq; lia|]. apply in_map, in_seq. lia.
      * unfold nan_at, content. rewrite Eg. unfold cell. rewrite Hi. cbn. rewrite Hj. auto.
  - intros (l & _ & Hn). unfold nan_at, content in Hn. destruct l as [i|i j|]; try discriminate.
    + left. destruct (vect p) as [v|]; [|discriminate]. destruct (v !! i) as [[]|] eqn:E; try discriminate. apply existsb_lookup. eauto.
    + right. destruct (mat p) as [g|]; [|discriminate]. unfold cell in Hn. destruct (ga g !! i) as [r|] eqn:E; [|discriminate]. cbn in Hn. destruct (r !! j) as [[]|] eqn:E2; try discriminate.
      apply existsb_lookup. exists i, r. split; auto. apply existsb_lookup. eauto.
Qed.
(** C114: a model that predicts by itself: its prediction is what is returned *)
Theorem C114_own : forall fit ns dsize f (b : imodel V P * P) es best d r, f d = Some r -> predict fit ns dsize (Some f) b es best (Some d) = Ok (r, false).
Proof. intros fit ns dsize f b es best d r H. unfold predict. cbn [rbind]. rewrite H. auto. Qed.
(** C114: data whose first page has no NaN come back as they are, with no search *)
Theorem C114_predict_complete : forall fit ns dsize f (b : imodel V P * P) es best p rest, (forall m, mat p = Some m -> wf_grid m) ->
  (forall l, In l (places p) -> nan_at p l = false) -> (match f with Some f => f (p :: rest) | None => None end = None) -> predict fit ns dsize f b es best (Some (p :: rest)) = Ok (p :: rest, false).
Proof.
  intros fit ns dsize f b es best p rest Hw Hn Hf. unfold predict. cbn [rbind]. rewrite Hf. destruct (page_nan p) eqn:E; auto. apply page_nan_spec in E as (l & A & B); auto. rewrite Hn in B by auto. discriminate.
Qed.
(** C114: data with a NaN on the first page come back with exactly the missing numbers filled in *)
Theorem C114_predict : forall fit ns dsize f (m : imodel V P) pars es best p rest l, good_pages (p :: rest) -> In l (places p) -> nan_at p l = true ->
  (match f with Some f => f (p :: rest) | None => None end = None) -> calm m -> first_page_only (p :: rest) \/ im_cons m = None ->
  Forall (fun e => length (point e) = length (free_places (p :: rest))) es -> length best = length (free_places (p :: rest)) ->
  exists d', predict fit ns dsize f (m, pars) es best (Some (p :: rest)) = Ok (d', true) /\ filled (p :: rest) best d'.
Proof.
  intros fit ns dsize f m pars es best p rest l Hg Hl Hn Hf Hc Hp Hes Hb. unfold predict. cbn [rbind]. rewrite Hf.
  assert (page_nan p = true) as ->. { apply page_nan_spec; [apply Forall_cons_1 in Hg; apply Hg|]. eauto. }
  assert (Hne : free_places (p :: rest) <> []). { intros E. pose proof (free_page_in (p :: rest) 0 0 p l eq_refl Hl Hn) as Hin. unfold free_places in E. rewrite E in Hin. destruct Hin. }
  destruct (C114_impute fit ns m pars _ es best Hg Hne Hc Hp Hes Hb) as (d' & seen & E & F & _). 
  rewrite impute_some in E |- * by discriminate. rewrite E. cbn [rbind]. eauto.
Qed.
Lemma filter_all {A} (f : A -> bool) l : (forall x, In x l -> f x = true) -> List.filter f l = l.
Proof. induction l as [|a l IH]; intros H; cbn; auto. rewrite H by (left; auto). f_equal. apply IH. intros x Hx. apply H. right. auto. Qed.
(** C114: no data: one row of dsize numbers, all of them the search's *)
Theorem C114_predict_null : forall fit ns n (m : imodel V P) pars es best, calm m -> Forall (fun e => length (point e) = S n) es -> length best = S n ->
  predict fit ns (S n) None (m, pars) es best None = Ok ([Pg None (Some (Gr 1 (S n) [best])) None None name_alloc None], true).
Proof.
  intros fit ns n m pars es best Hc Hes Hb. set (p := Pg None (Some (new_grid 1 (S n) (@None V))) None None name_alloc None).
  assert (Hal : data_alloc_filled (@None V) 0 1 (Z.of_nat (S n)) = p).
  { unfold data_alloc_filled, alloc_shape. replace (Z.of_nat (S n) =? 0)%Z with false by lia. replace (0 <? Z.of_nat (S n))%Z with true by lia. cbn [Nat.eqb andb Nat.ltb]. rewrite Nat2Z.id. reflexivity. }
  assert (Hg : good_pages [p]). { constructor; [|constructor]. intros g [= <-]. split; auto. constructor; auto. apply replicate_length. }
  assert (Hfp : free_places [p] = map (fun j => (0, InMat 0 j)) (seq 0 (S n))).
  { unfold free_places. cbn [free_from]. rewrite app_nil_r. unfold places. cbn [vect mat p app new_grid gr gc]. replace (flat_map _ (seq 0 1)) with (map (InMat 0) (seq 0 (S n))) by (change (seq 0 1) with [0]; unfold flat_map; rewrite app_nil_r; reflexivity). rewrite filter_all.
    - rewrite map_map. auto.
    - intros l Hl. apply in_map_iff in Hl as (j & <- & Hj). apply in_seq in Hj. unfold nan_at, content, cell. cbn [mat p new_grid ga replicate]. rewrite list_lookup_singleton. cbn [mbind option_bind].
      change (None :: replicate n None) with (replicate (S n) (@None V)). rewrite lookup_replicate_2 by lia. auto. }
  assert (Hlen : length (free_places [p]) = S n) by (rewrite Hfp, map_length, seq_length; auto).
  assert (H0 : first_page_only [p]). { unfold first_page_only. rewrite Hfp. apply List.Forall_forall. intros x Hx. apply in_map_iff in Hx as (j & <- & _). auto. }
  assert (Hnan : In (InMat 0 0) (places p) /\ nan_at p (InMat 0 0) = true).
  { pose proof (free_page [p] 0 0 (InMat 0 0)) as Hfree. unfold free_places in Hfp. rewrite Hfp in Hfree. destruct Hfree as (_ & q & Hq & Hin & Hn); [left; auto|]. injection Hq as <-. auto. }
  destruct (C114_predict fit ns (S n) None m pars es best p [] (InMat 0 0) Hg (proj1 Hnan) (proj2 Hnan) eq_refl Hc (or_introl H0)) as (d' & E & F).
  { rewrite Hlen. auto. } { rewrite Hlen. auto. }
  unfold predict in E |- *. rewrite Hal. cbn [mat p rbind] in E |- *. rewrite E. f_equal. f_equal. apply (filled_one [p] best); auto.
  split; [|split].
  - constructor; [|constructor]. unfold frame. do 3 (split; [reflexivity|]). split; [|cbn; auto]. intros g [= <-]. split; [reflexivity|constructor; [exact Hb|constructor]].
  - intros i k l Hi. rewrite Hfp in Hi. rewrite list_lookup_fmap in Hi. destruct (seq 0 (S n) !! i) as [j|] eqn:Ej; [|discriminate]. cbn in Hi. injection Hi as <- <-. apply lookup_seq in Ej as [-> _].
    eexists. split; [reflexivity|]. unfold content, cell. cbn [mat ga]. rewrite list_lookup_singleton. auto.
  - intros k l p0 q Hp0 Hq Hni. destruct k as [|k]; [|discriminate]. injection Hp0 as <-. injection Hq as <-. destruct l as [i|i j|]; auto.
    unfold content, cell. cbn [mat p ga new_grid replicate]. destruct i as [|i]; auto. cbn [lookup list_lookup mbind option_bind].
    destruct (decide (j < S n)) as [Hj|Hj].
    + exfalso. apply Hni. rewrite Hfp. apply in_map_iff. exists j. split; auto. apply in_seq. lia.
    + rewrite !(proj2 (lookup_ge_None _ _)); auto; [|rewrite Hb]; try lia. change (length (replicate (S n) (@None V)) <= j). rewrite replicate_length. lia.
Qed.
End C114.
Print Assumptions C114_impute.
Print Assumptions C114_complete.
Print Assumptions C114_nothing.
Print Assumptions C114_default.
Print Assumptions C114_own.
Print Assumptions C114_predict_complete.
Print Assumptions C114_predict.
Print Assumptions C114_predict_null.
Lemma one_zero {X} (a b : X) : (if Req_EM_T 1 0 then a else b) = b.
Proof. destruct (Req_EM_T 1 0); [lra|auto]. Qed.
(** an example: a vector and a matrix with two numbers missing, a model whose constraint always complains and moves the parameters *)
Definition im_page : page (option nat) := Pg (Some [Some 7; None]) (Some (Gr 2 2 [[Some 1; None]; [Some 3; Some 8]])) None None name_alloc None.
Definition im_full : page (option nat) := Pg (Some [Some 7; Some 20]) (Some (Gr 2 2 [[Some 1; Some 30]; [Some 3; Some 8]])) None None name_alloc None.
Definition im_model : imodel nat nat := IM (fun d p => INR (length d + p)) (Some (fun _ p => (1%R, S p))).
Example C114_nonvacuous : good_pages [im_page] /\ free_places [im_page] = [(0, InVec 1); (0, InMat 0 1)] /\ calm im_model /\ first_page_only [im_page] /\
  filled [im_page] [Some 20; Some 30] [im_full] /\
  forall fit ns, ml_impute fit ns [im_page] (Some (im_model, 5)) [Objective [Some 9; Some 9]; Likelihood [Some 4; Some 4]] [Some 20; Some 30] =
    Ok (IFilled [im_full] [((1 - INR 6)%R, [Some 9; Some 9]); (INR 6, [Some 4; Some 4])] 5).
Proof.
  assert (G : good_pages [im_page]). { constructor; [|constructor]. intros g [= <-]. split; [reflexivity|]. constructor; [reflexivity|]. constructor; [reflexivity|constructor]. }
  assert (E : free_places [im_page] = [(0, InVec 1); (0, InMat 0 1)]) by reflexivity.
  assert (C : calm im_model). { intros f c pars [= <-]. cbn. intros H. lra. }
  assert (O : first_page_only [im_page]). { unfold first_page_only. rewrite E. repeat constructor. }
  split; [exact G|]. split; [exact E|]. split; [exact C|]. split; [exact O|].
  assert (F : filled [im_page] [Some 20; Some 30] [im_full]).
  { split; [|split].
    - constructor; [|constructor]. unfold frame. do 3 (split; [reflexivity|]). split; [|cbn; auto]. intros g [= <-]. split; [reflexivity|]. constructor; [reflexivity|]. constructor; [reflexivity|constructor].
    - rewrite E. intros [|[|i]] k l Hi; try discriminate; injection Hi as <- <-; eexists; split; reflexivity.
    - rewrite E. intros [|k] l p q Hp Hq Hni; [|discriminate]. injection Hp as <-. injection Hq as <-. destruct l as [[|[|i]]|[|[|i]] [|[|j]]|]; try reflexivity; exfalso; apply Hni; cbn; auto. }
  split; [exact F|]. intros fit ns.
  destruct (C114_impute fit ns im_model 5 [im_page] [Objective [Some 9; Some 9]; Likelihood [Some 4; Some 4]] [Some 20; Some 30] G) as (d' & seen & H1 & H2 & H3); [rewrite E; discriminate|exact C|left; exact O|rewrite E; repeat constructor|rewrite E; reflexivity|].
  - rewrite H1. rewrite (filled_one _ _ _ _ G H2 F). f_equal. f_equal.
    inversion H3 as [|? x1 ? s1 (c1 & F1 & ->) H4]; subst. inversion H4 as [|? x2 ? s2 (c2 & F2 & ->) H5]; subst. inversion H5; subst.
    destruct F1 as [F1 _], F2 as [F2 _]. apply Forall2_length in F1, F2. unfold value, penalty. cbn [im_cons im_ll im_model point fst]. rewrite <- F1, <- F2. reflexivity.
Qed.
(** Deviation: a prediction looks for NaNs on the first page only.  If they are all on later pages, they stay. *)
Theorem C114_refuted_pages : forall fit ns (b : imodel nat nat * nat) es best, exists d, free_places d = [(1, InVec 0)] /\ predict fit ns 1 None b es best (Some d) = Ok (d, false).
Proof.
  intros. exists [Pg (Some [Some 1]) None None None name_alloc None; Pg (Some [None]) None None None name_alloc None]. split; reflexivity.
Qed.
(** Deviation: with a NaN on a later page, a penalty moves the point: the second element is read from the first page. *)
Theorem C114_refuted_penalty : exists (d : list (page (option nat))) tab s, fix_params d = Some (tab, 2) /\ free_places d = [(0, InVec 0); (1, InVec 0)] /\
  do_probe im_model (Objective [Some 1; Some 2]) (IS d tab 5) = Ok ((1 - INR 7)%R, [Some 1; Some 1], s).
Proof.
  exists [Pg (Some [None]) None None None name_alloc None; Pg (Some [None]) None None None name_alloc None], [En 0 (-1) 0 None; En 0 (-1) 1 None]. eexists.
  split; [reflexivity|]. split; [reflexivity|].
  unfold do_probe, shell, fixed_constraint, fixed_ll. cbn [is_data is_tab is_pars].
  match goal with |- context [fp_unpack ?a ?b ?c] => let r := eval vm_compute in (fp_unpack a b c) in assert (U : fp_unpack a b c = r) by (vm_compute; reflexivity); rewrite U end.
  cbn [rbind]. unfold swap_constraint. cbn [im_cons im_model is_data is_tab is_pars]. rewrite !one_zero. cbn [is_data is_tab is_pars].
  match goal with |- context [fp_pack ?a ?b] => let r := eval vm_compute in (fp_pack a b) in assert (U2 : fp_pack a b = r) by (vm_compute; reflexivity); rewrite U2 end. cbn [rbind is_data is_tab is_pars].
  match goal with |- context [fp_unpack ?a ?b ?c] => let r := eval vm_compute in (fp_unpack a b c) in assert (U3 : fp_unpack a b c = r) by (vm_compute; reflexivity); rewrite U3 end.
  cbn [rbind is_pars]. unfold swap_ll. cbn [im_ll im_model is_data is_pars length Nat.add]. reflexivity.
Qed.
