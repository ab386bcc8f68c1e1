(** C119: coordinate transforms as densities.  C120: the parameters of transformed models. *)
From Coq Require Import Reals Ranalysis5 Lra Lia.
From Coquelicot Require Import Coquelicot.
From Verif Require Import DataModel StatsModel StatsSpec StatsProofs LikeModel LikeProps SearchModel CtModel.
Local Open Scope list_scope.
Local Open Scope R_scope.

(** ================= C119 ================= *)
(** apop_p and apop_log_likelihood are exponential and logarithm of one another for a model with either method alone *)
Theorem C119_dispatch : forall m par d,
  (m_p m = None \/ m_ll m = None) ->
  (forall f x, m_p m = Some f -> f par d = Fin x -> 0 <= x) -> (forall f, m_p m = Some f -> f par d <> NInf) ->
  apop_p m par d = xexp (log_likelihood m par d).
Proof.
  intros m par d H Hp Hn. unfold apop_p, log_likelihood. destruct (m_p m) as [f|], (m_ll m) as [l|]; destruct H; try discriminate; auto.
  specialize (Hp f). specialize (Hn f eq_refl). destruct (f par d) as [x| | |]; auto; try congruence. specialize (Hp x eq_refl eq_refl).
  cbn. destruct (Rlt_dec x 0); [lra|]. destruct (Rlt_dec 0 x); cbn; f_equal; [rewrite exp_ln; auto|lra].
Qed.
(** anything missing from the settings: NaN; otherwise the likelihood of the data carried back, plus the log of the Jacobian *)
Theorem C119_likelihood : forall cs par d,
  (forall c b rev jac, cs = Some c -> c_base c = Some b -> c_rev c = Some rev -> c_jac c = Some jac ->
     forall l, log_likelihood b par (rev d) = Fin l -> 0 < jac d -> ct_ll cs par d = Fin (l + ln (jac d))) /\
  (forall c, cs = None \/ cs = Some c /\ (c_base c = None \/ c_rev c = None \/ c_jac c = None) -> ct_ll cs par d = NaN).
Proof.
  intros cs par d. split.
  - intros c b rev jac -> Hb Hr Hj l Hl H. unfold ct_ll. rewrite Hb, Hr, Hj, Hl. cbn. destruct (Rlt_dec (jac d) 0); [lra|]. destruct (Rlt_dec 0 (jac d)); [auto|lra].
  - intros c [->|[-> H]]; auto. unfold ct_ll. destruct (c_base c), (c_rev c), (c_jac c); auto. destruct H as [|[|]]; discriminate.
Qed.
(** the density of one number: if the transform back is g, increasing or decreasing, with g' for derivative and the Jacobian is |g'|, then the chance
    of the interval from a to b is the base model's chance of the interval from g a to g b *)
Definition transforms (c : cts) (b : meth) (g dg : R -> R) (lo hi : R) : Prop :=
  c_base c = Some b /\ exists rev jac, c_rev c = Some rev /\ c_jac c = Some jac /\
  forall x, lo <= x <= hi -> rev (single x) = single (g x) /\ jac (single x) = Rabs (dg x) /\ dg x <> 0 /\ is_derive g x (dg x) /\ continuous dg x.
Definition density (f : page R -> xr) (h : R -> R) (P : R -> Prop) : Prop := forall x, P x -> xexp (f (single x)) = Fin (h x).
Lemma ct_density c b g dg lo hi par h : transforms c b g dg lo hi -> (forall y, 0 < h y) ->
  density (log_likelihood b par) h (fun y => exists x, lo <= x <= hi /\ y = g x) ->
  density (ct_ll (Some c) par) (fun x => h (g x) * Rabs (dg x)) (fun x => lo <= x <= hi).
Proof.
  intros (Hb & rev & jac & Hr & Hj & H) Hh HD x Hx. destruct (H x Hx) as (E1 & E2 & E3 & _). unfold ct_ll. rewrite Hb, Hr, Hj, E1, E2.
  assert (E := HD (g x) (ex_intro _ x (conj Hx eq_refl))). pose proof (Rabs_pos_lt _ E3) as P. specialize (Hh (g x)).
  cbn [xlog]. destruct (Rlt_dec (Rabs (dg x)) 0); [lra|]. destruct (Rlt_dec 0 (Rabs (dg x))); [|lra].
  destruct (log_likelihood b par (single (g x))) as [l| | |]; cbn in *; try discriminate; injection E as E; try lra.
  f_equal. rewrite exp_plus, exp_ln; auto. congruence.
Qed.
Theorem C119_interval : forall c b g dg lo hi par h, lo <= hi -> transforms c b g dg lo hi -> (forall y, 0 < h y) ->
  (forall x, lo <= x <= hi -> continuous h (g x)) ->
  density (log_likelihood b par) h (fun y => exists x, lo <= x <= hi /\ y = g x) ->
  exists k, density (ct_ll (Some c) par) k (fun x => lo <= x <= hi) /\
    ((forall x, lo <= x <= hi -> 0 < dg x) -> RInt k lo hi = RInt h (g lo) (g hi)) /\
    ((forall x, lo <= x <= hi -> dg x < 0) -> RInt k lo hi = RInt h (g hi) (g lo)).
Proof.
  intros c b g dg lo hi par h Hle HT Hh Hc HD. exists (fun x => h (g x) * Rabs (dg x)). split; [eapply ct_density; eauto|].
  destruct HT as (Hb & rev & jac & Hr & Hj & H).
  assert (I : is_RInt (fun x => scal (dg x) (h (g x))) lo hi (RInt h (g lo) (g hi))).
  { apply (is_RInt_comp (V := R_CompleteNormedModule) h g dg lo hi).
    - intros x Hx. rewrite Rmin_left, Rmax_right in Hx by lra. apply Hc. auto.
    - intros x Hx. rewrite Rmin_left, Rmax_right in Hx by lra. destruct (H x Hx) as (_ & _ & _ & D & C). split; auto. }
  split; intros S.
  - apply is_RInt_unique. eapply is_RInt_ext; [|exact I]. intros x Hx. rewrite Rmin_left, Rmax_right in Hx by lra. cbv beta.
    rewrite Rabs_pos_eq by (left; apply S; lra). unfold scal; cbn; unfold mult; cbn. ring.
  - replace (RInt h (g hi) (g lo)) with (opp (RInt h (g lo) (g hi))).
    + apply is_RInt_unique. eapply is_RInt_ext; [|apply (is_RInt_opp (V := R_NormedModule)); exact I]. intros x Hx. rewrite Rmin_left, Rmax_right in Hx by lra. cbv beta.
      rewrite Rabs_left by (apply S; lra). unfold opp, scal; cbn; unfold mult; cbn. ring.
    + apply (opp_RInt_swap (V := R_CompleteNormedModule)). apply (ex_RInt_continuous (V := R_CompleteNormedModule)). intros z Hz.
      (* z = g x by the intermediate value theorem *)
      assert (Cg : forall x, lo <= x <= hi -> continuity_pt g x).
      { intros x Hx. destruct (H x Hx) as (_ & _ & _ & D & _). apply derivable_continuous_pt. exists (dg x). apply is_derive_Reals. auto. }
      assert (exists x, lo <= x <= hi /\ g x = z) as (x & Hx & <-); [|apply Hc; auto].
      assert (lo < hi \/ lo = hi) as [L|L] by lra; [|exists lo; subst; split; [lra|]; destruct (Rle_dec (g hi) (g hi)); rewrite Rmin_left, Rmax_left in Hz by lra; lra].
      assert (z = g lo \/ z = g hi \/ g lo < z < g hi \/ g hi < z < g lo) as [->|[->|[Z|Z]]].
      { revert Hz. unfold Rmin, Rmax. destruct (Rle_dec (g lo) (g hi)); lra. }
      * exists lo. split; auto; lra.
      * exists hi. split; auto; lra.
      * destruct (IVT_interv (fun x => g x - z) lo hi) as (x & Hx & E); auto; try lra.
        -- intros x Hx. apply continuity_pt_minus; [apply Cg; auto|apply continuity_pt_const; intros ? ?; auto].
        -- exists x. split; auto. lra.
      * destruct (IVT_interv (fun x => z - g x) lo hi) as (x & Hx & E); auto; try lra.
        -- intros x Hx. apply continuity_pt_minus; [apply continuity_pt_const; intros ? ?; auto|apply Cg; auto].
        -- exists x. split; auto. lra.
Qed.
(** the example of the documentation, eg/jacobian.c: the Normal, with the logarithm as the transform back *)
Definition rmap (f : R -> R) (p : page R) : page R :=
  Pg (option_map (map f) (vect p)) (option_map (fun m => Gr (gr m) (gc m) (map (map f) (ga m))) (mat p)) (wts p) (txt p) (nms p) (err p).
Definition normal_meth : meth := Me None (Some (fun par d => match par with mu :: sd :: _ => Fin (normal_ll mu sd d) | _ => NaN end)).
(** the Jacobian of the map of all cells is the product of 1/x; the example's rev_j is the (absolute) sum of 1/x *)
Definition prod_jac (p : page R) : R := fold_right Rmult 1 (map Rinv (cells p)).
Definition sum_jac (p : page R) : R := Rabs (mapsum Rinv p).
Definition example (jac : page R -> R) : option cts := Some (Cs (Some normal_meth) (Some (rmap ln)) (Some jac)).
Lemma cells_rmap f p : cells (rmap f p) = map f (cells p).
Proof.
  unfold cells, vcells, mcells, rmap. cbn. rewrite map_app. f_equal; [destruct (vect p); auto|]. destruct (mat p) as [m|]; auto. cbn. rewrite concat_map. auto.
Qed.
Lemma tsize_rmap f p : tsize (rmap f p) = tsize p.
Proof. unfold tsize, vsz, msz1, msz2, rmap. cbn. destruct (vect p); cbn; rewrite ?map_length; destruct (mat p); auto. Qed.
Lemma normal_rmap mu sd p : normal_ll mu sd (rmap ln p) = lognormal_ll mu sd p + mapsum ln p.
Proof.
  unfold normal_ll, lognormal_ll. rewrite tsize_rmap. replace (mapsum (fun x => (x - mu) ^ 2) (rmap ln p)) with (mapsum (fun x => (ln x - mu) ^ 2) p); [lra|].
  unfold mapsum. rewrite cells_rmap, map_map. auto.
Qed.
Lemma prod_pos l : Forall (fun x => 0 < x) l -> 0 < fold_right Rmult 1 (map Rinv l) /\ ln (fold_right Rmult 1 (map Rinv l)) = - Rsumf ln l.
Proof.
  induction 1 as [|x l H HF [IH IE]].
  - cbn. unfold Rsumf; cbn. rewrite ln_1. unfold Rsum; cbn. lra.
  - cbn [map fold_right]. rewrite Rsumf_cons. pose proof (Rinv_0_lt_compat x H). split; [apply Rmult_lt_0_compat; auto|]. rewrite ln_mult, ln_Rinv, IE; auto. lra.
Qed.
Theorem C119_lognormal : forall mu sd d, Forall (fun x => 0 < x) (cells d) ->
  ct_ll (example prod_jac) [mu; sd] d = Fin (lognormal_ll mu sd d).
Proof.
  intros mu sd d HF. destruct (prod_pos _ HF) as [P E]. cbn [ct_ll example c_base c_rev c_jac log_likelihood normal_meth m_ll]. unfold prod_jac in *. cbn [xlog].
  destruct (Rlt_dec _ 0); [lra|]. destruct (Rlt_dec 0 _); [|lra]. cbn. f_equal. rewrite normal_rmap, E, mapsum_R. lra.
Qed.
(** deviation: with the sum, which the example uses, the likelihood of one number is right, of more it is off by something that does not depend
    on the parameters, and it is not zero *)
Lemma inv_sum l : l <> [] -> Forall (fun x => 0 < x) l -> 0 < Rsumf Rinv l.
Proof.
  intros Hn HF. induction HF as [|x l H HF IH]; [congruence|]. rewrite Rsumf_cons. pose proof (Rinv_0_lt_compat x H).
  destruct l as [|y l]; [unfold Rsumf, Rsum in *; cbn; lra|]. assert (0 < Rsumf Rinv (y :: l)) by (apply IH; congruence). lra.
Qed.
Lemma sum_example mu sd d : cells d <> [] -> Forall (fun x => 0 < x) (cells d) ->
  ct_ll (example sum_jac) [mu; sd] d = Fin (lognormal_ll mu sd d + (mapsum ln d + ln (mapsum Rinv d))).
Proof.
  intros Hn HF. pose proof (inv_sum _ Hn HF) as P. rewrite <- mapsum_R in P. cbn [ct_ll example c_base c_rev c_jac log_likelihood normal_meth m_ll]. unfold sum_jac.
  rewrite Rabs_pos_eq by lra. cbn [xlog]. destruct (Rlt_dec _ 0); [lra|]. destruct (Rlt_dec 0 _); [|lra]. cbn. f_equal. rewrite normal_rmap. lra.
Qed.
Theorem C119_example : forall d, cells d <> [] -> Forall (fun x => 0 < x) (cells d) -> exists off, forall mu sd,
  ct_ll (example sum_jac) [mu; sd] d = Fin (lognormal_ll mu sd d + off) /\ (length (cells d) = 1%nat -> off = 0).
Proof.
  intros d Hn HF. exists (mapsum ln d + ln (mapsum Rinv d)). intros mu sd. split; [apply sum_example; auto|]. intros H. rewrite !mapsum_R.
  destruct (cells d) as [|x [|]]; try discriminate. inversion HF; subst. unfold Rsumf, Rsum; cbn. rewrite !Rplus_0_r, ln_Rinv by auto. lra.
Qed.
Definition two : page R := Pg (Some [1; 1]) None None None name_alloc None.
Theorem C119_refuted_example : forall mu sd, ct_ll (example sum_jac) [mu; sd] two <> Fin (lognormal_ll mu sd two).
Proof.
  intros mu sd. rewrite sum_example; [|discriminate|cbn; repeat constructor; lra]. intros E. injection E as E.
  assert (E' : mapsum ln two + ln (mapsum Rinv two) = 0) by lra. rewrite !mapsum_R in E'. unfold Rsumf, Rsum in E'; cbn in E'.
  rewrite ln_1, Rinv_1 in E'. assert (0 < ln (1 + (1 + 0))) by (rewrite <- ln_1 at 1; apply ln_increasing; lra). lra.
Qed.
(** [transforms] and [density] are met by the example, on the interval from 1 to 2 *)
Example C119_nonvacuous : forall mu sd, 0 < sd -> exists c,
  example prod_jac = Some c /\ transforms c normal_meth ln Rinv 1 2 /\
  density (log_likelihood normal_meth [mu; sd]) (fun y => exp (normal_ll mu sd (single y))) (fun y => exists x, 1 <= x <= 2 /\ y = ln x) /\
  (forall x, 1 <= x <= 2 -> continuous (fun y => exp (normal_ll mu sd (single y))) (ln x)) /\ (forall x, 1 <= x <= 2 -> 0 < / x).
Proof.
  intros mu sd Hs. eexists. split; [reflexivity|]. split; [split; [reflexivity|]|split; [|split]].
  - exists (rmap ln), prod_jac. split; [reflexivity|]. split; [reflexivity|]. intros x H. split; [reflexivity|]. split; [|split; [|split]].
    + unfold prod_jac; cbn. pose proof (Rinv_0_lt_compat x ltac:(lra)). rewrite Rabs_pos_eq; lra.
    + pose proof (Rinv_0_lt_compat x ltac:(lra)). lra.
    + apply is_derive_Reals. apply derivable_pt_lim_ln. lra.
    + apply continuity_pt_filterlim. apply continuity_pt_inv; [apply derivable_continuous_pt, derivable_pt_id|lra].
  - intros y _. reflexivity.
  - intros x _. apply (continuous_ext (fun y => exp (- ((y - mu) ^ 2) / (2 * sd ^ 2) - (ln2pi_half + ln sd)))).
    + intros y. rewrite normal_one by auto. auto.
    + apply (ex_derive_continuous (K := R_AbsRing) (V := R_NormedModule)). auto_derive. auto.
  - intros x Hx. apply Rinv_0_lt_compat. lra.
Qed.

(** ================= C120 ================= *)
(** any number of estimates, with n base models that are unparametrised at first: each of a transform of the base model [b] whose search ends at [found] *)
Inductive history (n : nat) : list (nat * list R) -> world -> list ctm -> Prop :=
| H_start : history n [] (Wd [] (replicate n None)) []
| H_est l w outs b found fresh w' o : history n l w outs -> (b < n)%nat -> ct_estimate fresh found true w (Ct None b) = Ok (w', o) ->
    history n (l ++ [(b, found)]) w' (outs ++ [o]).
(** the parameters found by the last estimate with base model b *)
Fixpoint last_found (b : nat) (l : list (nat * list R)) : option (list R) :=
  match l with
  | [] => None
  | (b', v) :: l' => match last_found b l' with Some u => Some u | None => if Nat.eq_dec b' b then Some v else None end
  end.
Lemma last_snoc b l b' v : last_found b (l ++ [(b', v)]) = if Nat.eq_dec b' b then Some v else last_found b l.
Proof.
  induction l as [|[c u] l IH]; cbn; [destruct (Nat.eq_dec b' b); auto|]. rewrite IH. destruct (Nat.eq_dec b' b); auto.
Qed.
Definition Inv (n : nat) (l : list (nat * list R)) (w : world) (outs : list ctm) : Prop :=
  length (bases w) = n /\
  (forall b, (b < n)%nat -> match last_found b l with
     | None => bases w !! b = Some None
     | Some v => exists a, bases w !! b = Some (Some a) /\ blocks w !! a = Some (Some v) end) /\
  (forall b c a, bases w !! b = Some (Some a) -> bases w !! c = Some (Some a) -> b = c) /\
  Forall2 (fun e o => t_base o = fst e /\ (fst e < n)%nat /\ t_par o <> None /\ bases w !! fst e = Some (t_par o)) l outs.
Lemma step_inv n l w outs b found fresh : Inv n l w outs -> (b < n)%nat ->
  exists w' o, ct_estimate fresh found true w (Ct None b) = Ok (w', o) /\ Inv n (l ++ [(b, found)]) w' (outs ++ [o]) /\ t_base o = b.
Proof.
  intros (HL & HB & HI & HF) Hb. pose proof (HB b Hb) as H. unfold ct_estimate, ct_copy, ct_prep, base_prep. cbn [t_par t_base].
  destruct (last_found b l) as [v|] eqn:El.
  - destruct H as (a & Ea & Va). cbn. rewrite Ea. cbn. unfold write. rewrite Va. cbn. eexists _, _. split; [reflexivity|]. split; [|reflexivity].
    assert (La : (a < length (blocks w))%nat) by (apply lookup_lt_is_Some; eauto). repeat split; cbn; auto.
    + intros c Hc. rewrite last_snoc. destruct (Nat.eq_dec b c) as [->|N].
      * exists a. split; auto. rewrite list_lookup_insert; auto.
      * specialize (HB c Hc). destruct (last_found c l) as [u|]; auto. destruct HB as (a' & E' & V'). exists a'. split; auto.
        rewrite list_lookup_insert_ne; auto. intros ->. apply N. eapply HI; eauto.
    + apply Forall2_app; [auto|]. constructor; [|constructor]. cbn. split; [reflexivity|]. split; [auto|]. split; [discriminate|auto].
  - cbn. rewrite H. cbn. unfold write. cbn. rewrite lookup_app_r, Nat.sub_diag by lia. cbn. eexists _, _. split; [reflexivity|]. split; [|reflexivity].
    assert (Hold : forall a v, blocks w !! a = Some (Some v) -> (a < length (blocks w))%nat) by (intros; apply lookup_lt_is_Some; eauto).
    assert (Hlt : forall c a, bases w !! c = Some (Some a) -> (a < length (blocks w))%nat).
    { intros c a Hc. assert (c < n)%nat as Lc by (rewrite <- HL; apply lookup_lt_is_Some; eauto). specialize (HB c Lc). destruct (last_found c l); [|congruence].
      destruct HB as (a' & E' & V'). rewrite Hc in E'. injection E' as <-. eauto. }
    assert (Lb : (b < length (bases w))%nat) by (rewrite HL; auto).
    repeat split; cbn.
    + rewrite insert_length. auto.
    + intros c Hc. rewrite last_snoc. destruct (Nat.eq_dec b c) as [->|N].
      * exists (length (blocks w)). rewrite list_lookup_insert by auto. split; auto. rewrite list_lookup_insert; auto. rewrite app_length; cbn; lia.
      * rewrite list_lookup_insert_ne by auto. specialize (HB c Hc). destruct (last_found c l) as [u|]; auto. destruct HB as (a' & E' & V'). exists a'. split; auto.
        pose proof (Hold _ _ V'). rewrite list_lookup_insert_ne by lia. rewrite lookup_app_l by auto. auto.
    + intros c c' a Hc Hc'. destruct (Nat.eq_dec b c) as [Q|N], (Nat.eq_dec b c') as [Q'|N']; try subst c; try subst c'; auto.
      * rewrite list_lookup_insert in Hc by auto. rewrite list_lookup_insert_ne in Hc' by auto. injection Hc as <-. apply Hlt in Hc'. lia.
      * rewrite list_lookup_insert in Hc' by auto. rewrite list_lookup_insert_ne in Hc by auto. injection Hc' as <-. apply Hlt in Hc. lia.
      * rewrite list_lookup_insert_ne in Hc, Hc' by auto. eapply HI; eauto.
    + apply Forall2_app.
      * eapply Forall2_impl; [exact HF|]. intros [c v] o (E1 & E2 & E3 & E4). cbn in *. repeat split; auto. destruct (Nat.eq_dec b c) as [->|N]; [congruence|]. rewrite list_lookup_insert_ne; auto.
      * constructor; [|constructor]. cbn. rewrite list_lookup_insert by auto. split; [reflexivity|]. split; [auto|]. split; [discriminate|auto].
Qed.
Lemma history_inv n l w outs : history n l w outs -> Inv n l w outs.
Proof.
  induction 1 as [|l w outs b found fresh w' o H IH Hb E].
  - repeat split; cbn; auto.
    + rewrite replicate_length. auto.
    + intros b Hb. rewrite lookup_replicate_2; auto.
    + intros b c a Hb. apply lookup_replicate in Hb. destruct Hb; discriminate.
  - destruct (step_inv n l w outs b found fresh IH Hb) as (w1 & o1 & E1 & I1 & _). rewrite E in E1. injection E1 as <- <-. auto.
Qed.
(** after any history a further estimate is defined; every estimate ever made has the parameters found by the last estimate with the same base
    model, and its likelihood is the base model's there, plus the log of the Jacobian.  So an estimate keeps its own parameters as long as no
    other is made with the same base model. *)
Theorem C120_defined : forall n l w outs b found fresh, history n l w outs -> (b < n)%nat ->
  exists w' o, ct_estimate fresh found true w (Ct None b) = Ok (w', o) /\ params w' o = Ok (Some found) /\
    forall cs d, ll_at cs w' o d = Ok (ct_ll (Some cs) found d).
Proof.
  intros n l w outs b found fresh H Hb. apply history_inv in H. destruct (step_inv n l w outs b found fresh H Hb) as (w' & o & E & (_ & HB & _ & HF) & Eb).
  exists w', o. split; auto. specialize (HB b Hb). rewrite last_snoc in HB. destruct (Nat.eq_dec b b); [|congruence]. destruct HB as (a & Ea & Va).
  apply Forall2_app_inv_l in HF. destruct HF as (k1 & k2 & _ & H2 & Eo). inversion H2 as [|? o' ? ? (_ & _ & _ & Ho) H3]; subst. inversion H3; subst.
  apply app_inj_tail in Eo. destruct Eo as [_ <-]. cbn in Ho. rewrite Ea in Ho. injection Ho as Ho. split.
  - unfold params. rewrite <- Ho. unfold read. rewrite Va. reflexivity.
  - intros cs d. unfold ll_at, read. rewrite Ea, Va. reflexivity.
Qed.
Theorem C120_shared : forall n l w outs i b found, history n l w outs -> l !! i = Some (b, found) ->
  exists o v, outs !! i = Some o /\ last_found b l = Some v /\ params w o = Ok (Some v) /\ forall cs d, ll_at cs w o d = Ok (ct_ll (Some cs) v d).
Proof.
  intros n l w outs i b found H Hi. apply history_inv in H. destruct H as (_ & HB & _ & HF). destruct (Forall2_lookup_l _ _ _ _ _ HF Hi) as (o & Ho & E1 & E2 & E3 & E4).
  cbn in *. specialize (HB b E2). destruct (last_found b l) as [v|] eqn:El.
  - destruct HB as (a & Ea & Va). exists o, v. rewrite E4 in Ea. injection Ea as Ea. repeat split; auto.
    + unfold params. rewrite Ea. unfold read. rewrite Va. reflexivity.
    + intros cs d. unfold ll_at. rewrite E1, E4, Ea. unfold read. rewrite Va. reflexivity.
  - rewrite E4 in HB. injection HB as HB. congruence.
Qed.
Lemma last_own b l : forall i found, l !! i = Some (b, found) -> (forall j v, (i < j)%nat -> l !! j <> Some (b, v)) -> last_found b l = Some found.
Proof.
  induction l as [|[c u] l IH]; intros i found Hi Hj; [destruct i; discriminate|]. cbn. destruct i as [|i].
  - injection Hi as -> ->. replace (last_found b l) with (@None (list R)); [destruct (Nat.eq_dec b b); congruence|].
    assert (Hn : forall j v, l !! j <> Some (b, v)) by (intros j v; apply (Hj (S j) v); lia). clear -Hn. induction l as [|[c u] l IH]; auto. cbn.
    rewrite <- IH by (intros j v; apply (Hn (S j) v)). destruct (Nat.eq_dec c b) as [->|]; auto. exfalso. apply (Hn 0%nat u). auto.
  - rewrite (IH i found); auto. intros j v Hlt. apply (Hj (S j) v). lia.
Qed.
Theorem C120_keeps : forall n l w outs i b found, history n l w outs -> l !! i = Some (b, found) ->
  (forall j v, (i < j)%nat -> l !! j <> Some (b, v)) -> exists o, outs !! i = Some o /\ params w o = Ok (Some found).
Proof.
  intros n l w outs i b found H Hi Hj. destruct (C120_shared n l w outs i b found H Hi) as (o & v & Ho & Ev & Hp & _). exists o. split; auto.
  rewrite (last_own b l i found Hi Hj) in Ev. injection Ev as <-. auto.
Qed.
(** deviations.  A second estimate with the same base model changes the first one's parameters, and freeing the first leaves the second without any *)
Theorem C120_refuted_second : forall fresh v1 v2, v1 <> v2 -> exists w1 e1 w2 e2,
  ct_estimate fresh v1 true (Wd [] [None]) (Ct None 0) = Ok (w1, e1) /\ params w1 e1 = Ok (Some v1) /\
  ct_estimate fresh v2 true w1 (Ct None 0) = Ok (w2, e2) /\ params w2 e1 = Ok (Some v2) /\
  exists w3, ct_free w2 e1 = Ok w3 /\ params w3 e2 = UB /\ (forall cs d, ll_at cs w3 e2 d = UB) /\ ct_free w3 e2 = UB /\
    forall fresh v3, ct_estimate fresh v3 true w3 (Ct None 0) = UB.
Proof. intros fresh v1 v2 _. repeat eexists. Qed.
(** a copy of an estimate has parameters of its own, but its likelihood is that at the base model's: setting the copy's parameters changes nothing *)
Theorem C120_refuted_copy : forall n l w outs o, history n l w outs -> o ∈ outs -> exists w1 o1,
  ct_copy w o = Ok (w1, o1) /\ forall v, exists w2, set_params w1 o1 v = Ok w2 /\ params w2 o1 = Ok (Some v) /\ params w2 o = params w o /\
  forall cs d, ll_at cs w2 o1 d = ll_at cs w o d.
Proof.
  intros n l w outs o H Ho. apply history_inv in H. destruct H as (_ & HB & _ & HF). apply elem_of_list_lookup_1 in Ho. destruct Ho as [i Hi].
  destruct (Forall2_lookup_r _ _ _ _ _ HF Hi) as ([b f] & _ & E1 & E2 & E3 & E4). cbn in *. specialize (HB b E2). rewrite E4 in HB.
  destruct (last_found b l) as [v|]; [|congruence]. destruct HB as (a & Ea & Va). injection Ea as Ea. pose proof (lookup_lt_Some _ _ _ Va) as La.
  unfold ct_copy. rewrite Ea. unfold read. rewrite Va. cbn. eexists _, _. split; [reflexivity|]. intros u. unfold set_params, write. cbn. rewrite lookup_app_r, Nat.sub_diag by lia. cbn.
  eexists. split; [reflexivity|]. unfold params, ll_at, read. cbn. rewrite Ea, E1, E4, list_lookup_insert by (rewrite app_length; cbn; lia). rewrite Ea. cbn.
  rewrite list_lookup_insert_ne by lia. rewrite lookup_app_l by auto. rewrite Va. auto.
Qed.
(** without a settings group the error is noted, and then NULL is read *)
Theorem C120_refuted_group : forall fresh found w b, ct_estimate fresh found false w (Ct None b) = UB.
Proof. reflexivity. Qed.
Example C120_nonvacuous : exists w outs, history 2 [(0%nat, [1; 2]); (1%nat, [3; 4]); (0%nat, [5; 6])] w outs /\
  map (params w) outs = [Ok (Some [5; 6]); Ok (Some [3; 4]); Ok (Some [5; 6])].
Proof.
  eexists _, _. split.
  - refine (H_est 2 [(0%nat, [1; 2]); (1%nat, [3; 4])] _ [_; _] 0 [5; 6] [0; 0] _ _ _ _ _);
      [refine (H_est 2 [(0%nat, [1; 2])] _ [_] 1 [3; 4] [0; 0] _ _ _ _ _);
        [refine (H_est 2 [] _ [] 0 [1; 2] [0; 0] _ _ _ _ _); [apply H_start|lia|reflexivity]|lia|reflexivity]|lia|reflexivity].
  - reflexivity.
Qed.
Print Assumptions C119_dispatch. Print Assumptions C119_likelihood. Print Assumptions C119_interval. Print Assumptions C119_lognormal. Print Assumptions C119_example.
Print Assumptions C119_refuted_example. Print Assumptions C120_defined. Print Assumptions C120_shared. Print Assumptions C120_keeps. Print Assumptions C120_refuted_second.
Print Assumptions C120_refuted_copy. Print Assumptions C120_refuted_group.
