(** C87: special cases are used for the models they are registered for. *)
From Verif Require Import Base NamesModel RegModel RegProps DispModel.
Local Open Scope list_scope.
Local Open Scope Z_scope.

(** the method that identifies the distribution: the log likelihood, or else the likelihood *)
Definition likelihood (m : methods) : Z := if m_ll m =? 0 then m_p m else m_ll m.
(** the first method that a model has, in the order in which printing looks for them, and which one it is *)
Inductive first_method := ByLl (a : Z) | ByP (a : Z) | ByEst (a : Z) | ByDraw (a : Z) | ByCdf (a : Z) | ByNone.
Definition leading (m : methods) : first_method :=
  if negb (m_ll m =? 0) then ByLl (m_ll m) else if negb (m_p m =? 0) then ByP (m_p m) else if negb (m_est m =? 0) then ByEst (m_est m)
  else if negb (m_draw m =? 0) then ByDraw (m_draw m) else if negb (m_cdf m =? 0) then ByCdf (m_cdf m) else ByNone.
(** every method is NULL or has an address between lo and hi, as the functions of one program have; hi exceeds lo by a tenth at most *)
Definition in_range (lo hi : Z) (m : methods) : Prop :=
  Forall (fun a => a = 0 \/ lo <= a <= hi) [m_ll m; m_p m; m_est m; m_draw m; m_cdf m].
Definition code_range (lo hi : Z) : Prop := 27 < lo /\ lo <= hi /\ 10 * hi <= 11 * lo /\ hi < 2 ^ 48.
(** the function of the first registration in the history that [sel] picks; NULL if there is none *)
Definition earliest {F} (null : F) (sel : reg F -> option F) (h : list (reg F * (Z * F))) : F :=
  match omap (fun rj => sel (fst rj)) h with f :: _ => f | [] => null end.

Ltac in_names := unfold table_names; rewrite !elem_of_cons; tauto.
Ltac in_rng := repeat (apply List.Forall_cons || apply List.Forall_nil || unfold in_range); cbn; lia.
Definition vtab_of {F} (r : reg F) : string := vop_tab (to_vop r).
Definition vkey_of {F} (r : reg F) : Z := match to_vop r with VAdd _ _ k => k | VDrop _ k => k end.
Definition vfun_of {F} (null : F) (r : reg F) : F := match to_vop r with VAdd _ f _ => f | VDrop _ _ => null end.
Lemma spec_adds {F} (null : F) (h : list (reg F)) : forall m t k, fold_left vspec (map to_vop h) m t k =
  match m t k with Some f => Some f | None => head (omap (fun r => if (String.eqb t (vtab_of r) && Z.eqb k (vkey_of r))%bool then Some (vfun_of null r) else None) h) end.
Proof.
  induction h as [|r h IH]; intros m t k; [cbn; destruct (m t k); auto|]. cbn [map fold_left]. rewrite IH.
  assert (E : exists t0 f0 k0, to_vop r = VAdd t0 f0 k0) by (destruct r; cbn; eauto). destruct E as (t0 & f0 & k0 & E). cbn [omap list_omap]. unfold vtab_of, vkey_of, vfun_of. rewrite E. cbn [vspec vop_tab].
  unfold vset. destruct (String.eqb_spec t t0) as [->|]; cbn [andb]; [|destruct (m t k); auto]. destruct (Z.eqb_spec k k0) as [->|]; [|destruct (m t0 k); auto]. destruct (m t0 k0); auto.
Qed.
Lemma get_earliest {F} (null : F) (h : list (reg F * (Z * F))) t k sel : t ∈ table_names ->
  (forall r j, (r, j) ∈ h -> sel r = if (String.eqb t (vtab_of r) && Z.eqb k (vkey_of r))%bool then Some (vfun_of null r) else None) -> vget null (tables null h) t k = earliest null sel h.
Proof.
  intros Ht H. unfold tables. destruct (C25_aux null table_names (map (fun rj => (to_vop (fst rj), snd rj)) h) C25_library_tables_told_apart) with (t := t) (k := k) as [E _]; [|auto|].
  { apply Forall_forall. intros [o j] Ho. apply in_map_iff in Ho as ([r j'] & E & _). injection E as <- <-. destruct r; cbn [fst to_vop vop_tab]; in_names. }
  rewrite E. rewrite map_map. cbn [fst]. replace (map (fun x : reg F * (Z * F) => to_vop (fst x)) h) with (map to_vop (map fst h)) by (rewrite map_map; auto). rewrite (spec_adds null). cbn [vempty]. unfold earliest. clear E.
  induction h as [|[r j] h IH]; [reflexivity|]. cbn [map omap list_omap fst]. rewrite (H r j) by constructor. destruct (String.eqb t (vtab_of r) && Z.eqb k (vkey_of r))%bool; [reflexivity|]. apply IH. intros r' j' Hr. apply (H r' j'). constructor. auto.
Qed.

(** C87: whatever the history of registrations, the score used for a model is the first registered for a model with the same likelihood method; none if there is none. *)
Theorem C87_score : forall F (null : F) h m, get_score null h m = earliest null (fun r => match r with RScore f m' => if likelihood m =? likelihood m' then Some f else None | _ => None end) h.
Proof.
  intros F null h m. unfold get_score. apply get_earliest; [in_names|]. intros r j _. assert (L : forall a, score_hash a = likelihood a) by (intros a; unfold score_hash, likelihood, isnt0; destruct (m_ll a =? 0); auto).
  destruct r; unfold vtab_of, vkey_of, vfun_of; cbn [to_vop vop_tab String.eqb Ascii.eqb Bool.eqb andb]; auto. rewrite !L. auto.
Qed.
Print Assumptions C87_score.

Lemma w64_small x : 0 <= x < 2 ^ 64 -> w64 x = x.
Proof. intros H. apply Z.mod_small. auto. Qed.
Ltac big := let E := fresh in assert (E : 2 ^ 64 = 65536 * 2 ^ 48) by reflexivity; let E' := fresh in assert (E' : 2 ^ 48 = 281474976710656) by reflexivity.
Lemma predict_is lo hi m : code_range lo hi -> in_range lo hi m -> predict_hash m = (if (likelihood m =? 0) && (m_est m =? 0) then 27 else m_est m)%bool.
Proof.
  intros (C1 & C2 & C3 & C4) R. unfold in_range in R. rewrite !Forall_cons_iff in R. destruct R as (R1 & R2 & R3 & _). unfold predict_hash, likelihood, isnt0. big.
  set (a := if negb (m_ll m =? 0) then _ else _). assert (A : a = if m_ll m =? 0 then m_p m else m_ll m) by (unfold a; destruct (m_ll m =? 0); auto). rewrite <- A.
  assert (Ra : a = 0 \/ lo <= a <= hi) by (rewrite A; destruct (m_ll m =? 0); auto). clearbody a. rewrite (w64_small (a * 33)) by lia. rewrite w64_small by lia.
  destruct (Z.eqb_spec (a * 33 + m_est m) 0), (Z.eqb_spec a 0), (Z.eqb_spec (m_est m) 0); cbn; auto; lia.
Qed.
(** C87: for a model with an estimation method, the prediction (and the model of parameters) used is the first registered for a model with the same estimation method. *)
Theorem C87_predict : forall F (null : F) lo hi h m, code_range lo hi -> in_range lo hi m -> (forall r j, (r, j) ∈ h -> match r with RPredict _ m' | RParam _ m' => in_range lo hi m' | _ => True end) -> m_est m <> 0 ->
  get_predict null h m = earliest null (fun r => match r with RPredict f m' => if m_est m =? m_est m' then Some f else None | _ => None end) h /\
  get_param null h m = earliest null (fun r => match r with RParam f m' => if m_est m =? m_est m' then Some f else None | _ => None end) h.
Proof.
  intros F null lo hi h m C R H Hm. assert (P : forall m', in_range lo hi m' -> (predict_hash m =? predict_hash m') = (m_est m =? m_est m')).
  { intros m' R'. rewrite (predict_is lo hi m), (predict_is lo hi m') by auto. rewrite (proj2 (Z.eqb_neq (m_est m) 0) Hm), andb_false_r. destruct ((likelihood m' =? 0) && (m_est m' =? 0))%bool eqn:E; [|auto].
    apply andb_true_iff in E as [_ E]. apply Z.eqb_eq in E. rewrite E. rewrite (proj2 (Z.eqb_neq (m_est m) 0) Hm). apply Z.eqb_neq. destruct C as (C1 & _). unfold in_range in R. rewrite !Forall_cons_iff in R. destruct R as (_ & _ & R3 & _). lia. }
  split; [unfold get_predict|unfold get_param]; (apply get_earliest; [in_names|]); intros r j Hr; specialize (H r j Hr); destruct r; unfold vtab_of, vkey_of, vfun_of; cbn [to_vop vop_tab String.eqb Ascii.eqb Bool.eqb andb]; auto; rewrite P by auto; auto.
Qed.
Print Assumptions C87_predict.
(** C87 (the code): models without an estimation method are all the same to these tables: one that has a likelihood gets the first prediction registered for any other such model. *)
Theorem C87_refuted_predict : forall F (null : F) lo hi h m, code_range lo hi -> in_range lo hi m -> (forall r j, (r, j) ∈ h -> match r with RPredict _ m' | RParam _ m' => in_range lo hi m' | _ => True end) -> m_est m = 0 -> likelihood m <> 0 ->
  get_predict null h m = earliest null (fun r => match r with RPredict f m' => if (m_est m' =? 0) && negb (likelihood m' =? 0) then Some f else None | _ => None end) h /\
  get_param null h m = earliest null (fun r => match r with RParam f m' => if (m_est m' =? 0) && negb (likelihood m' =? 0) then Some f else None | _ => None end) h.
Proof.
  intros F null lo hi h m C R H Hm Hl. assert (P : forall m', in_range lo hi m' -> (predict_hash m =? predict_hash m') = (m_est m' =? 0) && negb (likelihood m' =? 0)).
  { intros m' R'. rewrite (predict_is lo hi m), (predict_is lo hi m') by auto. rewrite (proj2 (Z.eqb_neq (likelihood m) 0) Hl), Hm. cbn [andb]. destruct (Z.eqb_spec (likelihood m') 0), (Z.eqb_spec (m_est m') 0) as [->|]; cbn [andb negb]; try reflexivity; apply Z.eqb_neq; lia. }
  split; [unfold get_predict|unfold get_param]; (apply get_earliest; [in_names|]); intros r j Hr; specialize (H r j Hr); destruct r; unfold vtab_of, vkey_of, vfun_of; cbn [to_vop vop_tab String.eqb Ascii.eqb Bool.eqb andb]; auto; rewrite P by auto; auto.
Qed.
Print Assumptions C87_refuted_predict.

Lemma print_is lo hi m : code_range lo hi -> in_range lo hi m -> print_hash m = match leading m with ByLl a => a | ByP a => a * 33 | ByEst a => a * 1089 | ByDraw a => a * 891 | ByCdf a => a * 729 | ByNone => 27 end.
Proof.
  intros (C1 & C2 & C3 & C4) R. unfold in_range in R. rewrite !Forall_cons_iff in R. destruct R as (R1 & R2 & R3 & R4 & R5 & _). unfold print_hash, leading, isnt0. big.
  destruct (m_ll m =? 0); cbn [negb]; auto. destruct (m_p m =? 0); cbn [negb]; [|apply w64_small; lia]. destruct (m_est m =? 0); cbn [negb]; [|rewrite w64_small; lia].
  destruct (m_draw m =? 0); cbn [negb]; [|rewrite w64_small; lia]. destruct (m_cdf m =? 0); cbn [negb]; [|rewrite w64_small; lia]. auto.
Qed.
Definition same_leading (a b : first_method) : bool :=
  match a, b with ByLl x, ByLl y | ByP x, ByP y | ByEst x, ByEst y | ByDraw x, ByDraw y | ByCdf x, ByCdf y => x =? y | ByNone, ByNone => true | _, _ => false end.
Lemma same_leading_ok a b : same_leading a b = true <-> a = b.
Proof. destruct a, b; cbn; try (split; congruence); rewrite Z.eqb_eq; split; congruence. Qed.
Lemma lead_range lo hi m : code_range lo hi -> in_range lo hi m -> match leading m with ByLl a | ByP a | ByEst a | ByDraw a | ByCdf a => lo <= a <= hi | ByNone => True end.
Proof.
  intros (C1 & _) R. unfold in_range in R. rewrite !Forall_cons_iff in R. destruct R as (R1 & R2 & R3 & R4 & R5 & _). unfold leading.
  destruct (Z.eqb_spec (m_ll m) 0); cbn [negb]; [|lia]. destruct (Z.eqb_spec (m_p m) 0); cbn [negb]; [|lia]. destruct (Z.eqb_spec (m_est m) 0); cbn [negb]; [|lia]. destruct (Z.eqb_spec (m_draw m) 0); cbn [negb]; [|lia]. destruct (Z.eqb_spec (m_cdf m) 0); cbn [negb]; lia || auto.
Qed.
(** C87: the printing function used for a model is the first registered for a model with the same leading method. *)
Theorem C87_print : forall F (null : F) lo hi h m, code_range lo hi -> in_range lo hi m -> (forall r j, (r, j) ∈ h -> match r with RPrint _ m' => in_range lo hi m' | _ => True end) ->
  get_print null h m = earliest null (fun r => match r with RPrint f m' => if same_leading (leading m) (leading m') then Some f else None | _ => None end) h.
Proof.
  intros F null lo hi h m C R H. assert (P : forall m', in_range lo hi m' -> (print_hash m =? print_hash m') = same_leading (leading m) (leading m')).
  { intros m' R'. rewrite (print_is lo hi m), (print_is lo hi m') by auto. pose proof (lead_range lo hi m C R) as L. pose proof (lead_range lo hi m' C R') as L'. destruct C as (C1 & C2 & C3 & C4).
    destruct (leading m), (leading m'); cbn [same_leading]; try (apply Z.eqb_neq; lia); auto; destruct (Z.eqb_spec a a0); [apply Z.eqb_eq|apply Z.eqb_neq|..]; try lia; try (apply Z.eqb_eq; lia); try (apply Z.eqb_neq; lia). }
  unfold get_print. apply get_earliest; [in_names|]. intros r j Hr. specialize (H r j Hr). destruct r; unfold vtab_of, vkey_of, vfun_of; cbn [to_vop vop_tab String.eqb Ascii.eqb Bool.eqb andb]; auto. rewrite P by auto. auto.
Qed.
Print Assumptions C87_print.
(** C87 (the code): the updating function of one prior and likelihood can be used for another prior and another likelihood, if the addresses happen to be 37 times as far apart in one pair as in the other. *)
Theorem C87_refuted_update : exists lo hi prior like prior' like', code_range lo hi /\ Forall (in_range lo hi) [prior; like; prior'; like'] /\ List.NoDup (map likelihood [prior; like; prior'; like']) /\
  forall F (null f : F) j, get_update null [(RUpdate f prior like, j)] prior' like' = f.
Proof.
  exists 4194304, 4201000, (Me 4194304 0 0 0 0), (Me 4200096 0 0 0 0), (Me 4196080 0 0 0 0), (Me 4200048 0 0 0 0).
  split; [unfold code_range; lia|]. split; [in_rng|]. split; [cbn; repeat (apply List.NoDup_cons; [cbn; lia|]); apply List.NoDup_nil|]. intros F null f j. unfold get_update.
  rewrite (get_earliest null _ _ _ (fun r => match r with RUpdate g _ _ => Some g | _ => None end)); [reflexivity|in_names|]. intros r j' Hr. apply elem_of_list_singleton in Hr. injection Hr as -> ->. reflexivity.
Qed.
Print Assumptions C87_refuted_update.
(** logit (no estimation method) and probit, with the addresses of a small program *)
Definition logit : methods := Me 4194400 0 0 4195000 0.
Definition probit : methods := Me 4196000 0 0 0 0.
Definition ols : methods := Me 4197000 0 4198000 4198500 0.
Example C87_nonvacuous : code_range 4194304 4200000 /\ Forall (in_range 4194304 4200000) [logit; probit; ols] /\
  forall F (null ols_p logit_p : F) j1 j2, let h := [(RPredict ols_p ols, j1); (RPredict logit_p logit, j2)] in get_predict null h ols = ols_p /\ get_predict null h logit = logit_p /\ get_predict null h probit = logit_p.
Proof.
  assert (C : code_range 4194304 4200000) by (unfold code_range; lia). assert (R : forall m, In m [logit; probit; ols] -> in_range 4194304 4200000 m) by (intros m [<-|[<-|[<-|[]]]]; in_rng).
  split; [auto|]. split; [apply List.Forall_forall; auto|]. intros F null f g j1 j2 h.
  assert (HH : forall r j, (r, j) ∈ h -> match r with RPredict _ m' | RParam _ m' => in_range 4194304 4200000 m' | _ => True end).
  { intros r j Hr. unfold h in Hr. apply elem_of_cons in Hr as [E|Hr]; [injection E as -> ->; apply R; right; right; left; auto|]. apply elem_of_list_singleton in Hr. injection Hr as -> ->. apply R. left; auto. }
  split; [|split].
  - rewrite (proj1 (C87_predict F null _ _ h ols C (R ols ltac:(right; right; left; auto)) HH ltac:(discriminate))). reflexivity.
  - rewrite (proj1 (C87_refuted_predict F null _ _ h logit C (R logit ltac:(left; auto)) HH eq_refl ltac:(discriminate))). reflexivity.
  - rewrite (proj1 (C87_refuted_predict F null _ _ h probit C (R probit ltac:(right; left; auto)) HH eq_refl ltac:(discriminate))). reflexivity.
Qed.
