(** C89: the log likelihood, the criteria and the path that a search reports. *)
From Coq Require Import Reals Lra.
From Verif Require Import Base DataModel NamesModel SearchModel SearchSpec SearchProps.
Local Open Scope string_scope.
Local Open Scope list_scope.
Local Open Scope nat_scope.

Lemma xgt_le a b c : isnan b = false -> xgt a b = false -> xgt b c = false -> xgt a c = false.
Proof. destruct a as [x| | |], b as [y| | |], c as [z| | |]; cbn; try discriminate; auto. destruct (Rlt_dec y x), (Rlt_dec z y), (Rlt_dec z x); try discriminate; auto; lra. Qed.
Lemma xgt_refl a : xgt a a = false. Proof. destruct a as [x| | |]; cbn; auto. destruct (Rlt_dec x x); auto; lra. Qed.
Lemma xgt_asym a b : xgt a b = true -> xgt b a = false.
Proof. destruct a as [x| | |], b as [y| | |]; cbn; try discriminate; auto. destruct (Rlt_dec y x), (Rlt_dec x y); auto; lra. Qed.
Lemma fold_max l a : isnan a = false -> Forall (fun x => isnan x = false) l ->
  let r := fold_left xmax l a in isnan r = false /\ (r = a \/ In r l) /\ xgt a r = false /\ forall x, In x l -> xgt x r = false.
Proof.
  revert a; induction l as [|x l IH]; intros a Ha HF; cbn; [split; [auto|]; split; [auto|]; split; [apply xgt_refl|intros x []]|].
  apply Forall_cons_iff in HF as [Hx HF]. assert (isnan (xmax a x) = false) as Hm by (unfold xmax; destruct (xgt a x); auto).
  destruct (IH (xmax a x) Hm HF) as (I0 & I1 & I2 & I3). split; auto.
  assert (xgt a (xmax a x) = false /\ xgt x (xmax a x) = false) as [M1 M2].
  { unfold xmax. destruct (xgt a x) eqn:E; split; auto using xgt_refl, xgt_asym. }
  split; [|split].
  - destruct I1 as [->|I1]; auto. unfold xmax. destruct (xgt a x); auto.
  - apply (xgt_le a (xmax a x)); auto.
  - intros y [<-|Hy]; auto. apply (xgt_le x (xmax a x)); auto.
Qed.

Definition all_asks (op : optimiser) (start : list R) (k : nat) : list request := op_init op start ++ flat_map (fun j => ev_asks (op_run op start j)) (seq 0 k).
Lemma all_asks_S op start k : all_asks op start (S k) = all_asks op start k ++ ev_asks (op_run op start k).
Proof. unfold all_asks. rewrite seq_S, flat_map_app. cbn [flat_map Nat.add]. rewrite app_nil_r, app_assoc. auto. Qed.
(** everything the minimiser asks for has as many numbers as there are parameters *)
Definition op_ok (p0 : params) (op : optimiser) (start : list R) : Prop :=
  keeps (op_grad op) /\ keeps (op_cov op) /\ asks_ok p0 (op_init op start) /\ forall k, asks_ok p0 (ev_asks (op_run op start k)).
Definition begin (st : settings) (p0 : params) : shell := Sh p0 (if st_path st then Some [] else None) (want_info (st_want st)) (Fin 0).

Lemma begin_path st p0 : has (s_path (begin st p0)) = st_path st.
Proof. unfold begin. destruct (st_path st); auto. Qed.
Lemma reaches_after m use_con me op st p0 start s0 k s : con_ok m -> op_ok p0 op start ->
  requests m use_con (op_grad op) (op_init op start) (begin st p0) = Ok (inl s0) -> reaches m use_con me (op_grad op) (st_max st) (op_run op start) s0 k s ->
  after m use_con p0 (begin st p0) s (flat_map (points m use_con p0 (st_path st)) (all_asks op start k)).
Proof.
  intros Hc (G1 & _ & G2 & G3) Hi Hr. induction Hr as [|k s s' Hr IH Hq _ _].
  - unfold all_asks. cbn [seq flat_map]. rewrite app_nil_r. apply (requests_ok m use_con p0 Hc (op_grad op)) in Hi; auto. rewrite begin_path in Hi. exact Hi.
  - pose proof (after_path _ _ _ _ _ _ IH) as Hp. rewrite begin_path in Hp. pose proof IH as (Hs & _).
    apply (requests_ok m use_con p0 Hc (op_grad op)) in Hq; auto. cbv zeta in Hq. rewrite Hp in Hq.
    rewrite all_asks_S, flat_map_app. apply (after_app _ _ _ _ s); auto.
Qed.
(** [evaluated]: the points at which the search has evaluated the objective: up to the last iteration, or up to a bad one in it *)
Definition evaluated m use_con op st p0 start k r (pts : list (list R)) : Prop :=
  let all := flat_map (points m use_con p0 (st_path st)) (all_asks op start (S k)) in
  match r with Bad_eval => exists b rest, all = pts ++ b :: rest /\ isnan (objective m use_con p0 b) = true | _ => pts = all end.
Lemma searched_after m use_con me op st p0 start k r e : con_ok m -> op_ok p0 op start -> searched m use_con me op st p0 start k r e ->
  exists pts, evaluated m use_con op st p0 start k r pts /\ after m use_con p0 (begin st p0) (en_sh e) pts.
Proof.
  intros Hc Ho (s0 & s & Hi & Hr & He). pose proof (reaches_after _ _ _ _ _ _ _ _ _ _ Hc Ho Hi Hr) as A.
  destruct He as (_ & _ & _ & E4 & _). destruct Ho as (G1 & _ & G2 & G3). pose proof (after_path _ _ _ _ _ _ A) as Hp. rewrite begin_path in Hp. pose proof A as (Hs & _).
  assert (flat_map (points m use_con p0 (st_path st)) (all_asks op start (S k)) =
    flat_map (points m use_con p0 (st_path st)) (all_asks op start k) ++ flat_map (points m use_con p0 (st_path st)) (ev_asks (op_run op start k))) as Hall.
  { rewrite all_asks_S, flat_map_app. auto. }
  assert (forall q, requests m use_con (op_grad op) (ev_asks (op_run op start k)) s = Ok (inl q) -> q = en_sh e -> r <> Bad_eval ->
    exists pts, evaluated m use_con op st p0 start k r pts /\ after m use_con p0 (begin st p0) (en_sh e) pts) as Hgood.
  { intros q Hq -> Hnb. apply (requests_ok m use_con p0 Hc (op_grad op)) in Hq; auto. cbv zeta in Hq. rewrite Hp in Hq.
    eexists. split; [|apply (after_app _ _ _ _ s _ _ _ A Hq)]. unfold evaluated. cbv zeta. rewrite Hall. destruct r; auto. congruence. }
  destruct r; destruct E4 as [_ E4]; try (apply (Hgood _ E4); auto; discriminate).
  apply (requests_ok m use_con p0 Hc (op_grad op)) in E4; auto. cbv zeta in E4. rewrite Hp in E4. destruct E4 as (d & b & rest & D1 & D2 & D3).
  eexists. split; [|apply (after_app _ _ _ _ s _ _ _ A D2)]. unfold evaluated. cbv zeta. rewrite Hall. exists b, rest. split; auto. rewrite D1, <- app_assoc. auto.
Qed.

(** C89: the log likelihood reported by a simplex search (with the info wanted; the other methods have undefined behaviour then, C88): the greatest value,
    over all points evaluated, of the log likelihood less the penalty, if any of these is positive; otherwise the log likelihood at the
    parameters returned. *)
Theorem C89_reported : forall m use_con fuel op st p0 start f, con_ok m -> op_ok p0 op start ->
  search_from m use_con fuel Simplex op st p0 start = Ok f -> length (f_rows f) > 1 ->
  exists k r e pts L rest, searched m use_con Simplex op st p0 start k r e /\ evaluated m use_con op st p0 start k r pts /\
    (exists status, f_rows f = [("status", status); ("log likelihood", L)] ++ rest) /\
    ((forall b, In b pts -> xgt (llval m use_con p0 b) (Fin 0) = false) -> L = log_likelihood m (f_par f)) /\
    ((exists b, In b pts /\ xgt (llval m use_con p0 b) (Fin 0) = true) -> (exists b, In b pts /\ L = llval m use_con p0 b) /\ forall b, In b pts -> xgt (llval m use_con p0 b) L = false).
Proof.
  intros m use_con fuel op st p0 start f Hc Ho Hs Hlen. apply search_ok in Hs as [(s & _ & _ & ->)|(k & r & e & Hs & Hx)]; [cbn in Hlen; lia|].
  cbv zeta in Hx. destruct Hx as (p & rows & Ha & ->). cbn [f_rows f_par] in *. cbn [s_best] in Ha.
  destruct (searched_after _ _ _ _ _ _ _ _ _ _ Hc Ho Hs) as (pts & Hev & (A1 & A2 & A3 & A4 & A5)).
  unfold auxinfo in Ha. cbv zeta in Ha. cbn [s_info s_par] in Ha. destruct (s_info (en_sh e)) eqn:Ei; [|injection Ha as <- <-; cbn in Hlen; lia].
  injection Ha as Hp Hrows. unfold info_criteria in Hrows. cbv zeta in Hrows. rewrite Hp in Hrows.
  set (L := if truthy (s_best (en_sh e)) then s_best (en_sh e) else log_likelihood m p) in *.
  exists k, r, e, pts, L. eexists. split; [exact Hs|]. split; [exact Hev|]. split; [eexists; rewrite <- Hrows; cbn [app]; reflexivity|].
  symmetry in A4. apply andb_true_iff in A4 as [_ A4]. rewrite forallb_forall in A4. specialize (A5 eq_refl). cbn [begin s_best] in A5.
  destruct (fold_max (map (llval m use_con p0) pts) (Fin 0)) as (F0 & F1 & F2 & F3); auto.
  { apply List.Forall_forall. intros x Hx. apply in_map_iff in Hx as (b & <- & Hb). specialize (A4 b Hb). destruct (isnan _); auto. }
  rewrite <- A5 in F0, F1, F2, F3. split.
  - intros Hall. assert (s_best (en_sh e) = Fin 0) as E0.
    { destruct F1 as [F1|F1]; auto. apply in_map_iff in F1 as (b & Hb & Hin). pose proof (Hall b Hin) as Hz. rewrite Hb in Hz.
      destruct (s_best (en_sh e)) as [x| | |]; cbn in *; try discriminate. destruct (Rlt_dec 0 x), (Rlt_dec x 0); try discriminate. f_equal. lra. }
    unfold L. rewrite E0. cbn. destruct (Req_EM_T 0 0); [auto|lra].
  - intros (b0 & Hb0 & Hpos). assert (In (s_best (en_sh e)) (map (llval m use_con p0) pts)) as Hin.
    { destruct F1 as [F1|F1]; auto. exfalso. pose proof (F3 _ (in_map _ _ _ Hb0)) as H. rewrite F1, Hpos in H. discriminate. }
    assert (L = s_best (en_sh e)) as HL.
    { unfold L. destruct (truthy (s_best (en_sh e))) eqn:Et; auto. exfalso. pose proof (F3 _ (in_map _ _ _ Hb0)) as H.
      destruct (s_best (en_sh e)) as [x| | |]; try discriminate. cbn in Et. destruct (Req_EM_T x 0) as [->|]; [|discriminate]. congruence. }
    rewrite HL. split.
    + apply in_map_iff in Hin as (b & Hb & Hin). eauto.
    + intros b Hb. apply F3. apply in_map. auto.
Qed.
Print Assumptions C89_reported.

(** C89: the criteria, with k the number of parameters and n the size of the data: AIC = 2k - 2L, AIC_c = AIC + 2k(k+1)/(n-k-1), BIC = k ln n - 2L *)
Theorem C89_criteria : forall m use_con fuel op st p0 start f status l rest,
  search_from m use_con fuel Simplex op st p0 start = Ok f -> f_rows f = [("status", status); ("log likelihood", Fin l)] ++ rest ->
  let k := INR (length start) in
  rest = ("AIC", Fin (2 * k - 2 * l)) :: match st_n st with
    | None => []
    | Some n => [("AIC_c", if (n =? length start + 1) then (if (length start =? 0) then NaN else PInf) else Fin (2 * k - 2 * l + 2 * k * (k + 1) / (INR n - k - 1)));
                 ("BIC", if (n =? 0) then (if (length start =? 0) then NaN else NInf) else Fin (k * ln (INR n) - 2 * l))] end.
Proof.
  intros m use_con fuel op st p0 start f status l rest Hs Hr. apply search_ok in Hs as [(s & _ & _ & ->)|(k & r & e & Hs & Hx)]; [discriminate|].
  cbv zeta in Hx. destruct Hx as (p & rows & Ha & ->). cbn [f_rows] in Hr. cbv zeta. rewrite Hr in Ha. clear Hr Hs.
  unfold auxinfo in Ha. cbv zeta in Ha. cbn [s_info s_par s_best] in Ha. destruct (s_info (en_sh e)); [|injection Ha; intros; discriminate].
  unfold info_criteria in Ha. cbv zeta in Ha. set (L := if truthy _ then _ else _) in Ha. cbn [app] in Ha.
  assert (L = Fin l) as HL by (injection Ha; auto). clearbody L. subst L. injection Ha as _ _ <-.
  assert (Fin (2 * INR (length start) + - (2 * l)) = Fin (2 * INR (length start) - 2 * l)) as HA by (f_equal; lra).
  cbn [xsub xscale xneg xadd]. rewrite HA. f_equal. destruct (st_n st) as [n|]; auto. f_equal; [f_equal|f_equal; f_equal].
  - unfold xquot. destruct (Nat.eqb_spec n (length start + 1)) as [->|Hn].
    + destruct (Req_EM_T _ 0) as [_|N]; [|exfalso; apply N; rewrite plus_INR; cbn [INR]; lra].
      destruct (Nat.eqb_spec (length start) 0) as [->|H0].
      * cbn [INR]. destruct (Rlt_dec 0 _) as [H|_]; [exfalso; lra|]. destruct (Rlt_dec _ 0) as [H|_]; [exfalso; lra|]. auto.
      * destruct (Rlt_dec 0 _) as [_|N]; auto. exfalso. apply N. assert (0 < INR (length start))%R by (apply lt_0_INR; lia). apply Rmult_lt_0_compat; lra.
    + destruct (Req_EM_T _ 0) as [N|_]; auto. exfalso. apply Hn. apply INR_eq. rewrite plus_INR. cbn [INR]. lra.
  - unfold xlogn, xlog. pose proof (pos_INR n) as Hp. destruct (Rlt_dec (INR n) 0) as [N|_]; [lra|].
    destruct (Nat.eqb_spec n 0) as [->|Hn].
    + cbn [INR]. destruct (Rlt_dec 0 0) as [N|_]; [lra|]. destruct (length start =? 0); auto.
    + destruct (Rlt_dec 0 (INR n)) as [_|N]; [cbn; f_equal; lra|]. exfalso. apply N. apply lt_0_INR. lia.
Qed.
Print Assumptions C89_criteria.

(** C89: the path has one row for each point evaluated, in order: the vector part of the parameters after the constraint, and the
    value less the penalty; whatever the method, and also if a bad evaluation ends the search *)
Theorem C89_path : forall m use_con fuel me op st p0 start f, con_ok m -> op_ok p0 op start -> st_path st = true ->
  search_from m use_con fuel me op st p0 start = Ok f ->
  exists pts, f_path f = Some (map (fun b => (vpart (place m use_con p0 b), objective m use_con p0 b)) pts) /\
    ((f_rows f = [] /\ exists b rest, flat_map (points m use_con p0 true) (op_init op start) = pts ++ b :: rest /\ isnan (objective m use_con p0 b) = true) \/
     exists k r e, searched m use_con me op st p0 start k r e /\ evaluated m use_con op st p0 start k r pts).
Proof.
  intros m use_con fuel me op st p0 start f Hc Ho Hp Hs. apply search_ok in Hs as [(s & Hs & _ & ->)|(k & r & e & Hs & Hx)].
  - destruct Ho as (G1 & _ & G2 & G3). change (Sh p0 _ _ _) with (begin st p0) in Hs.
    apply (requests_ok m use_con p0 Hc (op_grad op)) in Hs; auto. cbv zeta in Hs. rewrite begin_path, Hp in Hs. destruct Hs as (d & b & rest & D1 & (_ & _ & D2 & _) & D3).
    exists d. cbn [f_path f_rows]. split; [|left; eauto]. rewrite D2. unfold begin. cbn [s_path]. rewrite Hp. auto.
  - cbv zeta in Hx. destruct Hx as (p & rows & Ha & ->). destruct (searched_after _ _ _ _ _ _ _ _ _ _ Hc Ho Hs) as (pts & Hev & (_ & _ & A3 & _)).
    exists pts. cbn [f_path s_path]. split; [|right; eauto 6]. rewrite A3. unfold begin. cbn [s_path]. rewrite Hp. auto.
Qed.
Print Assumptions C89_path.

(** refuted: a row for each point the minimiser asks for.  A request for the value with the gradient leaves two rows, and so one
    for the gradient alone leaves one, whatever the model *)
Theorem C89_refuted_twice : forall m p0 b, points m true p0 true (Ask_fdf b) = [b; again m true p0 b] /\ points m true p0 true (Ask_df b) = [b] /\
  (m_con m = None -> again m true p0 b = b).
Proof.
  intros m p0 b. split; [reflexivity|]. split; [reflexivity|]. intros H. unfold again, penalty, nudged. rewrite H. cbn. destruct (Req_EM_T 0 0); auto. lra.
Qed.
Print Assumptions C89_refuted_twice.
(** refuted: the path of a model whose parameters have no vector.  The first evaluation reads a vector that is not there. *)
Theorem C89_refuted_matrix : forall f use_con fuel me op st p0 start b more, st_path st = true -> p_vec p0 = None -> op_init op start = Ask_f b :: more ->
  search_from (plain f) use_con fuel me op st p0 start = UB.
Proof.
  intros f use_con fuel me op st p0 start b more Hp Hv Hi. unfold search_from. cbv zeta. rewrite Hi, Hp. cbn [requests]. unfold negshell. cbn [plain m_ll m_con]. cbv zeta.
  unfold xsub. cbn [xneg xadd isnan s_path s_par]. unfold tracepath, unpack. rewrite Hv. cbn. auto.
Qed.
Print Assumptions C89_refuted_matrix.

(** refuted: the log likelihood reported is that of the parameters reported.  The greatest one met with is reported, if positive. *)
Definition bump (p : params) : R := match vpart p with [x] => (1 - x * x)%R | _ => 0%R end.
Theorem C89_refuted_elsewhere : exists fo, search_from (plain bump) true 5000 Simplex (Op (fun b => [Ask_f b; Ask_f [0%R]]) (fun _ _ => Ev [] 0 0 [2%R] false) (fun p => p) (fun p => p)) (St "" None 5000 false None None) ex_par [1%R] = Ok fo /\
  f_par fo = Pr (Some [2%R]) [] /\ f_rows fo !! 1 = Some ("log likelihood", Fin 1) /\ log_likelihood (plain bump) (f_par fo) = Fin (-3).
Proof.
  unfold search_from. cbv zeta. cbn [op_init op_grad op_run op_cov st_path st_want want_info st_max st_n].
  unfold requests. unfold negshell. cbn [plain m_ll m_con]. cbv zeta. cbn [s_path s_par s_info s_best xsub xneg xadd isnan negb].
  set (u := fun p => Fin (bump p)). change 5000 with (S (N.to_nat 4999)). unfold loop. unfold requests. cbn [ev_asks rbind].
  cbn [ev_status ev_test ev_x ev_ctrl_c]. change (negb (0 =? GSL_SUCCESS)%Z) with false. cbn iota. change ((0 =? GSL_CONTINUE)%Z) with false. cbn [andb rbind].
  cbn [en_sh en_x s_path s_info s_best s_par]. unfold auxinfo. cbv zeta. cbn [s_info s_best s_par want_cov]. cbn [rbind].
  match goal with |- context [xmax (xmax (Fin 0) ?a) ?b] => assert (xmax (xmax (Fin 0) a) b = Fin 1) as -> end.
  { unfold ex_par, unpack, bump, vpart; cbn [p_vec length take drop p_rest]. destruct (truthy (Fin 0)); cbn [length take];
    unfold xmax at 2; cbn [xgt]; (destruct (Rlt_dec _ 0) as [H|H]; [exfalso; lra|]); unfold xmax; cbn [xgt]; (destruct (Rlt_dec _ _) as [H1|H1]; [exfalso; lra|]); f_equal; lra. }
  eexists. split; [reflexivity|]. cbn [f_par f_rows]. split; [|split].
  - unfold ex_par, unpack; cbn [p_vec length take drop p_rest]. destruct (truthy (Fin 0)); cbn; auto.
  - unfold info_criteria. cbn. destruct (Req_EM_T 1 0); [exfalso; lra|reflexivity].
  - unfold log_likelihood. cbn [plain m_ll]. f_equal. unfold ex_par, unpack; cbn [p_vec length take drop p_rest]. destruct (truthy (Fin 0)); cbn; lra.
Qed.
Print Assumptions C89_refuted_elsewhere.

(** a model that gives the probability only: once the penalty has exceeded it at a point, no likelihood and no criterion is reported *)
Theorem C89_withdrawn : forall m use_con fuel op st p0 start f, con_ok m -> op_ok p0 op start -> m_ll m = None ->
  search_from m use_con fuel Simplex op st p0 start = Ok f -> length (f_rows f) > 1 ->
  exists k r e pts, searched m use_con Simplex op st p0 start k r e /\ evaluated m use_con op st p0 start k r pts /\
   forall b, In b pts -> xgt (Fin 0) (objective m use_con p0 b) = false.
Proof.
  intros m use_con fuel op st p0 start f Hc Ho Hl Hs Hlen. apply search_ok in Hs as [(s & _ & _ & ->)|(k & r & e & Hs & Hx)]; [cbn in Hlen; lia|].
  cbv zeta in Hx. destruct Hx as (p & rows & Ha & ->). cbn [f_rows f_par] in *.
  destruct (searched_after _ _ _ _ _ _ _ _ _ _ Hc Ho Hs) as (pts & Hev & (A1 & A2 & A3 & A4 & A5)). exists k, r, e, pts. split; auto. split; auto.
  unfold auxinfo in Ha. cbv zeta in Ha. cbn [s_info s_par] in Ha. destruct (s_info (en_sh e)) eqn:Ei; [|injection Ha as <- <-; cbn in Hlen; lia].
  symmetry in A4. apply andb_true_iff in A4 as [_ A4]. rewrite forallb_forall in A4. intros b Hb. specialize (A4 b Hb). unfold llval in A4. rewrite Hl in A4.
  destruct (objective m use_con p0 b) as [x| | |]; cbn in *; auto. destruct (Rlt_dec x 0); auto.
Qed.
Print Assumptions C89_withdrawn.

(** a simplex search that meets the hypotheses: log likelihood -x^2, constraint x >= 0; the start at -1 is moved to 0 with penalty 1 *)
Definition ex_con (p : params) : xr * params := match vpart p with [x] => if Rlt_dec x 0 then (Fin (- x), Pr (Some [0%R]) (p_rest p)) else (Fin 0, p) | _ => (Fin 0, p) end.
Definition ex_m : mdl := Md (Some (fun p => Fin (match vpart p with [x] => - (x * x) | _ => 0 end)%R)) None (Some ex_con).
Definition ex_op : optimiser := Op (fun b => [Ask_f b]) (fun _ _ => Ev [Ask_f [1%R]] 0 0 [0%R] false) (fun p => p) (fun p => p).
Example C89_nonvacuous : con_ok ex_m /\ op_ok ex_par ex_op [(-1)%R] /\ objective ex_m true ex_par [(-1)%R] = Fin (-1) /\ objective ex_m true ex_par [1%R] = Fin (-1) /\
  exists fo, search_from ex_m true 5000 Simplex ex_op (St "" None 5000 true None (Some 12)) ex_par [(-1)%R] = Ok fo /\ length (f_rows fo) = 5 /\ length (match f_path fo with Some l => l | None => [] end) = 2.
Proof.
  split; [|split; [|split; [|split]]].
  - intros c p H. injection H as <-. unfold ex_con. destruct p as [[[|x [|y v]]|] r]; cbn; auto. destruct (Rlt_dec x 0); cbn; auto.
  - repeat split; try (intros p; reflexivity).
    + repeat (apply List.Forall_cons || apply List.Forall_nil). reflexivity.
    + intros k. repeat (apply List.Forall_cons || apply List.Forall_nil). reflexivity.
  - unfold objective, fn, penalty, place, nudged; cbn. unfold ex_con; cbn. destruct (Rlt_dec (-1) 0); [|lra]. cbn. f_equal. lra.
  - unfold objective, fn, penalty, place, nudged; cbn. unfold ex_con; cbn. destruct (Rlt_dec 1 0); [lra|]. cbn. f_equal. lra.
  - unfold search_from. cbv zeta. cbn [ex_op op_init op_grad op_run op_cov st_path st_want want_info st_max st_n].
    unfold requests, negshell. cbn [ex_m m_ll m_con s_par]. change (unpack [(-1)%R] ex_par) with (Pr (Some [(-1)%R]) []). unfold ex_con at 1. cbn [vpart p_vec].
    destruct (Rlt_dec (-1) 0) as [H|H]; [|exfalso; lra]. cbn [vpart p_vec s_path s_info s_best rbind xsub xneg xadd isnan tracepath negb app].
    change 5000 with (S (N.to_nat 4999)). unfold loop, requests, negshell. cbn [ex_m m_ll m_con s_par ev_asks]. change (unpack [1%R] _) with (Pr (Some [1%R]) []). unfold ex_con. cbn [vpart p_vec].
    destruct (Rlt_dec 1 0) as [H1|H1]; [exfalso; lra|]. cbn [vpart p_vec s_path s_info s_best rbind xsub xneg xadd isnan tracepath negb app].
    eexists. split; [reflexivity|]. split; reflexivity.
Qed.
