(** C90: restarting an estimation. *)
From Coq Require Import Reals Lra.
From Verif Require Import Base DataModel NamesModel NamesProofs AccessProps SearchModel SearchLikeProps RestartModel.
Local Open Scope string_scope.
Local Open Scope list_scope.
Local Open Scope nat_scope.

(** what "within the boundary" and "greater" mean in C90: every number finite and no farther from zero than the boundary; the usual order, a NaN neither greater nor less *)
Theorem C90_bounded : forall v b, bounded v b = true <-> forall l x, v = Some l -> In x l -> exists r, x = Fin r /\ (- b <= r <= b)%R.
Proof.
  intros v b. destruct v as [l|]; cbn [bounded]; [|split; [discriminate|auto]]. rewrite forallb_forall. split.
  - intros H l' x [= <-] Hx. specialize (H x Hx). destruct x; cbn [xfinite_within] in H; try discriminate. destruct (Rlt_dec b x) as [|A]; [discriminate|]. destruct (Rlt_dec x (- b)) as [|B]; [discriminate|]. exists x. split; auto. lra.
  - intros H x Hx. destruct (H l x eq_refl Hx) as (r & -> & Hr). cbn [xfinite_within]. destruct (Rlt_dec b r); [lra|]. destruct (Rlt_dec r (- b)); [lra|]. auto.
Qed.
Print Assumptions C90_bounded.
Theorem C90_greater : (forall x y, xgt (Fin x) (Fin y) = true <-> (y < x)%R) /\ (forall x, xgt NaN x = false /\ xgt x NaN = false) /\ (forall x, xgt (Fin x) NInf = true /\ xgt PInf (Fin x) = true) /\ forall a b, xgt a b = true -> xgt b a = false.
Proof.
  split; [intros x y; cbn; destruct (Rlt_dec y x); split; auto; discriminate|]. split; [intros []; auto|]. split; [auto|]. intros [] []; cbn; auto; try discriminate. destruct (Rlt_dec _ _); [|discriminate]. destruct (Rlt_dec _ _); [lra|auto].
Qed.
Print Assumptions C90_greater.
Lemma add_rows_is g p l : add_rows g p l = add_pairs g p l. Proof. reflexivity. Qed.
(** [first_at l key x]: [x] is the value of the first row whose name is [key], in whatever letters *)
Definition first_at {E} (l : list (string * E)) (key : string) (x : E) : Prop :=
  exists i, l !! i = Some (key, x) /\ forall j s y, j < i -> l !! j = Some (s, y) -> ci_eq key s = false.
Lemma first_at_app {E} (l r : list (string * E)) key x : first_at l key x -> first_at (l ++ r) key x.
Proof.
  intros (i & Hi & Hf). assert (i < length l) by (eapply lookup_lt_Some; eauto). exists i. split; [rewrite lookup_app_l; auto|].
  intros j s y Hj. rewrite lookup_app_l by lia. apply Hf. auto.
Qed.
Lemma ci_refl s : ci_eq s s = true. Proof. unfold ci_eq. apply String.eqb_refl. Qed.
Lemma find_hashed_first name l : forall i k x, l !! i = Some x -> x = name -> (forall j s, j < i -> l !! j = Some s -> ci_eq name s = false) ->
  find_hashed name (name_hash name) k l (map (fun s => Some (name_hash s)) l) = Ok (Some (k + i)).
Proof.
  induction l as [|s l IH]; intros i k x Hi -> Hf; [rewrite lookup_nil in Hi; discriminate|]. cbn [find_hashed map].
  destruct i as [|i].
  - injection Hi as ->. rewrite Z.eqb_refl, ci_refl. cbn. f_equal. f_equal. lia.
  - rewrite (Hf 0 s) by (auto; lia). rewrite andb_false_r. rewrite (IH i (S k) name); auto; [f_equal; f_equal; lia|].
    intros j s' Hj Hl. apply (Hf (S j)); auto. lia.
Qed.
Lemma find_first {E} (p : page E) l key x : is_list p l -> first_at l key x ->
  exists i, name_find (nms p) key "r" = Ok (Z.of_nat i) /\ get_at p (Z.of_nat i) 0 = Got x.
Proof.
  intros (H1 & H2 & H3 & H4) (i & Hi & Hf). exists i. split.
  - unfold name_find, list_of. change (is_r "r") with true. cbn iota. 
    assert (rowh (nms p) = map (fun s => Some (name_hash s)) (rown (nms p))) as Hh by apply H4.
    rewrite Hh, H1. rewrite (find_hashed_first key (map fst l) i 0 key); auto.
    + destruct (map _ (map fst l)) eqn:Em; auto. destruct l; [rewrite lookup_nil in Hi; discriminate|discriminate].
    + rewrite lookup_map, Hi. auto.
    + intros j s Hj Hl. rewrite lookup_map in Hl. destruct (l !! j) as [[s' y]|] eqn:Ej; [|discriminate]. injection Hl as <-. eapply Hf; eauto.
  - unfold get_at, uses_vector. rewrite H3. destruct l as [|y l']; [rewrite lookup_nil in Hi; discriminate|]. rewrite H2. cbn [Z.eqb orb andb].
    replace (Z.of_nat i <? 0)%Z with false by lia. rewrite Nat2Z.id, lookup_map, Hi. auto.
Qed.

Section r.
  Context (g : xr) (relik : option xpar -> xr).
  Notation estimate := (estimate g).  Notation get_ll := (get_ll relik).  Notation restart := (restart g relik).

  Lemma get_ll_start e e' : es_par e' = es_par e -> es_info e' = es_info e -> get_ll e' = get_ll e.
  Proof. intros H1 H2. unfold RestartModel.get_ll. rewrite H1, H2. auto. Qed.
  Lemma start_same mode e cp v cp' e' : choose_start mode e cp = Ok (v, cp', e') ->
    es_par e' = es_par e /\ es_info e' = es_info e /\ es_par cp' = es_par cp /\ es_info cp' = es_info cp.
  Proof.
    unfold choose_start. destruct (_ =? "es")%string; [|destruct (_ =? "ns")%string; [|destruct (_ =? "np")%string]].
    - destruct (es_mle e) as [[[|x s]|]|]; try discriminate; intros H; injection H as <- <- <-; repeat split; reflexivity.
    - destruct (es_mle cp) as [[[|x s]|]|], (es_mle e); try discriminate; intros H; injection H as <- <- <-; repeat split; reflexivity.
    - destruct (es_par cp) eqn:E1, (es_mle cp); try discriminate; intros H; injection H as <- <- <-; cbn; auto.
    - destruct (es_par e) eqn:E1; [destruct (es_mle cp)|]; try discriminate; intros H; injection H as <- <- <-; cbn; auto.
  Qed.

  (** C90: what a restart returns.  Up to the old model's starting point: the old model, or the new estimate; the new one exactly if the starting point is
      within the boundary, so are the new parameters, and its log likelihood is greater.  The copy and the loser are freed. *)
  Theorem C90_choice : forall fit e copy mode boundary o, restart fit e copy mode boundary = Ok o ->
    exists v cp e', choose_start mode e (match copy with Some c => c | None => e end) = Ok (v, cp, e') /\ es_par e' = es_par e /\ es_info e' = es_info e /\
      let new := estimate fit cp in
      ((bounded v boundary = false /\ o = Out e' false []) \/
       (bounded v boundary = true /\ o_new o = true /\ o_ret o = new /\ o_freed o = [The_copy; The_old] /\ bounded (match es_par new with Some p => x_vec p | None => None end) boundary = true /\
          exists n d, get_ll new = Ok n /\ get_ll e = Ok d /\ xgt n d = true) \/
       (bounded v boundary = true /\ o_new o = false /\ o_ret o = e' /\ o_freed o = [The_copy; The_new] /\
          (bounded (match es_par new with Some p => x_vec p | None => None end) boundary = false \/ exists n d, get_ll new = Ok n /\ get_ll e = Ok d /\ xgt n d = false))).
  Proof.
    intros fit e copy mode boundary o. unfold RestartModel.restart. cbv zeta.
    destruct (choose_start mode e _) as [[[v cp] e']| |] eqn:Ec; cbn [rbind]; try discriminate. intros H. exists v, cp, e'. split; auto.
    pose proof (start_same _ _ _ _ _ _ Ec) as (S1 & S2 & _). split; auto. split; auto.
    destruct (bounded v boundary) eqn:Eb; cbn [negb] in H; [|left; injection H as <-; auto]. right.
    destruct (bounded (match es_par _ with Some p => _ | None => _ end) boundary) eqn:En; [|injection H as <-; right; cbn; auto 7].
    destruct (get_ll (estimate fit cp)) as [n| |] eqn:E1; cbn [rbind] in H; try discriminate.
    rewrite (get_ll_start e e') in H by auto. destruct (get_ll e) as [d| |] eqn:E2; cbn [rbind] in H; try discriminate.
    destruct (xgt n d) eqn:Eg; injection H as <-; cbn; [left|right]; repeat split; auto; [|right]; exists n, d; auto.
  Qed.

  (** the documented starting point of the new search: "ep" (or anything else) and "np" *)
  Theorem C90_start : forall e cp mode, mode <> "es" -> mode <> "ns" -> forall p, es_par (if (mode =? "np")%string then cp else e) = Some p -> es_mle cp <> None ->
    choose_start mode e cp = Ok (Some (xpack p), with_start cp (xpack p), e).
  Proof.
    intros e cp mode H1 H2 p Hp Hm. unfold choose_start. apply String.eqb_neq in H1, H2. rewrite H1, H2. destruct (_ =? "np")%string; rewrite Hp; destruct (es_mle cp); auto; congruence.
  Qed.
  (** refuted for "es" and "ns": of the starting point only the first number is checked; the other model's starting point is not used, and with "ns" it is
      the old model's starting point that is overwritten, with one number *)
  Theorem C90_refuted_start : forall e cp x s y t, es_mle e = Some (Some (x :: s)) -> es_mle cp = Some (Some (y :: t)) ->
    choose_start "es" e cp = Ok (Some [x], cp, e) /\ choose_start "ns" e cp = Ok (Some [y], cp, with_start e [y]).
  Proof. intros e cp x s y t He Hc. unfold choose_start. cbn. rewrite He, Hc. auto. Qed.

  (** a history of restarts, each with its own estimation, copy, kind of start and boundary *)
  Inductive history : est -> est -> Prop :=
  | hist_0 e : history e e
  | hist_S e e1 fit copy mode boundary o : history e e1 -> restart fit e1 copy mode boundary = Ok o -> history e (o_ret o).
  (** C90: over any history of restarts the log likelihood on record never goes down. *)
  Theorem C90_history : forall e e', history e e' -> forall a, get_ll e = Ok a -> a <> NaN -> exists b, get_ll e' = Ok b /\ b <> NaN /\ xgt a b = false.
  Proof.
    intros e e' Hh. induction Hh as [e|e e1 fit copy mode boundary o Hh IH Hr]; intros a Ha Hn; [exists a; split; auto; split; auto; apply xgt_refl|].
    destruct (IH a Ha Hn) as (b & B1 & B2 & B3). destruct (C90_choice _ _ _ _ _ _ Hr) as (v & cp & e2 & _ & S1 & S2 & [(_ & ->)|[(_ & _ & -> & _ & _ & n & d & G1 & G2 & G3)|(_ & _ & -> & _)]]).
    - exists b. cbn. rewrite (get_ll_start e1 e2) by auto. auto.
    - exists n. split; auto. assert (d = b) as -> by congruence. split; [intros ->; cbn in G3; destruct b; discriminate|].
      apply (xgt_le a b n); auto; [destruct b; auto; congruence|apply xgt_asym; auto].
    - exists b. rewrite (get_ll_start e1 e2) by auto. auto.
  Qed.

  Definition records (e : est) (key : string) (x : xr) : Prop := exists p l, es_info e = Some p /\ is_list p l /\ first_at l key x.
  Lemma records_ll e x : records e "log likelihood" x -> get_ll e = Ok x.
  Proof.
    intros (p & l & H1 & H2 & H3). unfold RestartModel.get_ll. rewrite H1. destruct (find_first p l _ x H2 H3) as (i & -> & G). cbn [rbind].
    replace (-2 <? Z.of_nat i)%Z with true by lia. rewrite G. auto.
  Qed.
  Lemma records_estimate fit e key x : records e key x -> records (estimate fit e) key x.
  Proof.
    intros (p & l & H1 & H2 & H3). unfold records, RestartModel.estimate. rewrite H1. destruct (fit _) as [q rows]. cbn [es_info].
    exists (add_rows g p rows), (l ++ rows). split; auto. split; [rewrite add_rows_is; apply add_pairs_list; auto|apply first_at_app; auto].
  Qed.

  (** C90, refuted: the plain use, without a copy given.  An estimate that has its log likelihood on record is always returned itself, whatever the new search
      finds: the new estimate has inherited the old record, and its own comes after it. *)
  Theorem C90_refuted_default : forall fit e mode boundary o x, records e "log likelihood" x -> x <> NaN -> restart fit e None mode boundary = Ok o ->
    o_new o = false /\ es_par (o_ret o) = es_par e /\ es_info (o_ret o) = es_info e.
  Proof.
    intros fit e mode boundary o x Hx Hn Hr. destruct (C90_choice _ _ _ _ _ _ Hr) as (v & cp & e2 & Hc & S1 & S2 & [(_ & ->)|[(_ & _ & _ & _ & _ & n & d & G1 & G2 & G3)|(_ & H1 & -> & _)]]); auto.
    exfalso. pose proof (start_same _ _ _ _ _ _ Hc) as (_ & _ & C1 & C2).
    assert (records cp "log likelihood" x) as Hcp by (destruct Hx as (p & l & A & B); exists p, l; split; [congruence|auto]).
    rewrite (records_ll _ _ (records_estimate fit _ _ _ Hcp)) in G1. rewrite (records_ll _ _ Hx) in G2. injection G1 as <-. injection G2 as <-. rewrite xgt_refl in G3. discriminate.
  Qed.
  (** so a loop of restarts, as in the documentation, returns what it was given *)
  Inductive plain_history : est -> est -> Prop :=
  | ph_0 e : plain_history e e
  | ph_S e e1 fit mode boundary o : plain_history e e1 -> restart fit e1 None mode boundary = Ok o -> plain_history e (o_ret o).
  Theorem C90_refuted_loop : forall e e' x, plain_history e e' -> records e "log likelihood" x -> x <> NaN -> es_par e' = es_par e /\ es_info e' = es_info e.
  Proof.
    intros e e' x Hh. induction Hh as [e|e e1 fit mode boundary o Hh IH Hr]; intros Hx Hn; auto. destruct (IH Hx Hn) as [I1 I2].
    assert (records e1 "log likelihood" x) as H1 by (destruct Hx as (p & l & A & B); exists p, l; split; [congruence|auto]).
    destruct (C90_refuted_default _ _ _ _ _ _ H1 Hn Hr) as (_ & A & B). split; congruence.
  Qed.
  (** and a model estimated a second time still shows the status, log likelihood and criteria of the first time *)
  Theorem C90_refuted_again : forall fit e key x, records e key x -> exists p, es_info (estimate fit e) = Some p /\ data_get p (Name key) (Num 0) = Ok (Got x).
  Proof.
    intros fit e key x Hx. destruct (records_estimate fit e key x Hx) as (p & l & H1 & H2 & H3). exists p. split; auto.
    destruct (find_first p l _ x H2 H3) as (i & A & B). unfold data_get. cbn [resolve]. rewrite A. cbn [rbind]. replace (Z.of_nat i =? -2)%Z with false by lia. cbn [rbind resolve]. rewrite B. auto.
  Qed.

  (** with a copy that has no record of its own, the comparison is as documented *)
  Theorem C90_fresh_copy : forall fit e c mode boundary o v cp e' x y p rows, records e "log likelihood" x -> es_info c = None ->
    choose_start mode e c = Ok (v, cp, e') -> bounded v boundary = true -> fit (Es (es_par cp) (Some blank) (es_mle cp)) = (p, rows) -> first_at rows "log likelihood" y ->
    restart fit e (Some c) mode boundary = Ok o ->
    o_new o = bounded (x_vec p) boundary && xgt y x /\ (o_new o = true -> es_par (o_ret o) = Some p) /\ (o_new o = false -> es_par (o_ret o) = es_par e).
  Proof.
    intros fit e c mode boundary o v cp e' x y p rows Hx Hi Hc Hb Hf Hy Hr.
    destruct (C90_choice _ _ _ _ _ _ Hr) as (v2 & cp2 & e2 & Hc2 & S1 & S2 & Hcase). rewrite Hc in Hc2. injection Hc2 as <- <- <-.
    pose proof (start_same _ _ _ _ _ _ Hc) as (_ & _ & C1 & C2).
    assert (estimate fit cp = Es (Some p) (Some (add_rows g blank rows)) (Some (match es_mle cp with Some s => s | None => None end))) as He.
    { unfold RestartModel.estimate. rewrite C2, Hi, Hf. auto. }
    assert (get_ll (estimate fit cp) = Ok y) as Hg.
    { rewrite He. apply records_ll. exists (add_rows g blank rows), rows. split; auto. split; auto. rewrite add_rows_is. apply (add_pairs_list g rows blank []). apply blank_list. }
    rewrite (records_ll _ _ Hx) in Hcase. rewrite He in *. cbn [es_par] in Hcase.
    destruct Hcase as [(B & _)|[(_ & H1 & H2 & _ & H4 & n & d & G1 & G2 & G3)|(_ & H1 & H2 & _ & H3)]]; [congruence| |].
    - rewrite H1, H2, H4. rewrite Hg in G1. injection G1 as <-. injection G2 as <-. rewrite G3. cbn. repeat split; auto. discriminate.
    - rewrite H1, H2. split; [|split; [discriminate|auto]]. destruct H3 as [->|(n & d & G1 & G2 & G3)]; auto. rewrite Hg in G1. injection G1 as <-. injection G2 as <-. rewrite G3, andb_false_r. auto.
  Qed.
End r.
Print Assumptions C90_choice.
Print Assumptions C90_start.
Print Assumptions C90_refuted_start.
Print Assumptions C90_history.
Print Assumptions C90_refuted_default.
Print Assumptions C90_refuted_loop.
Print Assumptions C90_refuted_again.
Print Assumptions C90_fresh_copy.

Definition ex_rows (l : R) : list (string * xr) := [("status", Fin 0); ("log likelihood", Fin l); ("AIC", Fin (2 - 2 * l))].
Definition ex_est (x l : R) : est := Es (Some (Xp (Some [Fin x]) [])) (Some (add_rows NaN blank (ex_rows l))) (Some None).
Lemma ex_records x l : records (ex_est x l) "log likelihood" (Fin l).
Proof.
  exists (add_rows NaN blank (ex_rows l)), (ex_rows l). split; auto. split; [rewrite add_rows_is; apply (add_pairs_list NaN (ex_rows l) blank []), blank_list|].
  exists 1. split; auto. intros [|j] s y Hj; [|lia]. intros H; injection H as <- _. reflexivity.
Qed.
(** an estimate with log likelihood -5 and a search that now finds -1: with a fresh copy the new one is returned, without, the old *)
Example C90_nonvacuous : forall relik, let fit := fun _ : est => (Xp (Some [Fin 2]) [], ex_rows (-1)) in
  (exists o, restart NaN relik fit (ex_est 1 (-5)) (Some (Es None None (Some None))) "ep" 100 = Ok o /\ o_new o = true /\ es_par (o_ret o) = Some (Xp (Some [Fin 2]) [])) /\
  (exists o, restart NaN relik fit (ex_est 1 (-5)) None "ep" 100 = Ok o /\ o_new o = false /\ es_par (o_ret o) = Some (Xp (Some [Fin 1]) [])).
Proof.
  intros relik fit.
  assert (forall x, (-100 <= x <= 100)%R -> bounded (Some [Fin x]) 100 = true) as Hb.
  { intros x Hx. cbn. destruct (Rlt_dec 100 x); [lra|]. destruct (Rlt_dec x (- (100))); [lra|auto]. }
  split.
  - unfold restart. cbv zeta. change (choose_start "ep" _ _) with (Ok (Some [Fin 1], Es None None (Some (Some [Fin 1])), ex_est 1 (-5))). cbn [rbind].
    rewrite Hb by lra. cbn [negb]. set (new := estimate NaN fit _). assert (es_par new = Some (Xp (Some [Fin 2]) [])) as Hn by reflexivity. rewrite Hn. cbn [x_vec]. rewrite Hb by lra.
    assert (get_ll relik new = Ok (Fin (-1))) as -> by (apply records_ll; apply (ex_records 0 (-1))).
    rewrite (records_ll relik (ex_est 1 (-5)) (Fin (-5))) by apply ex_records. cbn [rbind xgt]. destruct (Rlt_dec (-5) (-1)); [|exfalso; lra]. eexists. split; [reflexivity|]. auto.
  - destruct (restart NaN relik fit (ex_est 1 (-5)) None "ep" 100) as [o| |] eqn:E.
    + exists o. split; auto. destruct (C90_refuted_default NaN relik fit (ex_est 1 (-5)) "ep" 100 o (Fin (-5)) (ex_records 1 (-5)) ltac:(discriminate) E) as (A & B & _). auto.
    + exfalso. unfold restart in E. cbv zeta in E. change (choose_start "ep" _ _) with (Ok (Some [Fin 1], with_start (ex_est 1 (-5)) [Fin 1], ex_est 1 (-5))) in E. cbn [rbind] in E.
      rewrite Hb in E by lra. cbn [negb] in E. destruct (bounded _ 100); [|discriminate].
      rewrite (records_ll relik (ex_est 1 (-5)) (Fin (-5))) in E by apply ex_records.
      rewrite (records_ll relik (estimate NaN fit _) (Fin (-5))) in E by (apply records_estimate; apply (ex_records 1 (-5))). cbn [rbind] in E. destruct (xgt _ _); discriminate.
    + exfalso. unfold restart in E. cbv zeta in E. change (choose_start "ep" _ _) with (Ok (Some [Fin 1], with_start (ex_est 1 (-5)) [Fin 1], ex_est 1 (-5))) in E. cbn [rbind] in E.
      rewrite Hb in E by lra. cbn [negb] in E. destruct (bounded _ 100); [|discriminate].
      rewrite (records_ll relik (ex_est 1 (-5)) (Fin (-5))) in E by apply ex_records.
      rewrite (records_ll relik (estimate NaN fit _) (Fin (-5))) in E by (apply records_estimate; apply (ex_records 1 (-5))). cbn [rbind] in E. destruct (xgt _ _); discriminate.
Qed.
