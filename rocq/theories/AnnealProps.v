(** C93: the steps of simulated annealing.  C94: its result. *)
From Coq Require Import Reals Lra.
From Verif Require Import Base DataModel NamesModel SearchModel SearchSpec SearchProps SearchLikeProps DiffModel AnnealModel.
Local Open Scope string_scope.
Local Open Scope list_scope.
Local Open Scope nat_scope.

Lemma xgt_neg a b : xgt (xneg a) (xneg b) = xgt b a.
Proof. destruct a as [x| | |], b as [y| | |]; cbn; auto. destruct (Rlt_dec (- y) (- x)), (Rlt_dec x y); auto; lra. Qed.
Lemma truthy_0 : truthy (Fin 0) = false.
Proof. cbn. destruct (Req_EM_T 0 0); auto; lra. Qed.
Lemma xgt_total a b : isnan a = false -> isnan b = false -> xgt a b = false -> xgt b a = false -> a = b.
Proof. destruct a as [x| | |], b as [y| | |]; cbn; try discriminate; auto. destruct (Rlt_dec y x), (Rlt_dec x y); try discriminate. intros. f_equal. lra. Qed.
Lemma xlog_mono a b : isnan a = false -> isnan b = false -> isnan (xlog a) = false -> isnan (xlog b) = false -> xgt a b = false -> xgt (xlog a) (xlog b) = false.
Proof.
  destruct a as [x| | |], b as [y| | |]; cbn; try discriminate; auto.
  - destruct (Rlt_dec x 0), (Rlt_dec y 0); cbn; try discriminate. destruct (Rlt_dec 0 x), (Rlt_dec 0 y), (Rlt_dec y x); cbn; try discriminate; auto; try lra.
    intros. destruct (Rlt_dec (ln y) (ln x)) as [Hl|Hl]; auto. exfalso. apply ln_lt_inv in Hl; lra.
  - destruct (Rlt_dec x 0); cbn; try discriminate. destruct (Rlt_dec 0 x); cbn; auto.
Qed.
Lemma unpack_pack p q : shape q = shape p -> unpack (pack q) p = q.
Proof.
  unfold shape, unpack, pack, vpart. destruct p as [[v|] r], q as [[w|] t]; cbn; try discriminate.
  - intros [= H1 H2]. rewrite <- H1. rewrite take_app, drop_app. auto.
  - intros [= H]. auto.
Qed.

Section a.
  Context (m : mdl) (p0 : params) (Hc : con_ok m).
  Notation obj := (objective m false p0).
  Notation llv := (llval m false p0).
  Lemma again_id b : again m false p0 b = b.
  Proof. unfold again, penalty, nudged. destruct (m_con m); cbn [fst]; rewrite truthy_0; auto. Qed.
  Lemma place_id b : place m false p0 b = unpack b p0.
  Proof. unfold place, nudged. destruct (m_con m); auto. Qed.
  Lemma ll_mono a b : isnan (obj a) = false -> isnan (obj b) = false -> isnan (llv a) = false -> isnan (llv b) = false -> xgt (obj a) (obj b) = false -> xgt (llv a) (llv b) = false.
  Proof. intros H1 H2. unfold llval. destruct (m_ll m); auto. intros. apply xlog_mono; auto. Qed.
  (** at the parameters with the cells [b], the log likelihood *)
  Lemma llv_is b : fn m <> None -> llv b = log_likelihood m (unpack b p0).
  Proof.
    unfold llval, objective, fn, log_likelihood. rewrite place_id. unfold penalty, nudged. intros Hf. assert (forall a, xneg (xsub (Fin 0) a) = a) as Hn.
    { intros [x| | |]; cbn; auto. f_equal. lra. }
    destruct (m_con m); cbn [fst]; destruct (m_ll m), (m_p m); try congruence; rewrite Hn; auto.
  Qed.

  Lemma energy_ok x g r : length (po_beta x) = dim p0 -> shape (sd_par g) = shape p0 -> energy m x g = Ok r ->
    match r with
    | inl (E, x', g') => fn m <> None /\ isnan (obj (po_beta x)) = false /\ E = xneg (obj (po_beta x)) /\ po_beta x' = po_beta x /\ po_info x' = po_info x && negb (isnan (llv (po_beta x))) /\
        po_best x' = (if po_info x then xmax (po_best x) (llv (po_beta x)) else po_best x) /\ sd_par g' = unpack (po_beta x) p0 /\ sd_log g' = sd_log g ++ [po_beta x] /\
        sd_path g' = option_map (fun h => h ++ [(vpart (unpack (po_beta x) p0), obj (po_beta x))]) (sd_path g)
    | inr g' => isnan (obj (po_beta x)) = true /\ (fn m <> None -> sd_par g' = unpack (po_beta x) p0) /\ sd_log g' = sd_log g ++ [po_beta x]
    end.
  Proof.
    intros Hb Hs. unfold energy. rewrite (negshell_is m false p0) by auto. cbn [s_par s_path s_info s_best]. rewrite place_id, again_id. unfold fn.
    destruct (match m_ll m with Some f => Some f | None => m_p m end) as [f|] eqn:Ef.
    2:{ cbn [rbind]. intros H; injection H as <-. cbn [sd_par sd_log]. split; [unfold objective, fn; rewrite Ef; auto|]. split; [congruence|auto]. }
    destruct (isnan (obj (po_beta x))) eqn:En.
    - cbn [rbind]. intros H; injection H as <-. cbn. auto.
    - destruct (sd_path g) as [h|]; [destruct (p_vec (unpack (po_beta x) p0)) eqn:Ev; [|discriminate]|]; cbn [rbind]; intros H; injection H as <-; cbn; repeat split; auto; try congruence. unfold vpart. rewrite Ev. auto.
  Qed.

  (** a point, moved to where the constraint has it *)
  Definition checked (b : list R) : list R := match m_con m with Some c => if truthy (fst (c (unpack b p0))) then pack (snd (c (unpack b p0))) else b | None => b end.
  Lemma checked_len b : length b = dim p0 -> length (checked b) = dim p0.
  Proof.
    intros Hb. unfold checked. destruct (m_con m) as [c|] eqn:E; auto. destruct (truthy _); auto. rewrite pack_len. rewrite (shape_dim _ (unpack b p0)) by (eapply Hc; eauto).
    apply shape_dim, shape_unpack. auto.
  Qed.
  Lemma check_ok b g b' g' : length b = dim p0 -> shape (sd_par g) = shape p0 -> check_constraint m b g = (b', g') ->
    b' = checked b /\ shape (sd_par g') = shape p0 /\ sd_log g' = sd_log g /\ sd_path g' = sd_path g.
  Proof.
    intros Hb Hs. unfold check_constraint, checked. rewrite (unpack_shape b _ p0 Hs). pose proof (shape_unpack b p0 Hb) as Hu. destruct (m_con m) as [c|] eqn:E.
    - pose proof (Hc c (unpack b p0) E). destruct (c (unpack b p0)) as [pen p]. cbn [fst snd] in *. intros H1; injection H1 as <- <-. cbn. split; auto. split; [congruence|auto].
    - intros H1; injection H1 as <- <-. auto.
  Qed.
  Lemma step_len beta scale u v st : length (annealing_step beta scale u v st) = length beta.
  Proof. unfold annealing_step. generalize 0 as j. induction beta as [|b beta IH]; intros j; cbn [step_loop length]; auto. Qed.

  Context (iters : nat) (step_size t_initial mu_t t_min : R) (U : nat -> R) (accept : xr -> xr -> R -> R -> bool) (scale : list R).
  (** a copy of the infostruct: what its best_ll is worth *)
  Definition pos_ok (log : list (list R)) (x : pos) : Prop :=
    In (po_beta x) log /\
    (po_info x = true -> isnan (llv (po_beta x)) = false /\ isnan (po_best x) = false /\ (po_best x = Fin 0 \/ exists b, In b log /\ isnan (llv b) = false /\ po_best x = llv b) /\ xgt (Fin 0) (po_best x) = false).
  Definition log_ok (log : list (list R)) : Prop := forall b, In b log -> length b = dim p0 /\ isnan (obj b) = false /\ exists b0, length b0 = dim p0 /\ b = checked b0.
  Definition best_ok (log : list (list R)) (x : pos) : Prop := (forall b, In b log -> xgt (obj b) (obj (po_beta x)) = false) /\ (po_info x = true -> po_best x = xmax (Fin 0) (llv (po_beta x))).
  (** want_info is withdrawn only if a log likelihood is NaN *)
  Definition info_ok (w : bool) (log : list (list R)) (x : pos) : Prop := w = true -> (forall b, In b log -> isnan (llv b) = false) -> po_info x = true.
  Definition path_ok (g : shared) : Prop := forall h, sd_path g = Some h -> h = map (fun b => (vpart (unpack b p0), obj b)) (sd_log g).
  Definition inv (w : bool) (s : siman) : Prop :=
    let log := sd_log (si_g s) in
    fn m <> None /\ path_ok (si_g s) /\ shape (sd_par (si_g s)) = shape p0 /\ log_ok log /\ pos_ok log (si_x s) /\ pos_ok log (si_best s) /\ best_ok log (si_best s) /\
    si_E s = xneg (obj (po_beta (si_x s))) /\ si_bE s = xneg (obj (po_beta (si_best s))) /\ info_ok w log (si_x s) /\ info_ok w log (si_best s).
  Lemma pos_grow log b x : pos_ok log x -> pos_ok (log ++ [b]) x.
  Proof. intros (H1 & H2). split; [apply in_or_app; auto|]. intros H. destruct (H2 H) as (A & B & C & D). repeat split; auto. destruct C as [C|(q & C & C2)]; auto. right. exists q. split; auto. apply in_or_app; auto. Qed.
  Lemma info_grow w log b x : info_ok w log x -> info_ok w (log ++ [b]) x.
  Proof. intros H Hw Ha. apply H; auto. intros c Hcc. apply Ha, in_or_app; auto. Qed.

  Lemma move_ok w T s r : inv w s -> move m step_size U accept scale T s = Ok r ->
    match r with
    | inl s' => inv w s' /\ exists l, sd_log (si_g s') = sd_log (si_g s) ++ l
    | inr g => exists b, isnan (obj b) = true /\ sd_par g = unpack b p0 /\ sd_log g = sd_log (si_g s) ++ [b]
    end.
  Proof.
    intros (Hfn & Hpa & Hsh & Hlog & Hx & Hb & Hbest & HE & HbE & Hix & Hib) H. unfold move, take_step in H.
    set (b := annealing_step _ _ _ _ _) in H. assert (length (po_beta (si_x s)) = dim p0) as Hlx by (apply Hlog, Hx). assert (length b = dim p0) as Hlb by (unfold b; rewrite step_len; auto).
    destruct (check_constraint m b (si_g s)) as [b' g] eqn:Ec. destruct (check_ok _ _ _ _ Hlb Hsh Ec) as (Eb & Hg & Hgl & Hgp). pose proof (checked_len b Hlb) as Hlc. rewrite <- Eb in Hlc.
    destruct (energy m (Po b' (po_info (si_x s)) (po_best (si_x s))) g) as [r0| |] eqn:Ee; cbn [rbind] in H; try discriminate.
    pose proof (energy_ok (Po b' (po_info (si_x s)) (po_best (si_x s))) g r0 Hlc Hg Ee) as He. cbn [po_beta po_info po_best] in He.
    destruct r0 as [[[nE new] g']|g'].
    2:{ injection H as <-. destruct He as (N1 & N2 & N3). exists b'. rewrite N3, Hgl. auto. }
    destruct He as (_ & N1 & N2 & N3 & N4 & N5 & N6 & N7 & N8). rewrite Hgl in N7. rewrite Hgp in N8.
    assert (path_ok g') as Hpa'. { intros h Hh. rewrite N8 in Hh. destruct (sd_path (si_g s)) as [h0|] eqn:Ep; [|discriminate]. injection Hh as <-. rewrite N7, map_app, (Hpa h0 Ep). auto. }
    assert (log_ok (sd_log g')) as Hlog'.
    { rewrite N7. intros c Hcc. apply in_app_or in Hcc as [Hcc|[<-|[]]]; [auto|]. split; auto. split; auto. exists b. auto. }
    assert (shape (sd_par g') = shape p0) as Hsh' by (rewrite N6; apply shape_unpack; auto).
    assert (pos_ok (sd_log g') (si_x s)) as Hx' by (rewrite N7; apply pos_grow; auto).
    assert (pos_ok (sd_log g') (si_best s)) as Hb' by (rewrite N7; apply pos_grow; auto).
    assert (info_ok w (sd_log g') (si_x s)) as Hix' by (rewrite N7; apply info_grow; auto).
    assert (info_ok w (sd_log g') (si_best s)) as Hib' by (rewrite N7; apply info_grow; auto).
    assert (In b' (sd_log g')) as Hin by (rewrite N7; apply in_or_app; cbn; auto).
    assert (po_info new = true -> po_info (si_x s) = true /\ isnan (llv b') = false) as Hinfo.
    { rewrite N4. intros Hi. apply andb_true_iff in Hi as [H1 H2]. split; auto. destruct (isnan (llv b')); auto. }
    assert (pos_ok (sd_log g') new) as Hnew.
    { split; [rewrite N3; auto|]. intros Hi. destruct (Hinfo Hi) as [I1 I2]. rewrite N3. destruct Hx as (_ & Hx2). destruct (Hx2 I1) as (A1 & A2 & A3 & A4).
      rewrite N5, I1. split; auto. unfold xmax. destruct (xgt (po_best (si_x s)) (llv b')) eqn:Eg.
      - repeat split; auto. destruct A3 as [A3|(q & A3 & A3')]; auto. right. exists q. split; auto. rewrite N7. apply in_or_app; auto.
      - repeat split; auto; [right; exists b'; auto|]. apply (xgt_le _ (po_best (si_x s))); auto. }
    assert (info_ok w (sd_log g') new) as Hinew.
    { intros Hw Ha. rewrite N4. rewrite Ha by auto. rewrite (Hix' Hw Ha). auto. }
    set (bb := if xle nE (si_bE s) then (new, nE) else (si_best s, si_bE s)) in H.
    assert (pos_ok (sd_log g') (fst bb) /\ best_ok (sd_log g') (fst bb) /\ snd bb = xneg (obj (po_beta (fst bb))) /\ info_ok w (sd_log g') (fst bb) /\ xlt nE (snd bb) = false) as (B1 & B2 & B3 & B4 & B5).
    { unfold bb. destruct (xle nE (si_bE s)) eqn:Ele; cbn [fst snd].
      - unfold xle in Ele. apply negb_true_iff in Ele. rewrite N2, HbE, xgt_neg in Ele. destruct Hbest as (B1 & B2).
        assert (forall c, In c (sd_log g') -> xgt (obj c) (obj b') = false) as Hall.
        { rewrite N7. intros c Hcc. apply in_app_or in Hcc as [Hcc|[<-|[]]]; [|apply xgt_refl]. apply (xgt_le _ (obj (po_beta (si_best s)))); auto. apply Hlog. apply Hb. }
        split; auto. split; [|split; [rewrite N3; auto|split; [auto|unfold xlt; apply xgt_refl]]]. split; [rewrite N3; auto|]. intros Hi. destruct (Hinfo Hi) as [I1 I2].
        destruct Hx as (_ & Hx2). destruct (Hx2 I1) as (A1 & A2 & A3 & A4). rewrite N5, I1, N3. destruct A3 as [->|(q & A3 & A5 & A6)]; auto. rewrite A6 in *.
        assert (xgt (llv q) (llv b') = false) as Hq. { apply ll_mono; auto; [apply Hlog; auto|apply Hall; rewrite N7; apply in_or_app; auto]. }
        assert (xgt (Fin 0) (llv b') = false) as Hz by (apply (xgt_le _ (llv q)); auto). unfold xmax. rewrite Hq, Hz. auto.
      - unfold xle in Ele. apply negb_false_iff in Ele. split; auto. split; [|split; [auto|split; [auto|unfold xlt; apply xgt_asym; auto]]]. destruct Hbest as (C1 & C2). split; auto.
        rewrite N7. intros c Hcc. apply in_app_or in Hcc as [Hcc|[<-|[]]]; [auto|]. rewrite N2, HbE, xgt_neg in Ele. apply xgt_asym. auto. }
    destruct bb as [best bE]. cbn [fst snd] in *. unfold inv. destruct (xlt nE (si_E s)).
    - rewrite B5 in H. injection H as <-. cbn [si_x si_E si_best si_bE si_k si_g]. split; [|exists [b']; auto]. rewrite N3. repeat (split; [solve [auto]|]); auto.
    - destruct (accept (si_E s) nE T _); injection H as <-; cbn [si_x si_E si_best si_bE si_k si_g]; (split; [|exists [b']; auto]); [rewrite N3|]; repeat (split; [solve [auto]|]); auto.
  Qed.
  (** the last evaluation was bad *)
  Definition bad (g : shared) : Prop := exists b, isnan (obj b) = true /\ sd_par g = unpack b p0 /\ In b (sd_log g).
  Lemma moves_ok w n T : forall sig s o sig', inv w s -> moves m step_size U accept scale n T sig s = Ok (o, sig') ->
    (exists l, sd_log (out_shared o) = sd_log (si_g s) ++ l) /\
    match o with Done s' => inv w s' | BadEval g => bad g | Signal g => shape (sd_par g) = shape p0 end.
  Proof.
    induction n as [|n IH]; intros sig s o sig' Hi H; cbn [moves] in H.
    - injection H as <- <-. split; [exists []; rewrite app_nil_r|]; auto.
    - assert (forall sig1, (do r <- move m step_size U accept scale T s; match r with inr g => Ok (BadEval g, sig) | inl s => moves m step_size U accept scale n T sig1 s end) = Ok (o, sig') ->
        (exists l, sd_log (out_shared o) = sd_log (si_g s) ++ l) /\ match o with Done s' => inv w s' | BadEval g => bad g | Signal g => shape (sd_par g) = shape p0 end) as Hgo.
      { intros sig1 H1. destruct (move m step_size U accept scale T s) as [r| |] eqn:E; cbn [rbind] in H1; try discriminate. pose proof (move_ok w T s r Hi E) as Hm. destruct r as [s1|g].
        - destruct Hm as (Hm & l & Hl). destruct (IH _ _ _ _ Hm H1) as ((l' & I1) & I2). split; auto. exists (l ++ l'). rewrite I1, Hl, app_assoc. auto.
        - injection H1 as <- <-. destruct Hm as (b & B1 & B2 & B3). split; [exists [b]; auto|]. exists b. split; auto. split; auto. rewrite B3. apply in_or_app; cbn; auto. }
      destruct sig as [[|k]|]; [|eapply Hgo; eauto|eapply Hgo; eauto]. injection H as <- <-. split; [exists []; rewrite app_nil_r; auto|]. apply Hi.
  Qed.
  Lemma cool_ok w fuel : forall T sig s o, inv w s -> cool m iters step_size mu_t t_min U accept scale fuel T sig s = Ok o ->
    (exists l, sd_log (out_shared o) = sd_log (si_g s) ++ l) /\
    match o with Done s' => inv w s' | BadEval g => bad g | Signal g => shape (sd_par g) = shape p0 end.
  Proof.
    induction fuel as [|fuel IH]; intros T sig s o Hi H; cbn [cool] in H; [discriminate|]. destruct (moves _ _ _ _ _ iters T sig s) as [[o1 sig1]| |] eqn:E; cbn [rbind] in H; try discriminate.
    pose proof (moves_ok w iters T sig s o1 sig1 Hi E) as (Hl & Ho). destruct o1 as [s1|g|g]; [|injection H as <-; auto|injection H as <-; auto].
    cbn [out_shared] in Hl. destruct (Rlt_dec _ t_min); [injection H as <-; auto|]. destruct (IH _ _ _ _ Ho H) as ((l' & I1) & I2). split; auto. destruct Hl as (l & Hl). exists (l ++ l'). rewrite I1, Hl, app_assoc. auto.
  Qed.
  Lemma solve_ok fuel sig start w path b g i o : length start = dim p0 -> check_constraint m start (Sd p0 (if (path : bool) then Some [] else None) []) = (b, g) ->
    siman_solve m iters step_size t_initial mu_t t_min U accept scale fuel sig (Po b w (Fin 0)) g = Ok (i, o) ->
    b = checked start /\ (exists l, sd_log (out_shared o) = b :: l) /\
    match o with Done s' => inv w s' /\ i = si_best s' | BadEval g => (fn m <> None -> bad g) | Signal g => po_beta i = b /\ shape (sd_par g) = shape p0 /\ isnan (obj b) = false end.
  Proof.
    intros Hl Hck H. destruct (check_ok start (Sd p0 (if path then Some [] else None) []) b g Hl eq_refl Hck) as (-> & Hs & Hg & Hpath). cbn [sd_log] in Hg. split; auto. unfold siman_solve in H.
    destruct (energy m (Po (checked start) w (Fin 0)) g) as [r| |] eqn:E; cbn [rbind] in H; try discriminate.
    pose proof (energy_ok (Po (checked start) w (Fin 0)) g r (checked_len start Hl) Hs E) as He. cbn [po_beta po_info po_best] in He. rewrite Hg in He. cbn [app] in He. destruct r as [[[E0 x0] g0]|g0].
    - destruct He as (Hfn & N1 & N2 & N3 & N4 & N5 & N6 & N7 & N8).
      destruct (cool _ _ _ _ _ _ _ _ fuel _ sig _) as [o1| |] eqn:Eco; cbn [rbind] in H; try discriminate. injection H as <- <-.
      assert (inv w (Si x0 E0 x0 E0 0 g0)) as Hinv.
      { assert (pos_ok (sd_log g0) x0) as Hp0. { split; [rewrite N7, N3; cbn; auto|]. rewrite N4. intros Hi. apply andb_true_iff in Hi as [-> Hi]. apply negb_true_iff in Hi. rewrite N3, N5. split; auto. unfold xmax. destruct (xgt (Fin 0) (llv (checked start))) eqn:Eg.
            - repeat split; auto. cbn. destruct (Rlt_dec 0 0); auto; lra.
            - repeat split; auto. right. exists (checked start). rewrite N7. cbn. auto. }
        assert (info_ok w (sd_log g0) x0) as Hi0. { intros Hw Ha. rewrite N4, Hw. rewrite Ha by (rewrite N7; cbn; auto). auto. }
        unfold inv. cbn [si_x si_E si_best si_bE si_k si_g]. split; auto. split.
        { intros h Hh. rewrite N8, Hpath in Hh. destruct path; [|discriminate]. cbn in Hh. injection Hh as <-. rewrite N7. auto. }
        split; [rewrite N6; apply shape_unpack, checked_len; auto|]. split.
        { rewrite N7. intros c [<-|[]]. split; [apply checked_len; auto|]. split; auto. exists start. auto. }
        split; auto. split; auto. split. { split; [rewrite N7, N3; intros c [<-|[]]; apply xgt_refl|]. rewrite N4, N5, N3. intros Hi. apply andb_true_iff in Hi as [-> Hi]. auto. }
        rewrite N3. auto. }
      destruct (cool_ok w fuel _ _ _ _ Hinv Eco) as ((l & Hll) & Ho). cbn [si_g] in Hll. rewrite N7 in Hll. split; [exists l; auto|]. destruct o1 as [s'|g1|g1]; auto.
    - injection H as <- <-. destruct He as (N1 & N2 & N3). cbn [out_shared]. split; [exists []; auto|]. intros Hf. exists (checked start). rewrite N3. cbn. auto.
  Qed.
End a.

(** The value of the function searched over, the log likelihood or else the probability, at given parameters. *)
Definition value (m : mdl) (p : params) : xr := match m_ll m with Some f => f p | None => match m_p m with Some f => f p | None => NaN end end.
Lemma obj_value m p0 b : objective m false p0 b = value m (unpack b p0).
Proof.
  unfold objective, fn, value. rewrite place_id. unfold penalty, nudged. assert (forall a, xneg (xsub (Fin 0) a) = a) as Hn by (intros [x| | |]; cbn; auto; f_equal; lra).
  destruct (m_con m); cbn [fst]; destruct (m_ll m), (m_p m); try rewrite Hn; auto.
Qed.
(** the points tried: first the starting point, as the constraint has it *)
Definition tried (o : outcome) : list (list R) := sd_log (out_shared o).
Lemma annealing_ok m iters ss ti mu tm U acc fuel sig cov w n path p0 start o p rows : con_ok m -> length start = dim p0 ->
  apop_annealing m iters ss ti mu tm U acc fuel sig cov w n path p0 start = Ok (o, p, rows) ->
  exists i, (exists l, tried o = checked m p0 start :: l) /\
    auxinfo m cov w n (Some (po_beta i)) (match o with BadEval _ => -1 | _ => 0 end)%Z (po_best i)
      (Sh (match o with BadEval g => sd_par g | _ => unpack (po_beta i) p0 end) (sd_path (out_shared o)) (po_info i) (po_best i)) = Ok (p, rows) /\
    match o with Done s' => inv m p0 (want_info w) s' /\ i = si_best s' | BadEval g => (fn m <> None -> bad m p0 g) | Signal g => po_beta i = checked m p0 start /\ isnan (objective m false p0 (checked m p0 start)) = false end.
Proof.
  intros Hc Hl H. unfold apop_annealing in H. destruct (check_constraint m start _) as [b g] eqn:Ec.
  destruct (siman_solve _ _ _ _ _ _ _ _ _ _ _ _ _) as [[i o1]| |] eqn:Es; cbn [rbind] in H; try discriminate.
  destruct (solve_ok m p0 Hc iters ss ti mu tm U acc (map set_start start) fuel sig start (want_info w) path b g i o1 Hl Ec Es) as (-> & Hll & Ho).
  set (s1 := Sh _ _ _ _) in H. destruct (auxinfo m cov w n _ _ _ s1) as [[p1 r1]| |] eqn:Ea; cbn [rbind] in H; try discriminate. injection H as <- <- <-. exists i. split; auto.
  split.
  - rewrite <- Ea. unfold s1. destruct o1 as [s'|g1|g1]; cbn [out_shared]; auto; f_equal; f_equal; apply unpack_shape; symmetry; [apply Ho|apply Ho].
  - destruct o1; auto. destruct Ho as (A & _ & B). auto.
Qed.

(** C94: the estimate that a search by annealing comes to is the best of all points tried: the likelihood (with no penalty) is nowhere greater.  Whatever numbers the RNG gives, whichever steps are taken. *)
Theorem C94_best : forall m iters ss ti mu tm U acc fuel sig cov w n path p0 start s p rows, con_ok m -> length start = dim p0 ->
  apop_annealing m iters ss ti mu tm U acc fuel sig cov w n path p0 start = Ok (Done s, p, rows) ->
  exists b, p = (if want_cov w then cov (unpack b p0) else unpack b p0) /\ In b (tried (Done s)) /\ In (checked m p0 start) (tried (Done s)) /\
    forall b', In b' (tried (Done s)) -> isnan (value m (unpack b' p0)) = false /\ xgt (value m (unpack b' p0)) (value m (unpack b p0)) = false.
Proof.
  intros m iters ss ti mu tm U acc fuel sig cov w n path p0 start s p rows Hc Hl H. destruct (annealing_ok _ _ _ _ _ _ _ _ _ _ _ _ _ _ _ _ _ _ _ Hc Hl H) as (i & (l & Hll) & Ha & Hi & ->).
  exists (po_beta (si_best s)). destruct Hi as (Hfn & _ & _ & Hlog & _ & (Hb & _) & (Hbest & _) & _). split; [|split; [exact Hb|split; [rewrite Hll; cbn; auto|]]].
  - unfold auxinfo in Ha. cbn [s_par s_info] in Ha. destruct (po_info (si_best s)); injection Ha as <- _; auto.
  - intros b' Hb'. rewrite <- !obj_value. split; [apply Hlog; exact Hb'|apply Hbest; exact Hb'].
Qed.
Print Assumptions C94_best.

(** ... and the path, if wanted, shows them all, with the value at each. *)
Theorem C94_path : forall m iters ss ti mu tm U acc fuel sig cov w n path p0 start s p rows h, con_ok m -> length start = dim p0 ->
  apop_annealing m iters ss ti mu tm U acc fuel sig cov w n path p0 start = Ok (Done s, p, rows) -> sd_path (si_g s) = Some h ->
  h = map (fun b => (vpart (unpack b p0), value m (unpack b p0))) (tried (Done s)).
Proof.
  intros m iters ss ti mu tm U acc fuel sig cov w n path p0 start s p rows h Hc Hl H Hh. destruct (annealing_ok _ _ _ _ _ _ _ _ _ _ _ _ _ _ _ _ _ _ _ Hc Hl H) as (i & _ & _ & (_ & Hp & _) & _).
  rewrite (Hp h Hh). apply map_ext. intros b. rewrite obj_value. auto.
Qed.
Print Assumptions C94_path.

(** C94: every point tried, the estimate with them, meets the constraint, provided that the constraint itself moves the parameters to a place that meets it. *)
Theorem C94_constraint : forall m c iters ss ti mu tm U acc fuel sig cov w n path p0 start s p rows, con_ok m -> length start = dim p0 -> m_con m = Some c ->
  (forall q, truthy (fst (c (snd (c q)))) = false) ->
  apop_annealing m iters ss ti mu tm U acc fuel sig cov w n path p0 start = Ok (Done s, p, rows) ->
  (forall b, In b (tried (Done s)) -> truthy (fst (c (unpack b p0))) = false) /\ (want_cov w = false -> truthy (fst (c p)) = false).
Proof.
  intros m c iters ss ti mu tm U acc fuel sig cov w n path p0 start s p rows Hc Hl Hm Hs H.
  assert (forall b, In b (tried (Done s)) -> truthy (fst (c (unpack b p0))) = false) as Hall.
  { destruct (annealing_ok _ _ _ _ _ _ _ _ _ _ _ _ _ _ _ _ _ _ _ Hc Hl H) as (i & _ & _ & (_ & _ & _ & Hlog & _) & _). intros b Hb. destruct (Hlog b Hb) as (_ & _ & b0 & Hb0 & ->).
    unfold checked. rewrite Hm. destruct (truthy (fst (c (unpack b0 p0)))) eqn:Et; [|auto]. rewrite unpack_pack; auto. rewrite (Hc c (unpack b0 p0) Hm). apply shape_unpack. auto. }
  split; auto. intros Hw. destruct (C94_best _ _ _ _ _ _ _ _ _ _ _ _ _ _ _ _ _ _ _ Hc Hl H) as (b & -> & Hb & _). rewrite Hw. auto.
Qed.
Print Assumptions C94_constraint.

(** C94: the log likelihood reported is that of the estimate, and it is reported unless some point tried has none. *)
Theorem C94_reported : forall m iters ss ti mu tm U acc fuel sig cov w n path p0 start s p rows, con_ok m -> length start = dim p0 -> want_cov w = false -> want_info w = true ->
  apop_annealing m iters ss ti mu tm U acc fuel sig cov w n path p0 start = Ok (Done s, p, rows) ->
  (exists rest, rows = ("status", Fin 0) :: rest /\ (rest = [] \/ exists rest', rest = ("log likelihood", log_likelihood m p) :: rest')) /\
  ((forall b, In b (tried (Done s)) -> isnan (log_likelihood m (unpack b p0)) = false) -> exists rest, rows = ("status", Fin 0) :: ("log likelihood", log_likelihood m p) :: rest).
Proof.
  intros m iters ss ti mu tm U acc fuel sig cov w n path p0 start s p rows Hc Hl Hw Hwi H. destruct (annealing_ok _ _ _ _ _ _ _ _ _ _ _ _ _ _ _ _ _ _ _ Hc Hl H) as (i & _ & Ha & Hi & ->).
  destruct Hi as (Hfn & _ & _ & Hlog & _ & (Hb & _) & (_ & Hbest) & _ & _ & _ & Hinf). unfold auxinfo in Ha. cbn [s_par s_info] in Ha. rewrite Hw in Ha.
  assert (po_info (si_best s) = true -> exists rest, rows = ("status", Fin 0) :: ("log likelihood", log_likelihood m p) :: rest) as Hyes.
  { intros Hi. rewrite Hi in Ha. injection Ha as <- <-. specialize (Hbest Hi). unfold info_criteria. cbv zeta. eexists. cbn [app]. do 3 f_equal.
    rewrite llv_is in Hbest by auto. set (L := log_likelihood m _) in *. rewrite Hbest. unfold xmax. destruct (xgt (Fin 0) L) eqn:Eg; [rewrite truthy_0; auto|]. destruct (truthy L) eqn:Et; auto. }
  destruct (po_info (si_best s)) eqn:Ei.
  - destruct (Hyes eq_refl) as (rest & ->). split; [|intros _; exists rest; auto]. eexists. split; [reflexivity|]. right. exists rest. auto.
  - injection Ha as <- <-. split; [exists []; auto|]. intros Hall. specialize (Hinf Hwi). rewrite Hinf in Ei; [discriminate|]. intros b Hb'. rewrite llv_is by auto. auto.
Qed.
Print Assumptions C94_reported.

(** C94: the search ends: for every model, however the steps fall, if the temperature falls (mu_t above one, t_min above zero). *)
Lemma energy_nofuel m x g : energy m x g <> Fuel.
Proof.
  unfold energy. pose proof (negshell_nofuel m false (po_beta x) (Sh (sd_par g) (sd_path g) (po_info x) (po_best x))) as H. destruct (negshell _ _ _ _) as [[]| |]; cbn [rbind]; congruence.
Qed.
Lemma moves_nofuel m ss U acc sc n T : forall sig s, moves m ss U acc sc n T sig s <> Fuel.
Proof.
  induction n as [|n IH]; intros sig s; cbn [moves]; [discriminate|].
  assert (forall k, (do r <- move m ss U acc sc T s; match r with inr g => Ok (BadEval g, sig) | inl s => moves m ss U acc sc n T k s end) <> Fuel) as Hgo.
  { intros k. unfold move. destruct (take_step _ _ _ _ _ _ _) as [[new kk] g]. pose proof (energy_nofuel m new g) as He. destruct (energy m new g) as [[[[nE nw] g']|g']| |]; cbn [rbind]; try congruence.
    destruct (if xle nE (si_bE s) then _ else _) as [best bE]. destruct (xlt nE (si_E s)).
    - destruct (if xlt nE bE then _ else _) as [b2 bE2]. cbn [rbind]. apply IH.
    - destruct (acc _ _ _ _); cbn [rbind]; apply IH. }
  destruct sig as [[|k]|]; [discriminate| |]; apply Hgo.
Qed.
Lemma cool_ends m it ss mu tm U acc sc f : forall T sig s, (0 < mu)%R -> (T * (1 / mu) ^ S f < tm)%R -> cool m it ss mu tm U acc sc (S f) T sig s <> Fuel.
Proof.
  induction f as [|f IH]; intros T sig s Hmu HT; cbn [cool]; pose proof (moves_nofuel m ss U acc sc it T sig s) as Hm; destruct (moves _ _ _ _ _ _ _ _ _) as [[[s1|g|g] sig1]| |]; cbn [rbind]; try congruence.
  - destruct (Rlt_dec _ tm) as [|H]; [discriminate|]. exfalso. apply H. cbn in HT. lra.
  - destruct (Rlt_dec _ tm); [discriminate|]. apply IH; auto. cbn in *. rewrite Rmult_assoc. auto.
Qed.
Theorem C94_terminates : forall ti mu tm, (1 < mu)%R -> (0 < tm)%R -> exists fuel, forall m iters ss U acc sig cov w n path p0 start,
  apop_annealing m iters ss ti mu tm U acc fuel sig cov w n path p0 start <> Fuel.
Proof.
  intros ti mu tm Hmu Htm. assert (Rabs (1 / mu) < 1)%R as Ha. { rewrite Rabs_pos_eq; [|apply Rlt_le, Rdiv_lt_0_compat; lra]. apply (Rmult_lt_reg_r mu); [lra|]. unfold Rdiv. rewrite Rmult_assoc, Rinv_l; lra. }
  assert (0 < tm / (1 + Rabs ti))%R as Hp by (apply Rdiv_lt_0_compat; [lra|pose proof (Rabs_pos ti); lra]).
  destruct (pow_lt_1_zero (1 / mu) Ha _ Hp) as [N HN]. exists (S N). intros m iters ss U acc sig cov w n path p0 start. unfold apop_annealing.
  destruct (check_constraint _ _ _) as [b g]. unfold siman_solve. pose proof (energy_nofuel m (Po b (want_info w) (Fin 0)) g) as He. destruct (energy m _ g) as [[[[E x0] g0]|g0]| |]; cbn [rbind]; try congruence.
  - assert (ti * (1 / mu) ^ S N < tm)%R as HT.
    { specialize (HN (S N) ltac:(lia)). assert (0 < (1 / mu) ^ S N)%R by (apply pow_lt, Rdiv_lt_0_compat; lra). rewrite Rabs_pos_eq in HN by lra. pose proof (Rle_abs ti). pose proof (Rabs_pos ti).
      apply (Rmult_lt_compat_r (1 + Rabs ti)) in HN; [|lra]. unfold Rdiv in HN at 2. rewrite Rmult_assoc, Rinv_l, Rmult_1_r in HN by lra. nra. }
    pose proof (cool_ends m iters ss mu tm U acc (map set_start start) N ti sig (Si x0 E x0 E 0 g0) ltac:(lra) HT) as Hco. destruct (cool _ _ _ _ _ _ _ _ _ _ _ _) as [o| |]; cbn [rbind]; try congruence.
    unfold auxinfo. destruct (s_info _); discriminate.
  - unfold auxinfo. destruct (s_info _); discriminate.
Qed.
Print Assumptions C94_terminates.

(** C94, refuted: a point without a likelihood is passed over.  The search ends there, with status -1, and the estimate is that point. *)
Theorem C94_refuted_nan : forall m iters ss ti mu tm U acc fuel sig cov w n path p0 start g p rows, con_ok m -> length start = dim p0 -> want_cov w = false -> fn m <> None ->
  apop_annealing m iters ss ti mu tm U acc fuel sig cov w n path p0 start = Ok (BadEval g, p, rows) -> isnan (value m p) = true /\ exists rest, rows = ("status", Fin (-1)) :: rest.
Proof.
  intros m iters ss ti mu tm U acc fuel sig cov w n path p0 start g p rows Hc Hl Hw Hf H. destruct (annealing_ok _ _ _ _ _ _ _ _ _ _ _ _ _ _ _ _ _ _ _ Hc Hl H) as (i & _ & Ha & Hb).
  destruct (Hb Hf) as (b & B1 & B2 & _). unfold auxinfo in Ha. cbn [s_par s_info] in Ha. rewrite Hw in Ha. rewrite obj_value, <- B2 in B1. destruct (po_info i); injection Ha as <- <-; split; eauto.
Qed.
Print Assumptions C94_refuted_nan.
(** C94, refuted: halted by SIGINT, the search returns "whatever parameters the search was on at the time".  It returns the starting point (as the constraint has it), and status 0, however far it has come. *)
Theorem C94_refuted_signal : forall m iters ss ti mu tm U acc fuel sig cov w n path p0 start g p rows, con_ok m -> length start = dim p0 -> want_cov w = false ->
  apop_annealing m iters ss ti mu tm U acc fuel sig cov w n path p0 start = Ok (Signal g, p, rows) -> p = unpack (checked m p0 start) p0 /\ exists rest, rows = ("status", Fin 0) :: rest.
Proof.
  intros m iters ss ti mu tm U acc fuel sig cov w n path p0 start g p rows Hc Hl Hw H. destruct (annealing_ok _ _ _ _ _ _ _ _ _ _ _ _ _ _ _ _ _ _ _ Hc Hl H) as (i & _ & Ha & Hb & _).
  unfold auxinfo in Ha. cbn [s_par s_info] in Ha. rewrite Hw, Hb in Ha. destruct (po_info i); injection Ha as <- <-; split; eauto.
Qed.
Print Assumptions C94_refuted_signal.

(** one parameter, the log likelihood is the parameter up to 5/2 and then not a number; the step is one unit *)
Definition climb : mdl := Md (Some (fun p => match vpart p with [x] => if Rlt_dec x (5 / 2) then Fin x else NaN | _ => NaN end)) None None.
Lemma step_one x s k : annealing_step [x] [1%R] (map (fun _ => 1%R) (seq k (length [x] - 1))) (map (fun _ => 1%R) (seq (k + (length [x] - 1)) (length [x]))) s = [(x + s)%R].
Proof. cbn [length Nat.sub seq map]. unfold annealing_step, cutpoints. cbn [step_loop app nth]. destruct (Rlt_dec (1 / 2) 1); [|lra]. f_equal. lra. Qed.
Lemma scale_one : map set_start [1%R] = [1%R].
Proof. cbn. unfold set_start. destruct (Req_EM_T 1 0); [exfalso; lra|reflexivity]. Qed.
Lemma energy_climb x b y log : (x < 5 / 2)%R ->
  energy climb (Po [x] true b) (Sd (Pr (Some [y]) []) None log) = Ok (inl (xsub (Fin 0) (Fin x), Po [x] true (xmax b (xneg (xsub (Fin 0) (Fin x)))), Sd (Pr (Some [x]) []) None (log ++ [[x]]))).
Proof.
  intros Hx. unfold energy, negshell, climb. cbn [m_ll m_p m_con po_beta s_par unpack p_vec length take drop vpart].  rewrite truthy_0. cbn. destruct (Rlt_dec x (5 / 2)); [|exfalso; lra]. reflexivity.
Qed.
Lemma energy_off x b y log : ~ (x < 5 / 2)%R -> energy climb (Po [x] true b) (Sd (Pr (Some [y]) []) None log) = Ok (inr (Sd (Pr (Some [x]) []) None (log ++ [[x]]))).
Proof.
  intros Hx. unfold energy, negshell, climb. cbn [m_ll m_p m_con po_beta s_par unpack p_vec length take drop vpart].  cbn. destruct (Rlt_dec x (5 / 2)); [exfalso; lra|]. reflexivity.
Qed.
Lemma take_climb x b y log k s : take_step climb s (fun _ => 1%R) [1%R] (Po [x] true b) k (Sd (Pr (Some [y]) []) None log) = (Po [(x + s)%R] true b, k + 0 + 1, Sd (Pr (Some [(x + s)%R]) []) None log).
Proof. unfold take_step. cbn [po_beta]. rewrite step_one. reflexivity. Qed.
Notation fin0 x := (xsub (Fin 0) (Fin x)).
Lemma move_climb x b k y log : (x + 1 < 5 / 2)%R -> move climb 1 (fun _ => 1%R) (fun _ _ _ _ => false) [1%R] 1 (Si (Po [x] true b) (fin0 x) (Po [x] true b) (fin0 x) k (Sd (Pr (Some [y]) []) None log)) =
  Ok (inl (Si (Po [(x + 1)%R] true (xmax b (xneg (fin0 (x + 1)%R)))) (fin0 (x + 1)%R) (Po [(x + 1)%R] true (xmax b (xneg (fin0 (x + 1)%R)))) (fin0 (x + 1)%R) (k + 0 + 1) (Sd (Pr (Some [(x + 1)%R]) []) None (log ++ [[(x + 1)%R]])))).
Proof.
  intros Hx. unfold move. cbn [si_x si_k si_g si_E si_bE si_best]. rewrite take_climb, energy_climb by auto. cbn [rbind].
  assert (xle (fin0 (x + 1)%R) (fin0 x) = true) as -> by (unfold xle, xlt, xgt, xsub, xadd, xneg; match goal with |- context [Rlt_dec ?a ?b] => destruct (Rlt_dec a b); auto; exfalso; lra end).
  assert (xlt (fin0 (x + 1)%R) (fin0 x) = true) as -> by (unfold xle, xlt, xgt, xsub, xadd, xneg; match goal with |- context [Rlt_dec ?a ?b] => destruct (Rlt_dec a b); auto; exfalso; lra end).
  assert (xlt (fin0 (x + 1)%R) (fin0 (x + 1)%R) = false) as -> by (apply xgt_refl). auto.
Qed.
Definition climbing (iters : nat) (sig : option nat) := apop_annealing climb iters 1 1 2 1 (fun _ => 1%R) (fun _ _ _ _ => false) 3 sig (fun p => p) None None false (Pr (Some [1%R]) []) [1%R].
Lemma two : (1 + 1)%R = 2%R. Proof. lra. Qed.
Lemma three : (2 + 1)%R = 3%R. Proof. lra. Qed.
Lemma climb_done : exists s rows, climbing 1 None = Ok (Done s, Pr (Some [2%R]) [], rows) /\ tried (Done s) = [[1%R]; [2%R]].
Proof.
  unfold climbing, apop_annealing. rewrite scale_one. cbn [check_constraint m_con climb sd_par unpack p_vec length take drop sd_path sd_log]. unfold siman_solve. cbn [want_info]. rewrite energy_climb by lra. cbn [rbind cool moves].
  rewrite move_climb by lra. cbn [rbind moves app]. rewrite two. destruct (Rlt_dec (1 * (1 / 2)) 1); [|lra]. cbn [rbind si_best out_shared si_g sd_par sd_path po_beta unpack p_vec length take drop po_info po_best].
  unfold auxinfo. cbn [want_cov s_info s_par rbind]. eexists _, _. split; [reflexivity|]. reflexivity.
Qed.
Lemma climb_signal : exists g rows, climbing 5 (Some 1) = Ok (Signal g, Pr (Some [1%R]) [], rows) /\ tried (Signal g) = [[1%R]; [2%R]].
Proof.
  unfold climbing, apop_annealing. rewrite scale_one. cbn [check_constraint m_con climb sd_par unpack p_vec length take drop sd_path sd_log]. unfold siman_solve. cbn [want_info]. rewrite energy_climb by lra. cbn [rbind cool moves].
  rewrite move_climb by lra. cbn [rbind moves app option_map pred]. rewrite two. cbn [rbind si_best out_shared si_g sd_par sd_path po_beta unpack p_vec length take drop po_info po_best].
  unfold auxinfo. cbn [want_cov s_info s_par rbind]. eexists _, _. split; [reflexivity|]. reflexivity.
Qed.
Lemma climb_bad : exists g rows, climbing 5 None = Ok (BadEval g, Pr (Some [3%R]) [], rows) /\ tried (BadEval g) = [[1%R]; [2%R]; [3%R]].
Proof.
  unfold climbing, apop_annealing. rewrite scale_one. cbn [check_constraint m_con climb sd_par unpack p_vec length take drop sd_path sd_log]. unfold siman_solve. cbn [want_info]. rewrite energy_climb by lra. cbn [rbind cool moves].
  rewrite move_climb by lra. cbn [rbind moves app option_map pred]. rewrite two. unfold move at 1. cbn [si_x si_k si_g]. rewrite take_climb, three, energy_off by lra. cbn [rbind si_best out_shared si_g sd_par sd_path po_beta unpack p_vec length take drop po_info po_best app].
  unfold auxinfo. cbn [want_cov s_info s_par rbind]. eexists _, _. split; [reflexivity|]. reflexivity.
Qed.
(** a search that climbs from 1 to 2 and is done; one that is halted at 2 and returns 1; one that goes on to 3, where there is no likelihood, and returns 3 *)
Example C94_nonvacuous : con_ok climb /\ fn climb <> None /\ (exists s rows, climbing 1 None = Ok (Done s, Pr (Some [2%R]) [], rows) /\ tried (Done s) = [[1%R]; [2%R]]) /\
  (exists g rows, climbing 5 (Some 1) = Ok (Signal g, Pr (Some [1%R]) [], rows) /\ tried (Signal g) = [[1%R]; [2%R]]) /\
  (exists g rows, climbing 5 None = Ok (BadEval g, Pr (Some [3%R]) [], rows) /\ tried (BadEval g) = [[1%R]; [2%R]; [3%R]]).
Proof. split; [intros c p; discriminate|]. split; [discriminate|]. split; [apply climb_done|]. split; [apply climb_signal|apply climb_bad]. Qed.

Local Open Scope R_scope.
(** C93: the distance (as annealing_distance measures it) of one step before the constraint *)
Definition gaps (cut : list R) (n j : nat) : R := fold_right Rplus 0 (map (fun i => Rabs (nth (S i) cut 0 - nth i cut 0)) (seq j n)).
Lemma step_nth st scale cut v : forall beta j i, (i < length beta)%nat -> exists sg, (sg = 1 \/ sg = -1) /\
  nth i (step_loop j beta scale cut v st) 0 = nth i beta 0 + (nth (S (j + i)) cut 0 - nth (j + i) cut 0) * sg * nth (j + i) scale 0 * st.
Proof.
  induction beta as [|b beta IH]; intros j i Hi; [cbn in Hi; lia|]. cbn [step_loop]. destruct i as [|i].
  - rewrite Nat.add_0_r. cbn [nth]. destruct (Rlt_dec _ _); [exists 1|exists (-1)]; auto.
  - cbn [nth]. rewrite <- plus_n_Sm. apply (IH (S j) i). cbn in Hi. lia.
Qed.
Lemma fold_scal c l : fold_right Rplus 0 (map (fun x => c * x) l) = c * fold_right Rplus 0 l.
Proof. induction l as [|x l IH]; cbn [map fold_right]; [lra|]. rewrite IH. lra. Qed.
(** C93: the distance of a step is its size, times the sum of the distances between neighbouring cut points. *)
Theorem C93_distance : forall beta start u v st, length start = length beta ->
  annealing_distance (map set_start start) beta (annealing_step beta (map set_start start) u v st) = Rabs st * gaps (cutpoints u) (length beta) 0.
Proof.
  intros beta start u v st Hl. unfold annealing_distance, gaps, annealing_step. rewrite <- fold_scal, map_map. f_equal. apply map_ext_in. intros i Hi. apply in_seq in Hi.
  destruct (step_nth st (map set_start start) (cutpoints u) v beta 0 i) as (sg & Hsg & ->); [lia|]. cbn [Nat.add].
  assert (nth i (map set_start start) 0 <> 0) as Hn. { rewrite (nth_indep _ 0 (set_start 0)) by (rewrite map_length; lia). rewrite map_nth. unfold set_start. destruct (Req_EM_T _ 0); lra. }
  set (sc := nth i (map set_start start) 0) in *. set (d := nth (S i) (cutpoints u) 0 - nth i (cutpoints u) 0).
  replace (nth i beta 0 / sc - (nth i beta 0 + d * sg * sc * st) / sc) with (- sg * (st * d)) by (field; auto). rewrite Rabs_mult, Rabs_mult.
  destruct Hsg as [->| ->]; [rewrite Rabs_Ropp, Rabs_R1|replace (- -1) with 1 by lra; rewrite Rabs_R1]; lra.
Qed.
Print Assumptions C93_distance.
Lemma gaps_S cut n j : gaps cut (S n) j = Rabs (nth (S j) cut 0 - nth j cut 0) + gaps cut n (S j).
Proof. reflexivity. Qed.
Lemma gaps_sorted cut n : forall j, (forall i, (j <= i < j + n)%nat -> nth i cut 0 <= nth (S i) cut 0) -> gaps cut n j = nth (j + n) cut 0 - nth j cut 0.
Proof.
  induction n as [|n IH]; intros j H; [rewrite Nat.add_0_r; unfold gaps; cbn; lra|]. rewrite gaps_S, IH by (intros i Hi; apply H; lia).
  rewrite Rabs_pos_eq by (pose proof (H j ltac:(lia)); lra). rewrite <- plus_n_Sm. cbn [Nat.add]. lra.
Qed.
Lemma cut_last u : nth (S (length u)) (cutpoints u) 0 = 1.
Proof. unfold cutpoints. cbn [nth]. rewrite app_nth2 by lia. rewrite Nat.sub_diag. auto. Qed.
(** C93: with one parameter or two, the step is exactly as long as asked for; so with any number if the cut points drawn happen to come in order. *)
Theorem C93_sorted : forall beta start u v st, length start = length beta -> length beta = S (length u) -> (forall x, In x u -> 0 <= x <= 1) ->
  (length u <= 1)%nat \/ (forall i, (S i < length u)%nat -> nth i u 0 <= nth (S i) u 0) ->
  annealing_distance (map set_start start) beta (annealing_step beta (map set_start start) u v st) = Rabs st.
Proof.
  intros beta start u v st Hl Hn Hu Ho. rewrite C93_distance by auto. rewrite Hn. rewrite gaps_sorted.
  - cbn [Nat.add]. rewrite cut_last. cbn. lra.
  - intros i Hi. destruct i as [|i]; unfold cutpoints; cbn [nth].
    + destruct u as [|x u]; cbn; [lra|]. apply Hu. cbn. auto.
    + destruct (Nat.eq_dec (S i) (length u)) as [E|E].
      * rewrite app_nth1 by lia. rewrite app_nth2 by lia. replace (S i - length u)%nat with 0%nat by lia. cbn. apply Hu. apply nth_In. lia.
      * rewrite !app_nth1 by lia. destruct Ho as [Ho|Ho]; [lia|]. apply Ho. lia.
Qed.
Print Assumptions C93_sorted.
(** C93: in general it is at most as many times the size as there are parameters. *)
Theorem C93_bound : forall beta start u v st, length start = length beta -> length beta = S (length u) -> (forall x, In x u -> 0 <= x <= 1) ->
  annealing_distance (map set_start start) beta (annealing_step beta (map set_start start) u v st) <= INR (length beta) * Rabs st.
Proof.
  intros beta start u v st Hl Hn Hu. rewrite C93_distance by auto. rewrite Rmult_comm. apply Rmult_le_compat_r; [apply Rabs_pos|].
  assert (forall i, (i <= S (length u))%nat -> 0 <= nth i (cutpoints u) 0 <= 1) as Hr.
  { intros [|i] Hi; unfold cutpoints; cbn [nth]; [lra|]. destruct (Nat.eq_dec i (length u)) as [->|E]; [rewrite app_nth2, Nat.sub_diag by lia; cbn; lra|]. rewrite app_nth1 by lia. apply Hu, nth_In. lia. }
  rewrite Hn. assert (forall n j, (j + n <= S (length u))%nat -> gaps (cutpoints u) n j <= INR n) as H.
  { induction n as [|n IH]; intros j Hj; [unfold gaps; cbn; lra|]. rewrite gaps_S, S_INR. specialize (IH (S j) ltac:(lia)). pose proof (Hr j ltac:(lia)). pose proof (Hr (S j) ltac:(lia)).
    assert (Rabs (nth (S j) (cutpoints u) 0 - nth j (cutpoints u) 0) <= 1) by (apply Rabs_le; lra). lra. }
  apply H. lia.
Qed.
Print Assumptions C93_bound.
(** C93, refuted: "a move <= step_size on the Manhattan metric" with three parameters *)
Theorem C93_refuted : exists u, (forall x, In x u -> 0 <= x < 1) /\ forall beta start v st, length beta = 3%nat -> length start = 3%nat -> 0 < st ->
  st < annealing_distance (map set_start start) beta (annealing_step beta (map set_start start) u v st).
Proof.
  exists [9 / 10; 1 / 10]. split; [intros x [<-|[<-|[]]]; lra|]. intros beta start v st Hb Hs Hst. rewrite C93_distance by lia. rewrite Hb. unfold gaps, cutpoints. cbn [seq map app nth fold_right].
  rewrite (Rabs_pos_eq st) by lra. rewrite (Rabs_pos_eq (9 / 10 - 0)), (Rabs_left (1 / 10 - 9 / 10)), (Rabs_pos_eq (1 - 1 / 10)) by lra. lra.
Qed.
Print Assumptions C93_refuted.
Example C93_nonvacuous : annealing_step [1; 2; 0] [1; 2; 1] [1 / 4; 3 / 4] [0; 1; 1] 4 = [0; 6; 1].
Proof.
  unfold annealing_step, cutpoints. cbn [step_loop app nth]. destruct (Rlt_dec (1 / 2) 0); [lra|]. destruct (Rlt_dec (1 / 2) 1); [|lra]. f_equal; [lra|f_equal; [lra|f_equal; lra]].
Qed.
