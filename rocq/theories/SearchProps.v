(** C88: how a likelihood search ends and what it reports of that. *)
From Coq Require Import Reals Lra.
From Verif Require Import Base DataModel NamesModel SearchModel SearchSpec.
Local Open Scope string_scope.
Local Open Scope list_scope.
Local Open Scope nat_scope.

Lemma unpack_shape b p q : shape p = shape q -> unpack b p = unpack b q.
Proof.
  unfold shape, unpack. destruct p as [[v|] r], q as [[v'|] r']; cbn; intros H; injection H; intros; try discriminate; auto.
  replace (length v') with (length v) by congruence. auto.
Qed.
Lemma pack_len p : length (pack p) = dim p.
Proof. unfold pack, dim. rewrite app_length. auto. Qed.
Lemma shape_dim p q : shape p = shape q -> dim p = dim q.
Proof. destruct p as [[v|] r], q as [[v'|] r']; unfold shape, dim, vpart; cbn; intros H; injection H; intros; try discriminate; congruence. Qed.
Lemma shape_unpack b p : length b = dim p -> shape (unpack b p) = shape p.
Proof.
  destruct p as [[v|] r]; unfold shape, dim, vpart, unpack; cbn; intros H; f_equal; auto.
  - rewrite take_length. f_equal. lia.
  - rewrite drop_length. lia.
Qed.
Lemma pack_unpack b p : pack (unpack b p) = b.
Proof. unfold pack, unpack. destruct (p_vec p); cbn; auto. apply take_drop. Qed.

Section s.
  Context (m : mdl) (use_con : bool) (p0 : params).
  Notation fn := (fn m).  Notation nudged := (nudged m use_con).  Notation place := (place m use_con p0).
  Notation penalty := (penalty m use_con p0).  Notation objective := (objective m use_con p0).
  Notation llval := (llval m use_con p0).  Notation again := (again m use_con p0).
  Hypothesis Hc : con_ok m.

  Lemma nudged_shape p : shape (snd (nudged p)) = shape p.
  Proof. unfold SearchSpec.nudged. destruct (m_con m) eqn:E; auto. destruct use_con; auto. Qed.
  Lemma place_shape b : length b = dim p0 -> shape (place b) = shape p0.
  Proof. intros H. unfold SearchSpec.place. rewrite nudged_shape. apply shape_unpack. auto. Qed.
  Lemma again_len b : length b = dim p0 -> length (again b) = dim p0.
  Proof. intros H. unfold SearchSpec.again. destruct (truthy _); auto. rewrite pack_len. apply shape_dim, place_shape. auto. Qed.
  Lemma xneg_nan a : isnan (xneg a) = isnan a. Proof. destruct a; auto. Qed.
  Lemma xneg_invol a : xneg (xneg a) = a. Proof. destruct a; cbn; f_equal. lra. Qed.

  (** one evaluation *)
  Lemma negshell_is b s : shape (s_par s) = shape p0 ->
    negshell m use_con b s =
      match fn with
      | None => Ok (Jump s)
      | Some _ =>
        if isnan (objective b) then Ok (Jump (Sh (place b) (s_path s) (s_info s) (s_best s)))
        else match s_path s with
             | None => Ok (Val (xneg (objective b)) (again b) (Sh (place b) None (s_info s && negb (isnan (llval b))) (if s_info s then xmax (s_best s) (llval b) else s_best s)))
             | Some h => match p_vec (place b) with
                         | None => UB
                         | Some v => Ok (Val (xneg (objective b)) (again b) (Sh (place b) (Some (h ++ [(v, objective b)])) (s_info s && negb (isnan (llval b))) (if s_info s then xmax (s_best s) (llval b) else s_best s)))
                         end
             end
      end.
  Proof.
    intros Hs. unfold negshell, SearchSpec.objective, SearchSpec.llval, SearchSpec.again, SearchSpec.penalty, SearchSpec.place, SearchSpec.objective, SearchSpec.penalty, SearchSpec.place.
    rewrite (unpack_shape b _ _ Hs). fold (SearchSpec.fn m). change (match m_con m with Some c => if use_con then c (unpack b p0) else (Fin 0, unpack b p0) | None => (Fin 0, unpack b p0) end) with (nudged (unpack b p0)).
    destruct fn as [f|]; auto. destruct (nudged (unpack b p0)) as [pen p']. cbn [fst snd].
    set (out := xsub pen (f p')). rewrite xneg_nan. destruct (isnan out) eqn:En; auto. rewrite !xneg_invol.
    destruct (s_path s) as [h|]; cbn [rbind].
    - unfold tracepath. destruct (p_vec p') as [v|]; cbn [rbind]; auto. destruct (s_info s); auto.
    - destruct (s_info s); auto.
  Qed.

  (** every evaluation of a search, whatever the minimiser asks for *)
  Definition recorded (b : list R) : list R * xr := (vpart (place b), objective b).
  Definition after (s s' : shell) (pts : list (list R)) : Prop :=
    shape (s_par s') = shape p0 /\ Forall (fun b => isnan (objective b) = false) pts /\
    s_path s' = option_map (fun h => h ++ map recorded pts) (s_path s) /\
    s_info s' = s_info s && forallb (fun b => negb (isnan (llval b))) pts /\
    (s_info s' = true -> s_best s' = fold_left xmax (map llval pts) (s_best s)).
  Lemma after_nil s : shape (s_par s) = shape p0 -> after s s [].
  Proof. intros H. split; auto. split; [constructor|]. split; [destruct (s_path s); cbn; auto; rewrite app_nil_r; auto|]. split; cbn; [rewrite andb_true_r|]; auto. Qed.
  Lemma after_app s1 s2 s3 a b : after s1 s2 a -> after s2 s3 b -> after s1 s3 (a ++ b).
  Proof.
    intros (A1 & A2 & A3 & A4 & A5) (B1 & B2 & B3 & B4 & B5). split; auto. split; [apply Forall_app; auto|]. split; [|split].
    - rewrite B3, A3. destruct (s_path s1); cbn; auto. rewrite map_app, app_assoc. auto.
    - rewrite B4, A4, forallb_app, andb_assoc. auto.
    - intros H. rewrite B5 by auto. rewrite A5; [rewrite map_app, fold_left_app; auto|]. rewrite B4 in H. apply andb_true_iff in H as [H _]. auto.
  Qed.
  Lemma negshell_val b s o b' s' : length b = dim p0 -> shape (s_par s) = shape p0 -> negshell m use_con b s = Ok (Val o b' s') -> after s s' [b] /\ b' = again b.
  Proof.
    intros Hb Hs. rewrite negshell_is by auto. destruct fn as [f|]; [|discriminate]. destruct (isnan (objective b)) eqn:En; [discriminate|].
    destruct (s_path s) as [h|] eqn:Ep.
    - destruct (p_vec (place b)) as [v|] eqn:Ev; [|discriminate]. intros H; injection H as <- <- <-. split; auto.
      split; [apply place_shape; auto|]. split; [repeat constructor; auto|]. cbn [s_path s_info s_best map forallb fold_left]. rewrite Ep. split; [|split].
      + cbn. unfold recorded, vpart. rewrite Ev. auto.
      + rewrite andb_true_r. auto.
      + intros H. apply andb_true_iff in H as [-> _]. auto.
    - intros H; injection H as <- <- <-. split; auto.
      split; [apply place_shape; auto|]. split; [repeat constructor; auto|]. cbn [s_path s_info s_best map forallb fold_left]. rewrite Ep. split; [auto|split].
      + rewrite andb_true_r. auto.
      + intros H. apply andb_true_iff in H as [-> _]. auto.
  Qed.
  Lemma negshell_jump b s s' : shape (s_par s) = shape p0 -> negshell m use_con b s = Ok (Jump s') -> isnan (objective b) = true.
  Proof.
    intros Hs. rewrite negshell_is by auto. unfold SearchSpec.objective. destruct fn as [f|]; auto. destruct (isnan _) eqn:En; auto.
    destruct (s_path s); [destruct (p_vec _)|]; discriminate.
  Qed.
  Lemma dnegshell_some grad b s s' : keeps grad -> length b = dim p0 -> shape (s_par s) = shape p0 -> dnegshell m use_con grad b s = Ok (Some s') ->
    after s s' (if match s_path s with Some _ => true | None => false end then [b] else []).
  Proof.
    intros Hg Hb Hs. unfold dnegshell. cbv zeta. cbn [s_path s_par].
    assert (shape (grad (unpack b (s_par s))) = shape p0) as Hs2 by (rewrite Hg, shape_unpack; auto; rewrite (shape_dim _ _ Hs); auto).
    set (s1 := Sh (grad (unpack b (s_par s))) (s_path s) (s_info s) (s_best s)).
    assert (forall pts, after s1 s' pts -> after s s' pts) as Hsame by (intros pts H; exact H).
    destruct (s_path s) as [h|] eqn:Ep.
    - intros H. destruct (negshell m use_con b s1) as [[o b' s2|s2]| |] eqn:En; cbn in H; try discriminate. injection H as <-.
      apply Hsame. apply (negshell_val b s1 o b' s2) in En as [En _]; auto.
    - intros H; injection H as <-. apply Hsame. apply after_nil. auto.
  Qed.
  Lemma dnegshell_none grad b s : keeps grad -> length b = dim p0 -> shape (s_par s) = shape p0 -> dnegshell m use_con grad b s = Ok None -> isnan (objective b) = true.
  Proof.
    intros Hg Hb Hs. unfold dnegshell. cbv zeta. cbn [s_path s_par].
    assert (shape (grad (unpack b (s_par s))) = shape p0) as Hs2 by (rewrite Hg, shape_unpack; auto; rewrite (shape_dim _ _ Hs); auto).
    set (s1 := Sh (grad (unpack b (s_par s))) (s_path s) (s_info s) (s_best s)). destruct (s_path s); [|discriminate].
    intros H. destruct (negshell m use_con b s1) as [[o b' s2|s2]| |] eqn:En; cbn in H; try discriminate. apply (negshell_jump b s1 s2) in En; auto.
  Qed.
  Definition has {A} (o : option A) : bool := match o with Some _ => true | None => false end.
  Lemma after_path s s' pts : after s s' pts -> has (s_path s') = has (s_path s).
  Proof. intros (_ & _ & H & _). rewrite H. destruct (s_path s); auto. Qed.

  Definition broke_off (s s' : shell) (pts : list (list R)) : Prop :=
    exists done b rest, pts = done ++ b :: rest /\ after s s' done /\ isnan (objective b) = true.
  Lemma negshell_jump_after b s s' : length b = dim p0 -> shape (s_par s) = shape p0 -> negshell m use_con b s = Ok (Jump s') -> after s s' [].
  Proof.
    intros Hb Hs. rewrite negshell_is by auto. destruct fn as [f|]; [|intros H; injection H as <-; apply after_nil; auto].
    destruct (isnan (objective b)); [intros H; injection H as <-|destruct (s_path s); [destruct (p_vec _)|]; discriminate].
    destruct (after_nil s Hs) as (_ & A2). split; [apply place_shape; auto|]. exact A2.
  Qed.
  Lemma requests_ok grad l s r : keeps grad -> asks_ok p0 l -> shape (s_par s) = shape p0 -> requests m use_con grad l s = Ok r ->
    let pts := flat_map (points m use_con p0 (has (s_path s))) l in
    match r with inl s' => after s s' pts | inr s' => broke_off s s' pts end.
  Proof.
    intros Hg. revert s; induction l as [|q l IH]; intros s HF Hs Hr; cbn [flat_map]; [injection Hr as <-; apply after_nil; auto|].
    apply Forall_cons_iff in HF as [Hq HF]. cbn [requests] in Hr.
    assert (forall s1 pts, after s s1 pts -> points m use_con p0 (has (s_path s)) q = pts -> requests m use_con grad l s1 = Ok r ->
      match r with inl s' => after s s' (points m use_con p0 (has (s_path s)) q ++ flat_map (points m use_con p0 (has (s_path s))) l)
      | inr s' => broke_off s s' (points m use_con p0 (has (s_path s)) q ++ flat_map (points m use_con p0 (has (s_path s))) l) end) as Hgo.
    { intros s1 pts A Hp Hr1. pose proof (after_path _ _ _ A) as Hap. pose proof A as (A1 & A2). pose proof (IH s1 HF A1 Hr1) as I. cbv zeta in I. rewrite Hap in I.
      rewrite Hp. destruct r as [s'|s']; [apply (after_app s s1 s'); auto|]. destruct I as (d & b & rest & I1 & I2 & I3). exists (pts ++ d), b, rest.
      split; [rewrite I1, <- app_assoc; auto|]. split; auto. apply (after_app s s1 s'); auto. }
    destruct q as [b|b|b]; cbn [the_point] in Hq.
    - destruct (negshell m use_con b s) as [[o b' s1|s1]| |] eqn:E; cbn [rbind] in Hr; try discriminate.
      + apply negshell_val in E as [A _]; auto. apply (Hgo s1 [b]); auto.
      + injection Hr as <-. exists [], b, (flat_map (points m use_con p0 (has (s_path s))) l). split; auto. split; [apply (negshell_jump_after b); auto|].
        apply (negshell_jump b s s1); auto.
    - destruct (dnegshell m use_con grad b s) as [[s1|]| |] eqn:E; cbn [rbind] in Hr; try discriminate.
      + apply dnegshell_some in E; auto. apply (Hgo s1 _ E); auto.
      + injection Hr as <-. pose proof E as E0. apply dnegshell_none in E; auto. exists [], b, (flat_map (points m use_con p0 (has (s_path s))) l).
        split; [|split; auto; apply after_nil; auto]. cbn. unfold dnegshell in E0. cbn in E0. destruct (s_path s); [cbn; auto|discriminate].
    - destruct (negshell m use_con b s) as [[o b' s1|s1]| |] eqn:E; cbn [rbind] in Hr; try discriminate.
      + apply negshell_val in E as [A ->]; auto. pose proof (after_path _ _ _ A) as Hap. pose proof A as (A1 & _).
        destruct (dnegshell m use_con grad (again b) s1) as [[s2|]| |] eqn:E2; cbn [rbind] in Hr; try discriminate.
        * apply dnegshell_some in E2; auto using again_len. apply (Hgo s2 (b :: (if has (s_path s) then [again b] else []))); auto.
          change (b :: ?x) with ([b] ++ x). apply (after_app s s1 s2); auto. unfold has in *. rewrite <- Hap. exact E2.
        * injection Hr as <-. pose proof E2 as E0. apply dnegshell_none in E2; auto using again_len. exists [b], (again b), (flat_map (points m use_con p0 (has (s_path s))) l).
          split; [|split; auto]. unfold dnegshell in E0. cbn in E0. cbn [points]. rewrite <- Hap. destruct (s_path s1); [cbn; auto|discriminate].
      + injection Hr as <-. exists [], b, ((if has (s_path s) then [again b] else []) ++ flat_map (points m use_con p0 (has (s_path s))) l).
        split; auto. split; [apply (negshell_jump_after b); auto|]. apply (negshell_jump b s s1); auto.
  Qed.
End s.

(** ---- the loop ---- *)
Section l.
  Context (m : mdl) (use_con : bool) (me : method) (grad : params -> params) (max_it : Z) (run : nat -> event).
  (** the shell at the beginning of iteration [k] *)
  Inductive reaches (s0 : shell) : nat -> shell -> Prop :=
  | reach_0 : reaches s0 0 s0
  | reach_S k s s' : reaches s0 k s -> requests m use_con grad (ev_asks (run k)) s = Ok (inl s') -> goes_on me (run k) ->
      (Z.of_nat k + 1 < max_it)%Z -> reaches s0 (S k) s'.
  Definition status_of (r : reason) (prev : Z) : Z := match r with Bad_eval => prev | Stuck st => st | Tested t => t | Limit | Interrupted => (-2)%Z end.
  Definition is_end (k : nat) (s : shell) (e : ending) (r : reason) : Prop :=
    en_iter e = (Z.of_nat k + 1)%Z /\ en_x e = ev_x (run k) /\ ended me max_it k (run k) r /\
    (match r with Bad_eval => en_bad e = true /\ requests m use_con grad (ev_asks (run k)) s = Ok (inr (en_sh e))
     | _ => en_bad e = false /\ requests m use_con grad (ev_asks (run k)) s = Ok (inl (en_sh e)) end) /\
    en_status e = status_of r (if (k =? 0) then 0%Z else (-2)%Z).

  Lemma loop_ok fuel k s0 s e : reaches s0 k s -> loop m use_con me grad max_it run fuel k (if (k =? 0) then 0%Z else (-2)%Z) s = Ok e ->
    exists k' s' r, reaches s0 k' s' /\ is_end k' s' e r.
  Proof.
    revert k s; induction fuel as [|fuel IH]; intros k s Hr; cbn [loop]; [discriminate|]. cbv zeta.
    destruct (requests m use_con grad (ev_asks (run k)) s) as [[s1|s1]| |] eqn:Er; cbn [rbind]; try discriminate.
    - destruct (match me with Conjugate => _ | _ => _ end) eqn:Es.
      { intros H; injection H as <-. exists k, s, (Stuck (ev_status (run k))). split; auto. split; [auto|]. split; [auto|]. cbn. repeat split; auto.
        - destruct me; unfold GSL_SUCCESS, GSL_CONTINUE in Es; lia.
        - intros [-> H]. unfold GSL_SUCCESS, GSL_CONTINUE in Es. lia. }
      assert (ev_status (run k) = 0%Z \/ (me = Conjugate /\ ev_status (run k) = (-2)%Z)) as Hst.
      { unfold GSL_SUCCESS, GSL_CONTINUE in Es. destruct me; auto; try lia. destruct (Z.eq_dec (ev_status (run k)) 0%Z); auto. right. split; auto. lia. }
      destruct ((ev_test (run k) =? GSL_CONTINUE)%Z) eqn:Et; cbn [andb]; unfold GSL_CONTINUE in Et.
      2:{ intros H; injection H as <-. exists k, s, (Tested (ev_test (run k))). split; auto. split; [auto|]. split; [auto|]. cbn. repeat split; auto. lia. }
      destruct ((Z.of_nat k + 1 <? max_it)%Z) eqn:Em; cbn [andb].
      2:{ intros H; injection H as <-. exists k, s, Limit. split; auto. split; [auto|]. split; [auto|]. cbn. repeat split; auto; lia. }
      clear Es. destruct (negb _) eqn:Ec.
      + intros H. apply (IH (S k) s1).
        * apply (reach_S s0 k s s1); auto; [|lia]. split; auto. split; [lia|]. intros Hn. destruct me; [| |congruence]; destruct (ev_ctrl_c (run k)); auto; discriminate.
        * cbn [Nat.eqb]. replace (ev_test (run k)) with (-2)%Z in H by lia. auto.
      + intros H; injection H as <-. exists k, s, Interrupted. split; auto. split; [auto|]. split; [auto|]. cbn. repeat split; auto; try lia.
        * intros ->. discriminate.
        * destruct me; try discriminate; destruct (ev_ctrl_c (run k)); auto; discriminate.
    - intros H; injection H as <-. exists k, s, Bad_eval. split; auto. split; [auto|]. split; [auto|]. cbn. repeat split; auto.
  Qed.
  Lemma loop_ends fuel k st s : Z.to_nat (Z.max 1 (max_it - Z.of_nat k)) <= fuel -> loop m use_con me grad max_it run fuel k st s <> Fuel \/ exists j s', requests m use_con grad (ev_asks (run j)) s' = Fuel.
  Proof.
    revert k st s; induction fuel as [|fuel IH]; intros k st s Hf; [lia|]. cbn [loop]. cbv zeta.
    destruct (requests m use_con grad (ev_asks (run k)) s) as [[s1|s1]| |] eqn:Er; cbn [rbind]; try (left; discriminate).
    - destruct (match me with Conjugate => _ | _ => _ end) eqn:Es; [left; discriminate|].
      destruct (_ && _ && _) eqn:Ec; [|left; discriminate]. apply IH. lia.
    - right. eauto.
  Qed.
  Lemma negshell_nofuel b s : negshell m use_con b s <> Fuel.
  Proof.
    unfold negshell. destruct (match m_ll m with Some _ => _ | None => _ end); [|discriminate]. cbv zeta.
    destruct (match m_con m with Some _ => _ | None => _ end) as [pen p]. destruct (isnan _); [discriminate|].
    destruct (s_path s); cbn [rbind]; [unfold tracepath; destruct (p_vec p); cbn [rbind]; [|discriminate]|]; destruct (s_info s); discriminate.
  Qed.
  Lemma dnegshell_nofuel b s : dnegshell m use_con grad b s <> Fuel.
  Proof. unfold dnegshell. cbv zeta. cbn. destruct (s_path s); [|discriminate]. destruct (negshell _ _ _ _) eqn:E; cbn; try discriminate. apply negshell_nofuel in E as []. Qed.
  Lemma requests_nofuel l s : requests m use_con grad l s <> Fuel.
  Proof.
    revert s; induction l as [|[b|b|b] l IH]; intros s; cbn [requests]; [discriminate| | |].
    - pose proof (negshell_nofuel b s). destruct (negshell m use_con b s) as [[]| |]; cbn; try discriminate; auto.
    - pose proof (dnegshell_nofuel b s). destruct (dnegshell m use_con grad b s) as [[]| |]; cbn; try discriminate; auto.
    - pose proof (negshell_nofuel b s). destruct (negshell m use_con b s) as [[o b' s1|s1]| |]; cbn [rbind]; try discriminate; auto.
      pose proof (dnegshell_nofuel b' s1). destruct (dnegshell m use_con grad b' s1) as [[]| |]; cbn; try discriminate; auto.
  Qed.
End l.

(** C88: a search ends after at most max_iterations iterations (at least one is made), whatever the minimiser does. *)
Theorem C88_terminates : forall m use_con fuel me op st p0 start, Z.to_nat (Z.max 1 (st_max st)) <= fuel ->
  search_from m use_con fuel me op st p0 start <> Fuel.
Proof.
  intros m use_con fuel me op st p0 start Hf. unfold search_from. cbv zeta. set (s0 := Sh p0 _ _ _).
  pose proof (requests_nofuel m use_con (op_grad op) (op_init op start) s0) as Hn.
  destruct (requests _ _ _ _ s0) as [[s|s]| |]; cbn [rbind]; try discriminate; [|destruct me; discriminate|congruence].
  destruct (loop_ends m use_con me (op_grad op) (st_max st) (op_run op start) fuel 0 0 s) as [H|(j & s' & H)].
  - replace (st_max st - Z.of_nat 0)%Z with (st_max st) by lia. auto.
  - destruct (loop _ _ _ _ _ _ _ _ _ s) as [e| |]; cbn [rbind]; try discriminate; [|congruence].
    unfold auxinfo. cbv zeta. cbn [s_info]. destruct (s_info (en_sh e)); cbn [rbind]; [|discriminate]. destruct me; discriminate.
  - apply requests_nofuel in H as [].
Qed.
Print Assumptions C88_terminates.

(** [searched]: the setting up of the minimiser went well, then the search went on to iteration [k] (counted from 0), which was the last, for the reason given *)
Definition searched m use_con me op st p0 start (k : nat) (r : reason) (e : ending) : Prop :=
  exists s0 s, requests m use_con (op_grad op) (op_init op start) (Sh p0 (if st_path st then Some [] else None) (want_info (st_want st)) (Fin 0)) = Ok (inl s0) /\
    reaches m use_con me (op_grad op) (st_max st) (op_run op start) s0 k s /\ is_end m use_con me (op_grad op) (st_max st) (op_run op start) k s e r.
(** the status the user reads *)
Definition status_row (f : found) : option xr := match f_rows f with (n, x) :: _ => if (n =? "status")%string then Some x else None | [] => None end.

Lemma search_ok m use_con fuel me op st p0 start f : search_from m use_con fuel me op st p0 start = Ok f ->
  (exists s, requests m use_con (op_grad op) (op_init op start) (Sh p0 (if st_path st then Some [] else None) (want_info (st_want st)) (Fin 0)) = Ok (inr s) /\ me <> Newton /\ f = Fo (s_par s) [] (s_path s)) \/
  exists k r e, searched m use_con me op st p0 start k r e /\
    let s := Sh (unpack (ev_x (op_run op start k)) (s_par (en_sh e))) (s_path (en_sh e)) (s_info (en_sh e)) (s_best (en_sh e)) in
    exists p rows, auxinfo m (op_cov op) (st_want st) (st_n st) (match me with Simplex => Some start | _ => None end)
       (apopstatus me (st_max st) e) (match me with Newton => Fin 0 | _ => s_best s end) s = Ok (p, rows) /\ f = Fo p rows (s_path s).
Proof.
  unfold search_from. cbv zeta. set (s0 := Sh p0 _ _ _).
  destruct (requests _ _ _ _ s0) as [[s|s]| |] eqn:E; cbn [rbind]; try discriminate.
  - destruct (loop _ _ _ _ _ _ _ _ _ s) as [e| |] eqn:El; cbn [rbind]; try discriminate.
    destruct (auxinfo _ _ _ _ _ _ _ _) as [[p rows]| |] eqn:Ea; cbn [rbind]; try discriminate. intros H; injection H as <-. right.
    destruct (loop_ok m use_con me (op_grad op) (st_max st) (op_run op start) fuel 0 s s e) as (k & s' & r & A & B); [constructor|exact El|].
    pose proof B as (_ & Bx & _). rewrite Bx in Ea. exists k, r, e. split; [exists s, s'; auto|]. exists p, rows. split; auto.
  - destruct me; try discriminate; intros H; injection H as <-; left; exists s; repeat split; auto; discriminate.
Qed.
Lemma aux_status m cov w n beta st ll s p rows : auxinfo m cov w n beta st ll s = Ok (p, rows) -> exists r, rows = ("status", Fin (IZR st)) :: r.
Proof. unfold auxinfo. cbv zeta. destruct (s_info s); [destruct beta|]; try discriminate; intros H; injection H as <- <-; eauto. Qed.

(** C88: what the status says.  Conjugate gradients: 0 exactly if the last iteration was not the max_iterations-th and had no bad evaluation.
    Simplex: 0, unless there was a bad evaluation in an iteration after the first.  Root finding: always -1. *)
Theorem C88_status : forall m use_con fuel me op st p0 start f, search_from m use_con fuel me op st p0 start = Ok f ->
  (f_rows f = [] /\ me <> Newton /\ exists s, requests m use_con (op_grad op) (op_init op start) (Sh p0 (if st_path st then Some [] else None) (want_info (st_want st)) (Fin 0)) = Ok (inr s)) \/
  exists k r e, searched m use_con me op st p0 start k r e /\ (Z.of_nat k + 1 <= Z.max 1 (st_max st))%Z /\
    status_row f = Some (Fin (match me with
      | Conjugate => if decide (r = Bad_eval \/ (Z.of_nat k + 1 = st_max st)%Z) then -1 else 0
      | Simplex => if decide (r = Bad_eval /\ k <> 0) then -1 else 0
      | Newton => -1 end)).
Proof.
  intros m use_con fuel me op st p0 start f H. apply search_ok in H as [(s & H1 & H2 & ->)|(k & r & e & Hs & p & rows & Ha & ->)].
  - left. split; auto. split; auto. eauto.
  - right. exists k, r, e. split; auto. destruct Hs as (s0 & s & _ & Hr & He). split.
    { inversion Hr; subst; lia. }
    apply aux_status in Ha as [rest ->]. unfold status_row. cbn [f_rows]. change (("status" =? "status")%string) with true. cbn iota. f_equal. f_equal.
    destruct He as (E1 & _ & E3 & E4 & E5). unfold apopstatus, GSL_SUCCESS. destruct me; auto.
    + rewrite E5. destruct r; cbn [status_of ended] in *; destruct E4 as [E4 _]; rewrite E4.
      * destruct (Nat.eqb_spec k 0) as [Ek|Ek]; destruct (decide _) as [[_ D]|D]; cbn; auto; try congruence. exfalso. apply D. auto.
      * destruct (decide _) as [[D _]|D]; [discriminate|]. destruct (_ =? _)%Z; auto.
      * destruct (decide _) as [[D _]|D]; [discriminate|]. destruct (_ =? _)%Z; auto.
      * destruct (decide _) as [[D _]|D]; [discriminate|]. auto.
      * destruct (decide _) as [[D _]|D]; [discriminate|]. auto.
    + rewrite E1. destruct (Z.eqb_spec (Z.of_nat k + 1) (st_max st)) as [D|D]; [destruct (decide _) as [|N]; auto; destruct N; auto|].
      destruct (decide _) as [[->|N]|N]; [destruct E4 as [E4 _]; rewrite E4; auto|congruence|].
      destruct r; destruct E4 as [E4 _]; rewrite E4; auto. destruct N; auto.
Qed.
Print Assumptions C88_status.

(** a model with a finite log likelihood everywhere and no constraint; for it, and without a path, no evaluation is bad *)
Definition plain (f : params -> R) : mdl := Md (Some (fun p => Fin (f p))) None None.
Lemma plain_requests f use_con grad l s : s_path s = None ->
  exists s', requests (plain f) use_con grad l s = Ok (inl s') /\ s_path s' = None /\ s_info s' = s_info s.
Proof.
  revert s; induction l as [|[b|b|b] l IH]; intros s Hp; cbn [requests]; [eauto| | |].
  - unfold negshell. cbn [plain m_ll m_con]. cbv zeta. cbn [truthy fst snd]. unfold xsub; cbn [xneg xadd isnan]. rewrite Hp. cbn [rbind].
    destruct (s_info s) eqn:Ei; cbn [rbind].
    + destruct (IH (Sh (unpack b (s_par s)) None true (xmax (s_best s) (Fin (- (0 + - f (unpack b (s_par s)))))))) as (s' & H1 & H2 & H3); auto. exists s'. split; [exact H1|auto].
    + destruct (IH (Sh (unpack b (s_par s)) None false (s_best s))) as (s' & H1 & H2 & H3); auto. exists s'. auto.
  - unfold dnegshell. cbv zeta. cbn [s_path]. rewrite Hp. cbn [rbind].
    destruct (IH (Sh (grad (unpack b (s_par s))) None (s_info s) (s_best s))) as (s' & H1 & H2 & H3); auto. exists s'. auto.
  - unfold negshell. cbn [plain m_ll m_con]. cbv zeta. cbn [truthy fst snd]. unfold xsub; cbn [xneg xadd isnan]. rewrite Hp. cbn [rbind].
    destruct (s_info s) eqn:Ei; cbn [rbind]; unfold dnegshell; cbv zeta; cbn [s_path s_info s_par s_best rbind];
      match goal with |- context [requests (plain f) use_con grad l ?t] => destruct (IH t) as (s' & H1 & H2 & H3); auto; exists s'; auto end.
Qed.
Lemma plain_loop f use_con me grad max_it run fuel k st s : s_path s = None -> Z.to_nat (Z.max 1 (max_it - Z.of_nat k)) <= fuel ->
  exists e, loop (plain f) use_con me grad max_it run fuel k st s = Ok e /\ s_info (en_sh e) = s_info s.
Proof.
  revert k st s; induction fuel as [|fuel IH]; intros k st s Hp Hf; [lia|]. cbn [loop]. cbv zeta.
  destruct (plain_requests f use_con grad (ev_asks (run k)) s Hp) as (s' & -> & H2 & H3). cbn [rbind].
  destruct (match me with Conjugate => _ | _ => _ end); [eexists; split; [reflexivity|]; cbn; auto|].
  destruct (_ && _ && _) eqn:E; [|eexists; split; [reflexivity|]; cbn; auto].
  destruct (IH (S k) (ev_test (run k)) s') as (e & A & B); auto; [lia|]. exists e. split; auto. congruence.
Qed.
Definition enough (st : settings) (fuel : nat) : Prop := Z.to_nat (Z.max 1 (st_max st)) <= fuel.
Lemma plain_search f use_con fuel me op st p0 start : st_path st = false -> enough st fuel -> me = Simplex \/ want_info (st_want st) = false ->
  exists fo, search_from (plain f) use_con fuel me op st p0 start = Ok fo /\ f_rows fo <> [].
Proof.
  intros Hp Hf Hm. unfold search_from. cbv zeta. rewrite Hp. set (s0 := Sh p0 None _ _).
  destruct (plain_requests f use_con (op_grad op) (op_init op start) s0) as (s1 & -> & P1 & P2); auto. cbn [rbind].
  destruct (plain_loop f use_con me (op_grad op) (st_max st) (op_run op start) fuel 0 0 s1) as (e & -> & E1); auto.
  { unfold enough in Hf. replace (st_max st - Z.of_nat 0)%Z with (st_max st) by lia. auto. }
  cbn [rbind]. unfold auxinfo. cbv zeta. cbn [s_info]. rewrite E1, P2. unfold s0; cbn [s_info].
  destruct Hm as [->| ->].
  - destruct (want_info (st_want st)); cbn [rbind]; eexists; (split; [reflexivity|]); discriminate.
  - cbn [rbind]. eexists. split; [reflexivity|]. discriminate.
Qed.

(** C88, refuted: the simplex search that stops because it has used up its iterations, never having passed the test of convergence, reports 0 *)
Theorem C88_refuted_simplex : forall f use_con fuel op st p0 start, st_path st = false -> enough st fuel ->
  (forall k, ev_status (op_run op start k) = 0%Z /\ ev_test (op_run op start k) = (-2)%Z /\ ev_ctrl_c (op_run op start k) = false) ->
  exists fo, search_from (plain f) use_con fuel Simplex op st p0 start = Ok fo /\ status_row fo = Some (Fin 0).
Proof.
  intros f use_con fuel op st p0 start Hp Hf Hall. destruct (plain_search f use_con fuel Simplex op st p0 start) as (fo & H & Hn); auto.
  exists fo. split; auto. destruct (C88_status _ _ _ _ _ _ _ _ _ H) as [[H1 _]|(k & r & e & Hs & _ & H1)]; [congruence|].
  rewrite H1. destruct (decide _) as [[-> _]|]; auto. destruct Hs as (s0 & s & Hi & Hr & (_ & _ & _ & (_ & Hb) & _)). exfalso.
  assert (s_path s = None) as Hps.
  { rewrite Hp in Hi. clear -Hr Hi. induction Hr as [|k s s' Hr IH Hq _ _].
    - destruct (plain_requests f use_con (op_grad op) (op_init op start) (Sh p0 None (want_info (st_want st)) (Fin 0))) as (s1 & A & B & _); auto. congruence.
    - destruct (plain_requests f use_con (op_grad op) (ev_asks (op_run op start k)) s) as (s1 & A & B & _); auto. congruence. }
  destruct (plain_requests f use_con (op_grad op) (ev_asks (op_run op start k)) s Hps) as (s1 & A & _). congruence.
Qed.
Print Assumptions C88_refuted_simplex.

(** the info criteria are computed from the size of a vector that two of the methods have freed by then: with a finite log likelihood
    everywhere, such a search has undefined behaviour whenever the info is wanted, and it is by default *)
Theorem C88_refuted_freed : forall f use_con fuel me op st p0 start, st_path st = false -> enough st fuel -> me <> Simplex -> want_info (st_want st) = true ->
  search_from (plain f) use_con fuel me op st p0 start = UB.
Proof.
  intros f use_con fuel me op st p0 start Hp Hf Hm Hw. unfold search_from. cbv zeta. rewrite Hp. set (s0 := Sh p0 None _ _).
  destruct (plain_requests f use_con (op_grad op) (op_init op start) s0) as (s1 & -> & P1 & P2); auto. cbn [rbind].
  destruct (plain_loop f use_con me (op_grad op) (st_max st) (op_run op start) fuel 0 0 s1) as (e & -> & E1); auto.
  { unfold enough in Hf. replace (st_max st - Z.of_nat 0)%Z with (st_max st) by lia. auto. }
  cbn [rbind]. unfold auxinfo. cbv zeta. cbn [s_info]. rewrite E1, P2. unfold s0; cbn [s_info]. rewrite Hw. destruct me; [congruence| |]; auto.
Qed.
Print Assumptions C88_refuted_freed.

(** the default method for a model with a score and without settings is one of these two *)
Theorem C88_default_method : forall name, ci_eq name "" = true -> pick_method true name = Use Conjugate /\ pick_method false name = Use Simplex /\ want_info None = true.
Proof.
  intros name H. assert (name = "") as ->; [|vm_compute; auto]. unfold ci_eq in H. destruct name as [|c n]; auto. cbn in H. discriminate.
Qed.
Print Assumptions C88_default_method.

Definition ex_par : params := Pr (Some [0%R]) [].
Definition once (e : event) : optimiser := Op (fun b => [Ask_f b]) (fun _ _ => e) (fun p => p) (fun p => p).
Definition quiet (max : Z) : settings := St "" None max false (Some (Pa false false false)) None.
(** a root found in the first iteration is reported as -1; a conjugate gradient search stuck in its first iteration, for want of progress
    (GSL_ENOPROG is 27), is reported as 0, and one that has just converged in its last iteration as -1 *)
Theorem C88_refuted_documented :
  (forall f, exists fo, search_from (plain f) true 5000 Newton (once (Ev [] 0 0 [3%R] false)) (quiet 5000) ex_par [1%R] = Ok fo /\ status_row fo = Some (Fin (-1))) /\
  (forall f, exists fo, search_from (plain f) true 5000 Conjugate (once (Ev [] 27 0 [3%R] false)) (quiet 5000) ex_par [1%R] = Ok fo /\ status_row fo = Some (Fin 0)) /\
  (forall f, exists fo, search_from (plain f) true 1 Conjugate (once (Ev [] 0 0 [3%R] false)) (quiet 1) ex_par [1%R] = Ok fo /\ status_row fo = Some (Fin (-1))).
Proof. repeat split; intros f; eexists; (split; [reflexivity|]); reflexivity. Qed.
Print Assumptions C88_refuted_documented.

(** and a simplex search whose first iteration meets a NaN is reported as 0 *)
Definition hole (p : params) : xr := match vpart p with [x] => if Req_EM_T x 2 then NaN else Fin x | _ => NaN end.
Theorem C88_refuted_first_iteration : exists fo,
  search_from (Md (Some hole) None None) true 5000 Simplex (once (Ev [Ask_f [2%R]] 0 (-2) [1%R] false)) (quiet 5000) ex_par [1%R] = Ok fo /\ status_row fo = Some (Fin 0).
Proof.
  unfold search_from. cbv zeta. cbn [once op_init op_grad op_run op_cov quiet st_path st_want want_info pa_info st_max st_n].
  unfold requests at 1. unfold negshell. cbn [m_ll m_con]. cbv zeta. cbn [truthy s_path s_par s_info s_best].
  assert (hole (unpack [1%R] ex_par) = Fin 1) as ->. { unfold hole; cbn. destruct (Req_EM_T 1 2); [lra|auto]. }
  cbn [xsub xneg xadd isnan rbind].
  change (loop _ _ _ _ _ _ 5000 0 0 ?s) with (loop (Md (Some hole) None None) true Simplex (fun p => p) 5000 (fun _ => Ev [Ask_f [2%R]] 0 (-2) [1%R] false) (S (N.to_nat 4999)) 0 0 s).
  unfold loop. unfold requests. cbn [ev_asks]. unfold negshell. cbn [m_ll m_con]. cbv zeta. cbn [truthy s_path s_par s_info s_best].
  match goal with |- context [hole ?t] => assert (hole t = NaN) as -> end. { unfold hole; cbn. destruct (Req_EM_T 2 2); [auto|lra]. }
  cbn [xsub xneg xadd isnan rbind]. eexists. split; reflexivity.
Qed.
Print Assumptions C88_refuted_first_iteration.
Example C88_nonvacuous : exists fo, search_from (plain (fun _ => 1%R)) true 2 Conjugate (Op (fun b => [Ask_fdf b]) (fun _ k => Ev [Ask_f [2%R]; Ask_df [2%R]] 0 (if (k =? 0) then -2 else 0) [2%R] false) (fun p => p) (fun p => p)) (quiet 10) ex_par [1%R] = Ok fo /\
  status_row fo = Some (Fin 0) /\ f_par fo = Pr (Some [2%R]) [].
Proof. eexists. split; [reflexivity|]. split; [reflexivity|]. cbn. destruct (Req_EM_T 0 0); reflexivity. Qed.
