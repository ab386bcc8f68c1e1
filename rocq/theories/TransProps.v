(** C41: data-constrained models (transform/apop_dconstrain.c).  C49: apop_model_clear (apop_model.m4.c:20-41).  C50: error codes (apop.m4.h:584-634). *)
From Coq Require Import Reals Lra.
From Verif Require Import DataModel TransModel.
Local Open Scope list_scope.
Local Open Scope R_scope.

(** ---------- C41 ---------- *)
(** the first of the draws that satisfies the constraint is the one returned *)
Theorem C41_draw : forall D (ok : D -> bool) tape d c, dc_rng ok tape = Ok (d, c) <->
  c = 0%Z /\ exists bad c0 rest, tape = bad ++ (d, c0) :: rest /\ ok d = true /\ Forall (fun x => ok (fst x) = false) bad.
Proof.
  intros D ok tape d c. induction tape as [|[x cx] tape IH]; cbn.
  - split; [discriminate|]. intros (_ & bad & c0 & rest & H & _). destruct bad; discriminate.
  - destruct (ok x) eqn:Ex.
    + split.
      * intros [= -> <-]. split; [auto|]. exists [], cx, tape. repeat split; auto.
      * intros (-> & bad & c0 & rest & H & Hd & Hb). destruct bad as [|[y cy] bad]; cbn in H; injection H as -> -> ->; auto. inversion Hb; subst. cbn in *. congruence.
    + rewrite IH. split; intros (-> & bad & c0 & rest & H & Hd & Hb); (split; [auto|]).
      * exists ((x, cx) :: bad), c0, rest. subst. repeat split; auto.
      * destruct bad as [|[y cy] bad]; cbn in H; injection H as -> -> ->; [congruence|]. inversion Hb; subst. exists bad, c0, rest. auto.
Qed.
(** the scale is the share of the draws that satisfy the constraint *)
Theorem C41_scaling : forall D (ok : D -> bool) draws, draws <> [] ->
  get_scaling ok draws * INR (length draws) = INR (length (List.filter ok draws)) /\ 0 <= get_scaling ok draws <= 1 /\ (get_scaling ok draws = 0 <-> Forall (fun d => ok d = false) draws).
Proof.
  intros D ok draws Hne. unfold get_scaling.
  assert (G : forall l n, fold_left (fun tally d => (tally + if ok d then 1 else 0)%nat) l n = (n + length (List.filter ok l))%nat).
  { induction l as [|x l IH]; intros n; cbn; [lia|]. rewrite IH. destruct (ok x); cbn; lia. }
  rewrite G. cbn [Nat.add]. set (k := length (List.filter ok draws)).
  assert (Hk : (k <= length draws)%nat) by (unfold k; clear; induction draws as [|x l IH]; cbn; [lia|destruct (ok x); cbn; lia]).
  assert (Hl : 0 < INR (length draws)) by (apply lt_0_INR; destruct draws; [congruence|cbn; lia]).
  pose proof (pos_INR k). apply le_INR in Hk. split; [field; lra|]. split.
  - split; [apply Rmult_le_pos; [auto|]; left; apply Rinv_0_lt_compat; auto|]. apply Rmult_le_reg_r with (INR (length draws)); auto. unfold Rdiv. rewrite Rmult_assoc, Rinv_l by lra. lra.
  - transitivity (k = 0%nat).
    + split; [|intros ->; unfold Rdiv; cbn; ring]. intros E. apply INR_eq. cbn. apply Rmult_eq_reg_r with (/ INR (length draws)); [|apply Rinv_neq_0_compat; lra]. unfold Rdiv in E. lra.
    + unfold k. clear. induction draws as [|x l IH]; cbn; [split; auto|]. destruct (ok x) eqn:E; cbn.
      * split; [discriminate|]. intros H. inversion H. congruence.
      * rewrite IH. split; intros H; [constructor; auto|inversion H; auto].
Qed.
Section C41.
  Context {D : Type} (ok : D -> bool) (base : list R -> list D -> R) (scaling : nat -> list R -> R).
  (** the answers of one constrained model in a history: -infinity if a row is outside; else the log likelihood of the base model less, for every row, the log of the scale at
      the parameters then in force *)
  Inductive answers : list R -> list (dop (D:=D)) -> list (option ll) -> Prop :=
  | ans_nil p : answers p [] []
  | ans_params p p' os r : answers p' os r -> answers p (DParams p' :: os) (None :: r)
  | ans_out p d os r : Exists (fun x => ok x = false) d -> answers p os r -> answers p (DEval 0 d :: os) (Some NegInf :: r)
  | ans_in p d os r n : Forall (fun x => ok x = true) d -> answers p os r -> answers p (DEval 0 d :: os) (Some (LL (base p d - ln (scaling n p) * INR (length d))) :: r).
  Definition one (o : dop (D:=D)) : Prop := match o with DParams _ => True | DEval k _ => k = 0%nat | _ => False end.
  Definition inv (st : dstate) : Prop := exists s, dsets st = [Some s] /\
    match dlast s with None => dscale s = 0 | Some a => exists v n, dvecs st !! a = Some (Some v) /\ (dscale s = 0 \/ dscale s = scaling n v) end.
  Lemma vec_eqb_eq a b : vec_eqb a b = true <-> a = b.
  Proof. unfold vec_eqb. destruct (list_eq_dec _ _ _); split; congruence. Qed.
  (** C41: for every history of changes of parameters and evaluations *)
  Theorem C41_loglik : forall os p, Forall one os -> exists st r, drun ok base scaling os (dc_new p) = Ok (st, r) /\ answers p os r.
  Proof.
    intros os p H. assert (G : forall os st, Forall one os -> inv st -> exists st' r, drun ok base scaling os st = Ok (st', r) /\ answers (dparams st) os r).
    { clear. induction os as [|o os IH]; intros st H (s & Hs & Hi); cbn [drun]; [eexists _, _; split; [reflexivity|constructor]|].
      inversion H as [|? ? Ho H']; subst. destruct o as [p'|k d|k|k]; cbn in Ho; try tauto; cbn [dstep].
      - cbn [rbind]. destruct (IH (DSt p' (dcalls st) (dvecs st) (dsets st)) H') as (st' & r & -> & A); [exists s; auto|]. cbn [rbind]. eexists _, _. split; [reflexivity|]. constructor. auto.
      - subst k. unfold dc_ll. rewrite Hs. cbn [lookup list_lookup]. destruct (existsb (fun x => negb (ok x)) d) eqn:Eo.
        + cbn [rbind]. destruct (IH st H') as (st' & r & -> & A); [exists s; auto|]. cbn [rbind]. eexists _, _. split; [reflexivity|]. apply ans_out; auto.
          apply existsb_exists in Eo as (x & Hx & Hn). apply List.Exists_exists. exists x. split; auto. destruct (ok x); auto; discriminate.
        + assert (Hin : Forall (fun x => ok x = true) d). { apply List.Forall_forall. intros x Hx. destruct (ok x) eqn:E; auto. assert (existsb (fun x => negb (ok x)) d = true); [|congruence]. apply existsb_exists. exists x. rewrite E. auto. }
          assert (S : exists st1 s1 stale, is_stale st s = Ok (st1, s1, stale) /\ dparams st1 = dparams st /\ dsets st1 = dsets st /\ exists a, dlast s1 = Some a /\ dvecs st1 !! a = Some (Some (dparams st)) /\
            (stale = true \/ exists n, dscale s1 = scaling n (dparams st))).
          { unfold is_stale. destruct (dlast s) as [a|] eqn:El.
            - destruct Hi as (v & n & Hv & Hsc). rewrite Hv. destruct (vec_eqb v (dparams st)) eqn:Ev.
              + apply vec_eqb_eq in Ev. subst v. cbn [rbind]. eexists _, _, _. split; [reflexivity|]. split; auto. split; auto. exists a. split; auto. split; auto. destruct (Req_EM_T (dscale s) 0) as [|Hz]; [left; apply orb_true_r|]. right. exists n. destruct Hsc; [contradiction|auto].
              + cbn [rbind]. eexists _, _, _. split; [reflexivity|]. cbn. split; auto. split; auto. exists a. split; auto. split; [|auto]. apply list_lookup_insert. apply lookup_lt_Some in Hv. auto.
            - cbn [rbind]. eexists _, _, _. split; [reflexivity|]. cbn. split; auto. split; auto. exists (length (dvecs st)). split; auto. split; [|auto]. rewrite lookup_app_r by lia. rewrite Nat.sub_diag. auto. }
          destruct S as (st1 & s1 & stale & -> & HP & HS & a & Ha & Hv & Hst). cbn [rbind]. rewrite HS, Hs. cbn [insert list_insert]. rewrite HP.
          set (s2 := if stale then _ else s1). assert (Hn : exists n, dscale s2 = scaling n (dparams st)) by (unfold s2; destruct Hst as [->|(n & Hn)]; [eexists; reflexivity|destruct stale; eexists; [reflexivity|exact Hn]]). destruct Hn as (n & Hn). rewrite Hn.
          destruct (IH (DSt (dparams st) (if stale then S (dcalls st1) else dcalls st1) (dvecs st1) [Some s2]) H') as (st' & r & E & A).
          * exists s2. split; auto. assert (dlast s2 = Some a) as -> by (unfold s2; destruct stale; auto). exists (dparams st), n. split; auto.
          * rewrite E. cbn [rbind]. eexists _, _. split; [reflexivity|]. apply ans_in; auto. }
    apply (G os (dc_new p)); auto. exists (DS 0 None 0). split; [auto|reflexivity].
  Qed.
End C41.
Print Assumptions C41_draw.
Print Assumptions C41_scaling.
Print Assumptions C41_loglik.
Example C41_nonvacuous : dc_rng Nat.even [(3%nat, 0%Z); (4%nat, 0%Z); (5%nat, 0%Z)] = Ok (4%nat, 0%Z) /\
  Forall one [DEval 0 [2%nat; 4%nat]; DParams [1]; DEval 0 [2%nat]; DEval 0 [3%nat]] /\ get_scaling Nat.even [2%nat; 3%nat] = / 2.
Proof. split; [reflexivity|]. split; [repeat constructor|]. unfold get_scaling. cbn. lra. Qed.
(** Deviation: a base draw that fails is not noticed: its code 7 is lost. *)
Theorem C41_code_refuted : dc_rng Nat.even [(4%nat, 7%Z)] = Ok (4%nat, 0%Z).
Proof. reflexivity. Qed.
(** Deviation: a copy made after an evaluation has the scale of then but shares the note of the parameters it belongs to, so that after a change of parameters and an evaluation of the
    original the copy divides by an outdated scale.  Here the scale is 1 at parameter 0 and 2 at parameter 1. *)
Definition sc_ex (_ : nat) (p : list R) : R := match p with x :: _ => 1 + x | [] => 1 end.
Theorem C41_copy_refuted : exists st r, drun (fun _ : nat => true) (fun _ _ => 0) sc_ex [DEval 0 [0%nat]; DCopy 0; DParams [1]; DEval 0 [0%nat]; DEval 1 [0%nat]] (dc_new [0]) = Ok (st, r) /\
  r !! 3%nat = Some (Some (LL (0 - ln (1 + 1) * 1))) /\ r !! 4%nat = Some (Some (LL (0 - ln (1 + 0) * 1))).
Proof.
  cbn. unfold dc_ll, is_stale. cbn. destruct (Req_EM_T 0 0) as [_|]; [|lra]. cbn. assert (E : vec_eqb [0] [1] = false). { unfold vec_eqb. destruct (list_eq_dec _ _ _) as [X|]; auto. injection X. lra. }
  assert (E' : vec_eqb [1] [1] = true). { unfold vec_eqb. destruct (list_eq_dec _ _ _) as [X|X]; [auto|destruct X; auto]. }
  cbn. rewrite E. cbn. rewrite E'. cbn. destruct (Req_EM_T (1 + 0) 0); [lra|]. cbn. eexists _, _. split; [reflexivity|]. split; reflexivity.
Qed.
(** Deviation: freeing the original frees that note, and an evaluation of the copy then reads freed memory. *)
Theorem C41_free_refuted : drun (fun _ : nat => true) (fun _ _ => 0) sc_ex [DEval 0 [0%nat]; DCopy 0; DFree 0; DEval 1 [0%nat]] (dc_new [0]) = UB.
Proof. cbn. unfold dc_ll, is_stale. cbn. reflexivity. Qed.

(** ---------- C49 ---------- *)
Local Open Scope nat_scope.
Section C49.
  Context {D : Type} (shape : D -> dshape).
  (** the width of a data set: the columns of its matrix; without one, 1 if there is a vector *)
  Definition width (d : option D) : nat :=
    match d with None => 0 | Some x => match shcols (shape x) with 0 => if has_vec (shape x) then 1 else 0 | c => c end end.
  (** a declared size: a number, or the width of the data *)
  Definition size_for (d : option D) (declared : Z) (n : nat) : Prop := (declared = -1 /\ n = width d)%Z \/ declared = Z.of_nat n.
  Definition wants_width (m : amodel D) : Prop := (mds m = -1 \/ mvs m = -1 \/ mms1 m = -1 \/ mms2 m = -1)%Z.
  Lemma width_eq d : clear_width (option_map shape d) = Z.of_nat (width d).
  Proof. destruct d as [x|]; cbn; [|auto]. destruct (shcols (shape x)); cbn; [destruct (has_vec _); auto|lia]. Qed.
  Lemma sz_eq d z n : size_for d z n -> (if (z =? -1)%Z then Z.of_nat (width d) else z) = Z.of_nat n.
  Proof. intros [[-> ->]| ->]; [auto|]. destruct (Z.eqb_spec (Z.of_nat n) (-1)); lia. Qed.
  (** C49: the parameters made have a vector of the vector size and a matrix of the matrix sizes; the data size is the one declared; the data set is recorded; an error iff a width is asked
      of no data. *)
  Theorem C49_shapes : forall d m ds v m1 m2, mpars m = None -> size_for d (mds m) ds -> size_for d (mvs m) v -> size_for d (mms1 m) m1 -> size_for d (mms2 m) m2 ->
    (m1 = 0 <-> m2 = 0) ->
    mpars (model_clear shape d m) = (if (v =? 0) && (m1 =? 0) then None else Some (v, (m1, m2))) /\ mds (model_clear shape d m) = Z.of_nat ds /\
    (mdata m = None -> mdata (model_clear shape d m) = d) /\
    (merr m = None -> merr (model_clear shape d m) = Some "d"%char /\ wants_width m /\ width d = 0 \/ merr (model_clear shape d m) = None /\ ~ (wants_width m /\ width d = 0)).
  Proof.
    intros d m ds v m1 m2 Hp Hds Hv H1 H2 Hz. unfold model_clear. rewrite width_eq. cbn [mpars mds mdata merr]. rewrite Hp, (sz_eq _ _ _ Hds), (sz_eq _ _ _ Hv), (sz_eq _ _ _ H1), (sz_eq _ _ _ H2).
    split; [|split; [auto|split]].
    - rewrite !Nat2Z.id. unfold pars_of, alloc_shape. destruct m1 as [|m1], m2 as [|m2]; try lia.
      + cbn. destruct (Z.eqb_spec (Z.of_nat v) 0), (Nat.eqb_spec v 0); cbn; auto; lia.
      + destruct (Z.eqb_spec (Z.of_nat (S m1) * Z.of_nat (S m2)) 0); [lia|]. rewrite orb_true_r. destruct (Z.eqb_spec (Z.of_nat (S m2)) 0); [lia|]. cbn [Nat.eqb]. rewrite andb_false_r, Nat2Z.id. auto.
    - intros ->. auto.
    - intros ->. unfold wants_width. destruct (Z.eqb_spec (mds m) (-1)), (Z.eqb_spec (mvs m) (-1)), (Z.eqb_spec (mms1 m) (-1)), (Z.eqb_spec (mms2 m) (-1)), (Z.eqb_spec (Z.of_nat (width d)) 0); cbn;
        first [left; split; [reflexivity|split; [tauto|lia]]|right; split; [reflexivity|intros [? ?]; lia]].
  Qed.
  (** C49: the second time with the same data changes nothing *)
  Theorem C49_idempotent : forall d m, model_clear shape d (model_clear shape d m) = model_clear shape d m.
  Proof.
    intros d m. unfold model_clear. set (w := clear_width (option_map shape d)). cbn [mpars mds mvs mms1 mms2 mdata merr minfo].
    assert (Hw : (0 <= w)%Z) by (unfold w; rewrite width_eq; lia).
    assert (E : (if ((if (mds m =? -1)%Z then w else mds m) =? -1)%Z then w else if (mds m =? -1)%Z then w else mds m) = (if (mds m =? -1)%Z then w else mds m)).
    { destruct (Z.eqb_spec (mds m) (-1)); [destruct (Z.eqb_spec w (-1)); auto; lia|]. destruct (Z.eqb_spec (mds m) (-1)); auto; lia. }
    rewrite E. f_equal.
    - destruct (mpars m); [auto|]. destruct (_ || _); auto.
    - destruct (mdata m); auto. destruct d; auto.
    - destruct (Z.eqb_spec (mds m) (-1)) as [Hd|Hd].
      + destruct (Z.eqb_spec w (-1)); [lia|]. cbn [orb]. destruct (w =? 0)%Z; [rewrite andb_true_r; cbn; destruct (_ || _); auto|rewrite andb_false_r; auto].
      + destruct (Z.eqb_spec (mds m) (-1)); [lia|]. cbn [orb]. destruct (_ && _); auto.
  Qed.
  (** C49: and with other data the parameters, the sizes and the data set of the first time stay *)
  Theorem C49_kept : forall d1 d2 m, mpars (model_clear shape d1 m) <> None -> mds (model_clear shape d2 (model_clear shape d1 m)) = mds (model_clear shape d1 m) /\
    mpars (model_clear shape d2 (model_clear shape d1 m)) = mpars (model_clear shape d1 m) /\
    (mdata (model_clear shape d1 m) <> None -> mdata (model_clear shape d2 (model_clear shape d1 m)) = mdata (model_clear shape d1 m)).
  Proof.
    intros d1 d2 m Hp. split; [|split].
    - assert (H : mds (model_clear shape d1 m) <> (-1)%Z) by (unfold model_clear; cbn [mds]; rewrite width_eq; destruct (Z.eqb_spec (mds m) (-1)); lia).
      remember (model_clear shape d1 m) as m'. unfold model_clear. cbn [mds]. destruct (Z.eqb_spec (mds m') (-1)); [contradiction|auto].
    - remember (model_clear shape d1 m) as m'. unfold model_clear. cbn [mpars]. destruct (mpars m'); [auto|congruence].
    - remember (model_clear shape d1 m) as m'. unfold model_clear. cbn [mdata]. destruct (mdata m'); [auto|congruence].
  Qed.
End C49.
Print Assumptions C49_shapes.
Print Assumptions C49_idempotent.
Print Assumptions C49_kept.
(** data of three columns; the model declares a vector of the width and a matrix of 2 by the width *)
Example C49_nonvacuous : let m := AM (-1) (-1) 2 (-1) None None None None in let d := Some (Sh false 3) in
  size_for (fun x => x) d (mvs m) 3 /\ size_for (fun x => x) d (mms1 m) 2 /\ size_for (fun x => x) d (mms2 m) 3 /\ mpars (model_clear (fun x => x) d m) = Some (3, (2, 3)).
Proof. cbn. split; [left; auto|]. split; [right; auto|]. split; [left; auto|]. reflexivity. Qed.
(** Deviation: one size of a matrix without the other turns the vector size into a matrix size: a vector of 3 and msize1 2 make a 3 by 2 matrix and no vector. *)
Theorem C49_onesize_refuted : exists m : amodel dshape, mvs m = 3%Z /\ mms1 m = 2%Z /\ mms2 m = 0%Z /\ mpars (model_clear (fun x => x) None m) = Some (0, (3, 2)).
Proof. exists (AM 0 3 2 0 None None None None). repeat split. Qed.

(** ---------- C50 ---------- *)
(** every use of the shared error return gives a data set whose error is set (so a test of it being nonzero works) *)
Theorem C50_error_set : forall arg, exists c, error_set (expand "E" arg return_data_error_body) = Some c /\ c <> "000"%char.
Proof. intros arg. exists "E"%char. split; [reflexivity|discriminate]. Qed.
(** Deviation: but to the letter E, whatever letter was asked for; so no documented letter but E is ever set that way *)
Theorem C50_letter_refuted : forall arg, error_set (expand "E" arg return_data_error_body) = Some "E"%char.
Proof. intros arg. reflexivity. Qed.
(** C50: a failed test prints its message iff messages are on and the verbosity is at least its level; otherwise silent; it runs its action unless the program is halted, whatever the
    verbosity; a test that does not fail does nothing. *)
Theorem C50_stopif : forall verbose level sw,
  (printed (stopif true verbose level sw) = true <-> verbose <> (-1)%Z /\ (level <= verbose)%Z) /\
  (acts (stopif true verbose level sw) = true <-> halts (stopif true verbose level sw) = false) /\
  (sw = "w"%char -> halts (stopif true verbose level sw) = true) /\
  (sw = "v"%char -> verbose <> (-1)%Z -> halts (stopif true verbose level sw) = printed (stopif true verbose level sw)) /\
  (sw <> "v"%char -> sw <> "w"%char -> halts (stopif true verbose level sw) = false) /\
  stopif false verbose level sw = Fl false false false.
Proof.
  intros verbose level sw. unfold stopif. cbn [printed halts acts]. split; [|split; [|split; [|split; [|split]]]].
  - destruct (Z.eqb_spec verbose (-1)), (Z.leb_spec level verbose); cbn; split; try discriminate; try tauto; lia.
  - destruct (_ || _); cbn; split; congruence.
  - intros ->. apply orb_true_r.
  - intros -> Hv. destruct (Z.eqb_spec verbose (-1)); [tauto|]. destruct (level <=? verbose)%Z; reflexivity.
  - intros H1 H2. destruct (Ascii.eqb_spec sw "v"), (Ascii.eqb_spec sw "w"); try congruence. rewrite andb_false_r. auto.
  - auto.
Qed.
Print Assumptions C50_error_set.
Print Assumptions C50_stopif.
Example C50_nonvacuous : error_set (expand "E" [TId "a"] return_data_error_body) = Some "E"%char /\ stopif true 1 0 "n" = Fl true false true /\ stopif true (-1) 0 "w" = Fl false true false.
Proof. repeat split. Qed.
(** Deviation: any other nonzero setting of stop_on_warning should halt; it does not. *)
Theorem C50_halt_refuted : halts (stopif true 2 0 "y") = false.
Proof. reflexivity. Qed.
(** Deviation: with messages off (verbosity -1) and the setting v, a test of the error level -5 halts though nothing is printed. *)
Theorem C50_silent_refuted : stopif true (-1) (-5) "v" = Fl false true false.
Proof. reflexivity. Qed.
