(** C75: least squares.  Vocabulary in OlsSpec. *)
From Coq Require Import Reals Lra.
From Verif Require Import DataModel NamesModel NamesProofs StatsModel StatsSpec StatsProofs LinModel LinProps FactModel LikeModel OlsModel OlsSpec OlsProofs.
Local Open Scope list_scope.
Local Open Scope R_scope.

(** settings with which predictions are made: those of the default, or any group of wanted parts with a part wanted *)
Definition informative (s : lm) : Prop := (parts s = None /\ want_exp s = true) \/ (exists c p, parts s = Some (c, p) /\ c || p = true).
Lemma informative_ok s : informative s <-> has_pred s = true /\ skips s = false.
Proof.
  unfold informative, has_pred, skips, pwc, pwp. destruct (parts s) as [[c p]|]; cbn.
  - destruct c, p; cbn; split; intros H; try tauto; try (split; auto; fail); try (right; eexists _, _; split; [reflexivity|reflexivity]). destruct H as [[? _]|(? & ? & E & ?)]; [discriminate|]. injection E as <- <-. discriminate. destruct H. discriminate.
  - split; [intros [[_ ->]|(? & ? & ? & _)]; [split; auto; apply andb_false_r|discriminate]|]. intros [-> _]. left. auto.
Qed.
Definition normal_equations (w : option (list R)) (X : grid R) (y b : list R) : Prop := forall j, (j < gc X)%nat -> sum_to (gr X) (fun r => weight w r * elt X false r j * (nth r y 0 - fitted X b r)) = 0.
Lemma list_ext_nth (a b : list R) : length a = length b -> (forall i, (i < length a)%nat -> nth i a 0 = nth i b 0) -> a = b.
Proof. intros Hl H. apply (nth_ext a b 0 0); auto. Qed.
Section C75.
  Context (linv : grid R -> option (grid R)) (hh : grid R -> list R -> option (list R)) (d : page R) (y : list R) (X : grid R) (s : lm) (Hr : regression d y X).
  Lemma normal_least b H : length b = gc X -> inverse_of (gc X) (gram (wts d) X) H -> normal_equations (wts d) X y b ->
    forall b', length b' = gc X -> wsse (wts d) X y b <= wsse (wts d) X y b' /\ (wsse (wts d) X y b' = wsse (wts d) X y b -> b' = b).
  Proof.
    intros Lb (_ & _ & _ & HL & _) HN b' Lb'. assert (Hw : forall r, (r < gr X)%nat -> 0 <= weight (wts d) r) by (intros r Hrr; apply (sq_sq d y X r Hr Hrr)).
    destruct (least (gr X) (gc X) (weight (wts d)) (elt X false) (fun r => nth r y 0) (fun j => nth j b 0) HN Hw (fun j => nth j b' 0)) as [L1 L2]. split; [exact L1|].
    intros E. specialize (L2 E). apply list_ext_nth; [lia|]. intros i Hi.
    pose proof (only (gr X) (gc X) (weight (wts d)) (elt X false) (fun r => nth r y 0) (elt X false) (elt H false) HL) as O. cbv beta zeta in O.
    rewrite (O (fun j => nth j b' 0) L2 i ltac:(lia)). symmetry. apply (O (fun j => nth j b 0) HN i). lia.
  Qed.
  Context (H : grid R) (Hinv : inverts linv (gc X) (gram (wts d) X) H).
  Lemma beta_normal beta : (forall i, (i < gc X)%nat -> nth i beta 0 = the_beta (wts d) X y H i) -> normal_equations (wts d) X y beta.
  Proof.
    intros Hb j Hj. destruct Hinv as ((_ & _ & _ & HL & HR) & _). pose proof (normal (gr X) (gc X) (weight (wts d)) (elt X false) (fun r => nth r y 0) (elt X false) (elt H false) HR j Hj) as N. cbv beta zeta in N. etransitivity; [|exact N]. apply sum_to_ext. intros r Hrr. f_equal. apply (f_equal (fun z => nth r y 0 - z)). unfold fitted. apply sum_to_ext. intros i Hi. f_equal. rewrite Hb by auto. reflexivity.
  Qed.
  (** the estimate minimises the weighted sum of squared errors, and is the only one that does; its errors are orthogonal to the columns *)
  Theorem C75_least_squares : informative s -> exists e, estimate_ols linv hh d s = Ok e /\ length (e_beta e) = gc X /\ normal_equations (wts d) X y (e_beta e) /\
    forall b, length b = gc X -> wsse (wts d) X y (e_beta e) <= wsse (wts d) X y b /\ (wsse (wts d) X y b = wsse (wts d) X y (e_beta e) -> b = e_beta e).
  Proof.
    intros Hs. apply informative_ok in Hs as [Hp Hk]. destruct (estimate_ok linv hh d y X s H Hr Hinv Hk) as (set & beta & yw & fw & ew & _ & Lb & Nb & _ & _ & _ & _ & E). cbv zeta in E. rewrite Hp in E. eexists. split; [exact E|]. cbn [e_beta]. split; [auto|]. pose proof (beta_normal beta Nb). split; [auto|]. apply (normal_least _ H); auto. apply Hinv.
  Qed.
  (** with nothing but the parameters wanted, too, if the solver solves the equations it is given *)
  Theorem C75_parameters_only : ~ informative s -> ~ (parts s = None /\ want_cov s = true) ->
    (forall M v, wf_grid M -> gr M = gc X -> gc M = gc X -> length v = gc X -> exists b, hh M v = Some b /\ length b = gc X /\ forall i, (i < gc X)%nat -> sum_to (gc X) (fun j => elt M false i j * nth j b 0) = nth i v 0) ->
    exists e, estimate_ols linv hh d s = Ok e /\ length (e_beta e) = gc X /\ forall b, length b = gc X -> wsse (wts d) X y (e_beta e) <= wsse (wts d) X y b /\ (wsse (wts d) X y b = wsse (wts d) X y (e_beta e) -> b = e_beta e).
  Proof.
    intros Hi Hc Hhh. assert (Hk : skips s = true).
    { destruct (skips s) eqn:Ek; auto. exfalso. rewrite informative_ok in Hi. unfold has_pred, skips in *. destruct (parts s) as [[c p]|]; [apply Hi; auto|]. destruct (want_exp s); [apply Hi; auto|]. destruct (want_cov s); [apply Hc; auto|discriminate]. }
    destruct (set_ok d y X s Hr) as (set & y' & X' & E & _). destruct (xpx_ok d y X s set Hr E) as (M & v & DM & Dv & WM & GM1 & GM2 & Lv & CM & Nv). destruct (Hhh M v WM GM1 GM2 Lv) as (b & Hb & Lb & Sb).
    unfold estimate_ols. fold (set_of d s). rewrite E. cbn [rbind]. rewrite DM, Dv. cbn [rbind]. unfold xpxinvxpy. fold (skips s). rewrite Hk, Hb. cbn [rbind]. eexists. split; [reflexivity|]. cbn [e_beta]. split; [auto|]. apply (normal_least b H); auto; [apply Hinv|].
    intros j Hj. rewrite (sum_to_ext _ _ (fun r => weight (wts d) r * elt X false r j * nth r y 0 - weight (wts d) r * elt X false r j * fitted X b r)) by (intros; ring). rewrite <- sum_to_minus.
    pose proof (gfit (gr X) (gc X) (weight (wts d)) (elt X false) (elt X false) (fun j => nth j b 0) j) as GF. cbv beta zeta in GF. change (sum_to (gr X) (fun r => weight (wts d) r * elt X false r j * fitted X b r) = sum_to (gc X) (fun i => gram (wts d) X j i * nth i b 0)) in GF. rewrite GF.
    specialize (Sb j Hj). rewrite Nv in Sb by auto. rewrite <- Sb. rewrite sum_to_minus. rewrite (sum_to_ext _ _ (fun _ => 0)); [apply sum_to_zero|]. intros i Hi'. rewrite (cell_elt _ _ _ _ (CM j i Hj Hi')). lra.
  Qed.
  (** the reports: covariance, error variance, and the predictions, all of them multiplied by the root of the weight *)
  Theorem C75_reports : informative s -> (gc X < gr X)%nat -> exists e C s2 yw fw ew, estimate_ols linv hh d s = Ok e /\ e_s2 e = Is (Some s2) /\ s2 = wsse (wts d) X y (e_beta e) / (INR (gr X) - INR (gc X)) /\
    e_cov e = Is (Some C) /\ wf_grid C /\ gr C = gc X /\ gc C = gc X /\ (forall i j, elt C false i j = s2 * elt H false i j) /\
    e_pred e = Is (yw, fw, ew) /\ length yw = gr X /\ length fw = gr X /\ length ew = gr X /\
    forall i, (i < gr X)%nat -> let q := R_sqrt.sqrt (weight (wts d) i) in nth i yw 0 = q * nth i y 0 /\ nth i fw 0 = q * fitted X (e_beta e) i /\ nth i ew 0 = nth i fw 0 - nth i yw 0.
  Proof.
    intros Hs Hn. apply informative_ok in Hs as [Hp Hk]. destruct (estimate_ok linv hh d y X s H Hr Hinv Hk) as (set & beta & yw & fw & ew & _ & Lb & Nb & L1 & L2 & L3 & Nn & E). cbv zeta in E. rewrite Hp in E. rewrite (proj2 (Nat.ltb_ge _ _)) in E by lia.
    assert (Hd : INR (gr X - gc X) <> 0) by (apply not_0_INR; lia). unfold cdiv in E. destruct (Req_EM_T (INR (gr X - gc X)) 0); [contradiction|].
    eexists _, _, _, _, _, _. split; [exact E|]. cbn [e_s2 e_beta e_cov e_pred]. split; [reflexivity|]. split; [rewrite minus_INR by lia; reflexivity|]. split; [reflexivity|]. destruct Hinv as ((WH & H1 & H2 & _) & _).
    split. { destruct WH as [W1 W2]. split; cbn; [rewrite map_length; auto|]. apply List.Forall_map. eapply List.Forall_impl; [|exact W2]. cbn. intros l. rewrite map_length. auto. }
    split; [auto|]. split; [auto|]. split.
    { intros i j. unfold elt, cell. cbn [ga]. rewrite list_lookup_fmap. destruct (ga H !! i) as [r|]; cbn; [|lra]. rewrite list_lookup_fmap. destruct (r !! j); cbn; lra. }
    split; [reflexivity|]. split; [auto|]. split; [auto|]. split; [auto|]. intros i Hi. cbv zeta. destruct (Nn i Hi) as (-> & -> & ->). assert (Q : sq (wts d) i = R_sqrt.sqrt (weight (wts d) i)) by (unfold sq, weight; destruct (wts d); auto; symmetry; apply sqrt_1). rewrite Q. split; [ring|]. split; ring.
  Qed.
  (** data that are exactly linear give the coefficients back *)
  Theorem C75_exact b : informative s -> length b = gc X -> (forall i, (i < gr X)%nat -> nth i y 0 = fitted X b i) -> exists e, estimate_ols linv hh d s = Ok e /\ e_beta e = b.
  Proof.
    intros Hs Lb Hy. destruct (C75_least_squares Hs) as (e & E & L & N & M). exists e. split; auto. symmetry. apply M; auto. destruct (M b Lb) as [M1 _]. assert (Z0 : wsse (wts d) X y b = 0). { unfold wsse. rewrite (sum_to_ext _ _ (fun _ => 0)); [apply sum_to_zero|]. intros i Hi. rewrite Hy by auto. ring. }
    rewrite Z0 in *. apply Rle_antisym; auto. apply sum_to_nonneg. intros i Hi. apply Rmult_le_pos; [apply (sq_sq d y X i Hr Hi)|apply pow2_ge_0].
  Qed.
  (** the data are left alone unless they may be destroyed; without weights even then.  The parameters are named after the columns. *)
  Theorem C75_data_and_names e : estimate_ols linv hh d s = Ok e -> (destroy s = false \/ wts d = None -> e_data e = d) /\
    (forall v, vecn (nms d) = Some v -> title (e_names e) = Some ("Regression of " ++ v)%string /\ rown (e_names e) = coln (nms d) /\ vecn (e_names e) = Some "parameters"%string) /\
    e_pnames e = [match coln (nms d) with c :: _ => c | [] => "Observed"%string end; "Predicted"%string; "Residual"%string].
  Proof.
    unfold estimate_ols. fold (set_of d s). destruct (set_of d s) as [set| |] eqn:E; try discriminate. cbn [rbind]. destruct (the_mat _) as [M| |]; try discriminate. cbn [rbind]. destruct (the_vec _) as [v| |]; try discriminate. cbn [rbind]. destruct (xpxinvxpy _ _ _ _ _ _ _) as [[[[b c] s2] p]| |]; try discriminate. cbn [rbind]. intros [= <-]. cbn [e_data e_names e_pnames]. split; [|split; [|unfold pred_names; destruct (coln (nms d)); reflexivity]].
    - intros [->|Hw]; auto. unfold set_of in E. rewrite Hw in E. injection E as <-. destruct (destroy s); auto.
    - intros v0 Hv. unfold prep_names. rewrite Hv. destruct (add_all_row (add1 (add1 name_alloc ("Regression of " ++ v0)%string "h") "parameters" "v") (coln (nms d))) as (R1 & R2 & R3 & R4 & R5 & _). rewrite R1, R4, R5. cbn. auto.
  Qed.
End C75.

(** ** data without a vector *)
Lemma set_col_nth j x rows i : nth i (set_col j x rows) [] = <[j := x]> (nth i rows []).
Proof. revert i. induction rows as [|r rs IH]; intros [|i]; cbn; auto; destruct j; reflexivity. Qed.
Lemma set_col_length j x rows : length (set_col j x rows) = length rows.
Proof. induction rows; cbn; congruence. Qed.
(** the first column becomes the vector, and ones take its place; its name, which must not be empty, is the vector's name, and the column is named 1 *)
Theorem C75_shuffle (d : page R) X c names_ : vect d = None -> mat d = Some X -> wf_grid X -> (0 < gc X)%nat -> coln (nms d) = c :: names_ -> c <> ""%string ->
  exists d' y X', ols_prep d = Ok (d', None) /\ vect d' = Some y /\ mat d' = Some X' /\ wf_grid X' /\ gr X' = gr X /\ gc X' = gc X /\ length y = gr X /\
    (forall i, (i < gr X)%nat -> nth i y 0 = elt X false i 0 /\ elt X' false i 0 = 1 /\ forall j, (0 < j)%nat -> elt X' false i j = elt X false i j) /\
    vecn (nms d') = Some c /\ coln (nms d') = "1"%string :: names_ /\ wts d' = wts d /\ txt d' = txt d /\ rown (nms d') = rown (nms d) /\ txtn (nms d') = txtn (nms d) /\ title (nms d') = title (nms d).
Proof.
  intros Hv Hm [W1 W2] Hc Hn Hne. unfold ols_prep, ols_shuffle. rewrite Hv, Hm. rewrite (proj2 (Nat.eqb_neq _ _)) by lia. unfold rename_col0. rewrite Hn.
  destruct (Nat.eqb_spec (String.length c) 0) as [E|_]; [destruct c; [congruence|discriminate]|]. cbn [rbind]. eexists _, _, _. split; [reflexivity|]. split; [reflexivity|]. split; [reflexivity|].
  split. { split; cbn [gr gc ga]; [rewrite set_col_length; auto|]. clear - W2. induction W2; cbn; constructor; auto. rewrite insert_length. auto. }
  split; [reflexivity|]. split; [reflexivity|]. split; [unfold get_col; rewrite map_length; auto|]. split.
  { intros i Hi. assert (Hr : exists r, ga X !! i = Some r) by (apply lookup_lt_is_Some; lia). destruct Hr as [r Hr]. assert (Hl : length r = gc X) by (rewrite Forall_lookup in W2; eauto).
    assert (Hr' : ga (Gr (gr X) (gc X) (set_col 0 1 (ga X))) !! i = Some (<[0%nat := 1]> r)).
    { cbn [ga]. clear - Hr. revert i Hr. induction (ga X) as [|a l IH]; intros [|i] Hr; cbn in *; try discriminate; [injection Hr as ->; reflexivity|apply IH; auto]. }
    split; [|split].
    - rewrite (elt_row _ _ _ Hr). unfold get_col. apply nth_of. rewrite list_lookup_fmap, Hr. reflexivity.
    - rewrite (elt_row _ _ _ Hr'). destruct r; cbn in *; [lia|auto].
    - intros j Hj. rewrite (elt_row _ _ _ Hr'), (elt_row _ _ _ Hr). destruct j; [lia|]. destruct r; reflexivity. }
  cbn. auto 10.
Qed.

(** ** where the code differs *)
(** the name of the first column written over by a longer one *)
Theorem C75_shuffle_refuted_empty_name (d : page R) X names_ : vect d = None -> mat d = Some X -> (0 < gc X)%nat -> coln (nms d) = ""%string :: names_ -> ols_prep d = UB.
Proof. intros Hv Hm Hc Hn. unfold ols_prep, ols_shuffle, rename_col0. rewrite Hv, Hm, Hn, (proj2 (Nat.eqb_neq _ _)) by lia. reflexivity. Qed.
(** a covariance wanted, but no predictions: the page of predictions is written through a NULL pointer *)
Theorem C75_refuted_covariance_only linv hh d y X s H : regression d y X -> inverts linv (gc X) (gram (wts d) X) H -> parts s = None -> want_cov s = true -> want_exp s = false -> estimate_ols linv hh d s = UB.
Proof.
  intros Hr Hinv Hp Hc Hx. destruct (estimate_ok linv hh d y X s H Hr Hinv) as (set & beta & yw & fw & ew & _ & _ & _ & _ & _ & _ & _ & E). { unfold skips. rewrite Hp, Hc. reflexivity. }
  cbv zeta in E. unfold has_pred in E. rewrite Hp, Hx in E. exact E.
Qed.
(** a group of wanted parts left at its defaults (no part wanted): the parameters are estimated, but the page of predictions is there, never filled in, and read for the log likelihood *)
Theorem C75_refuted_default_parts linv hh d s e : parts s = Some (false, false) -> estimate_ols linv hh d s = Ok e -> e_pred e = Uninit /\ (forall X, mat d = Some X -> ols_ll d true e = UB).
Proof.
  intros Hp. unfold estimate_ols. fold (set_of d s). destruct (set_of d s) as [set| |] eqn:E; try discriminate. cbn [rbind]. destruct (the_mat _) as [M| |]; try discriminate. cbn [rbind]. destruct (the_vec _) as [v| |]; try discriminate. cbn [rbind].
  unfold xpxinvxpy. rewrite Hp. cbn. destruct (hh M v); try discriminate. cbn [rbind]. intros [= <-]. cbn [e_pred]. split; [reflexivity|]. intros X HX. unfold ols_ll. rewrite HX. reflexivity.
Qed.
(** columns that are linearly dependent: NULL is read *)
Theorem C75_refuted_singular linv hh d y X s : regression d y X -> skips s = false -> (forall M, wf_grid M -> gr M = gc X -> gc M = gc X -> (forall i j, (i < gc X)%nat -> (j < gc X)%nat -> cell M i j = Some (gram (wts d) X i j)) -> linv M = None) -> estimate_ols linv hh d s = UB.
Proof.
  intros Hr Hk Hl. destruct (set_ok d y X s Hr) as (set & y' & X' & E & _). destruct (xpx_ok d y X s set Hr E) as (M & v & DM & Dv & WM & G1 & G2 & _ & CM & _). unfold estimate_ols. fold (set_of d s). rewrite E. cbn [rbind]. rewrite DM, Dv. cbn [rbind]. unfold xpxinvxpy. fold (skips s). rewrite Hk, (Hl M WM G1 G2 CM). reflexivity.
Qed.

(** ** an example: regression on a constant *)
Definition linv1 (M : grid R) : option (grid R) := match ga M with [[a]] => if Req_EM_T a 0 then None else Some (Gr 1 1 [[/ a]]) | _ => None end.
Lemma linv1_inverts (G : nat -> nat -> R) : G 0%nat 0%nat <> 0 -> inverts linv1 1 G (Gr 1 1 [[/ G 0%nat 0%nat]]).
Proof.
  intros HG. split; [split; [|split; [reflexivity|split; [reflexivity|split]]]|].
  - split; [reflexivity|]. repeat constructor.
  - intros i j Hi Hj. assert (i = 0%nat) as -> by lia. assert (j = 0%nat) as -> by lia. unfold sum_to, elt, cell, delta. cbn. rewrite Rplus_0_l || idtac. field_simplify; auto.
  - intros i j Hi Hj. assert (i = 0%nat) as -> by lia. assert (j = 0%nat) as -> by lia. unfold sum_to, elt, cell, delta. cbn. field_simplify; auto.
  - intros [r c rows] [W1 W2] Hr Hc Hcell. cbn in *. subst. specialize (Hcell 0%nat 0%nat ltac:(lia) ltac:(lia)). unfold cell in Hcell. cbn in Hcell. destruct rows as [|row [|]]; cbn in *; try lia. inversion W2 as [|? ? Hrow _]; subst. destruct row as [|a [|]]; cbn in *; try lia. injection Hcell as ->. unfold linv1. cbn. destruct (Req_EM_T _ 0); [contradiction|auto].
Qed.
Definition ones2 : grid R := Gr 2 1 [[1]; [1]].
Definition constant_reg (w : option (list R)) : page R := Pg (Some [1; 3]) (Some ones2) w None name_alloc None.
Definition lm_default : lm := Lm true true false None.
Lemma constant_reg_ok w : w = None \/ w = Some [4; 4] -> regression (constant_reg w) [1; 3] ones2.
Proof.
  intros Hw. split; [auto|]. split; [auto|]. split; [split; [auto|repeat constructor]|]. split; [auto|]. intros v Ev. cbn in Ev. destruct Hw as [-> | ->]; [discriminate|]. injection Ev as <-. split; [auto|]. intros x [<-|[<-|[]]]; lra.
Qed.
Lemma constant_reg_inv w : w = None \/ w = Some [4; 4] -> exists H, inverts linv1 (gc ones2) (gram (wts (constant_reg w)) ones2) H.
Proof. intros Hw. eexists. apply linv1_inverts. unfold gram, sum_to, elt, cell. cbn. destruct Hw as [-> | ->]; cbn; lra. Qed.
Lemma constant_beta w b : w = None \/ w = Some [4; 4] -> normal_equations w ones2 [1; 3] b -> nth 0 b 0 = 2.
Proof. intros Hw H. specialize (H 0%nat ltac:(cbn; lia)). unfold fitted, sum_to, elt, cell in H. cbn in H. destruct Hw as [-> | ->]; cbn in H; lra. Qed.
Example C75_nonvacuous hh : exists e, estimate_ols linv1 hh (constant_reg (Some [4; 4])) lm_default = Ok e /\ nth 0 (e_beta e) 0 = 2 /\ informative lm_default.
Proof.
  destruct (constant_reg_inv (Some [4; 4])) as [H HI]; auto. assert (Hs : informative lm_default) by (left; auto).
  destruct (C75_least_squares linv1 hh _ _ _ lm_default (constant_reg_ok (Some [4; 4]) ltac:(auto)) H HI Hs) as (e & E & _ & N & _). exists e. split; [auto|]. split; [|auto]. eapply constant_beta; [|exact N]. auto.
Qed.
(** the third column is documented as the first minus the second.  It is the second minus the first. *)
Theorem C75_refuted_residual_sign hh : exists e yw fw ew, estimate_ols linv1 hh (constant_reg None) lm_default = Ok e /\ e_pred e = Is (yw, fw, ew) /\ nth 0 ew 0 <> nth 0 yw 0 - nth 0 fw 0.
Proof.
  destruct (constant_reg_inv None) as [H HI]; auto. assert (Hs : informative lm_default) by (left; auto). pose proof (constant_reg_ok None ltac:(auto)) as Hr.
  destruct (C75_least_squares linv1 hh _ _ _ lm_default Hr H HI Hs) as (e & E & _ & N & _).
  destruct (C75_reports linv1 hh _ _ _ lm_default Hr H HI Hs ltac:(cbn; lia)) as (e' & C & s2 & yw & fw & ew & E' & _ & _ & _ & _ & _ & _ & _ & P & _ & _ & _ & Q). rewrite E in E'. injection E' as <-.
  exists e, yw, fw, ew. split; [auto|]. split; [auto|]. specialize (Q 0%nat ltac:(cbn; lia)). cbv zeta in Q. destruct Q as (Q1 & Q2 & Q3). apply constant_beta in N; auto.
  rewrite Q3, Q1, Q2. unfold fitted, sum_to, elt, cell. cbn. rewrite N, sqrt_1. lra.
Qed.
(** the first column is documented as the dependent variable.  With weights it is not. *)
Theorem C75_refuted_weighted_page hh : exists e yw fw ew, estimate_ols linv1 hh (constant_reg (Some [4; 4])) lm_default = Ok e /\ e_pred e = Is (yw, fw, ew) /\ nth 0 yw 0 <> 1 /\ nth 0 fw 0 <> fitted ones2 (e_beta e) 0.
Proof.
  destruct (constant_reg_inv (Some [4; 4])) as [H HI]; auto. assert (Hs : informative lm_default) by (left; auto). pose proof (constant_reg_ok (Some [4; 4]) ltac:(auto)) as Hr.
  destruct (C75_least_squares linv1 hh _ _ _ lm_default Hr H HI Hs) as (e & E & _ & N & _).
  destruct (C75_reports linv1 hh _ _ _ lm_default Hr H HI Hs ltac:(cbn; lia)) as (e' & C & s2 & yw & fw & ew & E' & _ & _ & _ & _ & _ & _ & _ & P & _ & _ & _ & Q). rewrite E in E'. injection E' as <-.
  exists e, yw, fw, ew. split; [auto|]. split; [auto|]. specialize (Q 0%nat ltac:(cbn; lia)). cbv zeta in Q. destruct Q as (Q1 & Q2 & Q3). apply constant_beta in N; auto.
  assert (S4 : R_sqrt.sqrt 4 = 2) by (replace 4 with (2 * 2) by lra; apply sqrt_square; lra). cbn [wts constant_reg weight] in Q1, Q2. change (nth 0 [4; 4] 0) with 4 in Q1, Q2. rewrite Q1, Q2, S4. change (nth 0 [1; 3] 0) with 1. split; [lra|].
  unfold fitted, sum_to, elt, cell. cbn. rewrite N. lra.
Qed.
Print Assumptions C75_least_squares.
