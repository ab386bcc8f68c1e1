(** C76: the regression's log likelihood, score, predictions and tests.  Vocabulary in OlsSpec. *)
From Coq Require Import Reals Lra.
From Verif Require Import DataModel NamesModel StatsModel StatsSpec StatsProofs LinModel LinProps FactModel LikeModel OlsModel OlsSpec OlsProofs OlsProps.
Local Open Scope list_scope.
Local Open Scope R_scope.

(** the log likelihood of errors [e 0], ..., [e (n-1)], normal with mean 0 and variance [v] *)
Definition gauss_ll (v : R) (n : nat) (e : nat -> R) : R := - (INR n / 2) * ln (2 * PI * v) - sum_to n (fun i => e i ^ 2) / (2 * v).
Lemma sum_to_cons n f : sum_to (S n) f = f 0%nat + sum_to n (fun i => f (S i)).
Proof. unfold sum_to. rewrite <- cons_seq, <- seq_shift, map_cons, map_map. rewrite Rsum_cons. reflexivity. Qed.
Lemma ln_pdf x v w : 0 < v -> 0 < w -> ln (gaussian_pdf x (R_sqrt.sqrt v) * w * 1) = - (1 / 2) * ln (2 * PI * v) - x ^ 2 / (2 * v) + ln w.
Proof.
  intros Hv Hw. pose proof PI_RGT_0. assert (Hs : 0 < R_sqrt.sqrt v) by (apply sqrt_lt_R0; auto). assert (Hp : 0 < R_sqrt.sqrt (2 * PI)) by (apply sqrt_lt_R0; lra).
  unfold gaussian_pdf. rewrite (Rabs_pos_eq _ (Rlt_le _ _ Hs)). rewrite Rmult_1_r.
  assert (0 < 1 / (R_sqrt.sqrt (2 * PI) * R_sqrt.sqrt v)) by (apply Rdiv_lt_0_compat; [lra|apply Rmult_lt_0_compat; auto]).
  rewrite (ln_mult _ w); [|apply Rmult_lt_0_compat; auto using exp_pos|auto]. rewrite (ln_mult _ (exp _)) by auto using exp_pos. rewrite ln_exp. unfold Rdiv at 1. rewrite Rmult_1_l, ln_Rinv by (apply Rmult_lt_0_compat; auto). rewrite (ln_mult (R_sqrt.sqrt _)) by auto.
  assert (L : forall z, 0 < z -> ln (R_sqrt.sqrt z) = 1 / 2 * ln z). { intros z Hz. assert (E : ln z = ln (R_sqrt.sqrt z * R_sqrt.sqrt z)) by (rewrite sqrt_sqrt; lra). rewrite ln_mult in E by (apply sqrt_lt_R0; auto). lra. }
  rewrite !L by lra. rewrite (ln_mult (2 * PI) v) by lra.
  assert (E : - (x / R_sqrt.sqrt v) * (x / R_sqrt.sqrt v) / 2 = - (x ^ 2 / (2 * v))). { rewrite <- (sqrt_sqrt v) at 3 by lra. field. lra. }
  rewrite E. lra.
Qed.
Lemma ll_fold v : 0 < v -> forall es ws a, length es = length ws -> (forall w, In w ws -> 0 < w) ->
  fold_left (fun a '(x, w) => match a with None => None | Some s => if Rlt_dec 0 w then Some (s + ln (gaussian_pdf x (R_sqrt.sqrt v) * w * 1)) else None end) (combine es ws) (Some a) =
  Some (a + gauss_ll v (length es) (fun i => nth i es 0) + sum_to (length es) (fun i => ln (nth i ws 0))).
Proof.
  intros Hv es. induction es as [|e es IH]; intros [|w ws] a Hl Hw; cbn in Hl; try lia.
  - cbn. f_equal. unfold gauss_ll, sum_to. cbn. field. lra.
  - cbn [combine fold_left]. assert (0 < w) by (apply Hw; left; auto). destruct (Rlt_dec 0 w); [|contradiction]. rewrite IH; [|lia|intros; apply Hw; right; auto]. f_equal. rewrite ln_pdf by auto. cbn [length]. unfold gauss_ll. rewrite !sum_to_cons. cbn [nth]. rewrite S_INR. field. lra.
Qed.
(** the errors from the parameters, of data with a vector *)
Lemma errors_ok d y X b : vect d = Some y -> mat d = Some X -> wf_grid X -> length y = gr X -> length b = gc X ->
  exists es, errors_of d b = Ok es /\ length es = gr X /\ forall i, (i < gr X)%nat -> nth i es 0 = fitted X b i - nth i y 0.
Proof.
  intros Hy HX [W1 W2] Ly Lb. unfold errors_of. rewrite HX. set (f := fun i r => _).
  assert (A : forall rows k, (forall i r, rows !! i = Some r -> f (k + i)%nat r = Ok (ddot_loop b r 0 - nth (k + i) y 0)) -> exists es, all_res (imap (fun i => f (k + i)%nat) rows) = Ok es /\ length es = length rows /\ forall i r, rows !! i = Some r -> nth i es 0 = ddot_loop b r 0 - nth (k + i) y 0).
  { induction rows as [|r rows IH]; intros k Hf; [exists []; split; [auto|split; [auto|]]; intros; discriminate|]. cbn [imap]. destruct (IH (S k)) as (es & E & L & N).
    { intros i q Hq. specialize (Hf (S i) q Hq). rewrite Nat.add_succ_r in Hf. exact Hf. }
    rewrite (Hf 0%nat r eq_refl). cbn [all_res rbind]. erewrite imap_ext; [rewrite E|]; [|intros i q _; cbn; rewrite Nat.add_succ_r; reflexivity]. cbn [rbind]. eexists. split; [reflexivity|]. split; [cbn; lia|].
    intros [|i] q Hq; cbn in *; [injection Hq as ->; rewrite Nat.add_0_r; auto|]. rewrite (N i q Hq). repeat f_equal. lia. }
  destruct (A (ga X) 0%nat) as (es & E & L & N).
  { intros i r Hr. unfold f. assert (length r = gc X) by (rewrite Forall_lookup in W2; eauto). rewrite (proj2 (Nat.eqb_eq _ _)) by lia. cbn [negb]. rewrite Hy. assert (Hi : (i < gr X)%nat) by (apply lookup_lt_Some in Hr; lia). destruct (y !! i) as [a|] eqn:Ea; [|apply lookup_ge_None in Ea; lia]. cbn. rewrite Ea. rewrite (nth_of _ _ _ Ea). reflexivity. }
  exists es. split; [exact E|]. split; [lia|]. intros i Hi. destruct (ga X !! i) as [r|] eqn:Er; [|apply lookup_ge_None in Er; lia]. rewrite (N i r Er). assert (length r = gc X) by (rewrite Forall_lookup in W2; eauto). rewrite ddot_nth by lia. rewrite Rplus_0_l. unfold fitted. rewrite Lb. cbn [Nat.add]. f_equal. apply sum_to_ext. intros j Hj. rewrite (elt_row _ _ _ Er). ring.
Qed.
Lemma gauss_ext v n e f : (forall i, (i < n)%nat -> e i = f i) -> gauss_ll v n e = gauss_ll v n f.
Proof. intros H. unfold gauss_ll. do 2 f_equal. apply sum_to_ext. intros. rewrite H; auto. Qed.
Definition ws_of (w : option (list R)) (n : nat) : list R := match w with None => replicate n 1 | Some w => w end.
Lemma ws_ok d y X : regression d y X -> (forall i, (i < gr X)%nat -> 0 < weight (wts d) i) ->
  match wts d with None => Ok (replicate (gr X) 1) | Some w => if (length w =? gr X)%nat then Ok w else UB end = Ok (ws_of (wts d) (gr X)) /\ length (ws_of (wts d) (gr X)) = gr X /\
  (forall i, (i < gr X)%nat -> nth i (ws_of (wts d) (gr X)) 0 = weight (wts d) i) /\ forall w, In w (ws_of (wts d) (gr X)) -> 0 < w.
Proof.
  intros (_ & _ & _ & _ & Hw) Hp. unfold ws_of, weight in *. destruct (wts d) as [w|].
  - destruct (Hw w eq_refl) as [Hl _]. rewrite (proj2 (Nat.eqb_eq _ _)) by auto. split; [auto|]. split; [auto|]. split; [auto|]. intros x Hx. apply (In_nth _ _ 0) in Hx as (i & Hi & <-). apply Hp. lia.
  - split; [auto|]. split; [apply replicate_length|]. split; [|intros w Hin; apply elem_of_list_In, elem_of_replicate in Hin as [-> _]; lra]. intros i Hi. apply nth_of. rewrite lookup_replicate. auto.
Qed.
Lemma ll_of d y X e (same : bool) es v : regression d y X -> (forall i, (i < gr X)%nat -> 0 < weight (wts d) i) -> e_s2 e = Is (Some v) -> 0 < v -> length es = gr X ->
  (if same then match e_pred e with Is (_, _, c) => Ok (take (gr X) c ++ replicate (gr X - length c) 0) | Uninit => UB | Absent => errors_of d (e_beta e) end else errors_of d (e_beta e)) = Ok es ->
  ols_ll d same e = Ok (Some (gauss_ll v (gr X) (fun i => nth i es 0) + sum_to (gr X) (fun i => ln (weight (wts d) i)))).
Proof.
  intros Hr Hp Hv Hv0 Hl He. unfold ols_ll. destruct (ws_ok d y X Hr Hp) as (W1 & W2 & W3 & W4). destruct Hr as (_ & HX & _). rewrite HX, He. cbn [rbind]. rewrite Hv. cbn [rbind]. destruct (Rlt_dec 0 v); [|contradiction]. rewrite W1. cbn [rbind]. rewrite ll_fold by (auto; lia). rewrite Rplus_0_l, Hl. do 3 f_equal. apply sum_to_ext. intros. rewrite W3; auto.
Qed.
Section C76.
  Context (linv : grid R -> option (grid R)) (hh : grid R -> list R -> option (list R)).
  (** the log likelihood of the data of the estimate: that of normal errors, with the estimate's error variance; with weights, the errors are multiplied by the root of the weight, and a constant is added *)
  Theorem C76_log_likelihood d y X s H : regression d y X -> inverts linv (gc X) (gram (wts d) X) H -> informative s -> (gc X < gr X)%nat -> (forall i, (i < gr X)%nat -> 0 < weight (wts d) i) ->
    exists e, estimate_ols linv hh d s = Ok e /\ let v := wsse (wts d) X y (e_beta e) / (INR (gr X) - INR (gc X)) in
      (0 < v -> ols_ll d true e = Ok (Some (gauss_ll v (gr X) (fun i => R_sqrt.sqrt (weight (wts d) i) * (nth i y 0 - fitted X (e_beta e) i)) + sum_to (gr X) (fun i => ln (weight (wts d) i))))) /\
      forall d' y' X', regression d' y' X' -> gc X' = gc X -> (forall i, (i < gr X')%nat -> 0 < weight (wts d') i) ->
        0 < v -> ols_ll d' false e = Ok (Some (gauss_ll v (gr X') (fun i => nth i y' 0 - fitted X' (e_beta e) i) + sum_to (gr X') (fun i => ln (weight (wts d') i)))).
  Proof.
    intros Hr HI Hs Hn Hp. destruct (C75_least_squares linv hh d y X s Hr H HI Hs) as (e & E & Lb & _).
    destruct (C75_reports linv hh d y X s Hr H HI Hs Hn) as (e' & C & s2 & yw & fw & ew & E' & S2 & Ev & _ & _ & _ & _ & _ & P & L1 & L2 & L3 & Q). rewrite E in E'. injection E' as <-.
    exists e. split; [auto|]. cbv zeta. rewrite <- Ev. split.
    - intros Hv. rewrite (ll_of d y X e true ew s2); auto; [|rewrite P, take_ge, L3, Nat.sub_diag, app_nil_r by lia; auto].
      do 2 f_equal. f_equal. unfold gauss_ll. do 2 f_equal. apply sum_to_ext. intros i Hi. destruct (Q i Hi) as (Q1 & Q2 & Q3). rewrite Q3, Q1, Q2. ring.
    - intros d' y' X' Hr' Hc' Hp' Hv. destruct Hr' as (Hy' & HX' & WX' & Ly' & Hw'). destruct (errors_ok d' y' X' (e_beta e) Hy' HX' WX' Ly' ltac:(lia)) as (es & Ee & Le & Ne).
      rewrite (ll_of d' y' X' e false es s2); auto; [|repeat (split; auto)]. do 2 f_equal. f_equal. unfold gauss_ll. do 2 f_equal. apply sum_to_ext. intros i Hi. rewrite Ne by auto. ring.
  Qed.
  (** without weights that is the usual formula *)
  Theorem C76_log_likelihood_plain d y X s H : regression d y X -> wts d = None -> inverts linv (gc X) (gram None X) H -> informative s -> (gc X < gr X)%nat ->
    exists e, estimate_ols linv hh d s = Ok e /\ let v := wsse None X y (e_beta e) / (INR (gr X) - INR (gc X)) in
      (0 < v -> ols_ll d true e = Ok (Some (- (INR (gr X) / 2) * ln (2 * PI * v) - wsse None X y (e_beta e) / (2 * v))) /\ ols_ll d false e = ols_ll d true e).
  Proof.
    intros Hr Hw HI Hs Hn. rewrite <- Hw in HI. destruct (C76_log_likelihood d y X s H Hr HI Hs Hn) as (e & E & L1 & L2). { intros. rewrite Hw. cbn. lra. }
    exists e. split; [auto|]. cbv zeta. rewrite Hw in *. intros Hv. specialize (L1 Hv). specialize (L2 d y X Hr eq_refl). rewrite L2; auto; [|intros; rewrite Hw; cbn; lra]. rewrite L1. rewrite Hw. cbn [weight].
    rewrite (sum_to_ext _ (fun _ => ln 1) (fun _ => 0)), sum_to_zero by (intros; apply ln_1). rewrite !Rplus_0_r. split.
    - do 2 f_equal. unfold gauss_ll. do 2 f_equal. apply sum_to_ext. intros. rewrite sqrt_1. cbn [weight]. ring.
    - do 2 f_equal. apply gauss_ext. intros. rewrite sqrt_1. ring.
  Qed.
  (** data not yet prepared have the errors they would have if prepared *)
  Theorem C76_unprepared d d' X c names_ b : vect d = None -> mat d = Some X -> wf_grid X -> (0 < gc X)%nat -> coln (nms d) = c :: names_ -> c <> ""%string -> length b = gc X -> ols_prep d = Ok (d', None) ->
    errors_of d b = errors_of d' b.
  Proof.
    intros Hv HX WX Hc Hn Hne Lb. unfold ols_prep, ols_shuffle. rewrite Hv, HX, (proj2 (Nat.eqb_neq _ _)) by lia. unfold rename_col0. rewrite Hn. destruct (Nat.eqb_spec (String.length c) 0) as [E|_]; [destruct c; [congruence|discriminate]|]. cbn [rbind]. intros [= <-].
    unfold errors_of. cbn [mat set_mat set_vec set_nms vect]. rewrite HX, Hv. cbn [ga]. unfold get_col. destruct WX as [_ W2]. clear - W2 Lb Hc. f_equal.
    set (col := map (fun r => nth 0 r 0) (ga X)).
    assert (A : forall rows k, List.Forall (fun r => length r = gc X) rows -> (forall i r, rows !! i = Some r -> col !! (k + i)%nat = Some (nth 0 r 0)) ->
      imap (fun i r => (fun _ r => if negb (length r =? length b)%nat then UB else match r, b with a :: _, b0 :: _ => Ok (ddot_loop b r 0 + b0 * (1 - a) - a) | _, _ => UB end) (k + i)%nat r) rows =
      imap (fun i r => (fun i r => if negb (length r =? length b)%nat then UB else match col !! i with Some a => Ok (ddot_loop b r 0 - a) | None => UB end) (k + i)%nat r) (set_col 0 1 rows)).
    { induction rows as [|r rows IH]; intros k HF Hcol; [reflexivity|]. inversion HF as [|? ? Hr HF']; subst. cbn [imap set_col]. f_equal.
      - rewrite insert_length. rewrite (Hcol 0%nat r eq_refl). rewrite (proj2 (Nat.eqb_eq _ _)) by lia. cbn [negb]. destruct r as [|a r]; [cbn in Hr; lia|]. destruct b as [|b0 b]; [cbn in *; lia|]. cbn [nth list_insert]. change (<[0%nat := 1]> (a :: r)) with (1 :: r). f_equal. rewrite !ddot_nth by (cbn in *; lia). rewrite !Rplus_0_l. cbn [length]. rewrite !sum_to_cons. cbn [nth]. ring.
      - cbn. erewrite imap_ext; [symmetry; erewrite imap_ext; [symmetry; apply (IH (S k) HF')|]|].
        + intros i q Hq. specialize (Hcol (S i) q Hq). rewrite Nat.add_succ_r in Hcol. exact Hcol.
        + intros i q _. cbn. rewrite Nat.add_succ_r. reflexivity.
        + intros i q _. cbn. reflexivity. }
    apply (A (ga X) 0%nat W2). intros i r Hr. unfold col. rewrite list_lookup_fmap. cbn. rewrite Hr. reflexivity.
  Qed.
End C76.

(** ** the score *)
Lemma sum_derive n (F : nat -> R -> R) (f : nat -> R) t : (forall i, (i < n)%nat -> derivable_pt_lim (F i) t (f i)) -> derivable_pt_lim (fun t => sum_to n (fun i => F i t)) t (sum_to n f).
Proof.
  induction n as [|n IH]; intros HF; [apply derivable_pt_lim_const|]. rewrite sum_to_S. apply (derivable_pt_lim_ext (fun t => sum_to n (fun i => F i t) + F n t)%R); [intros; rewrite sum_to_S; auto|]. apply (derivable_pt_lim_plus (fun t => sum_to n (fun i => F i t)) (F n)); [apply IH; intros; apply HF; lia|apply HF; lia].
Qed.
Lemma fitted_insert X b j t i : (j < gc X)%nat -> length b = gc X -> fitted X (<[j := t]> b) i = fitted X b i + elt X false i j * (t - nth j b 0).
Proof.
  intros Hj Lb. unfold fitted. transitivity (sum_to (gc X) (fun l => elt X false i l * nth l b 0 + delta j l * (elt X false i l * (t - nth l b 0)))).
  - apply sum_to_ext. intros l Hl. unfold delta. destruct (Nat.eqb_spec j l) as [<-|Hne].
    + rewrite (nth_of (<[j := t]> b) j t) by (apply list_lookup_insert; lia). ring.
    + assert (E : nth l (<[j := t]> b) 0 = nth l b 0). { rewrite !nth_lookup. rewrite list_lookup_insert_ne by auto. auto. } rewrite E. ring.
  - rewrite <- sum_to_plus, sum_delta by auto. auto.
Qed.
Lemma score_fold (X : list (list R)) j sigma : forall es ws a, length es = length X -> length ws = length X ->
  fold_left (fun g '(r, x, w) => g + w * nth j r 0 * fst (normal_score 0 sigma (Pg None (Some (Gr 1 1 [[x]])) None None name_alloc None))) (combine (combine X es) ws) a =
  a + sum_to (length X) (fun i => nth i ws 0 * nth j (nth i X []) 0 * (nth i es 0 / sigma ^ 2)).
Proof.
  induction X as [|r X IH]; intros [|e es] [|w ws] a L1 L2; cbn in L1, L2; try lia.
  - cbn. unfold sum_to. cbn. lra.
  - cbn [combine fold_left length]. rewrite IH by lia. rewrite sum_to_cons. cbn [nth]. assert (E : fst (normal_score 0 sigma (Pg None (Some (Gr 1 1 [[e]])) None None name_alloc None)) = e / sigma ^ 2). { unfold normal_score. cbn. f_equal. lra. } rewrite E. ring.
Qed.
Section score.
  Context (d : page R) (y : list R) (X : grid R) (b : list R) (Hr : regression d y X) (Lb : length b = gc X) (Hn : (2 <= gr X)%nat) (Hp : forall i, (i < gr X)%nat -> 0 < weight (wts d) i).
  (** the errors' standard deviation, in which the score is taken *)
  Definition spread : R := svar (map (fun i => nth i y 0 - fitted X b i) (seq 0 (gr X))).
  Lemma svar_opp (l : list R) : svar (map Ropp l) = svar l.
  Proof using.
    clear. assert (S : forall l : list R, Rsum (map Ropp l) = - Rsum l). { induction l0 as [|a l0 IH]; [cbn; lra|]. cbn [map]. rewrite !Rsum_cons, IH. lra. }
    unfold svar. rewrite List.map_length. unfold Rdiv. f_equal. rewrite List.map_map. f_equal. apply List.map_ext. intros a. unfold avg. rewrite List.map_length, S. unfold Rdiv. ring.
  Qed.
  Theorem C76_score : 0 < spread -> exists g, ols_score d b = Ok (Some g) /\ length g = gc X /\
    forall j, (j < gc X)%nat -> nth j g 0 = sum_to (gr X) (fun i => weight (wts d) i * elt X false i j * (fitted X b i - nth i y 0)) / spread /\
      (* minus the derivative of the log likelihood *)
      derivable_pt_lim (fun t => sum_to (gr X) (fun i => weight (wts d) i * ln (gaussian_pdf (nth i y 0 - fitted X (<[j := t]> b) i) (R_sqrt.sqrt spread)))) (nth j b 0) (- nth j g 0).
  Proof.
    intros Hs. pose proof Hr as (Hy & HX & [W1 W2] & Ly & _). destruct (errors_ok d y X b Hy HX (conj W1 W2) Ly Lb) as (es & Ee & Le & Ne). destruct (ws_ok d y X Hr Hp) as (E1 & E2 & E3 & _).
    assert (Es : svar es = spread). { unfold spread. rewrite <- (svar_opp es). f_equal. apply list_ext_nth; [rewrite !map_length, seq_length; auto|]. intros i Hi. rewrite map_length, Le in Hi. transitivity (- nth i es 0); [rewrite <- (map_nth Ropp); f_equal; lra|]. rewrite Ne by auto. symmetry. apply nth_of. rewrite list_lookup_fmap, lookup_seq_lt by auto. cbn. f_equal. ring. }
    unfold ols_score. rewrite HX, Ee. cbn [rbind]. rewrite var_plain by lia. rewrite Es. unfold csqrt. destruct (Rlt_dec spread 0); [lra|].
    assert (0 < R_sqrt.sqrt spread) by (apply sqrt_lt_R0; auto). destruct (Req_EM_T (R_sqrt.sqrt spread) 0); [lra|]. rewrite E1. cbn [rbind]. eexists. split; [reflexivity|]. split; [rewrite map_length, seq_length; auto|]. intros j Hj.
    assert (G : forall f : nat -> R, nth j (map f (seq 0 (gc X))) 0 = f j) by (intros f; apply nth_of; rewrite list_lookup_fmap, lookup_seq_lt by auto; reflexivity). rewrite G. rewrite score_fold by (rewrite ?W1; auto). rewrite Rplus_0_l, W1.
    assert (V : R_sqrt.sqrt spread ^ 2 = spread) by (cbn; rewrite Rmult_1_r; apply sqrt_sqrt; lra). rewrite V.
    assert (EQ : sum_to (gr X) (fun i => nth i (ws_of (wts d) (gr X)) 0 * nth j (nth i (ga X) []) 0 * (nth i es 0 / spread)) = sum_to (gr X) (fun i => weight (wts d) i * elt X false i j * (fitted X b i - nth i y 0)) / spread).
    { unfold Rdiv at 2. rewrite Rmult_comm, sum_to_scal. apply sum_to_ext. intros i Hi. rewrite E3, Ne by auto. destruct (ga X !! i) as [r|] eqn:Er; [|apply lookup_ge_None in Er; lia]. rewrite (elt_row _ _ _ Er). rewrite (nth_lookup_Some _ _ _ _ Er). field. lra. }
    rewrite EQ. split; [reflexivity|]. replace (- (sum_to (gr X) (fun i => weight (wts d) i * elt X false i j * (fitted X b i - nth i y 0)) / spread)) with (sum_to (gr X) (fun i => weight (wts d) i * elt X false i j * (nth i y 0 - fitted X b i) / spread)).
    2: { unfold Rdiv at 2. rewrite Ropp_mult_distr_r, Rmult_comm, sum_to_scal. apply sum_to_ext. intros. field. lra. }
    apply (sum_derive _ (fun i t => weight (wts d) i * ln (gaussian_pdf (nth i y 0 - fitted X (<[j := t]> b) i) (R_sqrt.sqrt spread)))). intros i Hi.
    apply (derivable_pt_lim_ext (fun t => weight (wts d) i * (- (1 / 2) * ln (2 * PI * spread) - (nth i y 0 - fitted X b i - elt X false i j * (t - nth j b 0)) ^ 2 / (2 * spread)))).
    - intros t. f_equal. rewrite fitted_insert by auto. pose proof (ln_pdf (nth i y 0 - (fitted X b i + elt X false i j * (t - nth j b 0))) spread 1 Hs Rlt_0_1) as L. rewrite !Rmult_1_r, ln_1, Rplus_0_r in L. rewrite L. replace (nth i y 0 - (fitted X b i + elt X false i j * (t - nth j b 0))) with (nth i y 0 - fitted X b i - elt X false i j * (t - nth j b 0)) by ring. reflexivity.
    - set (a := elt X false i j). set (e := nth i y 0 - fitted X b i). set (b0 := nth j b 0). set (wi := weight (wts d) i). set (c := - (1 / 2) * ln (2 * PI * spread)).
      replace (wi * a * e / spread) with (wi * (0 - / (2 * spread) * (INR 2 * (e - a * (b0 - b0)) ^ Init.Nat.pred 2 * (0 - a * (1 - 0))))) by (cbn; field; lra).
      apply derivable_pt_lim_scal. apply (derivable_pt_lim_minus (fun _ => c)); [apply derivable_pt_lim_const|].
      apply (derivable_pt_lim_ext (mult_real_fct (/ (2 * spread)) (comp (fun z => z ^ 2) (fun t => e - a * (t - b0))))); [intros; unfold mult_real_fct, comp; field; lra|]. apply derivable_pt_lim_scal.
      apply (derivable_pt_lim_comp (fun t => e - a * (t - b0)) (fun z => z ^ 2)); [|apply derivable_pt_lim_pow].
      apply (derivable_pt_lim_minus (fun _ => e)); [apply derivable_pt_lim_const|]. apply derivable_pt_lim_scal. apply (derivable_pt_lim_minus id (fun _ => b0)); [apply derivable_pt_lim_id|apply derivable_pt_lim_const].
  Qed.
End score.

(** ** prediction *)
Lemma predict_fit X b : wf_grid X -> length b = gc X -> exists v, dgemv false X b = Some v /\ length v = gr X /\ forall i, (i < gr X)%nat -> nth i v 0 = fitted X b i.
Proof.
  intros WX Lb. destruct (dgemv_spec false X b WX) as (v & E & L & N); [cbn; lia|]. cbn in L. exists v. split; [auto|]. split; [auto|]. intros i Hi. rewrite (nth_of _ _ _ (N i ltac:(lia))). unfold fitted. rewrite Lb. reflexivity.
Qed.
(** the vector is replaced by the linear function's values; nothing else changes *)
Theorem C76_predict d y X b : vect d = Some y -> mat d = Some X -> wf_grid X -> length y = gr X -> length b = gc X ->
  exists v, ols_predict d b = Ok (set_vec d (Some v)) /\ length v = gr X /\ forall i, (i < gr X)%nat -> nth i v 0 = fitted X b i.
Proof.
  intros Hy HX WX Ly Lb. destruct (predict_fit X b WX Lb) as (v & E & L & N). exists v. unfold ols_predict. rewrite Hy. cbn [rbind]. rewrite HX, Hy, E, (proj2 (Nat.eqb_eq _ _)) by auto. auto.
Qed.
(** data without a vector are prepared first: the first parameter is the constant, and the first column, now ones, is not used *)
Theorem C76_predict_unprepared d X c names_ b : vect d = None -> mat d = Some X -> wf_grid X -> (0 < gc X)%nat -> coln (nms d) = c :: names_ -> c <> ""%string -> length b = gc X ->
  exists d' v X', ols_predict d b = Ok d' /\ vect d' = Some v /\ length v = gr X /\ mat d' = Some X' /\ (forall i, (i < gr X)%nat -> elt X' false i 0 = 1 /\ forall j, (0 < j)%nat -> elt X' false i j = elt X false i j) /\
    forall i, (i < gr X)%nat -> nth i v 0 = nth 0 b 0 + sum_to (gc X - 1) (fun j => elt X false i (S j) * nth (S j) b 0).
Proof.
  intros Hv HX WX Hc Hn Hne Lb. destruct (C75_shuffle d X c names_ Hv HX WX Hc Hn Hne) as (d1 & y & X' & P & V1 & M1 & WX' & G1 & G2 & Ly & Q & _).
  assert (P' : ols_shuffle d = Ok d1). { unfold ols_prep in P. rewrite Hv, HX in P. destruct (ols_shuffle d) as [q| |]; try discriminate. cbn in P. injection P as ->. auto. }
  destruct (predict_fit X' b WX' ltac:(lia)) as (v & E & L & N). unfold ols_predict. rewrite Hv, P'. cbn [rbind]. rewrite M1, V1, E, (proj2 (Nat.eqb_eq _ _)) by lia.
  eexists _, v, X'. split; [reflexivity|]. split; [reflexivity|]. split; [lia|]. split; [exact M1|]. split; [intros i Hi; apply Q; auto|]. intros i Hi. rewrite N by lia. destruct (Q i Hi) as (_ & Q2 & Q3). unfold fitted. rewrite G2. replace (gc X) with (S (gc X - 1)) at 1 by lia. rewrite sum_to_cons, Q2, Rmult_1_l. f_equal. apply sum_to_ext. intros j Hj. rewrite Q3 by lia. auto.
Qed.

(** ** tests *)
Theorem C76_tests (tcdf : R -> Z -> R) rows vsize beta cov df : df = tests_df rows vsize (length beta) ->
  (forall x, tcdf (- x) df = 1 - tcdf x df) -> (forall x x', x <= x' -> tcdf x df <= tcdf x' df) -> (forall x, 0 <= tcdf x df <= 1) ->
  forall i b v, beta !! i = Some b -> cell cov i i = Some v -> 0 < v -> exists p conf, parameter_tests tcdf rows vsize beta cov !! i = Some (Some (p, conf)) /\
    p = 2 * (1 - tcdf (Rabs b / R_sqrt.sqrt v) df) /\ conf = 1 - p /\ 0 <= p <= 1 /\ ((length beta < (if (rows =? 0)%nat then vsize else rows))%nat -> df = Z.of_nat ((if (rows =? 0)%nat then vsize else rows) - length beta)) /\ (((if (rows =? 0)%nat then vsize else rows) <= length beta)%nat -> df = 1%Z).
Proof.
  intros Hdf Hsym Hmono Hb i b v Hi Hv Hv0. unfold parameter_tests. rewrite list_lookup_imap, Hi. cbn [option_map fmap option_fmap]. rewrite Hv, <- Hdf. unfold one_test, csqrt, cdiv. destruct (Rlt_dec v 0); [lra|]. assert (Hs : 0 < R_sqrt.sqrt v) by (apply sqrt_lt_R0; auto). destruct (Req_EM_T (R_sqrt.sqrt v) 0); [lra|].
  eexists _, _. split; [reflexivity|]. set (s := R_sqrt.sqrt v) in *.
  assert (H0 : tcdf 0 df = 1 / 2) by (pose proof (Hsym 0) as H0; rewrite Ropp_0 in H0; lra).
  assert (P : 2 * Rabs (0.5 - tcdf ((0 - b) / s) df) = 1 - 2 * (1 - tcdf (Rabs b / s) df)).
  { replace ((0 - b) / s) with (- (b / s)) by (field; lra). rewrite Hsym. unfold Rabs at 2. destruct (Rcase_abs b) as [Hneg|Hpos].
    - replace (- b / s) with (- (b / s)) by (field; lra). rewrite Hsym. assert (b / s <= 0) by (unfold Rdiv; apply Rmult_le_0_r || (rewrite <- (Rmult_0_l (/ s)); apply Rmult_le_compat_r; [left; apply Rinv_0_lt_compat; auto|lra])). pose proof (Hmono _ _ H). rewrite Rabs_left1 by lra. lra.
    - assert (0 <= b / s) by (apply Rmult_le_pos; [lra|left; apply Rinv_0_lt_compat; auto]). pose proof (Hmono _ _ H). rewrite Rabs_pos_eq by lra. lra. }
  rewrite P. assert (0 <= Rabs b / s) by (apply Rmult_le_pos; [apply Rabs_pos|left; apply Rinv_0_lt_compat; auto]). pose proof (Hmono _ _ H). pose proof (Hb (Rabs b / s)). split; [lra|]. split; [lra|]. split; [lra|].
  split; intros Hl; rewrite Hdf; unfold tests_df; destruct (Z.ltb_spec (Z.of_nat (if (rows =? 0)%nat then vsize else rows) - Z.of_nat (length beta)) 1); lia.
Qed.

(** ** where the code differs *)
(** the weighted data and a copy of them have different log likelihoods: the first is from the stored errors, which are weighted *)
Theorem C76_refuted_copy hh : exists e l1 l2, estimate_ols linv1 hh (constant_reg (Some [4; 4])) lm_default = Ok e /\
  ols_ll (constant_reg (Some [4; 4])) true e = Ok (Some l1) /\ ols_ll (constant_reg (Some [4; 4])) false e = Ok (Some l2) /\ l1 <> l2.
Proof.
  destruct (constant_reg_inv (Some [4; 4])) as [H HI]; auto. assert (Hs : informative lm_default) by (left; auto). pose proof (constant_reg_ok (Some [4; 4]) ltac:(auto)) as Hr.
  assert (Hw : forall i, (i < gr ones2)%nat -> 0 < weight (wts (constant_reg (Some [4; 4]))) i) by (intros [|[|i]] Hi; cbn in *; try lra; lia).
  destruct (C75_least_squares linv1 hh _ _ _ lm_default Hr H HI Hs) as (e & E & _ & N & _). apply constant_beta in N; auto.
  destruct (C76_log_likelihood linv1 hh _ _ _ lm_default H Hr HI Hs ltac:(cbn; lia) Hw) as (e' & E' & L1 & L2). rewrite E in E'. injection E' as <-. cbv zeta in L1, L2.
  set (v := wsse _ _ _ _ / _) in *. assert (F : forall i, (i < 2)%nat -> fitted ones2 (e_beta e) i = 2) by (intros [|[|i]] Hi; try lia; unfold fitted, sum_to, elt, cell; cbn; rewrite N; lra).
  assert (V : v = 8). { unfold v, wsse. change (gr ones2) with 2%nat. unfold sum_to. cbn [seq map]. rewrite !F by lia. cbn. field. }
  rewrite V in L1, L2. specialize (L1 ltac:(lra)). specialize (L2 _ _ _ Hr eq_refl Hw ltac:(lra)). eexists e, _, _. split; [auto|]. split; [exact L1|]. split; [exact L2|].
  unfold gauss_ll. change (gr ones2) with 2%nat. intros D. apply Rplus_eq_reg_r in D. assert (S4 : R_sqrt.sqrt 4 = 2) by (replace 4 with (2 * 2) by lra; apply sqrt_square; lra).
  unfold sum_to in D. cbn [seq map] in D. rewrite !F in D by lia. cbn [wts constant_reg weight nth] in D. rewrite !S4 in D. cbn [Rsum fold_right] in D. unfold Rsum in D. cbn [fold_right] in D. lra.
Qed.
(** the score is to be the derivative of the log likelihood.  It has the wrong sign: at parameters that are too low, raising them is said to lower the likelihood. *)
Theorem C76_refuted_score_sign : exists g, ols_score (constant_reg None) [0] = Ok (Some g) /\ nth 0 g 0 < 0 /\
  (forall s2, 0 < s2 -> gauss_ll s2 2 (fun i => nth i [1; 3] 0 - fitted ones2 [0] i) < gauss_ll s2 2 (fun i => nth i [1; 3] 0 - fitted ones2 [1] i)).
Proof.
  pose proof (constant_reg_ok None ltac:(auto)) as Hr. assert (F : forall c i, (i < 2)%nat -> fitted ones2 [c] i = c) by (intros c [|[|i]] Hi; try lia; unfold fitted, sum_to, elt, cell; cbn; lra).
  assert (S : spread [1; 3] ones2 [0] = 2). { unfold spread, svar, avg. change (gr ones2) with 2%nat. cbn [seq map]. rewrite !F by lia. unfold Rsum. cbn. field. }
  destruct (C76_score (constant_reg None) [1; 3] ones2 [0] Hr eq_refl ltac:(cbn; lia)) as (g & E & _ & D). { intros. cbn. lra. } { rewrite S. lra. }
  exists g. split; [auto|]. split.
  - destruct (D 0%nat ltac:(cbn; lia)) as [-> _]. rewrite S. change (gr ones2) with 2%nat. unfold sum_to. cbn [seq map]. rewrite !F by lia. unfold Rsum, elt, cell. cbn. lra.
  - intros s2 Hs. unfold gauss_ll. unfold sum_to. cbn [seq map]. rewrite !F by lia. unfold Rsum. cbn. apply Rplus_lt_compat_l, Ropp_lt_contravar. unfold Rdiv. apply Rmult_lt_compat_r; [apply Rinv_0_lt_compat; lra|lra].
Qed.
Example C76_nonvacuous hh : exists e l, estimate_ols linv1 hh (constant_reg None) lm_default = Ok e /\ ols_ll (constant_reg None) true e = Ok (Some l) /\ l = - ln (4 * PI) - 1 / 2.
Proof.
  destruct (constant_reg_inv None) as [H HI]; auto. assert (Hs : informative lm_default) by (left; auto). pose proof (constant_reg_ok None ltac:(auto)) as Hr.
  destruct (C75_least_squares linv1 hh _ _ _ lm_default Hr H HI Hs) as (e & E & _ & N & _). apply constant_beta in N; auto.
  destruct (C76_log_likelihood_plain linv1 hh _ _ _ lm_default H Hr eq_refl HI Hs ltac:(cbn; lia)) as (e' & E' & L). rewrite E in E'. injection E' as <-. cbv zeta in L.
  assert (F : forall i, (i < 2)%nat -> fitted ones2 (e_beta e) i = 2) by (intros [|[|i]] Hi; try lia; unfold fitted, sum_to, elt, cell; cbn; rewrite N; lra).
  assert (V : wsse None ones2 [1; 3] (e_beta e) = 2). { unfold wsse. change (gr ones2) with 2%nat. unfold sum_to. cbn [seq map]. rewrite !F by lia. cbn. lra. }
  rewrite V in L. change (gr ones2) with 2%nat in L. change (gc ones2) with 1%nat in L. replace (2 / (INR 2 - INR 1)) with 2 in L by (cbn; lra). destruct (L ltac:(lra)) as [L1 _]. eexists e, _. split; [auto|]. split; [exact L1|]. replace (2 * PI * 2) with (4 * PI) by ring. cbn. lra.
Qed.
Print Assumptions C76_score.
