(** C86: apop_probit. *)
From Coq Require Import Reals Lra.
From Verif Require Import DataModel NamesModel StatsModel StatsSpec StatsProofs StatsProps LinModel LinProps OlsModel OlsSpec OlsProofs OlsLikeProps TestTableProps LogitModel LogitSpec LogitProps.
Local Open Scope list_scope.
Local Open Scope R_scope.

Section probit.
  Context (Phi phi : R -> R) (HD : distribution Phi phi).
  Lemma clamp_ok x : clamp (Phi x) = Phi x.
  Proof using HD. unfold clamp. destruct (HD x) as [[H1 H2] _]. destruct (Req_EM_T (Phi x) 0); [lra|]. destruct (Rlt_dec (Phi x) 1); [auto|lra]. Qed.
  Definition row_ll (X B : grid R) (y : R) (i j : nat) : R := ln (if Req_EM_T y 0 then 1 - probit_prob Phi X B i j else probit_prob Phi X B i j).
  Lemma bi_ok d par y X B z : choice_data d par y X B -> length z = gr X -> biprobit_ll Phi z d par = Ok (sum_to (gr X) (fun i => row_ll X B (nth i z 0) i 0)).
  Proof using HD.
    intros H Lz. destruct (dot_ok d par y X B H) as (out & M & E & HM & WM & G1 & G2 & Hc). destruct H as (Hy & HX & HB & WX & WB & Hd & Hp & Ly). unfold biprobit_ll. rewrite E. cbn [the_mat]. rewrite HM. cbn [rbind].
    pose proof WM as [W1 _]. rewrite (rows_with_ok z (ga M) _ (fun i => row_ll X B (nth i z 0) i 0)).
    - cbn [rbind]. rewrite C34_vector_sum, W1, G1. reflexivity.
    - lia.
    - intros i Hi. destruct (row_nth M i WM ltac:(lia)) as [L R]. destruct (nth i (ga M) []) as [|b r] eqn:Er; [cbn in L; lia|]. cbn [biprobit_row]. rewrite clamp_ok. specialize (R 0%nat). cbn [nth] in R.
      rewrite Hc in R by lia. destruct (Nat.ltb_spec 0 (gc B)); [|lia]. unfold row_ll, probit_prob. rewrite R. f_equal. destruct (Req_EM_T (nth i z 0) 0); [f_equal; lra|auto].
  Qed.
  (** the sum of differentiable functions *)
  Lemma sum_deriv n (f : nat -> R -> R) (f' : nat -> R) x : (forall i, (i < n)%nat -> derivable_pt_lim (f i) x (f' i)) -> derivable_pt_lim (fun t => sum_to n (fun i => f i t)) x (sum_to n f').
  Proof using.
    induction n as [|n IH]; intros H.
    - unfold sum_to. cbn. apply derivable_pt_lim_const.
    - rewrite sum_to_S. apply (derivable_pt_lim_ext (fun t => sum_to n (fun i => f i t) + f n t)). { intros t. rewrite sum_to_S. auto. }
      apply (derivable_pt_lim_plus (fun t => sum_to n (fun i => f i t)) (f n)); [apply IH; intros; apply H; lia|apply H; lia].
  Qed.
  Lemma row_deriv y u x b : derivable_pt_lim (fun t => ln (if Req_EM_T y 0 then Phi (- (u + x * (t - b))) else 1 - Phi (- (u + x * (t - b))))) b (x * deriv_base Phi phi y u).
  Proof using HD.
    assert (A : derivable_pt_lim (fun t => - (u + x * (t - b))) b (- x)).
    { replace (- x) with (- (0 + x * (1 - 0))) by ring. apply (derivable_pt_lim_opp (fun t => u + x * (t - b))). apply (derivable_pt_lim_plus (fun _ => u) (fun t => x * (t - b))); [apply derivable_pt_lim_const|].
      apply (derivable_pt_lim_scal (fun t => t - b) x). apply (derivable_pt_lim_minus (fun t => t) (fun _ => b)); [apply derivable_pt_lim_id|apply derivable_pt_lim_const]. }
    assert (U : - (u + x * (b - b)) = - u) by ring. destruct (HD (- u)) as [[P1 P2] D].
    assert (F : derivable_pt_lim (fun t => Phi (- (u + x * (t - b)))) b (phi (- u) * - x)). { apply (derivable_pt_lim_comp (fun t => - (u + x * (t - b))) Phi); [auto|]. rewrite U. auto. }
    unfold deriv_base. rewrite clamp_ok. destruct (Req_EM_T y 0).
    - replace (x * (- phi (- u) / Phi (- u))) with (/ Phi (- u) * (phi (- u) * - x)) by (field; lra). apply (derivable_pt_lim_comp (fun t => Phi (- (u + x * (t - b)))) ln); [auto|]. rewrite U. apply derivable_pt_lim_ln. auto.
    - replace (x * (phi (- u) / (1 - Phi (- u)))) with (/ (1 - Phi (- u)) * (0 - phi (- u) * - x)) by (field; lra).
      apply (derivable_pt_lim_comp (fun t => 1 - Phi (- (u + x * (t - b)))) ln); [|rewrite U; apply derivable_pt_lim_ln; lra].
      apply (derivable_pt_lim_minus (fun _ => 1)); [apply derivable_pt_lim_const|auto].
  Qed.
  Lemma dlog_ok k : forall rows xb y g, length xb = length rows -> length y = length rows -> Forall (fun r => length r = k) rows -> Forall (fun r => r <> []) xb -> length g = k ->
    exists g', dlog_loop Phi phi rows xb y g = Ok g' /\ length g' = k /\ forall j, (j < k)%nat -> nth j g' 0 = nth j g 0 + sum_to (length rows) (fun i => nth j (nth i rows []) 0 * deriv_base Phi phi (nth i y 0) (nth 0 (nth i xb []) 0)).
  Proof using.
    induction rows as [|x rows IH]; intros xb y g L1 L2 F1 F2 Lg.
    - exists g. split; [reflexivity|]. split; [auto|]. intros j Hj. unfold sum_to. cbn [length seq map]. rewrite Rsum_nil. lra.
    - destruct xb as [|bx xb]; [discriminate|]. destruct y as [|a y]; [discriminate|]. cbn in L1, L2. apply Forall_cons_iff in F1 as [Fx F1]. apply Forall_cons_iff in F2 as [Fb F2].
      destruct bx as [|b bx]; [congruence|]. cbn [dlog_loop]. unfold add_row at 1, vzip at 1. rewrite (proj2 (Nat.eqb_eq (length g) (length x))) by lia. cbn [rbind]. set (g1 := zip_with _ g x).
      destruct (IH xb y g1) as (g' & E & L & H); auto; try lia. { unfold g1. rewrite zip_with_length. lia. }
      exists g'. split; [auto|]. split; [auto|]. intros j Hj. rewrite H by auto. cbn [length]. rewrite sum_to_cons. cbn [nth]. unfold g1. rewrite (nth_zip _ g x 0 0) by lia. lra.
  Qed.
  Lemma util_move X B B' i j t : wf_grid B -> gc X = gr B -> (j < gc X)%nat -> with_coef B j t B' -> utility X B' i 1 = utility X B i 1 + elt X false i j * (t - elt B false j 0).
  Proof using.
    intros WB Hd Hj (WB' & G1 & G2 & H). cbn [utility]. transitivity (sum_to (gc X) (fun l => elt X false i l * elt B false l 0 + delta j l * (elt X false i l * (t - elt B false l 0)))).
    - apply sum_to_ext. intros l Hl. rewrite H by lia. unfold delta. rewrite (Nat.eqb_sym j l). destruct (l =? j)%nat; ring.
    - rewrite <- sum_to_plus. f_equal. rewrite sum_delta by auto. auto.
  Qed.
End probit.

(** C86: with two options, the log likelihood is the sum over the observations of the logarithm of the probability of the option taken (zero: the first). *)
Theorem C86_likelihood : forall Phi phi d par y X B cats, distribution Phi phi -> choice_data d par y X B -> length cats = 2%nat ->
  multiprobit_ll Phi d par cats = Ok (sum_to (gr X) (fun i => ln (if Req_EM_T (nth i y 0) 0 then 1 - probit_prob Phi X B i 0 else probit_prob Phi X B i 0))).
Proof.
  intros Phi phi d par y X B cats HD H Lc. unfold multiprobit_ll. pose proof H as (Hy & _ & _ & _ & _ & _ & _ & Ly). rewrite Hy, Lc. cbn [Nat.eqb]. rewrite (bi_ok Phi phi HD d par y X B y H Ly). auto.
Qed.
Print Assumptions C86_likelihood.

(** C86: with two options, the score is the gradient of the log likelihood. *)
Theorem C86_score : forall Phi phi d par y X B cats, distribution Phi phi -> choice_data d par y X B -> gc B = 1%nat -> length cats = 2%nat ->
  exists g, probit_dlog Phi phi d par = Ok g /\ length g = gc X /\
    forall j, (j < gc X)%nat -> exists L, (forall t par' B', mat par' = Some B' -> with_coef B j t B' -> multiprobit_ll Phi d par' cats = Ok (L t)) /\ derivable_pt_lim L (elt B false j 0) (nth j g 0).
Proof.
  intros Phi phi d par y X B cats HD H Hg Lc. destruct (dot_ok d par y X B H) as (out & M & E & HM & WM & G1 & G2 & Hc). pose proof H as (Hy & HX & HB & WX & WB & Hd & Hp & Ly).
  unfold probit_dlog. rewrite Hy, HX, E. cbn [the_mat]. rewrite HM. cbn [rbind]. pose proof WM as [W1 W2]. pose proof WX as [V1 V2].
  destruct (dlog_ok Phi phi (gc X) (ga X) (ga M) y (replicate (gc X) 0)) as (g & Eg & Lg & Hgr); try lia; auto.
  { revert W2. apply Forall_impl. intros r Hr ->. cbn in Hr. lia. } { apply replicate_length. }
  exists g. split; [auto|]. split; [auto|]. intros j Hj.
  exists (fun t => sum_to (gr X) (fun i => ln (if Req_EM_T (nth i y 0) 0 then Phi (- (utility X B i 1 + elt X false i j * (t - elt B false j 0))) else 1 - Phi (- (utility X B i 1 + elt X false i j * (t - elt B false j 0)))))).
  split.
  - intros t par' B' HB' HW. pose proof HW as (WB' & K1 & K2 & _). rewrite (C86_likelihood Phi phi d par' y X B' cats HD); auto.
    + f_equal. apply sum_to_ext. intros i Hi. unfold probit_prob. rewrite (util_move X B B' i j t) by auto. f_equal. destruct (Req_EM_T (nth i y 0) 0); [ring|auto].
    + split; [auto|]. split; [auto|]. split; [auto|]. split; [auto|]. split; [auto|]. split; [lia|]. split; [lia|auto].
  - rewrite Hgr by auto. rewrite (nth_lookup_Some _ _ 0 0) by (apply lookup_replicate_2; auto). rewrite Rplus_0_l, V1.
    rewrite (sum_to_ext _ _ (fun i => elt X false i j * deriv_base Phi phi (nth i y 0) (utility X B i 1))).
    + apply sum_deriv. intros i Hi. apply row_deriv. auto.
    + intros i Hi. destruct (row_nth X i WX Hi) as [_ ->]. f_equal. f_equal. destruct (row_nth M i WM ltac:(lia)) as [_ R]. rewrite <- R, Hc by auto. destruct (Nat.ltb_spec 0 (gc B)); [auto|lia].
Qed.
Print Assumptions C86_score.

Lemma multi_ok Phi phi d par y X B cats : distribution Phi phi -> choice_data d par y X B -> length cats = S (gc B) -> (1 < gc B)%nat ->
  multiprobit_ll Phi d par cats = Ok (sum_to (gc B) (fun k => sum_to (gr X) (fun i => ln (if Req_EM_T (nth i y 0) (nth k cats 0) then probit_prob Phi X B i 1 else 1 - probit_prob Phi X B i 1)))).
Proof.
  intros HD H Lc Hg. pose proof H as (Hy & HX & HB & WX & WB & Hd & Hp & Ly). unfold multiprobit_ll. rewrite Hy, Lc, HB. destruct (Nat.eqb_spec (S (gc B)) 2); [lia|].
  set (f := fun k => sum_to (gr X) _). set (C := of_mat (Gr (gr B) 1 (map (fun x => [x]) (get_col B 1)))). set (BC := Gr (gr B) 1 (map (fun x => [x]) (get_col B 1))) in *.
  pose proof WB as [V1 V2]. assert (LC : length (get_col B 1) = gr B) by (unfold get_col; rewrite map_length; auto).
  assert (HC : choice_data d C y X BC).
  { split; [auto|]. split; [auto|]. split; [auto|]. split; [auto|]. split; [|split; [auto|split; [cbn; lia|auto]]]. split; cbn [ga gr gc BC]; [rewrite map_length; auto|]. apply List.Forall_forall. intros r Hr. apply in_map_iff in Hr as (x & <- & _). auto. }
  assert (UC : forall i, utility X BC i 1 = utility X B i 2).
  { intros i. cbn [utility]. apply sum_to_ext. intros l Hl. f_equal. unfold elt at 1, cell. cbn [ga BC]. change (map (fun x : R => [x]) (get_col B 1)) with ((fun x : R => [x]) <$> get_col B 1). rewrite list_lookup_fmap.
    destruct (lookup_lt_is_Some_2 (get_col B 1) l ltac:(lia)) as [x Hx]. rewrite Hx. transitivity x; [reflexivity|]. rewrite <- (col_elt B 1 l WB) by lia. symmetry. apply nth_lookup_Some. auto. }
  assert (ST : forall k, (k < gc B)%nat -> forall val, nth k cats 0 = val -> biprobit_ll Phi (map (unordered val) y) d C = Ok (f k)).
  { intros k Hk val Hv. rewrite (bi_ok Phi phi HD d C y X BC _ HC) by (rewrite map_length; auto). f_equal. apply sum_to_ext. intros i Hi. unfold row_ll, probit_prob. rewrite (nth_map_in _ _ _ 0) by lia. rewrite UC, Hv.
    unfold unordered. destruct (Req_EM_T (nth i y 0) val); destruct (Req_EM_T _ 0); try lra; auto. }
  assert (LP : forall n i ll, (i + n = gc B)%nat -> multiprobit_loop Phi y cats d B n i ll = Ok (ll + sum_to n (fun k => f (i + k)%nat))).
  { induction n0 as [|m IH]; intros i ll Hi; cbn [multiprobit_loop]. { unfold sum_to. cbn. f_equal. lra. }
    destruct (lookup_lt_is_Some_2 cats i ltac:(lia)) as [val Hv]. rewrite Hv. destruct (Nat.leb_spec (gc B) 1); [lia|]. fold BC. fold C. rewrite (ST i ltac:(lia) val (nth_lookup_Some _ _ _ _ Hv)). cbn [rbind].
    rewrite IH by lia. f_equal. rewrite sum_to_cons, Nat.add_0_r. rewrite Rplus_assoc. f_equal. f_equal. apply sum_to_ext. intros k Hk. f_equal. lia. }
  rewrite LP by lia. f_equal. rewrite Rplus_0_l. auto.
Qed.
(** C86 (the code): with three options or more, the likelihood depends on the coefficients of one option only, those in column 1. *)
Theorem C86_refuted_columns : forall Phi phi d par par' y X B B' cats, distribution Phi phi -> choice_data d par y X B -> choice_data d par' y X B' -> length cats = S (gc B) -> gc B' = gc B -> (1 < gc B)%nat ->
  (forall l, (l < gr B)%nat -> elt B' false l 1 = elt B false l 1) -> multiprobit_ll Phi d par' cats = multiprobit_ll Phi d par cats.
Proof.
  intros Phi phi d par par' y X B B' cats HD H H' Lc Hg H1 HE. rewrite (multi_ok Phi phi d par' y X B' cats), (multi_ok Phi phi d par y X B cats) by (auto; lia). f_equal. rewrite Hg. apply sum_to_ext. intros k Hk. apply sum_to_ext. intros i Hi.
  assert (U : utility X B' i 2 = utility X B i 2). { cbn [utility]. apply sum_to_ext. intros l Hl. rewrite HE; [auto|]. destruct H as (_ & _ & _ & _ & _ & Hd & _). lia. } unfold probit_prob. rewrite U. auto.
Qed.
Print Assumptions C86_refuted_columns.
(** C86 (the code): the formula; each of the options but the last is set against all others, by the same probability. *)
Theorem C86_refuted_formula : forall Phi phi d par y X B cats, distribution Phi phi -> choice_data d par y X B -> length cats = S (gc B) -> (1 < gc B)%nat ->
  multiprobit_ll Phi d par cats = Ok (sum_to (gc B) (fun k => sum_to (gr X) (fun i => ln (if Req_EM_T (nth i y 0) (nth k cats 0) then probit_prob Phi X B i 1 else 1 - probit_prob Phi X B i 1)))).
Proof. exact multi_ok. Qed.
Print Assumptions C86_refuted_formula.

(** the hypotheses: the logistic function is such a distribution function; two observations *)
Lemma logistic : distribution (fun x => / (1 + exp (- x))) (fun x => exp (- x) / (1 + exp (- x)) ^ 2).
Proof.
  intros x. pose proof (exp_pos (- x)) as P. split; [split; [apply Rinv_0_lt_compat; lra|]|].
  - rewrite <- Rinv_1. apply Rinv_lt_contravar; lra.
  - assert (D : derivable_pt_lim (fun t => 1 + exp (- t)) x (0 + exp (- x) * (- (1)))).
    { apply (derivable_pt_lim_plus (fun _ => 1)); [apply derivable_pt_lim_const|]. apply (derivable_pt_lim_comp (fun t => - t) exp); [|apply derivable_pt_lim_exp]. apply (derivable_pt_lim_opp (fun t => t)). apply derivable_pt_lim_id. }
    pose proof (derivable_pt_lim_div (fun _ => 1) (fun t => 1 + exp (- t)) x 0 _ (derivable_pt_lim_const 1 x) D ltac:(lra)) as Q.
    replace (exp (- x) / (1 + exp (- x)) ^ 2) with ((0 * (1 + exp (- x)) - (0 + exp (- x) * - (1)) * 1) / (1 + exp (- x))²) by (unfold Rsqr; field; lra).
    revert Q. apply derivable_pt_lim_ext. intros t. unfold div_fct. lra.
Qed.
Definition ex3_d : page R := Pg (Some [1; 0; 2]) (Some (Gr 3 1 [[1]; [2]; [5]])) None None name_alloc None.
Definition ex3_par (a : R) : page R := Pg None (Some (Gr 1 2 [[a; 3]])) None None name_alloc None.
Lemma ex3_data a : choice_data ex3_d (ex3_par a) [1; 0; 2] (Gr 3 1 [[1]; [2]; [5]]) (Gr 1 2 [[a; 3]]).
Proof. split; [reflexivity|]. split; [reflexivity|]. split; [reflexivity|]. split; [split; [reflexivity|repeat constructor]|]. split; [split; [reflexivity|repeat constructor]|]. split; [reflexivity|]. split; [cbn; lia|reflexivity]. Qed.
Example C86_nonvacuous : let Phi := fun x => / (1 + exp (- x)) in let phi := fun x => exp (- x) / (1 + exp (- x)) ^ 2 in distribution Phi phi /\
  multiprobit_ll Phi ex_d ex_par [0; 1] = Ok (ln (1 / 2) + ln (1 / 2)) /\ (exists g, probit_dlog Phi phi ex_d ex_par = Ok g) /\
  with_coef (Gr 1 1 [[0]]) 0 5 (Gr 1 1 [[5]]) /\ multiprobit_ll Phi ex3_d (ex3_par 7) [0; 1; 2] = multiprobit_ll Phi ex3_d (ex3_par 8) [0; 1; 2].
Proof.
  intros Phi phi. split; [apply logistic|]. split; [|split; [|split]].
  - rewrite (C86_likelihood Phi phi _ _ _ _ _ [0; 1] logistic ex_data eq_refl). f_equal. cbn [gr]. unfold sum_to. cbn [seq map nth]. rewrite !Rsum_cons, Rsum_nil. assert (H : forall i, probit_prob Phi (Gr 2 1 [[1]; [2]]) (Gr 1 1 [[0]]) i 0 = 1 / 2).
    { intros i. unfold probit_prob, Phi. cbn [utility gc]. unfold sum_to. cbn [seq map]. rewrite Rsum_cons, Rsum_nil. replace (elt (Gr 1 1 [[0]]) false 0 0) with 0 by reflexivity. replace (- - (elt (Gr 2 1 [[1]; [2]]) false i 0 * 0 + 0)) with 0 by ring. rewrite exp_0. lra. }
    rewrite !H. destruct (Req_EM_T 1 0); [lra|]. destruct (Req_EM_T 0 0); [|lra]. replace (1 - 1 / 2) with (1 / 2) by lra. lra.
  - destruct (C86_score Phi phi _ _ _ _ _ [0; 1] logistic ex_data eq_refl eq_refl) as (g & E & _). eauto.
  - split; [split; [reflexivity|repeat constructor]|]. split; [reflexivity|]. split; [reflexivity|]. cbn [gr]. intros l Hl. assert (l = 0%nat) as -> by lia. reflexivity.
  - apply (C86_refuted_columns Phi phi ex3_d (ex3_par 8) (ex3_par 7) _ _ _ _ [0; 1; 2] logistic (ex3_data 8) (ex3_data 7)); try reflexivity; [cbn; lia|].
    cbn [gr]. intros l Hl. assert (l = 0%nat) as -> by lia. reflexivity.
Qed.
