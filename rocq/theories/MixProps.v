(** C97-C99: mixtures: parameters and copies, likelihood and next weights, constraint. *)
From Coq Require Import Reals Lra.
From Verif Require Import Base StatsModel StatsSpec StatsProofs ConsModel ConsSpec ConsProps MixModel.
Local Open Scope list_scope.
Local Open Scope R_scope.

(** ** C97: the parameters of a mixture *)
(** the components once prepped *)
Definition prepped {D} (cs : list (comp D * option (list R))) : list (comp D * option (list R)) := map (fun '(c, p) => (c, match p with None => c_new c | Some _ => p end)) cs.
Definition flat {D} (cs : list (comp D * option (list R))) : list R := concat (map (fun '(_, p) => pvec p) cs).
Definition sizes_of {D} (cs : list (comp D * option (list R))) : list nat := map (fun '(_, p) => psize p) cs.

Lemma prep_loop_ok {D} (cs : list (comp D * option (list R))) : forall v sizes, prep_loop cs v sizes = (prepped cs, v ++ flat (prepped cs), sizes ++ sizes_of (prepped cs)).
Proof.
  induction cs as [|[c p] cs IH]; intros v sizes; cbn [prep_loop]; [cbn; rewrite !app_nil_r; auto|]. rewrite IH. cbn [prepped map flat concat sizes_of]. rewrite <- !app_assoc. reflexivity.
Qed.
(** C97: a new mixture has equal weights that sum to one. *)
Theorem C97_new : forall D (cs : list (comp D * option (list R))) s m, mixture_base cs = Ok (s, m) -> s_comps s = cs /\ length (s_weights s) = length cs /\ (forall x, In x (s_weights s) -> x = 1 / INR (length cs)) /\ Rsum (s_weights s) = 1 /\ m_pars m = None /\ m_cmf m = None.
Proof.
  intros D cs s m H. unfold mixture_base in H. assert (cs <> [] /\ (Sh cs (replicate (length cs) (1 / INR (length cs))) [], Mix false None None None) = (s, m)) as [Hne E] by (destruct cs; [discriminate|split; [discriminate|congruence]]). clear H. injection E as <- <-. cbn [s_comps s_weights]. set (n := length cs). assert (0 < INR n) by (apply lt_0_INR; unfold n; destruct cs; [congruence|cbn; lia]).
  split; auto. split; [apply replicate_length|]. split; [intros x Hx; apply elem_of_list_In, elem_of_replicate in Hx; tauto|]. split; [rewrite Rsum_replicate; field; lra|auto].
Qed.
Print Assumptions C97_new.
(** C97: the parameters of a mixture are its weights, one for each component, then each component's parameters in turn. *)
Theorem C97_prep : forall D (s : shared D) m, m_pars m = None ->
  mixture_prep s m = (Sh (prepped (s_comps s)) (s_weights s) (sizes_of (prepped (s_comps s))), Mix (m_find m) (m_next m) (m_cmf m) (Some (s_weights s ++ flat (prepped (s_comps s))))).
Proof. intros D s m H. unfold mixture_prep. rewrite H, prep_loop_ok. reflexivity. Qed.
Print Assumptions C97_prep.

Lemma unpack_loop_ok {D} (cs : list (comp D * option (list R))) : forall ps pre i sizes v, Forall2 (fun cp p => psize (snd cp) = length p /\ (0 < length p)%nat) cs ps ->
  drop i sizes = sizes_of cs -> v = pre ++ concat ps -> unpack_loop v sizes i (length pre) cs = Ok (zip_with (fun cp p => (fst cp, Some p)) cs ps).
Proof.
  induction cs as [|[c p0] cs IH]; intros ps pre i sizes v HF Hs Hv; inversion HF as [|? p ? ps' [H1 H2] HF']; subst; cbn [unpack_loop zip_with]; auto.
  cbn [sizes_of map snd] in Hs, H1. assert (sizes !! i = Some (length p)) as E. { rewrite <- (Nat.add_0_r i), <- lookup_drop, Hs, H1. reflexivity. }
  rewrite E. destruct (length p) as [|k] eqn:El; [lia|]. rewrite <- El.
  cbn [concat]. rewrite !app_length. destruct (Nat.leb_spec (length pre + length p) (length pre + (length p + length (concat ps')))); [|lia]. rewrite H1, <- El, Nat.eqb_refl. cbn [andb].
  replace (pre ++ p ++ concat ps') with ((pre ++ p) ++ concat ps') by (rewrite app_assoc; auto). rewrite <- app_length. rewrite (IH ps'); auto.
  - cbn [rbind fst]. do 3 f_equal. rewrite <- app_assoc, drop_app, take_app. auto.
  - replace (S i) with (i + 1)%nat by lia. rewrite <- drop_drop, Hs. reflexivity.
Qed.
(** C97: whatever the parameters are set to (by a search, say), each component gets its part, if each has a parameter; the weights get theirs if they are searched for and the first likelihood has been
    computed. *)
Theorem C97_unpack : forall D (s : shared D) m w ps, s_sizes s = sizes_of (s_comps s) -> length w = length (s_weights s) ->
  Forall2 (fun cp p => psize (snd cp) = length p /\ (0 < length p)%nat) (s_comps s) ps -> m_pars m = Some (w ++ concat ps) ->
  unpack s m = Ok (Sh (zip_with (fun cp p => (fst cp, Some p)) (s_comps s) ps) (if m_find m && bool_decide (is_Some (m_next m)) then w else s_weights s) (s_sizes s)).
Proof.
  intros D s m w ps Hs Hw HF Hm. unfold unpack. rewrite Hm. rewrite <- Hw. rewrite (unpack_loop_ok (s_comps s) ps w 0 (s_sizes s)); auto.
  rewrite app_length, take_app. destruct (Nat.leb_spec (length w) (length w + length (concat ps))); [|lia]. destruct (_ && _); reflexivity.
Qed.
Print Assumptions C97_unpack.

(** C97, refuted: if one component has no parameters, those after it never get theirs. *)
Lemma unpack_skip {D} v sizes i posn (cs : list (comp D * option (list R))) : sizes !! i = Some 0%nat -> unpack_loop v sizes i posn cs = Ok cs.
Proof. intros H. induction cs as [|[c p] cs IH]; cbn [unpack_loop]; auto. rewrite H, IH. reflexivity. Qed.
Theorem C97_refuted_empty : forall D (s : shared D) m c cs v, s_comps s = (c, None) :: cs -> s_sizes s = sizes_of (s_comps s) -> m_pars m = Some v -> (length (s_weights s) <= length v)%nat ->
  exists w, unpack s m = Ok (Sh (s_comps s) w (s_sizes s)).
Proof.
  intros D s m c cs v Hc Hs Hm Hl. unfold unpack. rewrite Hm. rewrite unpack_skip by (rewrite Hs, Hc; reflexivity). destruct (Nat.leb_spec (length (s_weights s)) (length v)); [|lia].
  destruct (_ && _); cbn [rbind]; eauto.
Qed.
Print Assumptions C97_refuted_empty.

(** C97, refuted: a copy is a model of its own.  The likelihood of a copy with other parameters changes the distribution function of the mixture copied. *)
Definition point : comp R := Comp (fun p x => - (x - nth 0 p 0) ^ 2) (fun p x => if Rle_dec (nth 0 p 0) x then 1 else 0) None None.
Theorem C97_refuted_shared : exists (s : shared R) m p s0, (exists F, mixture_cdf s m 1 = Ok (F, s0) /\ F = Some 1) /\
  let '(s1, c) := mixture_prep s (mixture_copy m) in exists t s2 c', mixture_log_likelihood s1 (Mix (m_find c) (m_next c) (m_cmf c) (Some p)) [1] = Ok (t, s2, c') /\ exists F s3, mixture_cdf s2 m 1 = Ok (F, s3) /\ F = Some 0.
Proof.
  exists (Sh [(point, Some [0])] [1] []), (Mix false None None None), [1; 2]. eexists. split.
  - eexists. split; [reflexivity|]. cbn. unfold cdiv. destruct (Req_EM_T (0 + 1) 0); [lra|]. destruct (Rle_dec 0 1); [|lra]. f_equal. field.
  - cbn [mixture_prep mixture_copy m_pars prep_loop s_comps s_weights app psize pvec length m_find m_next m_cmf]. do 3 eexists. split; [reflexivity|]. do 2 eexists. split; [reflexivity|].
    cbn. unfold cdiv. destruct (Req_EM_T (0 + 1) 0); [lra|]. destruct (Rle_dec 2 1); [lra|]. f_equal. field.
Qed.
Print Assumptions C97_refuted_shared.
(** and refuted: a mixture and its copy can both be freed.  The second free is of memory already freed. *)
Theorem C97_refuted_free : forall live b, let '(live', b') := settings_copy live b in forall live'', settings_free live' b = Ok live'' -> settings_free live'' b' = UB.
Proof.
  intros live b. destruct (settings_copy live b) as [live' b'] eqn:E. intros live'' H. assert (b_sizes b' = b_sizes b) as Hb by (unfold settings_copy in E; destruct (b_next b); injection E as <- <-; auto).
  assert (forall l x l', mfree l x = Ok l' -> ~ b_sizes b ∈ l -> ~ b_sizes b ∈ l') as Hk. { intros l x l' Hf Hn Hin. unfold mfree in Hf. destruct (bool_decide _); [|discriminate]. injection Hf as <-. apply elem_of_list_filter in Hin as [_ Hin]. auto. }
  unfold settings_free in H. destruct (mfree live' (b_sizes b)) as [l1| |] eqn:E1; cbn [rbind] in H; try discriminate.
  assert (~ b_sizes b ∈ l1) as H1. { unfold mfree in E1. destruct (bool_decide _); [|discriminate]. injection E1 as <-. intros Hin. apply elem_of_list_filter in Hin as [Hne _]. auto. }
  destruct (match b_next b with None => Ok l1 | Some n => mfree l1 n end) as [l2| |] eqn:E2; cbn [rbind] in H; try discriminate.
  assert (~ b_sizes b ∈ l2) as H2 by (destruct (b_next b); [eapply Hk; eauto|injection E2 as <-; auto]). pose proof (Hk _ _ _ H H2) as H3.
  unfold settings_free. rewrite Hb. unfold mfree at 1. rewrite bool_decide_false by auto. reflexivity.
Qed.
Print Assumptions C97_refuted_free.
Example C97_nonvacuous_free : exists live b l b' l2, settings_copy live b = (l, b') /\ settings_free l b = Ok l2.
Proof. exists [1%nat; 2%nat], (Bl 1 None 2). do 3 eexists. split; reflexivity. Qed.
Example C97_nonvacuous : exists (s : shared R) m w ps, s_sizes s = sizes_of (s_comps s) /\ length w = length (s_weights s) /\
  Forall2 (fun cp p => psize (snd cp) = length p /\ (0 < length p)%nat) (s_comps s) ps /\ m_pars m = Some (w ++ concat ps) /\ length ps = 2%nat.
Proof.
  exists (Sh [(point, Some [0]); (point, Some [3])] [1 / 2; 1 / 2] [1%nat; 1%nat]), (Mix true (Some [1; 0]) None (Some [1 / 4; 3 / 4; 7; 8])), [1 / 4; 3 / 4], [[7]; [8]].
  do 2 (split; [reflexivity|]). split; [|split; reflexivity]. constructor; [cbn; split; [auto|lia]|]. constructor; [cbn; split; [auto|lia]|]. constructor.
Qed.

(** ** C98: the log likelihood *)
(** [x] is the greatest of the numbers in [l] *)
Definition is_max (l : list R) (x : R) : Prop := In x l /\ forall y, In y l -> y <= x.
(** each component's log likelihood of one observation *)
Definition lls_of {D} (s : shared D) (x : D) : list R := map (fun '(c, p) => c_ll c (pvec p) x) (s_comps s).
(** log likelihoods shifted by [w] *)
Definition shift (w l : list R) : list R := zip_with Rplus l w.

Lemma fold_max l : forall a, (a <= fold_left Rmax l a) /\ (forall y, In y l -> y <= fold_left Rmax l a) /\ (fold_left Rmax l a = a \/ In (fold_left Rmax l a) l).
Proof.
  induction l as [|x l IH]; intros a; cbn [fold_left]; [split; [lra|]; split; [intros y []|auto]|]. destruct (IH (Rmax a x)) as (A & B & C). pose proof (Rmax_l a x). pose proof (Rmax_r a x).
  split; [lra|]. split; [intros y [->|Hy]; [lra|auto]|]. destruct C as [C|C]; [|right; cbn; auto]. rewrite C. unfold Rmax. destruct (Rle_dec a x); [right; cbn; auto|auto].
Qed.
Lemma vmax_ok l : l <> [] -> is_max l (vmax l).
Proof.
  destruct l as [|x l]; [congruence|]. intros _. cbn [vmax]. destruct (fold_max l x) as (A & B & C). split; [destruct C as [->|C]; cbn; auto|]. intros y [<-|Hy]; auto.
Qed.
Lemma is_max_unique l x y : is_max l x -> is_max l y -> x = y.
Proof. intros [A B] [C D]. apply Rle_antisym; auto. Qed.
Lemma sum_exp_ok l : sum_exp_vector l = Rsum (map exp l).
Proof.
  unfold sum_exp_vector. generalize (vmax l) as b. intros b. unfold vector_sum. rewrite fold_left_Rplus. rewrite Rplus_0_l. induction l as [|x l IH]; cbn [map]; rewrite ?Rsum_nil, ?Rsum_cons; [lra|].
  rewrite Rmult_plus_distr_r, IH, <- exp_plus. do 2 f_equal. ring.
Qed.
Lemma sum_exp_pos l : l <> [] -> 0 < Rsum (map exp l).
Proof. destruct l as [|x l]; [congruence|]. intros _. cbn [map]. rewrite Rsum_cons. pose proof (exp_pos x). assert (0 <= Rsum (map exp l)); [|lra]. apply Rsum_nonneg. apply List.Forall_forall. intros y Hy. apply in_map_iff in Hy as (z & <- & _). apply Rlt_le, exp_pos. Qed.
Lemma shares_ok row : row <> [] -> shares row = map (fun x => exp x / Rsum (map exp row)) row.
Proof.
  intros Hr. unfold shares. apply map_ext_in. intros x Hx. rewrite sum_exp_ok, map_map. assert (Rsum (map (fun y => exp (y + - x)) row) = Rsum (map exp row) * exp (- x)) as ->.
  { rewrite <- Rsum_scale, map_map. f_equal. apply map_ext. intros y. apply exp_plus. }
  pose proof (sum_exp_pos row Hr). rewrite exp_Ropp. pose proof (exp_pos x). field. lra.
Qed.
Lemma fold_tot {A} (f : A -> R) l : forall t, fold_left (fun t row => t + f row) l t = t + Rsum (map f l).
Proof. induction l as [|x l IH]; intros t; cbn [fold_left map]; rewrite ?Rsum_nil, ?Rsum_cons; [lra|]. rewrite IH. lra. Qed.

(** C98: the value: for each observation the greatest of the components' log likelihoods, each plus (not: times the logarithm of) its weight. *)
Theorem C98_value : forall D (s : shared D) m d t s' m', mixture_log_likelihood s m d = Ok (t, s', m') ->
  unpack s m = Ok s' /\ m_pars m' = m_pars m /\ exists b, t = Rsum b /\ Forall2 (fun x y => is_max (shift (s_weights s') (lls_of s' x)) y) d b.
Proof.
  intros D s m d t s' m' H. unfold mixture_log_likelihood in H. destruct (unpack s m) as [s1| |] eqn:E; cbn [rbind] in H; try discriminate. destruct d as [|x d]; [discriminate|]. set (dd := x :: d) in *. clearbody dd.
  destruct (_ && _) eqn:Eg; [|discriminate]. injection H as <- <- <-. split; auto. split; auto. apply andb_true_iff in Eg as [G1 G2]. apply Nat.eqb_eq in G1. apply negb_true_iff, Nat.eqb_neq in G2.
  exists (map (fun x => vmax (shift (s_weights s1) (lls_of s1 x))) dd). rewrite fold_tot, Rplus_0_l. unfold get_lls. rewrite !map_map. split; auto. clear - G1 G2.
  induction dd as [|x dd IH]; constructor; auto. apply vmax_ok. unfold shift, lls_of. destruct (s_comps s1) as [|[c p] cs]; [cbn in G2; lia|]. destruct (s_weights s1); [discriminate|]. discriminate.
Qed.
Print Assumptions C98_value.

(** the next weights, spelled out *)
Definition share_of (l : list R) (j : nat) : R := exp (nth j l 0) / Rsum (map exp l).
Lemma Rsum_swap {A} (f : A -> nat -> R) l n : Rsum (map (fun j => Rsum (map (fun x => f x j) l)) (seq 0 n)) = Rsum (map (fun x => Rsum (map (f x) (seq 0 n))) l).
Proof.
  induction l as [|x l IH]; cbn [map].
  - generalize (seq 0 n). intros k. induction k; cbn [map]; rewrite ?Rsum_cons, ?IHk, ?Rsum_nil; lra.
  - rewrite Rsum_cons, <- IH. generalize (seq 0 n). induction l0 as [|j l0 IHl]; cbn [map]; rewrite ?Rsum_nil, ?Rsum_cons; [lra|]. rewrite IHl. lra.
Qed.
Lemma map_nth_seq (f : R -> R) l : map (fun j => f (nth j l 0)) (seq 0 (length l)) = map f l.
Proof.
  induction l as [|x l IH]; cbn [length seq map]; auto. f_equal. rewrite <- seq_shift, map_map. exact IH.
Qed.
(** C98: the weights for the next step are each component's average share; they are positive and sum to one. *)
Theorem C98_next : forall D (s : shared D) m d t s' m', mixture_log_likelihood s m d = Ok (t, s', m') -> exists nw, m_next m' = Some nw /\ length nw = length (s_comps s') /\
  (forall j, (j < length (s_comps s'))%nat -> nth j nw 0 = avg (map (fun x => share_of (shift (s_weights s') (lls_of s' x)) j) d)) /\ (forall j, (j < length (s_comps s'))%nat -> 0 < nth j nw 0) /\ Rsum nw = 1.
Proof.
  intros D s m d t s' m' H. unfold mixture_log_likelihood in H. destruct (unpack s m) as [s1| |] eqn:E; cbn [rbind] in H; try discriminate. destruct d as [|x0 d0]; [discriminate|].
  assert (x0 :: d0 <> []) as Hd by discriminate. set (d := x0 :: d0) in *. clearbody d. destruct (_ && _) eqn:Eg; [|discriminate]. injection H as <- <- <-. apply andb_true_iff in Eg as [G1 G2]. apply Nat.eqb_eq in G1. apply negb_true_iff, Nat.eqb_neq in G2.
  cbn [m_next]. eexists. split; [reflexivity|]. rewrite map_length, seq_length. split; auto. set (n := length (s_comps s1)) in *.
  assert (forall x, length (shift (s_weights s1) (lls_of s1 x)) = n) as Hlen. { intros x. unfold shift, lls_of. rewrite zip_with_length, map_length. fold n. lia. }
  assert (forall x, shift (s_weights s1) (lls_of s1 x) <> []) as Hne. { intros x Hx. specialize (Hlen x). rewrite Hx in Hlen. cbn in Hlen. lia. }
  assert (0 < INR (length d)) as Hpos. { apply lt_0_INR. destruct d; [congruence|cbn; lia]. }
  assert (forall j, (j < n)%nat -> vector_sum (map (fun row => nth j row 0) (map shares (map (fun row => zip_with Rplus row (s_weights s1)) (get_lls s1 d)))) / INR (length d) = avg (map (fun x => share_of (shift (s_weights s1) (lls_of s1 x)) j) d)) as Hval.
  { intros j Hj. unfold avg. rewrite map_length. unfold vector_sum. rewrite fold_left_Rplus, Rplus_0_l. unfold get_lls. rewrite !map_map. do 2 f_equal. apply map_ext. intros x. change (zip_with Rplus _ _) with (shift (s_weights s1) (lls_of s1 x)).
    rewrite shares_ok by auto. unfold share_of. erewrite nth_indep by (rewrite map_length, Hlen; auto). rewrite (map_nth (fun y => exp y / _) _ 0). auto. }
  assert (forall j, (j < n)%nat -> nth j (map (fun j => vector_sum (map (fun row => nth j row 0) (map shares (map (fun row => zip_with Rplus row (s_weights s1)) (get_lls s1 d)))) / INR (length d)) (seq 0 n)) 0 = avg (map (fun x => share_of (shift (s_weights s1) (lls_of s1 x)) j) d)) as Hnth.
  { intros j Hj. erewrite nth_indep by (rewrite map_length, seq_length; auto). rewrite (map_nth (fun j => vector_sum _ / _) _ 0%nat), seq_nth by auto. cbn [Nat.add]. auto. }
  split; [exact Hnth|]. split.
  - intros j Hj. rewrite Hnth by auto. unfold avg. rewrite map_length. apply Rmult_lt_0_compat; [|apply Rinv_0_lt_compat; auto]. destruct d as [|x d]; [congruence|]. cbn [map]. rewrite Rsum_cons.
    assert (forall x, 0 < share_of (shift (s_weights s1) (lls_of s1 x)) j) as Hp. { intros y. apply Rmult_lt_0_compat; [apply exp_pos|apply Rinv_0_lt_compat, sum_exp_pos; auto]. }
    pose proof (Hp x). assert (0 <= Rsum (map (fun x => share_of (shift (s_weights s1) (lls_of s1 x)) j) d)); [|lra]. apply Rsum_nonneg. apply List.Forall_forall. intros y Hy. apply in_map_iff in Hy as (z & <- & _). apply Rlt_le, Hp.
  - rewrite (map_ext_in _ (fun j => Rsum (map (fun x => share_of (shift (s_weights s1) (lls_of s1 x)) j) d) * / INR (length d))).
    2: { intros j Hj. apply in_seq in Hj. rewrite Hval by lia. unfold avg. rewrite map_length. reflexivity. }
    rewrite <- (map_map (fun j => Rsum (map (fun x => share_of (shift (s_weights s1) (lls_of s1 x)) j) d)) (fun y => y * / INR (length d))), Rsum_scale, Rsum_swap.
    assert (forall x, Rsum (map (share_of (shift (s_weights s1) (lls_of s1 x))) (seq 0 n)) = 1) as Hone.
    { intros x. rewrite <- (Hlen x). unfold share_of. rewrite (map_nth_seq (fun y => exp y / Rsum (map exp (shift (s_weights s1) (lls_of s1 x))))).
      rewrite <- (map_map exp (fun y => y * / Rsum (map exp (shift (s_weights s1) (lls_of s1 x))))), Rsum_scale. apply Rinv_r. pose proof (sum_exp_pos _ (Hne x)). lra. }
    rewrite (map_ext _ (fun _ => 1)) by auto. assert (forall l : list D, Rsum (map (fun _ => 1) l) = INR (length l)) as -> by (induction l; cbn [map length]; rewrite ?Rsum_nil, ?Rsum_cons, ?S_INR, ?IHl; [reflexivity|lra]).
    apply Rinv_r. lra.
Qed.
Print Assumptions C98_next.

(** the value of the documentation: each component's likelihood times its weight *)
Definition documented {D} (s : shared D) (d : list D) (t : R) : Prop := exists b, t = Rsum b /\ Forall2 (fun x y => is_max (shift (map ln (s_weights s)) (lls_of s x)) y) d b.
Lemma zip_const l : forall w k, (forall x, In x w -> x = k) -> (length l <= length w)%nat -> zip_with Rplus l w = map (fun x => x + k) l.
Proof.
  induction l as [|x l IH]; intros [|y w] k Hw Hl; cbn [zip_with map length] in *; auto; try lia. rewrite (Hw y) by (cbn; auto). f_equal. apply IH; [intros z Hz; apply Hw; cbn; auto|lia].
Qed.
Lemma max_shift l k x : is_max l x -> is_max (map (fun y => y + k) l) (x + k).
Proof. intros [A B]. split; [apply in_map_iff; eauto|]. intros y Hy. apply in_map_iff in Hy as (z & <- & Hz). apply B in Hz. lra. Qed.
(** C98: with equal weights, as by default, this is the documented value up to a constant, so that it ranks parameters alike; and the next weights are as documented. *)
Theorem C98_equal : forall D (s : shared D) m d t s' m' w, mixture_log_likelihood s m d = Ok (t, s', m') -> 0 < w -> (forall x, In x (s_weights s') -> x = w) ->
  exists t0, documented s' d t0 /\ t = t0 + INR (length d) * (w - ln w) /\
    forall nw, m_next m' = Some nw -> forall j, (j < length (s_comps s'))%nat -> nth j nw 0 = avg (map (fun x => share_of (lls_of s' x) j) d).
Proof.
  intros D s m d t s' m' w H Hw Heq. assert (length (s_comps s') = length (s_weights s') /\ (0 < length (s_comps s'))%nat) as [Hl Hp].
  { unfold mixture_log_likelihood in H. destruct (unpack s m) as [s1| |]; cbn [rbind] in H; try discriminate. destruct d; [discriminate|]. destruct (_ && _) eqn:Eg; [|discriminate]. injection H as <- <- <-.
    apply andb_true_iff in Eg as [G1 G2]. apply Nat.eqb_eq in G1. apply negb_true_iff, Nat.eqb_neq in G2. split; auto. lia. }
  assert (forall x, length (lls_of s' x) = length (s_comps s')) as Hll by (intros x; apply map_length).
  assert (forall x, shift (s_weights s') (lls_of s' x) = map (fun y => y + w) (lls_of s' x)) as Hs. { intros x. apply zip_const; auto. rewrite Hll. lia. }
  destruct (C98_value _ _ _ _ _ _ _ H) as (_ & _ & b & Ht & Hb). destruct (C98_next _ _ _ _ _ _ _ H) as (nw & N1 & N2 & N3 & N4 & N5).
  exists (Rsum (map (fun y => y + (ln w - w)) b)). split; [|split].
  - eexists. split; [reflexivity|]. clear - Hb Hs Hl Heq Hll. induction Hb as [|x y d b Hx Hb IH]; cbn [map]; constructor; auto.
    unfold shift at 1. rewrite (zip_const _ _ (ln w)); [|intros z Hz; apply in_map_iff in Hz as (u & <- & Hu); rewrite (Heq u Hu); auto|rewrite Hll, map_length; lia].
    rewrite Hs in Hx. apply (max_shift _ (ln w - w)) in Hx. rewrite map_map in Hx. erewrite map_ext; [exact Hx|]. intros z. cbn beta. ring.
  - rewrite Ht, Rsum_add_const. rewrite <- (Forall2_length _ _ _ Hb). ring.
  - intros nw' E j Hj. rewrite N1 in E. injection E as <-. rewrite N3 by auto. f_equal. apply map_ext. intros x. rewrite Hs. unfold share_of. rewrite map_map.
    rewrite (nth_indep _ 0 (0 + w)) by (rewrite map_length, Hll; auto). rewrite (map_nth (fun y => y + w)). rewrite exp_plus. rewrite (map_ext (fun x => exp (x + w)) (fun x => exp x * exp w)) by (intros; apply exp_plus).
    rewrite <- (map_map exp (fun y => y * exp w)), Rsum_scale. pose proof (exp_pos w). assert (0 < Rsum (map exp (lls_of s' x))) by (apply sum_exp_pos; intros E; rewrite <- (Hll x), E in Hp; cbn in Hp; lia). field. lra.
Qed.
Print Assumptions C98_equal.
(** C98, refuted: with the documented value.  A mixture of one model, with weight one, does not have that model's log likelihood. *)
Theorem C98_refuted_one : forall D (s : shared D) m d t s' m' c, mixture_log_likelihood s m d = Ok (t, s', m') -> s_comps s' = [c] -> s_weights s' = [1] ->
  t = Rsum (map (fun x => c_ll (fst c) (pvec (snd c)) x) d) + INR (length d) /\ d <> [].
Proof.
  intros D s m d t s' m' [c p] H Hc Hw. assert (d <> []) as Hd. { intros ->. unfold mixture_log_likelihood in H. destruct (unpack s m); cbn [rbind] in H; discriminate. }
  split; auto. destruct (C98_value _ _ _ _ _ _ _ H) as (_ & _ & b & Ht & Hb). rewrite Ht. clear - Hb Hc Hw. cbn [fst snd].
  induction Hb as [|x y d b [Hx _] Hb IH]; cbn [map]; rewrite ?Rsum_nil, ?Rsum_cons; [cbn; lra|]. rewrite IH. change (length (x :: d)) with (S (length d)). rewrite S_INR. unfold shift, lls_of in Hx. rewrite Hc, Hw in Hx. cbn in Hx. destruct Hx as [<-|[]]. lra.
Qed.
Print Assumptions C98_refuted_one.
(** refuted: a component of weight zero takes no part.  It can be the one that counts, and its next weight is never zero (C98_next). *)
Theorem C98_refuted_zero : exists (s : shared R) m x t s' m', mixture_log_likelihood s m [x] = Ok (t, s', m') /\ s_weights s' = [1; 0] /\ nth 0 (lls_of s' x) 0 + 1 < t /\ t = nth 1 (lls_of s' x) 0.
Proof.
  exists (Sh [(point, Some [0]); (point, Some [5])] [1; 0] []), (Mix false None None None), 5. do 3 eexists. split; [reflexivity|]. cbn. unfold Rmax. destruct (Rle_dec _ _) as [H|H]; [|exfalso; lra]. split; auto. split; lra.
Qed.
Print Assumptions C98_refuted_zero.
Example C98_nonvacuous : exists (s : shared R) m t s' m', mixture_log_likelihood s m [1; 2; 7] = Ok (t, s', m') /\ length (s_comps s') = 2%nat /\ forall x, In x (s_weights s') -> x = 1 / 2.
Proof.
  exists (Sh [(point, Some [0]); (point, Some [5])] [1 / 2; 1 / 2] []), (Mix false None None None). do 3 eexists. split; [reflexivity|]. split; auto. intros x [<-|[<-|[]]]; auto.
Qed.

(** ** C99: the constraint *)
(** every component meets its own: no penalty, parameters as they are *)
Definition meets_own {D} (cp : comp D * option (list R)) : Prop := exists f, c_con (fst cp) = Some f /\ f (pvec (snd cp)) = (0, pvec (snd cp)).
Lemma con_loop_ok {D} (cs : list (comp D * option (list R))) : Forall meets_own cs -> forall pen, con_loop cs pen = Ok (pen, cs).
Proof.
  induction 1 as [|[c p] cs (f & Hf & He) HF IH]; intros pen; cbn [con_loop]; auto. cbn [fst snd] in *. rewrite Hf, He. rewrite Rplus_0_r, IH. cbn [rbind]. destruct p; auto.
Qed.
(** C99: if every component's parameters meet its constraint: with the weights searched for, they are set to those of the last likelihood, at a penalty of the distance; else they are set to the nearest
    that are not negative, at a penalty of that distance.  The other parameters stay. *)
Theorem C99_met : forall D (s : shared D) m st w rest s', unpack s m = Ok s' -> Forall meets_own (s_comps s') -> m_pars m = Some (w ++ rest) -> length w = length (s_comps s') -> reached None st ->
  (forall next, m_find m = true -> m_next m = Some next -> length next = length w -> mixture_constraint s m st = Ok (eu next w, s', Mix true (Some next) (m_cmf m) (Some (next ++ rest)), st)) /\
  (m_find m = false \/ m_next m = None -> exists st', mixture_constraint s m st = Ok (eu w (map (Rmax 0) w), s', Mix (m_find m) (m_next m) (m_cmf m) (Some (map (Rmax 0) w ++ rest)), st') /\ nearest (default_constraints (length w)) w (map (Rmax 0) w)).
Proof.
  intros D s m st w rest s' Hu Hc Hp Hl Hst. unfold mixture_constraint. rewrite Hu. cbn [rbind]. rewrite con_loop_ok by auto. cbn [rbind]. rewrite Hp. destruct (Req_EM_T 0 0) as [_|E]; [|congruence]. cbn [rbind].
  assert (Sh (s_comps s') (s_weights s') (s_sizes s') = s') as -> by (destruct s'; auto).
  assert (forall x, length x = length w -> write 0 x (w ++ rest) = x ++ rest) as Hwr. { intros x Hx. unfold write. cbn [take app Nat.add]. rewrite Hx, drop_app. auto. }
  split.
  - intros next Hf Hn Hln. rewrite Hf, Hn. rewrite Hln, app_length. destruct (Nat.leb_spec (length w) (length w + length rest)); [|lia]. rewrite take_app, distance_ok by auto. cbn [rbind]. rewrite Rplus_0_l, Hwr by auto. reflexivity.
  - intros Hor. destruct (C83_default w st Hst) as (st' & E & Hnr & _).
    assert (forall n, n = length w -> (if (n <=? length (w ++ rest))%nat then do (r, st) <- linear_constraint (take n (w ++ rest)) None 0 st; let '(q, w0) := r in Ok (0 + q, s', Mix (m_find m) (m_next m) (m_cmf m) (Some (write 0 w0 (w ++ rest))), st) else UB) =
      Ok (eu w (map (Rmax 0) w), s', Mix (m_find m) (m_next m) (m_cmf m) (Some (map (Rmax 0) w ++ rest)), st')) as Hgo.
    { intros n ->. rewrite app_length. destruct (Nat.leb_spec (length w) (length w + length rest)); [|lia]. rewrite take_app, E. cbn [rbind]. rewrite Rplus_0_l, Hwr by (apply map_length). reflexivity. }
    exists st'. split; auto. destruct Hor as [Hf|Hn]; [rewrite Hf in *|rewrite Hn in *; destruct (m_find m)]; apply Hgo; auto.
Qed.
Print Assumptions C99_met.
(** C99: in any case the penalty is at least the sum of the components' penalties. *)
Lemma con_loop_pen {D} (cs : list (comp D * option (list R))) : forall qs, Forall2 (fun cp q => exists f, c_con (fst cp) = Some f /\ fst (f (pvec (snd cp))) = q) cs qs -> forall pen, exists cs', con_loop cs pen = Ok (pen + Rsum qs, cs').
Proof.
  induction cs as [|[c p] cs IH]; intros qs HF pen; inversion HF as [|? q ? qs' (f & Hf & Hq) HF']; subst; cbn [con_loop]; [rewrite Rsum_nil, Rplus_0_r; eauto|]. cbn [fst snd] in *. rewrite Hf. destruct (f (pvec p)) as [q p']. cbn [fst].
  destruct (IH qs' HF' (pen + q)) as (cs' & ->). cbn [rbind]. eexists. rewrite Rsum_cons, <- Rplus_assoc. reflexivity.
Qed.
Theorem C99_penalty : forall D (s : shared D) m st s1 qs pen s' m' st', unpack s m = Ok s1 -> Forall2 (fun cp q => exists f, c_con (fst cp) = Some f /\ fst (f (pvec (snd cp))) = q) (s_comps s1) qs -> reached None st ->
  mixture_constraint s m st = Ok (pen, s', m', st') -> Rsum qs <= pen.
Proof.
  intros D s m st s1 qs pen s' m' st' Hu HF Hst H. unfold mixture_constraint in H. rewrite Hu in H. cbn [rbind] in H. destruct (con_loop_pen _ _ HF 0) as (cs & Hc). rewrite Hc in H. cbn [rbind] in H. rewrite Rplus_0_l in H.
  destruct (m_pars m) as [v|]; [|discriminate]. destruct (if Req_EM_T (Rsum qs) 0 then Ok v else _) as [v'| |]; cbn [rbind] in H; try discriminate. 
  assert (forall n, (if (n <=? length v')%nat then do (r, st) <- linear_constraint (take n v') None 0 st; let '(q, w) := r in Ok (Rsum qs + q, Sh cs (s_weights s1) (s_sizes s1), Mix (m_find m) (m_next m) (m_cmf m) (Some (write 0 w v')), st) else UB) = Ok (pen, s', m', st') -> Rsum qs <= pen) as Hgo.
  { intros n Hx. destruct (n <=? length v')%nat; [|discriminate]. destruct (C83_default (take n v') st Hst) as (st2 & E & _). rewrite E in Hx. cbn [rbind] in Hx. injection Hx as <- _ _ _. pose proof (eu_nonneg (take n v') (map (Rmax 0) (take n v'))). lra. }
  destruct (m_find m), (m_next m) as [next|] eqn:En; try (eapply Hgo; exact H).
  destruct (Nat.leb_spec (length next) (length v')); [|discriminate]. rewrite distance_ok in H by (rewrite take_length; lia). cbn [rbind] in H. injection H as <- _ _ _. pose proof (eu_nonneg next (take (length next) v')). lra.
Qed.
Print Assumptions C99_penalty.
(** C99, refuted: parameters that do not meet a component's constraint are moved to where they do.  With one component with parameters [a; b], moved to [a'; b'] by its constraint, the new parameters
    are written in the place of the weight and the first parameter: the weight becomes a' (or 0), a becomes b', and b stays. *)
Theorem C99_refuted : forall D (c : comp D) f w a b a' b' pen find st, c_con c = Some f -> f [a; b] = (pen, [a'; b']) -> pen <> 0 -> reached None st ->
  exists q s' st', mixture_constraint (Sh [(c, Some [1; 1])] [w] [2%nat]) (Mix find None None (Some [w; a; b])) st = Ok (q, s', Mix find None None (Some [Rmax 0 a'; b'; b]), st').
Proof.
  intros D c f w a b a' b' pen find st Hc Hf Hp Hst. unfold mixture_constraint.
  assert (unpack (Sh [(c, Some [1; 1])] [w] [2%nat]) (Mix find None None (Some [w; a; b])) = Ok (Sh [(c, Some [a; b])] [w] [2%nat])) as -> by (destruct find; reflexivity).
  cbn [rbind s_comps s_weights s_sizes]. assert (con_loop [(c, Some [a; b])] 0 = Ok (pen, [(c, Some [a'; b'])])) as -> by (cbn [con_loop pvec]; rewrite Hc, Hf, Rplus_0_l; reflexivity).
  cbn [rbind s_comps s_weights s_sizes m_pars m_find m_next m_cmf]. destruct (Req_EM_T pen 0); [congruence|].
  assert (pack_loop [2%nat] 0 0 [(c, Some [a'; b'])] [w; a; b] = Ok [a'; b'; b]) as -> by reflexivity. cbn [rbind length].
  destruct (C83_default [a'] st Hst) as (st' & E & _). change (take 1 [a'; b'; b]) with [a']. destruct find; change (1 <=? 3)%nat with true; cbv iota; rewrite E; cbn [rbind]; do 3 eexists; reflexivity.
Qed.
Print Assumptions C99_refuted.
(** refuted: a component without constraint makes no difference.  Its constraint, which is not there, is called. *)
Theorem C99_refuted_missing : forall D (s : shared D) m st s' c p, unpack s m = Ok s' -> In (c, p) (s_comps s') -> c_con c = None -> mixture_constraint s m st = UB.
Proof.
  intros D s m st s' c p Hu Hin Hc. unfold mixture_constraint. rewrite Hu. cbn [rbind]. assert (forall pen, con_loop (s_comps s') pen = UB) as H.
  { clear Hu. induction (s_comps s') as [|[c' p'] cs IH]; [destruct Hin|]. intros pen. cbn [con_loop]. destruct Hin as [[= -> ->]|Hin]; [rewrite Hc; auto|]. destruct (c_con c') as [f|]; auto. destruct (f (pvec p')) as [q r]. rewrite (IH Hin). auto. }
  rewrite H. reflexivity.
Qed.
Print Assumptions C99_refuted_missing.
Example C99_nonvacuous : exists (s : shared R) m w rest s', unpack s m = Ok s' /\ Forall meets_own (s_comps s') /\ m_pars m = Some (w ++ rest) /\ length w = length (s_comps s') /\ reached None None /\ m_find m = true /\ m_next m = Some [3 / 4].
Proof.
  exists (Sh [(Comp (fun _ _ => 0) (fun _ _ => 0) (Some (fun p => (0, p))) None, Some [1])] [1] [1%nat]), (Mix true (Some [3 / 4]) None (Some [1; 2])), [1], [2]. eexists. split; [reflexivity|].
  split; [apply List.Forall_cons; [eexists; split; reflexivity|apply List.Forall_nil]|]. do 2 (split; [reflexivity|]). split; [constructor|auto].
Qed.
