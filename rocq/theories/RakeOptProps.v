(** C74: the raked table is the closest to the starting table with its margins, and the maximum likelihood estimate of the log-linear model.  Vocabulary in RakeSpec. *)
From Coq Require Import Reals Lra.
From Verif Require Import DataModel StatsModel StatsSpec StatsProofs FactModel FactProofs RakeModel RakeSpec RakeProofs RakeProps.
Local Open Scope list_scope.
Local Open Scope R_scope.

Lemma ln_gap a b : 0 <= a -> 0 < b -> a - b <= a * ln (a / b) /\ (a <> b -> a - b < a * ln (a / b)).
Proof.
  intros Ha Hb. destruct (Req_EM_T a 0) as [->|Hne]; [split; lra|]. assert (Hp : 0 < a) by lra. assert (Hq : 0 < b / a) by (apply Rdiv_lt_0_compat; lra).
  assert (E : ln (a / b) = - ln (b / a)). { rewrite <- ln_Rinv by auto. f_equal. field. lra. }
  rewrite E. assert (X : b / a = 1 + (b / a - 1)) by lra.
  assert (S : a <> b -> ln (b / a) < b / a - 1).
  { intros Hab. assert (Y : b / a - 1 <> 0). { intros H. apply Hab. assert (b = a * (b / a)) by (field; lra). replace (b / a) with 1 in H0 by lra. lra. }
    pose proof (exp_ineq1 (b / a - 1) Y). apply exp_lt_inv. rewrite exp_ln by auto. lra. }
  assert (M : a * (b / a - 1) = b - a) by (field; lra). split.
  - destruct (Req_EM_T a b) as [->|Hab]; [|specialize (S Hab); nra]. replace (b / b) with 1 by (field; lra). rewrite ln_1. lra.
  - intros Hab. specialize (S Hab). nra.
Qed.
Definition wsum (phi : list num -> R) (c : list bool) (cells : list (list num)) (x : list R) : R := Rsum (zip_with (fun cell a => a * phi (key c cell)) cells x).
Lemma key_sum phi c K : List.NoDup K -> forall cells x, length x = length cells -> (forall cell, In cell cells -> In (key c cell) K) -> wsum phi c cells x = Rsum (map (fun k => phi k * margin c cells x k) K).
Proof.
  intros Hnd. induction cells as [|cell cells IH]; intros [|a x] Hl Hin; try discriminate.
  - unfold wsum, margin. cbn [zip_with]. rewrite Rsum_nil. clear. induction K; cbn [map]; rewrite ?Rsum_nil, ?Rsum_cons; [lra|]. rewrite <- IHK. lra.
  - unfold wsum in *. cbn [zip_with]. rewrite Rsum_cons, IH by (auto; intros; apply Hin; right; auto). specialize (Hin cell (or_introl eq_refl)).
    transitivity (Rsum (map (fun k => phi k * (if key_dec (key c cell) k then a else 0)) K) + Rsum (map (fun k => phi k * margin c cells x k) K)).
    + f_equal. clear IH. induction K as [|k K IHK]; [destruct Hin|]. inversion Hnd; subst. cbn [map]. rewrite Rsum_cons. destruct (key_dec (key c cell) k) as [E|E].
      * subst k. assert (Z : Rsum (map (fun k => phi k * (if key_dec (key c cell) k then a else 0)) K) = 0).
        { clear - H1. induction K as [|k K IHK]; [apply Rsum_nil|]. cbn [map]. rewrite Rsum_cons, IHK by (intros H; apply H1; right; auto). destruct (key_dec (key c cell) k) as [<-|]; [exfalso; apply H1; left; auto|lra]. }
        rewrite Z. lra.
      * destruct Hin as [|Hin]; [congruence|]. rewrite <- IHK by auto. lra.
    + clear. unfold margin. cbn [zip_with]. induction K as [|k K IHK]; cbn [map]; rewrite ?Rsum_nil, ?Rsum_cons; [lra|]. rewrite <- IHK. ring.
Qed.
Lemma wsum_same phi c cells x y : length x = length cells -> length y = length cells -> (forall k, margin c cells x k = margin c cells y k) -> wsum phi c cells x = wsum phi c cells y.
Proof.
  intros Hx Hy H. rewrite !(key_sum phi c (nodup key_dec (map (key c) cells))); auto; try apply NoDup_nodup; try (intros; apply nodup_In, in_map; auto). f_equal. apply map_ext. intros k. rewrite H. auto.
Qed.
Lemma wsum_total c cells x : length x = length cells -> wsum (fun _ => 1) c cells x = Rsum x.
Proof. unfold wsum. revert x. induction cells as [|r rows IH]; intros [|a x] H; try discriminate; [reflexivity|]. cbn [zip_with]. rewrite !Rsum_cons, IH by (cbn in H; lia). lra. Qed.
Definition logs (p s : list R) : list R := zip_with (fun a b => ln (a / b)) p s.
Definition dot (x y : list R) : R := Rsum (zip_with Rmult x y).
(** [x] lives where [s] does *)
Definition lives (s x : list R) : Prop := Forall2 (fun a b => a = 0 -> b = 0) s x.
Lemma ln_prod l : (forall x, In x l -> 0 < x) -> 0 < Rprod l /\ ln (Rprod l) = Rsum (map ln l).
Proof.
  induction l as [|x l IH]; intros H; cbn [Rprod fold_right map]; [rewrite ln_1, Rsum_nil; lra|]. fold (Rprod l). destruct IH as [P E]; [intros; apply H; right; auto|]. pose proof (H x (or_introl eq_refl)). split; [apply Rmult_lt_0_compat; auto|]. rewrite ln_mult, E, Rsum_cons by auto. auto.
Qed.
Lemma prod_factors l : (forall x, In x l -> 0 <= x) -> 0 < Rprod l -> forall x, In x l -> 0 < x.
Proof.
  induction l as [|y l IH]; intros Hn Hp x Hx; [destruct Hx|]; destruct Hx as [<-|Hx]; cbn [Rprod fold_right] in Hp; fold (Rprod l) in Hp.
  - pose proof (Hn y (or_introl eq_refl)). destruct (Req_EM_T y 0) as [->|]; lra.
  - pose proof (Hn y (or_introl eq_refl)). apply IH; auto; [intros; apply Hn; right; auto|]. destruct (Req_EM_T y 0) as [->|]; [lra|]. apply (Rmult_lt_reg_l y); lra.
Qed.
Lemma Rsum_zip_plus {A B} (f g : A -> B -> R) : forall l m, Rsum (zip_with (fun a b => f a b + g a b) l m) = Rsum (zip_with f l m) + Rsum (zip_with g l m).
Proof. induction l as [|a l IH]; intros [|b m]; cbn [zip_with]; rewrite ?Rsum_nil, ?Rsum_cons; try lra. rewrite IH. lra. Qed.
Lemma Rsum_zip_scale {A B} q (f : A -> B -> R) : forall l m, Rsum (zip_with (fun a b => q * f a b) l m) = q * Rsum (zip_with f l m).
Proof. induction l as [|a l IH]; intros [|b m]; cbn [zip_with]; rewrite ?Rsum_nil, ?Rsum_cons; try lra. rewrite IH. lra. Qed.
Lemma zip_map {A B} (f : A -> B -> R) (h : R -> R) : forall l m, map h (zip_with f l m) = zip_with (fun a b => h (f a b)) l m.
Proof. induction l as [|a l IH]; intros [|b m]; cbn; auto. rewrite IH. auto. Qed.
Lemma in_zip {A B} (f : A -> B -> R) x : forall l m, In x (zip_with f l m) -> exists a b, In a l /\ In b m /\ x = f a b.
Proof. induction l as [|a l IH]; intros [|b m]; cbn; try tauto. intros [<-|H]; [exists a, b; auto|]. destruct (IH m H) as (a' & b' & ? & ? & ?). exists a', b'. auto. Qed.
Section expand.
  Context (config : list (list bool)) (fs : list (list num -> R)) (Hf : forall f k, In f fs -> 0 <= f k).
  Let fac cell := zip_with (fun c f => f (key c cell)) config fs.
  Let table cells s := zip_with (fun cell x => x * Rprod (fac cell)) cells s.
  Lemma expand : forall cells s x, length s = length cells -> nonnegative s -> lives s x -> lives (table cells s) s ->
    dot x (logs (table cells s) s) = Rsum (zip_with (fun c f => wsum (fun k => ln (f k)) c cells x) config fs).
  Proof.
    induction cells as [|cell cells IH]; intros [|a s] x Hl Hn Hx Hs; try discriminate; inversion Hx as [|? b ? x' Hab Hx']; subst; cbn [table logs zip_with].
    - unfold wsum, dot. cbn [zip_with]. rewrite Rsum_nil. clear. revert fs. induction config as [|c l IH]; intros [|f fs]; cbn [zip_with]; rewrite ?Rsum_nil, ?Rsum_cons; auto. rewrite <- IH. lra.
    - unfold dot. cbn [zip_with]. rewrite Rsum_cons. fold (table cells s). fold (logs (table cells s) s). fold (dot x' (logs (table cells s) s)). inversion Hs as [|? ? ? ? Hsa Hs']; subst. cbn in Hl. rewrite IH; auto; [|intros z Hz; apply Hn; right; auto].
      pose proof (Hn a (or_introl eq_refl)) as Ha. unfold wsum. cbn [zip_with]. assert (Y : forall F, Rsum (zip_with (fun c (f : list num -> R) => Rsum (b * ln (f (key c cell)) :: F c f)) config fs) = b * Rsum (zip_with (fun c f => ln (f (key c cell))) config fs) + Rsum (zip_with (fun c f => Rsum (F c f)) config fs)).
      { intros F. rewrite <- Rsum_zip_scale, <- Rsum_zip_plus. f_equal. }
      rewrite (Y (fun c f => zip_with (fun cell0 a0 => a0 * ln (f (key c cell0))) cells x')). f_equal. destruct (Req_EM_T a 0) as [E|E]; [rewrite (Hab E); lra|].
      assert (Hpos : 0 < Rprod (fac cell)).
      { assert (Hne : Rprod (fac cell) <> 0) by (intros Z; apply E, Hsa; rewrite Z; lra). assert (0 <= Rprod (fac cell)); [|lra]. assert (Hq : forall z, In z (fac cell) -> 0 <= z) by (intros z Hz; apply in_zip in Hz as (c & f & _ & Hfi & ->); auto). clear - Hq. induction (fac cell) as [|z l IH]; cbn [Rprod fold_right]; [lra|]. apply Rmult_le_pos; [apply Hq; left; auto|apply IH; intros; apply Hq; right; auto]. }
      f_equal. replace (a * Rprod (fac cell) / a) with (Rprod (fac cell)) by (field; auto). destruct (ln_prod (fac cell)) as [_ ->].
      + apply prod_factors; auto. intros z Hz; apply in_zip in Hz as (c & f & _ & Hfi & ->); auto.
      + unfold fac. rewrite zip_map. auto.
  Qed.
End expand.
(** the logarithms of a log-linear table add up to the same for weights with the same margins *)
Lemma same_logs cells config s p x y : log_linear cells config s p -> length s = length cells -> nonnegative s -> lives p s -> lives s x -> lives s y ->
  (forall c k, In c config -> margin c cells x k = margin c cells y k) -> dot x (logs p s) = dot y (logs p s).
Proof.
  intros (fs & Hl & Hf & ->) Hs Hn Hps Hx Hy Hm. rewrite !expand; auto. assert (Lx : length x = length cells) by (rewrite <- Hs; symmetry; eapply Forall2_length; exact Hx). assert (Ly : length y = length cells) by (rewrite <- Hs; symmetry; eapply Forall2_length; exact Hy). clear Hf Hps.
  revert fs Hl. induction config as [|c l IH]; intros [|f fs] Hl; cbn [zip_with]; auto. rewrite !Rsum_cons. rewrite (wsum_same _ c cells x y) by (auto; intros; apply Hm; left; auto). f_equal. apply IH; auto. intros. apply Hm. right. auto.
Qed.
Lemma dot_divergence x s : dot x (logs x s) = divergence x s.
Proof. unfold dot, logs, divergence. revert s. induction x as [|a x IH]; intros [|b s]; cbn [zip_with]; rewrite ?Rsum_nil, ?Rsum_cons; auto. rewrite IH. auto. Qed.
Lemma nonneg_tail a l : nonnegative (a :: l) -> nonnegative l.
Proof. intros H x Hx. apply H. right. auto. Qed.
Lemma logs_gap : forall s p v, nonnegative s -> nonnegative p -> nonnegative v -> lives s p -> lives p s -> lives s v -> Rsum v - Rsum p <= divergence v s - dot v (logs p s) /\ (v <> p -> Rsum v - Rsum p < divergence v s - dot v (logs p s)).
Proof.
  unfold divergence, dot, logs. induction s as [|a s IH]; intros p v Hs Hp Hv Hsp Hps Hsv; inversion Hsp as [|? b ? p' Hb Hsp']; subst; inversion Hsv as [|? d ? v' Hd Hsv']; subst; inversion Hps as [|? ? ? ? Hba Hps']; subst.
  { cbn [zip_with]. rewrite !Rsum_nil. split; [lra|congruence]. }
  cbn [zip_with]. rewrite !Rsum_cons. destruct (IH p' v') as [I1 I2]; eauto using nonneg_tail. pose proof (Hs a (or_introl eq_refl)) as Pa. pose proof (Hp b (or_introl eq_refl)) as Pb. pose proof (Hv d (or_introl eq_refl)) as Pd.
  assert (G : d - b <= d * ln (d / a) - d * ln (b / a) /\ (d <> b -> d - b < d * ln (d / a) - d * ln (b / a))).
  { destruct (Req_EM_T a 0) as [E|E]; [rewrite (Hb E), (Hd E); lra|]. assert (b <> 0) by (intros Z; apply E, Hba; auto). destruct (Req_EM_T d 0) as [->|Ed]; [lra|].
    replace (d * ln (d / a) - d * ln (b / a)) with (d * ln (d / b)); [apply ln_gap; lra|]. unfold Rdiv. rewrite !ln_mult, !ln_Rinv by (try apply Rinv_0_lt_compat; lra). ring. }
  destruct G as [G1 G2]. split; [lra|]. intros Hne. destruct (Req_EM_T d b) as [->|Hdb]; [assert (v' <> p') by congruence; specialize (I2 H); lra|specialize (G2 Hdb); lra].
Qed.
Lemma same_total cells config x y : config <> [] -> length x = length cells -> length y = length cells -> (forall c k, In c config -> margin c cells x k = margin c cells y k) -> Rsum x = Rsum y.
Proof. intros Hc Hx Hy H. destruct config as [|c l]; [congruence|]. rewrite <- (wsum_total c cells x), <- (wsum_total c cells y) by auto. apply wsum_same; auto. intros. apply H. left. auto. Qed.
Lemma closest cells config s p v : config <> [] -> length s = length cells -> log_linear cells config s p -> nonnegative s -> nonnegative p -> nonnegative v -> lives s p -> lives p s -> lives s v ->
  (forall c k, In c config -> margin c cells v k = margin c cells p k) -> divergence p s <= divergence v s /\ (v <> p -> divergence p s < divergence v s).
Proof.
  intros Hc Hl Hll Hs Hp Hv Hsp Hps Hsv Hm. assert (Lp : length p = length cells) by (rewrite <- Hl; symmetry; eapply Forall2_length; exact Hsp). assert (Lv : length v = length cells) by (rewrite <- Hl; symmetry; eapply Forall2_length; exact Hsv).
  pose proof (same_total _ _ _ _ Hc Lv Lp Hm) as T. pose proof (same_logs cells config s p v p Hll Hl Hs Hps Hsv Hsp Hm) as D. rewrite (dot_divergence p s) in D. destruct (logs_gap s p v Hs Hp Hv Hsp Hps Hsv) as [G1 G2]. split; [lra|]. intros Hne. specialize (G2 Hne). lra.
Qed.
Lemma like_logs : forall s u n, nonnegative s -> nonnegative u -> lives u s -> lives s n -> lives s u -> log_likelihood n u = dot n (logs u s) + log_likelihood n s.
Proof.
  unfold log_likelihood, dot, logs. induction s as [|a s IH]; intros u n Hs Hu Hus Hsn Hsu; inversion Hsn as [|? b ? n' Hb Hsn']; subst; inversion Hsu as [|? d ? u' Hd Hsu']; subst; inversion Hus as [|? ? ? ? Hda Hus']; subst; cbn [zip_with]; rewrite ?Rsum_nil, ?Rsum_cons; [lra|].
  rewrite IH; eauto using nonneg_tail. pose proof (Hs a (or_introl eq_refl)) as Pa. pose proof (Hu d (or_introl eq_refl)) as Pd. destruct (Req_EM_T a 0) as [E|E]; [rewrite (Hb E); lra|]. assert (d <> 0) by auto.
  unfold Rdiv. rewrite ln_mult, ln_Rinv by (try apply Rinv_0_lt_compat; lra). ring.
Qed.
Lemma lives_trans a b c : lives a b -> lives b c -> lives a c.
Proof. intros H. revert c. induction H; intros c H'; inversion H'; subst; constructor; auto. apply IHForall2. auto. Qed.
Lemma likeliest cells config s p n u : length s = length cells -> log_linear cells config s p -> log_linear cells config s u -> nonnegative s -> nonnegative p -> nonnegative u -> lives s p -> lives p s -> lives s u -> lives u s -> lives s n ->
  (forall c k, In c config -> margin c cells n k = margin c cells p k) -> Rsum u = Rsum p -> log_likelihood n u <= log_likelihood n p /\ (u <> p -> log_likelihood n u < log_likelihood n p).
Proof.
  intros Hl Hll Hlu Hs Hp Hu Hsp Hps Hsu Hus Hsn Hm Ht. rewrite (like_logs s u n), (like_logs s p n) by auto. pose proof (same_logs cells config s p n p Hll Hl Hs Hps Hsn Hsp Hm) as D1. pose proof (same_logs cells config s u n p Hlu Hl Hs Hus Hsn Hsp Hm) as D2. rewrite D1, D2, dot_divergence.
  destruct (logs_gap s u p Hs Hu Hp Hsu Hus Hsp) as [G1 G2]. split; [lra|]. intros Hne. assert (p <> u) by congruence. specialize (G2 H). lra.
Qed.
(** the same in terms of the places in the lists *)
Lemma lives_zero s x : zero_with s x <-> lives s x.
Proof.
  unfold zero_with, lives. rewrite Forall2_same_length_lookup. split.
  - intros [Hl H]. split; auto. intros i a b Ha Hb E. subst a. apply H in Ha. congruence.
  - intros [Hl H]. split; auto. intros i Hi. destruct (x !! i) as [y|] eqn:E; [f_equal; eapply H; eauto|]. apply lookup_ge_None in E. apply lookup_lt_Some in Hi. lia.
Qed.
Lemma ll_from cells config q w p : config <> [] -> 0 <= q -> log_linear cells config (map (fun x => x * q) w) p -> log_linear cells config w p.
Proof.
  intros Hc Hq (fs & Hl & Hf & ->). destruct config as [|c config]; [congruence|]. destruct fs as [|f fs]; [discriminate|]. exists ((fun k => q * f k) :: fs). split; [exact Hl|]. split.
  - intros f' k [<-|H]; [apply Rmult_le_pos; auto; apply Hf; left; auto|apply Hf; right; auto].
  - clear. revert w. induction cells as [|cell cells IH]; intros [|x w]; auto. cbn [map zip_with]. rewrite IH. f_equal. cbn [Rprod fold_right]. ring.
Qed.
Section C74.
  Context (width : nat) (mcells : list (list num)) (mw : list R) (cells : list (list num)) (w : list R) (config : list (list bool)) (tol : R) (maxit : nat) (o : rake_out).
  Context (V : valid width mcells mw cells w config) (Hmw : nonnegative mw) (Hw : nonnegative w) (Hc : config <> []).
  Context (Ho : c_loglin mcells mw cells config width w tol maxit = Ok (Some o)).
  Lemma facts : length w = length cells /\ log_linear cells config w (rweights o) /\ nonnegative (rweights o) /\ zero_with w (rweights o).
  Proof using V Hmw Hw Hc Ho.
    pose proof (valid_facts _ _ _ _ _ _ V) as (_ & _ & _ & _ & Hlw & _ & Hs). destruct (C73_log_linear _ _ _ _ _ _ _ _ V o Hmw Hw Ho) as (L & N & Z). destruct (C73_terminates _ _ _ _ _ _ tol maxit V) as (o' & Ho' & Hl & _). rewrite Ho in Ho'. injection Ho' as <-.
    split; [auto|]. split; [|split; [auto|split; [congruence|auto]]]. eapply ll_from; [auto| |exact L]. pose proof (Rsum_nonneg w ltac:(apply nonneg_Forall; auto)). pose proof (Rsum_nonneg mw ltac:(apply nonneg_Forall; auto)). apply Rmult_le_pos; auto. left. apply Rinv_0_lt_compat. lra.
  Qed.
  (** of all tables with its margins, and no weight where the starting table has none, the result is the closest to the starting table, and the only closest.
      Provided that no cell has lost its weight. *)
  Theorem C74_closest v : zero_with (rweights o) w -> nonnegative v -> zero_with w v -> same_margins config cells v (rweights o) ->
    divergence (rweights o) w <= divergence v w /\ (v <> rweights o -> divergence (rweights o) w < divergence v w).
  Proof using V Hmw Hw Hc Ho.
    destruct facts as (Hl & L & N & Z). intros Hz Hv Hvz Hm. apply (closest cells config); auto; apply lives_zero; auto.
  Qed.
  (** of all log-linear tables with its total, the result makes data with its margins the most likely, and it is the only one *)
  Theorem C74_likelihood n u : zero_with (rweights o) w -> zero_with w n -> same_margins config cells n (rweights o) ->
    log_linear cells config w u -> nonnegative u -> zero_with u w -> Rsum u = Rsum (rweights o) -> log_likelihood n u <= log_likelihood n (rweights o) /\ (u <> rweights o -> log_likelihood n u < log_likelihood n (rweights o)).
  Proof using V Hmw Hw Hc Ho.
    destruct facts as (Hl & L & N & Z). intros Hz Hnz Hm Lu Nu Hu Ht. apply (likeliest cells config w); auto; try (apply lives_zero; auto).
    destruct Lu as (fs & Hfl & Hfp & E). split; [symmetry; apply Hu|]. intros i Hi. rewrite E, lookup_zip_with, Hi. destruct (cells !! i) eqn:Ec; [cbn; f_equal; lra|]. apply lookup_ge_None in Ec. apply lookup_lt_Some in Hi. lia.
  Qed.
  (** no cell loses its weight if the margins of every cell with weight are positive *)
  Lemma all_kept : (forall c cell, In c config -> In cell cells -> 0 < margin c mcells mw (key c cell)) -> zero_with (rweights o) w.
  Proof using V Hmw Hw Hc Ho.
    intros Hpos. destruct facts as (Hl & L & N & Z). pose proof (run_inv _ _ _ _ _ _ _ _ V o Ho) as E.
    assert (Step : forall c first k s, In c config -> good cells (fst s) -> zle (fst (gstep mcells mw cells c first s k)) (fst s)).
    { intros c first k [l dev] Hcc [Hn Hlen]. destruct (gstep_cases mcells mw cells c first l dev k) as [[_ ->]|(_ & Hne & ->)]; [apply zle_refl|]. cbn [fst] in *. pose proof (margin_nonneg c k cells l Hn) as Hmn.
      assert (G : forall rows l', (forall r, In r rows -> In r cells) -> length l' = length rows -> zle (zip_with (fun r x => if key_dec (key c r) k then x * (target mcells mw c k / margin c cells l k) else x) rows l') l').
      { induction rows as [|r rows IH]; intros [|x l'] Hin Hl'; try discriminate; cbn [zip_with]; constructor; [|apply IH; auto; intros; apply Hin; right; auto].
        destruct (key_dec (key c r) k) as [Ek|]; auto. intros H0. apply Rmult_integral in H0 as [H0|H0]; auto. exfalso. specialize (Hpos c r Hcc (Hin r (or_introl eq_refl))). rewrite Ek in Hpos. change (target mcells mw c k) with (margin c mcells mw k) in H0.
        assert (0 < margin c mcells mw k / margin c cells l k) by (apply Rdiv_lt_0_compat; lra). lra. }
      apply G; auto. }
    assert (Pass : forall c first ks s, In c config -> good cells (fst s) -> zle (fst (fold_left (gstep mcells mw cells c first) ks s)) (fst s)).
    { intros c first. induction ks as [|k ks IH]; intros s Hcc Hg; [apply zle_refl|]. cbn [fold_left]. destruct (gstep_good mcells mw cells Hmw c first s k Hg) as (G1 & _). eapply zle_trans; [apply IH; auto|apply Step; auto]. }
    assert (All : forall first cs s, (forall c, In c cs -> In c config) -> good cells (fst s) -> 0 <= snd s -> zle (fst (all_pass mcells mw cells width cs first s)) (fst s)).
    { intros first. induction cs as [|c cs IH]; intros s Hcs Hg Hd; [apply zle_refl|]. change (all_pass mcells mw cells width (c :: cs) first s) with (all_pass mcells mw cells width cs first (pass mcells mw cells width c first s)).
      destruct (steps_good mcells mw cells Hmw c first (keys mcells width c) s Hg Hd) as (G1 & _ & D1 & _). eapply zle_trans; [apply IH; auto; [intros; apply Hcs; right; auto|unfold pass; lra]|apply Pass; auto; apply Hcs; left; auto]. }
    pose proof (start_good _ _ _ _ _ _ V Hmw Hw) as Hg.
    pose proof (prounds_inv mcells mw cells width (fun l => good cells l /\ zle l (start mw w)) config tol) as P. specialize (P ltac:(intros l first (G & Zl); destruct (all_good mcells mw cells width Hmw first config (l, 0) G ltac:(cbn; lra)) as (G1 & _); split; [auto|]; eapply zle_trans; [apply (All first config (l, 0)); cbn; auto; lra|auto])).
    specialize (P maxit 1%nat (start mw w)). rewrite E in P. cbn [fst] in P. destruct P as [_ P]; [split; [auto|apply zle_refl]|].
    apply lives_zero. apply (zle_trans _ _ _ P). unfold start. pose proof (valid_facts _ _ _ _ _ _ V) as (_ & _ & _ & _ & _ & Hcfg & Hs).
    (* the total of the margins is positive *)
    assert (0 < Rsum mw).
    { destruct config as [|c cs] eqn:Ec; [congruence|]. assert (exists cell, In cell cells) as (cell & Hcell). { destruct cells as [|cell ?]; [|exists cell; left; auto]. destruct w; [|discriminate]. rewrite Rsum_nil in Hs. lra. }
      specialize (Hpos c cell (or_introl eq_refl) Hcell). assert (margin c mcells mw (key c cell) <= Rsum mw); [|lra]. destruct V as (_ & _ & Hlm & _). unfold margin. clear - Hlm Hmw. revert mw Hlm Hmw.
      induction mcells as [|r rows IH]; intros [|x l] Hlm Hn; try discriminate; cbn [zip_with]; rewrite ?Rsum_nil, ?Rsum_cons; [lra|]. pose proof (Hn x (or_introl eq_refl)). specialize (IH l ltac:(cbn in Hlm; lia) (nonneg_tail _ _ Hn)). destruct (key_dec _ _); lra. }
    pose proof (Rsum_nonneg w ltac:(apply nonneg_Forall; auto)). assert (0 < Rsum mw / Rsum w) by (apply Rdiv_lt_0_compat; lra). revert H1. generalize (Rsum mw / Rsum w). intros q H1. clear - H1. induction w as [|x l IH]; cbn [map]; constructor; auto. intros H. apply Rmult_integral in H as [|]; auto. lra.
  Qed.
  Theorem C74_no_cell_lost : (forall c cell, In c config -> In cell cells -> 0 < margin c mcells mw (key c cell)) -> forall i x, w !! i = Some x -> 0 < x -> exists y, rweights o !! i = Some y /\ 0 < y.
  Proof using V Hmw Hw Hc Ho.
    intros H i x Hi Hx. destruct facts as (_ & _ & N & _). destruct (all_kept H) as [Hl Z]. destruct (rweights o !! i) as [y|] eqn:E; [|apply lookup_ge_None in E; apply lookup_lt_Some in Hi; lia]. exists y. split; auto. assert (0 <= y) by (apply N; apply elem_of_list_In; eapply elem_of_list_lookup_2; eauto).
    destruct (Req_EM_T y 0) as [->|]; [|lra]. apply Z in E. rewrite E in Hi. injection Hi as <-. lra.
  Qed.
End C74.
(** rakings of the same table that end with the same margins give the same table, no matter in which order the contrasts come, or what the tolerance is *)
Theorem C74_unique width mcells mw cells w config config' tol tol' maxit maxit' o o' : valid width mcells mw cells w config -> valid width mcells mw cells w config' -> nonnegative mw -> nonnegative w -> config <> [] -> (forall c, In c config <-> In c config') ->
  c_loglin mcells mw cells config width w tol maxit = Ok (Some o) -> c_loglin mcells mw cells config' width w tol' maxit' = Ok (Some o') -> zero_with (rweights o) w -> zero_with (rweights o') w ->
  same_margins config cells (rweights o) (rweights o') -> rweights o = rweights o'.
Proof.
  intros V V' Hm Hw Hc Hcc Ho Ho' Z Z' S. assert (Hc' : config' <> []). { destruct config as [|c ?]; [congruence|]. intros ->. apply (proj1 (Hcc c)). left. auto. }
  destruct (facts _ _ _ _ _ _ _ _ _ V Hm Hw Hc Ho) as (_ & _ & N & Y). destruct (facts _ _ _ _ _ _ _ _ _ V' Hm Hw Hc' Ho') as (_ & _ & N' & Y').
  destruct (C74_closest _ _ _ _ _ _ _ _ _ V Hm Hw Hc Ho (rweights o')) as [A1 A2]; auto; [intros c k H; symmetry; apply S; auto|]. destruct (C74_closest _ _ _ _ _ _ _ _ _ V' Hm Hw Hc' Ho' (rweights o)) as [B1 B2]; auto; [intros c k H; apply S; apply Hcc; auto|].
  destruct (list_eq_dec Req_EM_T (rweights o) (rweights o')) as [|Hne]; auto. specialize (B2 Hne). lra.
Qed.
Print Assumptions C74_closest.
Print Assumptions C74_likelihood.
Print Assumptions C74_no_cell_lost.
Print Assumptions C74_unique.
(** two cells raked to the margins 1 and 3 *)
Example C74_nonvacuous : exists o, valid 1 two_cells [1; 3] two_cells [1; 1] [[true]] /\ c_loglin two_cells [1; 3] two_cells [[true]] 1 [1; 1] (/ 2) 1000 = Ok (Some o) /\ zero_with (rweights o) [1; 1] /\ same_margins [[true]] two_cells [1; 3] (rweights o) /\ rweights o = [1; 3].
Proof.
  assert (V : valid 1 two_cells [1; 3] two_cells [1; 1] [[true]]) by (apply two_valid; auto; rewrite !Rsum_cons, Rsum_nil; lra).
  destruct (C73_terminates 1 two_cells [1; 3] two_cells [1; 1] [[true]] (/ 2) 1000 V) as (o & Ho & Hl & _). exists o.
  assert (N1 : nonnegative [1; 3]) by (intros x [<-|[<-|[]]]; lra). assert (N2 : nonnegative [1; 1]) by (intros x [<-|[<-|[]]]; lra).
  assert (Z : zero_with (rweights o) [1; 1]).
  { apply (all_kept _ _ _ _ _ _ _ _ _ V N1 N2 ltac:(congruence) Ho). intros c cell [<-|[]] [<-|[<-|[]]]; cbn [key keep_by]; destruct (two_margin 1 3) as [E1 E2]; [rewrite E1|rewrite E2]; lra. }
  assert (M : forall k x, In [x] two_cells -> k = [x] -> margin [true] two_cells (rweights o) k <> 0 -> margin [true] two_cells (rweights o) k = margin [true] two_cells [1; 3] k).
  { intros k x Hx -> Hne. change [x] with (key [true] [x]) in Hne |- *. apply (C73_last_margin 1 two_cells [1; 3] two_cells [1; 1] [[true]] (/ 2) 1000 V o [true] [x] []); auto; [lia|]. destruct Hx as [E|[E|[]]]; injection E as <-; apply two_known. }
  destruct (C73_log_linear _ _ _ _ _ _ _ _ V o N1 N2 Ho) as (_ & N & _). destruct Z as [_ Z]. destruct (rweights o) as [|a [|b [|]]] eqn:Er; try discriminate.
  assert (Ha : a <> 0). { intros ->. specialize (Z 0%nat eq_refl). cbn in Z. injection Z. lra. }
  assert (Hb : b <> 0). { intros ->. specialize (Z 1%nat eq_refl). cbn in Z. injection Z. lra. }
  pose proof (M [Some 1] (Some 1) (or_introl eq_refl) eq_refl) as M1. pose proof (M [Some 2] (Some 2) (or_intror (or_introl eq_refl)) eq_refl) as M2. destruct (two_margin a b) as [A1 A2]. destruct (two_margin 1 3) as [B1 B2]. rewrite A1, B1 in M1. rewrite A2, B2 in M2. rewrite (M1 Ha), (M2 Hb) in *.
  split; [auto|]. split; [auto|]. split; [|split; auto; intros c k _; auto]. split; auto.
Qed.
