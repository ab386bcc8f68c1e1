(** C91: numerical gradients.  C92: numerical Hessians and covariances. *)
From Coq Require Import Reals Lra.
From Verif Require Import Base DataModel StatsSpec LinProps OlsSpec OlsProofs DiffModel.
Local Open Scope list_scope.
Local Open Scope R_scope.

(** the five-point rule *)
Definition rule (V : R -> R) (x h : R) : R := (4 / 3 * (V (x + h / 2) - V (x - h / 2)) - 1 / 3 * (1 / 2 * (V (x + h) - V (x - h)))) / h.
Lemma rule_quartic V x h a0 a1 a2 a3 a4 : h <> 0 -> (forall t, V t = a0 + a1 * t + a2 * t ^ 2 + a3 * t ^ 3 + a4 * t ^ 4) ->
  rule V x h = a1 + 2 * a2 * x + 3 * a3 * x ^ 2 + 4 * a4 * x ^ 3.
Proof. intros Hh HV. unfold rule. rewrite !HV. field. auto. Qed.
Lemma rule_affine V x h a0 a1 : h <> 0 -> (forall t, V t = a0 + a1 * t) -> rule V x h = a1.
Proof. intros Hh HV. rewrite (rule_quartic V x h a0 a1 0 0 0); auto; [lra|]. intros t. rewrite HV. lra. Qed.
Lemma rule_ext V W x h : (forall t, V t = W t) -> rule V x h = rule W x h.
Proof. intros H. unfold rule. rewrite !H. auto. Qed.

(** the steps that GSL chooses for itself are positive (and, if asked, less than some bound) *)
Definition steps_ok (retry : R -> R -> R * R * R * R -> option (R * (R -> bool))) : Prop := forall x h v h2 b, 0 < h -> retry x h v = Some (h2, b) -> 0 < h2.
Definition steps_below (retry : R -> R -> R * R * R * R -> option (R * (R -> bool))) (d : R) : Prop := forall x h v h2 b, retry x h v = Some (h2, b) -> h2 < d.

Section g.
  Context (retry : R -> R -> R * R * R * R -> option (R * (R -> bool))) (Hret : steps_ok retry).
  Lemma central_ok F V P x h s : (forall b s, F b s = (V b, P b)) -> 0 < h ->
    exists k l, 0 < k /\ 0 < l /\ central retry F x h s = (rule V x k, P (x + l / 2)) /\ (forall d, h < d -> steps_below retry d -> k < d /\ l < d).
  Proof.
    intros HF Hh. unfold central, five_point. rewrite !HF. destruct (retry x h _) as [[h2 better]|] eqn:E.
    - rewrite !HF. pose proof (Hret _ _ _ _ _ Hh E). destruct (better _).
      + exists h2, h2. repeat split; auto; eapply H1; eauto.
      + exists h, h2. repeat split; auto; eapply H1; eauto.
    - exists h, h. repeat split; auto.
  Qed.

  Section f.
    Context (f : lik) (c : cons) (beta : list R).
    (** value and parameters after one evaluation with coordinate [j] set to [t] *)
    Definition pen (p : list R) : R * list R := match c with Some c => c p | None => (0, p) end.
    Definition val (j : nat) (t : R) : R := fst (f (snd (pen (<[j := t]> beta)))) + fst (pen (<[j := t]> beta)).
    Definition aft (j : nat) (t : R) : list R := snd (f (snd (pen (<[j := t]> beta)))).
    Lemma one_d_is j b s : one_d f c beta j b s = (val j b, aft j b).
    Proof. unfold one_d, val, aft, pen. destruct c as [c0|]; [destruct (c0 _) as [pe p]|]; cbn [fst snd]; destruct (f _); auto. Qed.

    Lemma loop_ok delta todo : forall j s, 0 < delta ->
      exists l s', gradient_loop retry f c delta beta todo j s = (l, s') /\ length l = todo /\
        (forall i, (i < todo)%nat -> exists k, 0 < k /\ nth i l 0 = rule (val (j + i)) (nth (j + i) beta 0) k /\ (forall d, delta < d -> steps_below retry d -> k < d)) /\
        match todo with O => s' = s | S n => exists k, 0 < k /\ s' = aft (j + n) (nth (j + n) beta 0 + k / 2) end.
    Proof.
      induction todo as [|todo IH]; intros j s Hd; cbn [gradient_loop].
      - exists [], s. repeat split; auto. intros i Hi. lia.
      - destruct (central_ok (one_d f c beta j) (val j) (aft j) (nth j beta 0) delta s (one_d_is j) Hd) as (k & l & Hk & Hl & -> & Hb).
        destruct (IH (S j) (aft j (nth j beta 0 + l / 2)) Hd) as (r & s' & -> & Hlen & Hr & Hs). exists (rule (val j) (nth j beta 0) k :: r), s'.
        split; auto. split; [cbn; lia|]. split.
        + intros [|i] Hi; [exists k; rewrite Nat.add_0_r; split; auto; split; auto; intros d H1 H2; apply (Hb d); auto|].
          destruct (Hr i) as (k' & H1 & H2 & H3); [lia|]. exists k'. split; auto. split; auto. cbn [nth]. rewrite H2. rewrite <- !plus_n_Sm. auto.
        + destruct todo as [|n]; [subst s'; rewrite Nat.add_0_r; exists l; auto|]. destruct Hs as (k' & H1 & H2). exists k'. split; auto. rewrite <- plus_n_Sm. auto.
    Qed.
  End f.
  Lemma gradient_ok f c delta beta : 0 < delta ->
    exists l s', numerical_gradient retry f c delta beta = (l, s') /\ length l = length beta /\
      (forall i, (i < length beta)%nat -> exists k, 0 < k /\ nth i l 0 = rule (val f c beta i) (nth i beta 0) k /\ (forall d, delta < d -> steps_below retry d -> k < d)) /\
      (beta = [] -> s' = []) /\ (beta <> [] -> exists k, 0 < k /\ s' = aft f c beta (length beta - 1) (nth (length beta - 1) beta 0 + k / 2)).
  Proof.
    intros Hd. destruct (loop_ok f c beta delta (length beta) 0 beta Hd) as (l & s' & H1 & H2 & H3 & H4). exists l, s'. split; auto. split; auto. split; auto.
    destruct beta as [|b beta]; [split; auto; congruence|]. split; [discriminate|]. intros _. cbn [length] in *. replace (S (length beta) - 1)%nat with (length beta) by lia. exact H4.
  Qed.
End g.

(** a likelihood without side effects *)
Definition pure (g : list R -> R) : lik := fun p => (g p, p).
Lemma val_pure g beta j t : val (pure g) None beta j t = g (<[j := t]> beta).
Proof. unfold val, pen, pure. cbn. lra. Qed.

(** C91: for any log likelihood that is differentiable in parameter [j] there, the element of the numerical gradient is as near to the derivative as one
    likes, for all steps small enough, whichever of these GSL settles on. *)
Theorem C91_consistent : forall g beta j l, (j < length beta)%nat -> derivable_pt_lim (fun t => g (<[j := t]> beta)) (nth j beta 0) l ->
  forall eps, 0 < eps -> exists d, 0 < d /\ forall retry delta, steps_ok retry -> steps_below retry d -> 0 < delta < d ->
    Rabs (nth j (fst (numerical_gradient retry (pure g) None delta beta)) 0 - l) < eps.
Proof.
  intros g beta j l Hj Hd eps He. set (V := fun t => g (<[j := t]> beta)) in *. set (x := nth j beta 0) in *.
  destruct (Hd (eps / 2)) as [d Hdd]; [lra|]. exists d. split; [apply cond_pos|]. intros retry delta Hr Hb [Hd0 Hd1].
  destruct (gradient_ok retry Hr (pure g) None delta beta Hd0) as (r & s' & -> & _ & H & _). cbn [fst].
  destruct (H j Hj) as (k & Hk & -> & Hkd). specialize (Hkd d Hd1 Hb). rewrite (rule_ext _ V) by (intros t; apply val_pure). fold x.
  assert (forall t, t <> 0 -> Rabs t < d -> exists q, V (x + t) - V x = t * (l + q) /\ Rabs q < eps / 2) as Hq.
  { intros t Ht Htd. exists ((V (x + t) - V x) / t - l). split; [field; auto|]. apply Hdd; auto. }
  destruct (Hq k) as (q1 & E1 & Q1); [lra|rewrite Rabs_pos_eq; lra|]. destruct (Hq (- k)) as (q2 & E2 & Q2); [lra|rewrite Rabs_Ropp, Rabs_pos_eq; lra|].
  destruct (Hq (k / 2)) as (q3 & E3 & Q3); [lra|rewrite Rabs_pos_eq; lra|]. destruct (Hq (- (k / 2))) as (q4 & E4 & Q4); [lra|rewrite Rabs_Ropp, Rabs_pos_eq; lra|].
  assert (rule V x k - l = 4 / 3 * ((q3 + q4) / 2) - 1 / 3 * ((q1 + q2) / 2)) as ->.
  { unfold rule. replace (V (x + k / 2) - V (x - k / 2)) with (k / 2 * (l + q3) - - (k / 2) * (l + q4)) by (rewrite <- E3, <- E4; unfold Rminus; ring).
    replace (V (x + k) - V (x - k)) with (k * (l + q1) - - k * (l + q2)) by (rewrite <- E1, <- E2; unfold Rminus; ring). field. lra. }
  apply Rabs_def2 in Q1, Q2, Q3, Q4. apply Rabs_def1; lra.
Qed.
Print Assumptions C91_consistent.

(** C91: and for a log likelihood that is a polynomial in parameter [j], of degree at most four, it is the derivative. *)
Theorem C91_exact : forall retry g delta beta j a0 a1 a2 a3 a4, steps_ok retry -> 0 < delta -> (j < length beta)%nat ->
  (forall t, g (<[j := t]> beta) = a0 + a1 * t + a2 * t ^ 2 + a3 * t ^ 3 + a4 * t ^ 4) ->
  derivable_pt_lim (fun t => g (<[j := t]> beta)) (nth j beta 0) (nth j (fst (numerical_gradient retry (pure g) None delta beta)) 0).
Proof.
  intros retry g delta beta j a0 a1 a2 a3 a4 Hr Hd Hj HV. destruct (gradient_ok retry Hr (pure g) None delta beta Hd) as (r & s' & -> & _ & H & _). cbn [fst].
  destruct (H j Hj) as (k & Hk & -> & _). set (x := nth j beta 0).
  rewrite (rule_quartic _ x k a0 a1 a2 a3 a4); [|lra|intros t; rewrite val_pure; auto].
  apply (derivable_pt_lim_ext (fun t => a0 + a1 * t + a2 * t ^ 2 + a3 * t ^ 3 + a4 * t ^ 4)); [intros t; symmetry; apply HV|].
  replace (a1 + 2 * a2 * x + 3 * a3 * x ^ 2 + 4 * a4 * x ^ 3) with (0 + a1 * 1 + a2 * (INR 2 * x ^ 1) + a3 * (INR 3 * x ^ 2) + a4 * (INR 4 * x ^ 3)) by (cbn [INR pow]; ring).
  apply derivable_pt_lim_plus; [apply derivable_pt_lim_plus; [apply derivable_pt_lim_plus; [apply derivable_pt_lim_plus|]|]|].
  - apply derivable_pt_lim_const.
  - apply derivable_pt_lim_scal, derivable_pt_lim_id.
  - apply derivable_pt_lim_scal. apply (derivable_pt_lim_pow x 2).
  - apply derivable_pt_lim_scal. apply (derivable_pt_lim_pow x 3).
  - apply derivable_pt_lim_scal. apply (derivable_pt_lim_pow x 4).
Qed.
Print Assumptions C91_exact.

(** C91, refuted: taking a gradient leaves the model's parameters alone.  All but the last are as before; the last is greater, by half of a step. *)
Theorem C91_refuted_moved : forall retry g delta beta, steps_ok retry -> 0 < delta -> beta <> [] ->
  exists h, 0 < h /\ snd (numerical_gradient retry (pure g) None delta beta) = <[(length beta - 1)%nat := nth (length beta - 1) beta 0 + h / 2]> beta.
Proof.
  intros retry g delta beta Hr Hd Hn. destruct (gradient_ok retry Hr (pure g) None delta beta Hd) as (r & s' & -> & _ & _ & _ & H). destruct (H Hn) as (k & Hk & ->). exists k. split; auto.
Qed.
Print Assumptions C91_refuted_moved.
(** ... further and further with each call *)
Inductive called retry (g : list R -> R) : nat -> list R -> list R -> Prop :=
| called_0 b : called retry g 0 b b
| called_S n b b1 delta : called retry g n b b1 -> 0 < delta -> called retry g (S n) b (snd (numerical_gradient retry (pure g) None delta b1)).
Lemma nth_insert_eq (l : list R) i x : (i < length l)%nat -> nth i (<[i := x]> l) 0 = x.
Proof. revert i; induction l as [|a l IH]; intros [|i] H; cbn in *; try lia; auto. apply IH. lia. Qed.
Lemma nth_insert_ne (l : list R) i j x : i <> j -> nth j (<[i := x]> l) 0 = nth j l 0.
Proof. revert i j; induction l as [|a l IH]; intros [|i] [|j] H; cbn; auto; try lia. Qed.
Theorem C91_refuted_drift : forall retry g n b b', steps_ok retry -> b <> [] -> called retry g n b b' -> (0 < n)%nat ->
  length b' = length b /\ nth (length b - 1) b 0 < nth (length b - 1) b' 0 /\ forall j, (j < length b - 1)%nat -> nth j b' 0 = nth j b 0.
Proof.
  intros retry g n b b' Hr Hb Hc Hn. assert (length b' = length b /\ nth (length b - 1) b 0 <= nth (length b - 1) b' 0 /\ ((0 < n)%nat -> nth (length b - 1) b 0 < nth (length b - 1) b' 0) /\ forall j, (j < length b - 1)%nat -> nth j b' 0 = nth j b 0) as H.
  { clear Hn. induction Hc as [b|n b b1 delta Hc IH Hd]; [repeat split; auto; [lra|lia]|]. destruct (IH Hb) as (I1 & I2 & _ & I3).
    assert (b1 <> []) as Hb1 by (intros ->; destruct b; [congruence|discriminate]). assert (0 < length b)%nat by (destruct b; [congruence|cbn; lia]).
    destruct (C91_refuted_moved retry g delta b1 Hr Hd Hb1) as (h & Hh & ->). rewrite I1, insert_length, nth_insert_eq by lia. split; auto. split; [lra|]. split; [lra|].
    intros j Hj. rewrite nth_insert_ne by lia. auto. }
  destruct H as (H1 & _ & H2 & H3). auto.
Qed.
Print Assumptions C91_refuted_drift.

(** refuted: the gradient is that of the objective (the log likelihood less the penalty) where the constraint binds: the penalty is added *)
Definition nonneg_con (p : list R) : R * list R := match p with [x] => if Rlt_dec x 0 then (- x, [0]) else (0, p) | _ => (0, p) end.
Definition obj (g : list R -> R) (c : list R -> R * list R) (p : list R) : R := g (snd (c p)) - fst (c p).
Theorem C91_refuted_penalty : forall retry, (forall x h v, retry x h v = None) ->
  nth 0 (fst (numerical_gradient retry (pure (fun _ => 0)) (Some nonneg_con) (1 / 10) [-1])) 0 = -1 /\
  derivable_pt_lim (fun t => obj (fun _ => 0) nonneg_con [t]) (-1) 1.
Proof.
  intros retry Hn. split.
  - unfold numerical_gradient. cbn [length gradient_loop nth]. unfold central, five_point, one_d, pure. cbn [insert list_insert].
    unfold nonneg_con. destruct (Rlt_dec (-1 - 1/10) 0); [|exfalso; lra]. destruct (Rlt_dec (-1 + 1/10) 0); [|exfalso; lra]. destruct (Rlt_dec (-1 - 1/10/2) 0); [|exfalso; lra]. destruct (Rlt_dec (-1 + 1/10/2) 0); [|exfalso; lra].
    rewrite Hn. cbn [fst nth]. lra.
  - intros eps He. assert (0 < 1 / 2) as H2 by lra. exists (mkposreal _ H2). intros h Hh Hd. cbn in Hd. apply Rabs_def2 in Hd. unfold obj, nonneg_con.
    destruct (Rlt_dec (-1 + h) 0); [|lra]. destruct (Rlt_dec (-1) 0); [|lra]. cbn [fst snd]. replace ((0 - - (-1 + h) - (0 - - -1)) / h - 1) with 0 by (field; auto). rewrite Rabs_R0. auto.
Qed.
Print Assumptions C91_refuted_penalty.
Example C91_nonvacuous : steps_ok (fun _ _ _ => None) /\ fst (numerical_gradient (fun _ _ _ => None) (pure (fun p => nth 0 p 0 * nth 1 p 0 + nth 1 p 0 ^ 2)) None 1 [2; 3]) = [3; 8].
Proof.
  split; [intros x h v h2 b _; discriminate|]. unfold numerical_gradient. cbn [length gradient_loop nth]. unfold central, five_point, one_d, pure. cbn [insert list_insert nth fst].
  f_equal; [field|f_equal; field].
Qed.
