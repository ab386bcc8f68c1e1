(** More lemmas for C115 and C116: the envelope covers the bounds; cumulating; the piece that is drawn from. *)
From Coq Require Import Reals Lra.
From Verif Require Import DataModel ArmsModel ArmsSpec ArmsProofs.
Local Open Scope list_scope.
Local Open Scope nat_scope.

(** ---------- coverage ---------- *)
Lemma full_bounds s f l j p : full s f l -> l !! j = Some p -> (xl s <= px p <= xr s)%R.
Proof.
  intros Hf Hp. pose proof Hf as (Hs & _). pose proof Hs as ((n & Hn & Hlen) & _). pose proof (lookup_lt_Some _ _ _ Hp) as Hj.
  destruct (Nat.odd j) eqn:Oj; [apply (skel_in s f l Hs j); auto|]. assert (Ej : Nat.even j = true) by (rewrite <- Nat.negb_odd, Oj; auto).
  assert (S1 : is_Some (l !! 1)) by (apply lookup_lt_is_Some_2; lia). destruct S1 as (q1 & E1). pose proof (skel_in s f l Hs 1 q1 eq_refl E1) as W.
  destruct (decide (j = 0)) as [-> |]; [destruct Hs as (_ & _ & _ & _ & H5 & _); rewrite (H5 _ Hp); lra|].
  destruct (decide (j = length l - 1)) as [-> |]; [destruct Hs as (_ & _ & _ & _ & _ & H6 & _); rewrite (H6 _ Hp); lra|].
  destruct (inner_pos s f l j p Hf Ej Hp) as (u & v & E2 & E3 & _ & R & _); [lia|lia|]. destruct (even_odd_3 j Ej) as (_ & O1 & _ & O1').
  pose proof (skel_in s f l Hs _ _ O1 E3). pose proof (skel_in s f l Hs _ _ (O1' ltac:(lia)) E2). lra.
Qed.
Lemma cover_upto s f l x : full s f l -> forall j q0 q, l !! 0 = Some q0 -> l !! j = Some q -> (px q0 <= x <= px q)%R -> (px q0 < px q)%R -> exists h, height_at l x h.
Proof.
  intros Hf. induction j as [|j IH]; intros q0 q H0 Hq Hx Hlt; [assert (q = q0) by congruence; subst; lra|].
  assert (Sj : is_Some (l !! j)) by (apply lookup_lt_is_Some_2; apply lookup_lt_Some in Hq; lia). destruct Sj as (p & Hp).
  pose proof (full_sorted s f l j p q Hf Hp) as Hpq. rewrite Nat.add_1_r in Hpq. specialize (Hpq Hq).
  destruct (Rle_dec x (px p)) as [L|L].
  - destruct (Rlt_dec (px q0) (px p)) as [L2|L2].
    + apply (IH q0 p); auto; lra.
    + exists (py p + (x - px p) / (px q - px p) * (py q - py p))%R. exists j, p, q. repeat split; auto; lra.
  - exists (py p + (x - px p) / (px q - px p) * (py q - py p))%R. exists j, p, q. repeat split; auto; lra.
Qed.
Lemma covered s f l x : full s f l -> (xl s <= x <= xr s)%R -> exists h, height_at l x h.
Proof.
  intros Hf Hx. pose proof Hf as (Hs & _). pose proof Hs as ((n & Hn & Hlen) & _).
  assert (S0 : is_Some (l !! 0)) by (apply lookup_lt_is_Some_2; lia). assert (S1 : is_Some (l !! (length l - 1))) by (apply lookup_lt_is_Some_2; lia). destruct S0 as (q0 & E0), S1 as (q1 & E1).
  assert (S2 : is_Some (l !! 1)) by (apply lookup_lt_is_Some_2; lia). assert (S3 : is_Some (l !! 3)) by (apply lookup_lt_is_Some_2; lia). destruct S2 as (d1 & D1), S3 as (d3 & D3).
  pose proof (skel_lt s f l Hs 1 _ _ eq_refl D1 D3). pose proof (full_bounds _ _ _ _ _ Hf D1). pose proof (full_bounds _ _ _ _ _ Hf D3).
  destruct Hs as (_ & _ & _ & _ & H5 & H6 & _). specialize (H5 _ E0). specialize (H6 _ E1). apply (cover_upto s f l x Hf (length l - 1) q0 q1 E0 E1); lra.
Qed.

(** ---------- cumulating ---------- *)
Lemma fold_max : forall r m, (m <= fold_left (fun m q => if Rlt_dec m (py q) then py q else m) r m)%R /\
  (forall q, In q r -> (py q <= fold_left (fun m q => if Rlt_dec m (py q) then py q else m) r m)%R) /\
  (fold_left (fun m q => if Rlt_dec m (py q) then py q else m) r m = m \/ exists q, In q r /\ fold_left (fun m q => if Rlt_dec m (py q) then py q else m) r m = py q).
Proof.
  induction r as [|a r IH]; intros m; cbn [fold_left]; [split; [lra|]; split; [intros q []|auto]|].
  set (m' := if Rlt_dec m (py a) then py a else m). destruct (IH m') as (A & B & C).
  assert (Hm : (m <= m')%R /\ (py a <= m')%R /\ (m' = m \/ m' = py a)) by (unfold m'; destruct (Rlt_dec m (py a)); repeat split; try lra; auto). destruct Hm as (M1 & M2 & M3).
  split; [lra|]. split; [intros q [<-|Hq]; [lra|auto]|]. destruct C as [-> |(q & Hq & ->)]; [|right; exists q; split; [right|]; auto].
  destruct M3 as [-> | ->]; [left; auto|right; exists a; split; [left|]; auto].
Qed.
Lemma ymax_spec l : l <> [] -> (forall q, In q l -> (py q <= ymax_of l)%R) /\ exists q, In q l /\ py q = ymax_of l.
Proof.
  destruct l as [|a r]; [congruence|]. intros _. cbn [ymax_of]. destruct (fold_max r (py a)) as (A & B & C). split; [intros q [<-|Hq]; auto|].
  destruct C as [-> |(q & Hq & ->)]; [exists a; split; [left|]; auto|exists q; split; [right|]; auto].
Qed.
Lemma with_cum_at : forall r a0 i q, with_cum a0 r !! i = Some q ->
  exists a, (a0 :: with_cum a0 r) !! i = Some a /\ pcum q = (pcum a + area a q)%R.
Proof.
  induction r as [|b r IH]; intros a0 i q Hq; [discriminate|]. cbn [with_cum] in *. destruct i as [|i].
  - cbn in Hq. injection Hq as <-. exists a0. split; auto.
  - cbn in Hq. destruct (IH _ _ _ Hq) as (a & Ha & E). exists a. split; auto.
Qed.
Lemma with_cum_ey : forall r a0 i q, with_cum a0 r !! i = Some q -> exists q0, r !! i = Some q0 /\ pey q = pey q0 /\ py q = py q0.
Proof.
  induction r as [|b r IH]; intros a0 i q Hq; [discriminate|]. cbn [with_cum] in Hq. destruct i as [|i]; cbn in Hq; [injection Hq as <-; exists b; auto|]. apply (IH _ _ _ Hq).
Qed.
Lemma cum_first l q : cumulate l !! 0 = Some q -> pcum q = 0%R.
Proof. unfold cumulate. destruct (with_ey l (ymax_of l)) as [|a r]; [discriminate|]. cbn. intros H. injection H as <-. auto. Qed.
Lemma cum_step l i a q : cumulate l !! i = Some a -> cumulate l !! S i = Some q -> pcum q = (pcum a + area a q)%R.
Proof.
  unfold cumulate. destruct (with_ey l (ymax_of l)) as [|b r]; [discriminate|]. cbv zeta. set (b' := Pt _ _ _ _ _). intros Ha Hq. cbn in Hq. destruct (with_cum_at _ _ _ _ Hq) as (a' & Ha' & E). rewrite Ha in Ha'. injection Ha' as <-. auto.
Qed.
Lemma cum_ey l i q : cumulate l !! i = Some q -> pey q = expshift (py q) (ymax_of l).
Proof.
  unfold cumulate. destruct (with_ey l (ymax_of l)) as [|b r] eqn:E; [discriminate|]. cbv zeta. set (b' := Pt _ _ _ _ _). intros Hq.
  assert (G : forall q0, In q0 (b :: r) -> pey q0 = expshift (py q0) (ymax_of l)). { rewrite <- E. intros q0 Hin. unfold with_ey in Hin. apply in_map_iff in Hin as (q1 & <- & _). auto. }
  destruct i as [|i]; cbn in Hq; [injection Hq as <-; cbn; apply G; left; auto|]. destruct (with_cum_ey _ _ _ _ Hq) as (q0 & H0 & -> & ->). apply G. right. apply elem_of_list_In. eapply elem_of_list_lookup_2; eauto.
Qed.
Lemma cum_max l : l <> [] -> (forall i q, cumulate l !! i = Some q -> (py q <= ymax_of l)%R) /\ exists i q, cumulate l !! i = Some q /\ py q = ymax_of l.
Proof.
  intros Hl. destruct (ymax_spec l Hl) as (A & B). pose proof (cumulate_alike l) as HA. split.
  - intros i q Hq. destruct (alike_some _ _ _ _ HA Hq) as (p & Hp & _ & <- & _). apply A. apply elem_of_list_In. eapply elem_of_list_lookup_2; eauto.
  - destruct B as (p & Hp & E). apply elem_of_list_In, elem_of_list_lookup in Hp as (i & Hi). symmetry in HA. destruct (alike_some _ _ _ _ HA Hi) as (q & Hq & _ & E2 & _). exists i, q. split; auto. congruence.
Qed.
Lemma expshift_pos y m : (m - 2 * YCEIL < y)%R -> (0 < expshift y m)%R.
Proof. intros H. unfold expshift. destruct (Rlt_dec _ _) as [L|L]; [apply exp_pos|lra]. Qed.
Lemma expshift_nonneg y m : (0 <= expshift y m)%R.
Proof. unfold expshift. destruct (Rlt_dec _ _) as [L|L]; [left; apply exp_pos|lra]. Qed.
Lemma expshift_mono y z m : (y <= z)%R -> (expshift y m <= expshift z m)%R.
Proof.
  intros H. unfold expshift. destruct (Rlt_dec _ (y - m)) as [L|L], (Rlt_dec _ (z - m)) as [L2|L2]; try lra; [|left; apply exp_pos].
  destruct (Req_EM_T y z) as [-> |]; [lra|]. left. apply exp_increasing. lra.
Qed.
Lemma expshift_lt y z m : (y < z)%R -> (0 < expshift z m)%R -> (expshift y m < expshift z m)%R.
Proof.
  intros H Hp. unfold expshift in *. destruct (Rlt_dec _ (y - m)) as [L|L], (Rlt_dec _ (z - m)) as [L2|L2]; try lra. apply exp_increasing. lra.
Qed.
Lemma area_nonneg a q m : (px a <= px q)%R -> pey a = expshift (py a) m -> pey q = expshift (py q) m -> (0 <= area a q)%R.
Proof.
  intros Hx Ea Eq. unfold area. destruct (Req_EM_T _ _); [lra|]. pose proof (expshift_nonneg (py a) m). pose proof (expshift_nonneg (py q) m). rewrite <- Ea in *. rewrite <- Eq in *.
  destruct (Rlt_dec _ _) as [L|L]; [apply Rmult_le_pos; lra|]. apply Rmult_le_pos; [|lra]. unfold YEPS in L.
  destruct (Rtotal_order (py a) (py q)) as [T|[T|T]].
  - apply Rmult_le_pos; [|left; apply Rinv_0_lt_compat; lra]. pose proof (expshift_mono (py a) (py q) m). lra.
  - exfalso. apply L. rewrite T, Rminus_eq_0, Rabs_R0. lra.
  - replace ((pey q - pey a) / (py q - py a))%R with ((pey a - pey q) / (py a - py q))%R by (field; lra). apply Rmult_le_pos; [|left; apply Rinv_0_lt_compat; lra]. pose proof (expshift_mono (py q) (py a) m). lra.
Qed.
Lemma area_pos a q m : (px a < px q)%R -> pey a = expshift (py a) m -> pey q = expshift (py q) m -> (0 < pey a \/ 0 < pey q)%R -> (0 < area a q)%R.
Proof.
  intros Hx Ea Eq Hp. unfold area. destruct (Req_EM_T _ _); [lra|]. pose proof (expshift_nonneg (py a) m). pose proof (expshift_nonneg (py q) m). rewrite <- Ea in *. rewrite <- Eq in *.
  destruct (Rlt_dec _ _) as [L|L]; [apply Rmult_lt_0_compat; lra|]. apply Rmult_lt_0_compat; [|lra]. unfold YEPS in L.
  destruct (Rtotal_order (py a) (py q)) as [T|[T|T]].
  - apply Rmult_lt_0_compat; [|apply Rinv_0_lt_compat; lra]. pose proof (expshift_mono (py a) (py q) m). pose proof (expshift_lt (py a) (py q) m T). lra.
  - exfalso. apply L. rewrite T, Rminus_eq_0, Rabs_R0. lra.
  - replace ((pey q - pey a) / (py q - py a))%R with ((pey a - pey q) / (py a - py q))%R by (field; lra). apply Rmult_lt_0_compat; [|apply Rinv_0_lt_compat; lra]. pose proof (expshift_mono (py q) (py a) m). pose proof (expshift_lt (py q) (py a) m T). lra.
Qed.

(** ---------- the envelope has positive mass ---------- *)
Section mass.
Variables (s : aset) (f : R -> R) (st : arms).
Hypothesis (HI : Inv s f st).
Let l := env st.
Lemma inv_full : full s f l. Proof. apply HI. Qed.
Lemma inv_ey i q : l !! i = Some q -> pey q = expshift (py q) (ymax st).
Proof. destruct HI as (_ & (l0 & E & ->) & _). unfold l. rewrite E. apply cum_ey. Qed.
Lemma inv_step i a q : l !! i = Some a -> l !! S i = Some q -> pcum q = (pcum a + area a q)%R.
Proof. destruct HI as (_ & (l0 & E & _) & _). unfold l. rewrite E. apply cum_step. Qed.
Lemma inv_first q : l !! 0 = Some q -> pcum q = 0%R.
Proof. destruct HI as (_ & (l0 & E & _) & _). unfold l. rewrite E. apply cum_first. Qed.
Lemma inv_max : (forall i q, l !! i = Some q -> (py q <= ymax st)%R) /\ exists i q, l !! i = Some q /\ py q = ymax st.
Proof.
  destruct HI as (Hf & (l0 & E & ->) & _). unfold l. rewrite E. apply cum_max. intros ->. destruct Hf as (((n & Hn & Hlen) & _) & _). rewrite E in Hlen. cbn in Hlen. lia.
Qed.
Lemma inv_sorted i a q : l !! i = Some a -> l !! S i = Some q -> (px a <= px q)%R.
Proof. intros Ha Hq. apply (full_sorted s f l i); auto; [apply inv_full|rewrite Nat.add_1_r; auto]. Qed.
Lemma inv_mono i a q : l !! i = Some a -> l !! S i = Some q -> (pcum a <= pcum q)%R.
Proof.
  intros Ha Hq. rewrite (inv_step i a q Ha Hq). pose proof (area_nonneg a q (ymax st) (inv_sorted _ _ _ Ha Hq) (inv_ey _ _ Ha) (inv_ey _ _ Hq)). lra.
Qed.
Lemma inv_mono_far d : forall i a q, l !! i = Some a -> l !! (i + d) = Some q -> (pcum a <= pcum q)%R.
Proof.
  induction d as [|d IH]; intros i a q Ha Hq; [rewrite Nat.add_0_r in Hq; assert (a = q) by congruence; subst; lra|].
  assert (S1 : is_Some (l !! (i + d))) by (apply lookup_lt_is_Some_2; apply lookup_lt_Some in Hq; lia). destruct S1 as (p & Hp). pose proof (IH _ _ _ Ha Hp). rewrite Nat.add_succ_r in Hq. pose proof (inv_mono _ _ _ Hp Hq). lra.
Qed.
(** the highest point is at the end of a piece that is not empty *)
Lemma high_piece : exists i a q, l !! i = Some a /\ l !! S i = Some q /\ (px a < px q)%R /\ (py a = ymax st \/ py q = ymax st).
Proof.
  destruct inv_max as (Hle & i & q & Hq & Ey). pose proof inv_full as Hf. pose proof Hf as (Hs & Hr). pose proof Hs as ((n & Hn & Hlen) & _). pose proof (lookup_lt_Some _ _ _ Hq) as Hi.
  assert (At : forall j, j < length l -> exists p, l !! j = Some p) by (intros j Hj; apply lookup_lt_is_Some_2 in Hj; exact Hj).
  destruct (Nat.even i) eqn:Ei.
  - destruct (decide (i = 0)) as [-> |N0].
    + destruct (At 1) as (d & Hd); [lia|]. destruct (At 2) as (q2 & H2); [lia|]. pose proof (inv_sorted 0 _ _ Hq Hd) as Ho. destruct (Req_EM_T (px q) (px d)) as [E|E]; [|exists 0, q, d; repeat split; auto; lra].
      exfalso. destruct (inner_pos s f l 2 q2 Hf eq_refl H2) as (u & v & E1 & E2 & _ & _ & _ & _ & R & _); [lia|lia|]. destruct (R ltac:(lia)) as (_ & R'). assert (u = d) by (cbn in E1; congruence). subst u.
      specialize (Hr 0 eq_refl q Hq). unfold mval, mvals, prv in Hr. cbn [Nat.ltb Nat.leb] in Hr. cbn [Nat.add] in Hr. rewrite Hd in Hr. destruct (At 3) as (b3 & H3); [lia|]. rewrite H3 in Hr. injection Hr as Hy.
      rewrite E, Rminus_eq_0, Rmult_0_r in Hy. pose proof (Hle _ _ H2). lra.
    + destruct (decide (i = length l - 1)) as [N1|N1].
      * destruct (At (i - 1)) as (d & Hd); [lia|]. destruct (At (i - 2)) as (q2 & H2); [lia|]. assert (Hq' : l !! S (i - 1) = Some q) by (replace (S (i - 1)) with i by lia; auto). pose proof (inv_sorted (i - 1) _ _ Hd Hq') as Ho.
        destruct (Req_EM_T (px q) (px d)) as [E|E]; [|exists (i - 1), d, q; repeat split; auto; lra].
        exfalso. assert (Ei2 : Nat.even (i - 2) = true) by (apply Nat.even_spec; exists (n - 1); lia). destruct (inner_pos s f l (i - 2) q2 Hf Ei2 H2) as (u & v & E1 & E2 & _ & _ & _ & _ & _ & R); [lia|lia|]. destruct (R ltac:(lia)) as (_ & R').
        assert (v = d) by (replace (i - 2 + 1) with (i - 1) in E2 by lia; congruence). subst v.
        specialize (Hr i Ei q Hq). unfold mval, mvals, prv in Hr. replace (i <? 1) with false in Hr by (symmetry; apply Nat.ltb_ge; lia). replace (i <? 3) with false in Hr by (symmetry; apply Nat.ltb_ge; lia). rewrite Hd in Hr.
        rewrite (proj2 (lookup_ge_None l (i + 1))) in Hr by lia. destruct (At (i - 3)) as (b3 & H3); [lia|]. rewrite H3 in Hr. injection Hr as Hy.
        rewrite E, Rminus_eq_0, Rmult_0_r in Hy. pose proof (Hle _ _ H2). lra.
      * destruct (inner_pos s f l i q Hf Ei Hq) as (u & v & E1 & E2 & _ & _ & R1 & R2 & _); [lia|lia|]. destruct (decide (3 <= i)) as [G|G].
        -- exists (i - 1), u, q. replace (S (i - 1)) with i by lia. repeat split; auto.
        -- exists i, q, v. replace (S i) with (i + 1) by lia. repeat split; auto. apply R2. lia.
  - assert (Oi : Nat.odd i = true) by (rewrite <- Nat.negb_even, Ei; auto). destruct (odd_even_pred i Oi) as (P1 & P2 & _). pose proof Oi as Oi'. apply Nat.odd_spec in Oi' as (m & Hm).
    destruct (At (i - 1)) as (p & Hp); [lia|]. destruct (At (i + 1)) as (r & Hr2); [lia|].
    destruct (decide (i = 1)) as [N1|N1].
    { exfalso. destruct (inner_pos s f l (i + 1) r Hf P2 Hr2) as (u & v & E1 & E2 & _ & _ & _ & _ & R & _); [lia|lia|]. destruct (R ltac:(lia)) as (_ & R'). replace (i + 1 - 1) with i in E1 by lia. assert (u = q) by congruence. subst u. pose proof (Hle _ _ Hr2). lra. }
    destruct (decide (i = length l - 2)) as [N2|N2].
    { exfalso. destruct (inner_pos s f l (i - 1) p Hf P1 Hp) as (u & v & E1 & E2 & _ & _ & _ & _ & _ & R); [lia|lia|]. destruct (R ltac:(lia)) as (_ & R'). replace (i - 1 + 1) with i in E2 by lia. assert (v = q) by congruence. subst v. pose proof (Hle _ _ Hp). lra. }
    destruct (inner_pos s f l (i - 1) p Hf P1 Hp) as (u & v & E1 & E2 & _ & _ & _ & R & _); [lia|lia|]. replace (i - 1 + 1) with i in E2 by lia. assert (v = q) by congruence. subst v.
    exists (i - 1), p, q. replace (S (i - 1)) with i by lia. repeat split; auto. apply R. lia.
Qed.
Lemma mass_pos q : l !! (length l - 1) = Some q -> (0 < pcum q)%R.
Proof.
  intros Hq. destruct high_piece as (i & a & b & Ha & Hb & Hlt & Hy).
  assert (Hpos : (0 < expshift (ymax st) (ymax st))%R) by (apply expshift_pos; unfold YCEIL; lra).
  assert (A : (0 < area a b)%R). { apply (area_pos a b (ymax st)); auto; [apply (inv_ey i)|apply (inv_ey (S i))|rewrite (inv_ey i a), (inv_ey (S i) b) by auto; destruct Hy as [-> | ->]; auto]; auto. }
  assert (S0 : is_Some (l !! 0)) by (apply lookup_lt_is_Some_2; apply lookup_lt_Some in Ha; lia). destruct S0 as (z & Hz). pose proof (inv_mono_far i 0 z a Hz Ha) as M1. rewrite (inv_first z Hz) in M1.
  pose proof (inv_step i a b Ha Hb) as E. pose proof (lookup_lt_Some _ _ _ Hb) as L. pose proof (inv_mono_far (length l - 1 - S i) (S i) b q Hb) as M2. replace (S i + (length l - 1 - S i)) with (length l - 1) in M2 by lia. specialize (M2 Hq). lra.
Qed.
(** the piece found *)
Lemma find_ok u : (0 <= u)%R -> forall i q, l !! i = Some q -> (u < pcum q)%R -> exists j a b, find_piece l u i = Ok j /\ 1 <= j /\ l !! (j - 1) = Some a /\ l !! j = Some b /\ (pcum a <= u < pcum b)%R.
Proof.
  intros Hu. induction i as [|i IH]; intros q Hq Hlt; [rewrite (inv_first q Hq) in Hlt; lra|]. cbn [find_piece].
  assert (S1 : is_Some (l !! i)) by (apply lookup_lt_is_Some_2; apply lookup_lt_Some in Hq; lia). destruct S1 as (a & Ha). rewrite Ha. destruct (Rlt_dec u (pcum a)) as [L|L].
  - apply (IH a); auto.
  - exists (S i), a, q. cbn [Nat.sub]. rewrite Nat.sub_0_r. repeat split; auto; try lia; lra.
Qed.
Lemma piece_ok u1 : (0 <= u1 < 1)%R -> exists last j a b, l !! (length l - 1) = Some last /\ find_piece l (u1 * pcum last) (length l - 1) = Ok j /\ 1 <= j /\ l !! (j - 1) = Some a /\ l !! j = Some b /\
  (pcum a <= u1 * pcum last < pcum b)%R /\ (px a < px b)%R /\ (0 < pey a \/ 0 < pey b)%R.
Proof.
  intros Hu. pose proof inv_full as Hf. pose proof Hf as (((n & Hn & Hlen) & _) & _).
  assert (S1 : is_Some (l !! (length l - 1))) by (apply lookup_lt_is_Some_2; lia). destruct S1 as (q & Hq). pose proof (mass_pos q Hq) as Hp.
  assert (H0 : (0 <= u1 * pcum q)%R) by (apply Rmult_le_pos; lra). assert (H1 : (u1 * pcum q < pcum q)%R) by (rewrite <- (Rmult_1_l (pcum q)) at 2; apply Rmult_lt_compat_r; lra).
  destruct (find_ok (u1 * pcum q) H0 (length l - 1) q Hq H1) as (j & a & b & E & Hj & Ha & Hb & Hc). exists q, j, a, b. split; [exact Hq|]. split; [exact E|]. split; [exact Hj|]. split; [exact Ha|]. split; [exact Hb|]. split; [exact Hc|].
  assert (Hb' : l !! S (j - 1) = Some b) by (replace (S (j - 1)) with j by lia; auto). pose proof (inv_step _ _ _ Ha Hb') as Es. pose proof (inv_sorted _ _ _ Ha Hb') as Ho.
  assert (px a <> px b) as Hne. { intros X. unfold area in Es. destruct (Req_EM_T (px a) (px b)); [lra|congruence]. }
  split; [lra|]. pose proof (expshift_nonneg (py a) (ymax st)) as N1. pose proof (expshift_nonneg (py b) (ymax st)) as N2. rewrite <- (inv_ey _ _ Ha) in N1. rewrite <- (inv_ey _ _ Hb) in N2.
  destruct (Req_EM_T (pey a) 0) as [Z1|Z1]; [|left; lra]. destruct (Req_EM_T (pey b) 0) as [Z2|Z2]; [|right; lra]. exfalso.
  unfold area in Es. rewrite Z1, Z2 in Es. destruct (Req_EM_T (px a) (px b)); [lra|]. destruct (Rlt_dec _ _); [|unfold Rdiv in Es]; lra.
Qed.
End mass.
