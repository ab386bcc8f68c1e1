(** More lemmas for C116: acceptance, the Metropolis step, whole draws. *)
From Coq Require Import Reals Lra.
From Verif Require Import DataModel ArmsModel ArmsSpec ArmsProofs ArmsProofs2 ArmsProofs3.
Local Open Scope list_scope.
Local Open Scope nat_scope.

Lemma Rabs_le_between x k : (Rabs x <= k)%R <-> (- k <= x <= k)%R.
Proof. split; [|apply Rabs_le]. unfold Rabs. destruct (Rcase_abs x); lra. Qed.
Lemma exp_mono x y : (x <= y)%R -> (exp x <= exp y)%R.
Proof. intros H. destruct (Req_EM_T x y) as [-> |]; [lra|]. left. apply exp_increasing. lra. Qed.
Lemma exp_mono_inv x y : (exp x <= exp y)%R -> (x <= y)%R.
Proof. intros H. destruct (Rle_dec x y); auto. pose proof (exp_increasing y x). lra. Qed.
(** the proposal is above the density *)
Lemma proposal_above s f st i a b t : concave_on (xl s) (xr s) f -> Inv s f st -> env st !! i = Some a -> env st !! S i = Some b -> (px a < px b)%R -> (px a <= t <= px b)%R ->
  (exp (f t - ymax st + 50) <= proposal (ymax st) a b t)%R.
Proof.
  intros Hc HI Ha Hb Hab Ht. eapply Rle_trans; [|apply proposal_line; auto]. apply exp_mono. assert (f t <= line a b t)%R; [|lra].
  apply (above s f (env st) t); auto; [apply HI|]. exists i, a, b. repeat split; auto; lra.
Qed.
(** the squeezing chord is below a concave function *)
Lemma chord_below a b f (p q : pt) t : concave_on a b f -> (a <= px p)%R -> (px q <= b)%R -> (px p < px q)%R -> (px p <= t <= px q)%R -> py p = f (px p) -> py q = f (px q) ->
  ((py q * (t - px p) + py p * (px q - t)) / (px q - px p) <= f t)%R.
Proof.
  intros Hc H1 H2 H3 Ht E1 E2. rewrite E1, E2. pose proof (frac01 t (px p) (px q) H3 Ht) as F. set (w := ((t - px p) / (px q - px p))%R) in *.
  pose proof (Hc (px p) (px q) (1 - w)%R ltac:(lra) ltac:(lra) ltac:(lra)) as E. replace ((1 - w) * px p + (1 - (1 - w)) * px q)%R with t in E by (unfold w; field; lra).
  replace ((f (px q) * (t - px p) + f (px p) * (px q - t)) / (px q - px p))%R with ((1 - w) * f (px p) + (1 - (1 - w)) * f (px q))%R by (unfold w; field; lra). auto.
Qed.
Lemma squeeze_ok s f st p a b : Inv s f st -> 1 <= wr p -> env st !! (wr p - 1) = Some a -> env st !! wr p = Some b -> (px a <= wx p <= px b)%R -> 2 <= wr p -> wr p + 1 < length (env st) ->
  exists ql qr, (if pf a then Some a else env st !! (wr p - 2)) = Some ql /\ (if pf b then Some b else env st !! (wr p + 1)) = Some qr /\
    (px ql < px qr)%R /\ (px ql <= wx p <= px qr)%R /\ py ql = f (px ql) /\ py qr = f (px qr) /\ (xl s <= px ql)%R /\ (px qr <= xr s)%R.
Proof.
  intros HI Hk Ha Hb Hx H2 H3. set (l := env st) in *. pose proof HI as (Hf & _). pose proof Hf as (Hs & _). pose proof Hs as (_ & Hpf & _).
  rewrite (Hpf _ _ Ha), (Hpf _ _ Hb).
  destruct (Nat.odd (wr p - 1)) eqn:O1.
  - assert (O2 : Nat.odd (wr p) = false). { replace (wr p) with (S (wr p - 1)) by lia. rewrite Nat.odd_succ, <- Nat.negb_odd, O1. auto. } rewrite O2.
    assert (S1 : is_Some (l !! (wr p + 1))) by (apply lookup_lt_is_Some_2; lia). destruct S1 as (qr & Hq). assert (O3 : Nat.odd (wr p + 1) = true) by (rewrite Nat.add_1_r, Nat.odd_succ, <- Nat.negb_odd, O2; auto).
    exists a, qr. split; auto. split; auto. pose proof (full_sorted s f l (wr p) b qr Hf Hb Hq) as Ho. split; [apply (skel_lt s f l Hs (wr p - 1)); auto; replace (wr p - 1 + 2) with (wr p + 1) by lia; auto|].
    split; [lra|]. split; [apply (skel_y s f l Hs (wr p - 1)); auto|]. split; [apply (skel_y s f l Hs (wr p + 1)); auto|]. split; [apply (skel_in s f l Hs (wr p - 1)); auto|apply (skel_in s f l Hs (wr p + 1)); auto].
  - assert (O2 : Nat.odd (wr p) = true). { replace (wr p) with (S (wr p - 1)) by lia. rewrite Nat.odd_succ, <- Nat.negb_odd, O1. auto. } rewrite O2.
    assert (S1 : is_Some (l !! (wr p - 2))) by (apply lookup_lt_is_Some_2; lia). destruct S1 as (ql & Hq). assert (O3 : Nat.odd (wr p - 2) = true). { replace (wr p - 1) with (S (wr p - 2)) in O1 by lia. rewrite Nat.odd_succ, <- Nat.negb_odd in O1. destruct (Nat.odd (wr p - 2)); auto. }
    exists ql, b. split; auto. split; auto. pose proof (full_sorted s f l (wr p - 2) ql a Hf Hq) as Ho. replace (wr p - 2 + 1) with (wr p - 1) in Ho by lia. specialize (Ho Ha).
    split; [apply (skel_lt s f l Hs (wr p - 2)); auto; replace (wr p - 2 + 2) with (wr p) by lia; auto|].
    split; [lra|]. split; [apply (skel_y s f l Hs (wr p - 2)); auto|]. split; [apply (skel_y s f l Hs (wr p)); auto|]. split; [apply (skel_in s f l Hs (wr p - 2)); auto|apply (skel_in s f l Hs (wr p)); auto].
Qed.
Lemma logshift_le u y ym : log_le (logshift u ym) y = true -> (u <= exp (y - ym + 50))%R.
Proof.
  unfold logshift, log_le, YCEIL. destruct (Rlt_dec 0 u) as [L|L]; [|intros _; pose proof (exp_pos (y - ym + 50)); lra]. destruct (Rle_dec _ _) as [Q|Q]; [|discriminate]. intros _.
  rewrite <- (exp_ln u L). apply exp_mono. lra.
Qed.
Lemma logshift_lt u y ym : (log_lt (logshift u ym) y = true -> u <= exp (y - ym + 50))%R /\ (log_lt (logshift u ym) y = false -> exp (y - ym + 50) <= u)%R.
Proof.
  unfold logshift, log_lt, Rltb, YCEIL. destruct (Rlt_dec 0 u) as [L|L]; [|split; [intros _; pose proof (exp_pos (y - ym + 50)); lra|discriminate]]. destruct (Rlt_dec _ _) as [Q|Q]; (split; [intros E|intros E]); try discriminate.
  - rewrite <- (exp_ln u L). apply exp_mono. lra.
  - rewrite <- (exp_ln u L). apply exp_mono. lra.
Qed.
(** rejection sampling without Metropolis *)
Lemma test_plain s f st p u2 u3 a b : metro s = false -> concave_on (xl s) (xr s) f -> Inv s f st -> 1 <= wr p -> env st !! (wr p - 1) = Some a -> env st !! wr p = Some b -> (px a < px b)%R -> (px a <= wx p <= px b)%R ->
  exists st' v, test s f st p u2 u3 = Ok (st', v, wx p) /\ xprev st' = xprev st /\ yprev st' = yprev st /\
   ((v = Accept /\ (u2 * wey p <= exp (f (wx p) - ymax st + 50))%R) \/ (v = Reject /\ (exp (f (wx p) - ymax st + 50) <= u2 * wey p)%R)).
Proof.
  intros Hm Hc HI Hk Ha Hb Hab Hx. unfold test. rewrite Ha, Hb, Hm. cbn [negb andb orb]. set (y := logshift (u2 * wey p) (ymax st)).
  destruct (update_ok s f st (wx p) (wr p) a b (or_intror Hc) HI Ha Hb Hk Hab) as (st1 & EU & HI1 & X1 & X2).
  assert (End : exists st' v, (do o <- update s f st (wx p) (f (wx p)) (wr p); match o with None => Ok (st, Violation, wx p) | Some st' => Ok (st', (if log_lt y (f (wx p)) then Accept else Reject), wx p) end) = Ok (st', v, wx p) /\ xprev st' = xprev st /\ yprev st' = yprev st /\
    ((v = Accept /\ (u2 * wey p <= exp (f (wx p) - ymax st + 50))%R) \/ (v = Reject /\ (exp (f (wx p) - ymax st + 50) <= u2 * wey p)%R))).
  { rewrite EU. cbn [rbind]. eexists _, _. split; [reflexivity|]. split; auto. split; auto. destruct (logshift_lt (u2 * wey p) (f (wx p)) (ymax st)) as (L1 & L2). fold y in L1, L2. destruct (log_lt y (f (wx p))); [left|right]; auto. }
  destruct ((2 <=? wr p) && (wr p + 1 <? length (env st))) eqn:G; [|exact End].
  apply andb_true_iff in G as (G1 & G2). apply Nat.leb_le in G1. apply Nat.ltb_lt in G2. destruct (squeeze_ok s f st p a b HI Hk Ha Hb Hx G1 G2) as (ql & qr & -> & -> & Q1 & Q2 & Q3 & Q4 & Q5 & Q6). cbn [rbind].
  destruct (log_le y _) eqn:EL; [|exact End]. exists st, Accept. split; auto. split; auto. split; auto. left. split; auto. apply logshift_le in EL.
  eapply Rle_trans; [exact EL|]. apply exp_mono. pose proof (chord_below _ _ f ql qr (wx p) Hc Q5 Q6 Q1 Q2 Q3 Q4). lra.
Qed.
(** the piece holding the chain *)
Lemma chain_found s f st x : Inv s f st -> (xl s <= x <= xr s)%R -> exists i ql qr, chain_piece (env st) x 0 (length (env st)) = Ok i /\ env st !! i = Some ql /\ env st !! S i = Some qr /\ (px ql <= x <= px qr)%R /\ (xl s < x -> px ql < x)%R.
Proof.
  intros HI Hx. set (l := env st). pose proof HI as (Hf & _). pose proof Hf as (Hs & _). pose proof Hs as ((n & Hn & Hlen) & _ & _ & _ & H5 & H6 & _). fold l in Hlen, H5, H6.
  assert (G : forall n i ql, l !! i = Some ql -> n + i = length l -> (px ql <= x)%R -> (xl s < x -> px ql < x)%R -> i < length l - 1 \/ (px ql < x)%R ->
    exists i' ql' qr', chain_piece l x i n = Ok i' /\ l !! i' = Some ql' /\ l !! S i' = Some qr' /\ (px ql' <= x <= px qr')%R /\ (xl s < x -> px ql' < x)%R).
  { induction n0 as [|m IH]; intros i ql Hq He Hle Hst Hor; [apply lookup_lt_Some in Hq; lia|]. cbn [chain_piece]. destruct (decide (i = length l - 1)) as [Ei|Ei].
    - exfalso. subst i. rewrite (H6 ql Hq) in *. destruct Hor as [?|?]; [lia|lra].
    - pose proof (lookup_lt_Some _ _ _ Hq) as Hlt. assert (S1 : is_Some (l !! S i)) by (apply lookup_lt_is_Some_2; lia). destruct S1 as (qr & Hqr). rewrite Hqr. destruct (Rlt_dec (px qr) x) as [L|L].
      + apply (IH (S i) qr); auto; [lia|lra].
      + exists i, ql, qr. repeat split; auto; try lra. }
  assert (S0 : is_Some (l !! 0)) by (apply lookup_lt_is_Some_2; lia). destruct S0 as (q0 & E0). apply (G (length l) 0 q0); auto; [rewrite (H5 _ E0); lra|rewrite (H5 _ E0); auto|left; lia].
Qed.
(** a test with Metropolis *)
Lemma test_metro s f st p u2 u3 a b : metro s = true -> Inv s f st -> chain_ok s f st -> 1 <= wr p -> env st !! (wr p - 1) = Some a -> env st !! wr p = Some b -> (px a < px b)%R -> (px a <= wx p <= px b)%R ->
  (exists st', test s f st p u2 u3 = Ok (st', Reject, wx p) /\ (exp (f (wx p) - ymax st + 50) <= u2 * wey p)%R /\ xprev st' = xprev st /\ yprev st' = yprev st) \/
  ((u2 * wey p <= exp (f (wx p) - ymax st + 50))%R /\ exists w : R,

     ((u3 <= w /\ test s f st p u2 u3 = Ok (Ar (env st) (ymax st) (wx p) (f (wx p)), Accept, wx p))%R \/ (w < u3 /\ test s f st p u2 u3 = Ok (st, Accept, xprev st))%R) /\
     ((exists i ql qr, env st !! i = Some ql /\ env st !! S i = Some qr /\ (px ql < px qr)%R /\ (px ql <= xprev st <= px qr)%R /\
         let e := Rmin (f (wx p) - Rmin (wy p) (f (wx p)) - f (xprev st) + Rmin (line ql qr (xprev st)) (f (xprev st))) 0 in w = if Rlt_dec (-50) e then exp e else 0%R)
      \/ (w = 1%R /\ xprev st = xl s))).
Proof.
  intros Hm HI (Hx0 & Hy0) Hk Ha Hb Hab Hx. unfold test. rewrite Ha, Hb, Hm. cbn [negb andb orb rbind]. set (y := logshift (u2 * wey p) (ymax st)).
  destruct (logshift_lt (u2 * wey p) (f (wx p)) (ymax st)) as (L1 & L2). fold y in L1, L2. destruct (log_lt y (f (wx p))) eqn:EL; cbn [negb].
  - right. split; auto. destruct (chain_found s f st (xprev st) HI Hx0) as (i & ql & qr & -> & Hql & Hqr & Hr & Hst). cbn [rbind]. rewrite Hql, Hqr. rewrite Hy0.
    destruct (Req_EM_T (px ql) (px qr)) as [E|E].
    + exists 1%R. unfold YCEIL. destruct (Rlt_dec (- (50)) 0) as [_|N]; [|lra]. rewrite exp_0. split.
      * destruct (Rlt_dec 1 u3) as [Q|Q]; [right|left]; split; auto; lra.
      * right. split; auto. destruct (Rlt_dec (xl s) (xprev st)) as [Q|Q]; [|lra]. specialize (Hst Q). lra.
    + set (e := Rmin _ 0). exists (if Rlt_dec (- YCEIL) e then exp e else 0%R). split.
      * destruct (Rlt_dec (if Rlt_dec (- YCEIL) e then exp e else 0%R) u3) as [Q|Q]; [right|left]; split; auto; lra.
      * left. exists i, ql, qr. repeat split; auto; try lra.
  - left. destruct (update_ok s f st (wx p) (wr p) a b (or_introl Hm) HI Ha Hb Hk Hab) as (st1 & EU & HI1 & X1 & X2). rewrite EU. cbn [rbind]. exists st1. repeat split; auto.
Qed.
(** with a concave function the chain always moves *)
Lemma metro_moves s f st p u2 u3 a b : metro s = true -> concave_on (xl s) (xr s) f -> Inv s f st -> chain_ok s f st -> 1 <= wr p -> env st !! (wr p - 1) = Some a -> env st !! wr p = Some b -> (px a < px b)%R -> (px a <= wx p <= px b)%R ->
  (f (wx p) <= wy p)%R -> (u3 < 1)%R ->
  (exists st', test s f st p u2 u3 = Ok (st', Reject, wx p) /\ (exp (f (wx p) - ymax st + 50) <= u2 * wey p)%R) \/
  (test s f st p u2 u3 = Ok (Ar (env st) (ymax st) (wx p) (f (wx p)), Accept, wx p) /\ (u2 * wey p <= exp (f (wx p) - ymax st + 50))%R).
Proof.
  intros Hm Hc HI HC Hk Ha Hb Hab Hx Hy Hu. destruct (test_metro s f st p u2 u3 a b Hm HI HC Hk Ha Hb Hab Hx) as [(st' & E & L & _)|(L & w & Hor & Hw)]; [left; eauto|right].
  assert (w = 1%R) as ->.
  { destruct Hw as [(i & ql & qr & Hql & Hqr & Q1 & Q2 & ->)|(-> & _)]; auto. assert (f (xprev st) <= line ql qr (xprev st))%R as Hl. { apply (above s f (env st)); auto; [apply HI|]. exists i, ql, qr. repeat split; auto; lra. }
    rewrite (Rmin_right (wy p)) by auto. rewrite (Rmin_right (line _ _ _)) by auto. replace (f (wx p) - f (wx p) - f (xprev st) + f (xprev st))%R with 0%R by ring. rewrite Rmin_left by lra. destruct (Rlt_dec (-50) 0); [apply exp_0|lra]. }
  destruct Hor as [(_ & E)|(X & _)]; [split; auto|lra].
Qed.
(** ---------- a whole draw ---------- *)
Lemma rounds_ok s f u : mode s f -> good_settings s -> (forall st, reach s f st -> no_underflow st) -> (forall n, 0 <= u n < 1)%R ->
  forall k n st, reach s f st -> (metro s = true -> chain_ok s f st) ->
  exists st' n' o, rounds s f u k n st = Ok (st', n', 0%Z, o) /\ reach s f st' /\ (metro s = true -> chain_ok s f st') /\ (forall x, o = Some x -> xl s <= x <= xr s)%R.
Proof.
  intros Hm Hg Hn Hu. induction k as [|k IH]; intros n st Hr HC; cbn [rounds].
  { exists st, n, None. split; auto. split; auto. split; auto. discriminate. }
  pose proof (reach_inv s f st Hm Hg Hr) as HI. destruct (invert_ok s f st (u n) HI (Hn _ Hr) (Hu n)) as (p & a & b & tot & E & Hk & Ha & Hb & Hab & _ & Hx & _). rewrite E. cbn [rbind].
  assert (Hb1 : (xl s <= wx p <= xr s)%R). { pose proof (full_bounds s f (env st) _ _ (proj1 HI) Ha). pose proof (full_bounds s f (env st) _ _ (proj1 HI) Hb). lra. }
  assert (HT : exists st1 v x, test s f st p (u (n + 1)) (u (n + 2)) = Ok (st1, v, x) /\ v <> Violation /\ (xl s <= x <= xr s)%R /\ (metro s = true -> chain_ok s f st1)).
  { destruct (metro s) eqn:Em.
    - specialize (HC eq_refl). destruct (test_metro s f st p (u (n + 1)) (u (n + 2)) a b Em HI HC Hk Ha Hb Hab Hx) as [(st' & ET & _ & X1 & X2)|(_ & w & [(_ & ET)|(_ & ET)] & _)].
      + exists st', Reject, (wx p). split; auto. split; [discriminate|]. split; auto. intros _. destruct HC as (C1 & C2). split; rewrite X1; auto. congruence.
      + eexists _, Accept, (wx p). split; [exact ET|]. split; [discriminate|]. split; auto. intros _. split; auto.
      + exists st, Accept, (xprev st). split; auto. split; [discriminate|]. split; [apply HC|auto].
    - assert (Hc : concave_on (xl s) (xr s) f) by (destruct Hm as [?|?]; [congruence|auto]). destruct (test_plain s f st p (u (n + 1)) (u (n + 2)) a b Em Hc HI Hk Ha Hb Hab Hx) as (st' & v & ET & _ & _ & Hv).
      exists st', v, (wx p). split; auto. split; [destruct Hv as [(-> & _)|(-> & _)]; discriminate|]. split; auto. discriminate. }
  destruct HT as (st1 & v & x & ET & Hv & Hxx & HC1). rewrite ET. cbn [rbind]. assert (Hr1 : reach s f st1) by (eapply reach_test; eauto). destruct v; [| |congruence].
  - exists st1, (n + 3), (Some x). split; auto. split; auto. split; auto. intros x' X. injection X as <-. auto.
  - apply IH; auto.
Qed.
Lemma draws_ok s f u : mode s f -> good_settings s -> (forall st, reach s f st -> no_underflow st) -> (forall n, 0 <= u n < 1)%R ->
  forall k n st, reach s f st -> (metro s = true -> chain_ok s f st) ->
  exists st' os, draws s f u k n st = Ok (st', os) /\ length os = k /\ reach s f st' /\ (metro s = true -> chain_ok s f st') /\ Forall (fun r => fst r = 0%Z /\ forall x, snd r = Some x -> xl s <= x <= xr s)%R os.
Proof.
  intros Hm Hg Hn Hu. induction k as [|k IH]; intros n st Hr HC; cbn [draws].
  { exists st, []. split; auto. }
  destruct (rounds_ok s f u Hm Hg Hn Hu 1000 n st Hr HC) as (st1 & n1 & o & E & Hr1 & HC1 & Hx). unfold arms_draw. rewrite E. cbn [rbind].
  destruct (IH n1 st1 Hr1 HC1) as (st2 & os & E2 & HL & Hr2 & HC2 & HF). rewrite E2. cbn [rbind]. exists st2, ((0%Z, o) :: os). split; auto. split; [cbn; lia|]. auto.
Qed.
(** ---------- when there is no underflow ---------- *)
Lemma slope_lip s f l i j a b K : skel s f l -> lipschitz_on (xl s) (xr s) K f -> Nat.odd i = true -> Nat.odd j = true -> l !! i = Some a -> l !! j = Some b -> px a <> px b -> (Rabs (slope a b) <= K)%R.
Proof.
  intros Hs HL Oi Oj Ha Hb Hne. unfold slope. rewrite (skel_y s f l Hs i a Oi Ha), (skel_y s f l Hs j b Oj Hb). pose proof (HL (px a) (px b) (skel_in s f l Hs i a Oi Ha) (skel_in s f l Hs j b Oj Hb)) as H.
  unfold Rdiv. rewrite Rabs_mult, Rabs_inv. assert (0 < Rabs (px a - px b))%R by (apply Rabs_pos_lt; lra). apply Rmult_le_reg_r with (Rabs (px a - px b)); auto. rewrite Rmult_assoc, Rinv_l; lra.
Qed.
Lemma atl_up d B : (d <= B)%R -> (0 <= B)%R -> (atl d <= B + 1 / 10)%R.
Proof. intros. unfold atl, YEPS. destruct (Rlt_dec _ _); lra. Qed.
Lemma adl_up s g c K : (0 <= convex s)%R -> (Rabs g <= K)%R -> (Rabs c <= K)%R -> (adl s g c - c <= 2 * K * (1 + convex s))%R.
Proof.
  intros Hv Hg Hc. apply Rabs_le_between in Hg, Hc. assert (0 <= 2 * K * convex s)%R by (apply Rmult_le_pos; lra). unfold adl, Rltb. destruct (Rlt_dec g c) as [L|L]; [|lra].
  replace (g + (1 + convex s) * (c - g) - c)%R with (convex s * (c - g))%R by ring. assert (convex s * (c - g) <= convex s * (2 * K))%R by (apply Rmult_le_compat_l; lra). lra.
Qed.
Lemma adr_up s g c K : (0 <= convex s)%R -> (Rabs g <= K)%R -> (Rabs c <= K)%R -> (c - adr s g c <= 2 * K * (1 + convex s))%R.
Proof.
  intros Hv Hg Hc. apply Rabs_le_between in Hg, Hc. assert (0 <= 2 * K * convex s)%R by (apply Rmult_le_pos; lra). unfold adr, Rltb. destruct (Rlt_dec c g) as [L|L]; [|lra].
  replace (c - (g + (1 + convex s) * (c - g)))%R with (convex s * (g - c))%R by ring. assert (convex s * (g - c) <= convex s * (2 * K))%R by (apply Rmult_le_compat_l; lra). lra.
Qed.
Lemma mix_height ya yb dl dr lo hi B : (0 < dl)%R -> (0 < dr)%R -> (lo <= ya <= hi)%R -> (lo <= yb <= hi)%R -> (dl <= B)%R -> (lo <= (dl * yb + dr * ya + dl * dr) / (dl + dr) <= hi + B)%R.
Proof.
  intros Hl Hr Ha Hb HB. assert (0 < dl * dr)%R by (apply Rmult_lt_0_compat; auto). assert (dl * lo <= dl * yb <= dl * hi)%R by (split; apply Rmult_le_compat_l; lra). assert (dr * lo <= dr * ya <= dr * hi)%R by (split; apply Rmult_le_compat_l; lra).
  assert (dl * dr <= B * dr)%R by (apply Rmult_le_compat_r; lra). assert (0 <= B * dl)%R by (apply Rmult_le_pos; lra).
  split; apply Rmult_le_reg_r with (dl + dr)%R; try lra; unfold Rdiv; rewrite (Rmult_assoc _ (/ _)), Rinv_l by lra; lra.
Qed.
Lemma spread s f l K : full s f l -> (0 <= convex s)%R -> lipschitz_on (xl s) (xr s) K f -> (0 <= K)%R ->
  let W := (xr s - xl s)%R in exists lo, forall i q, l !! i = Some q -> (lo <= py q <= lo + 1 / 10 + 5 * (K * W * (1 + convex s)))%R.
Proof.
  intros Hf Hv HL HK W. pose proof Hf as (Hs & Hr). pose proof Hs as ((n & Hn & Hlen) & _).
  assert (At : forall j, j < length l -> exists p, l !! j = Some p) by (intros j Hj; apply lookup_lt_is_Some_2 in Hj; exact Hj).
  destruct (At 1) as (d1 & D1); [lia|]. pose proof (skel_in s f l Hs 1 d1 eq_refl D1) as I1.
  assert (HW : (0 <= W)%R) by (unfold W; lra). assert (HKW : (0 <= K * W)%R) by (apply Rmult_le_pos; auto). assert (HKv : (0 <= K * W * convex s)%R) by (apply Rmult_le_pos; auto).
  assert (Dis : forall x y, (xl s <= x <= xr s)%R -> (xl s <= y <= xr s)%R -> (Rabs (x - y) <= W)%R) by (intros x y Hx Hy; apply Rabs_le; unfold W; lra).
  assert (Od : forall i q, Nat.odd i = true -> l !! i = Some q -> (py d1 - K * W <= py q <= py d1 + K * W)%R).
  { intros i q Oi Hq. rewrite (skel_y s f l Hs i q Oi Hq), (skel_y s f l Hs 1 d1 eq_refl D1). pose proof (skel_in s f l Hs i q Oi Hq) as Iq. pose proof (HL _ _ Iq I1) as H. pose proof (Dis _ _ Iq I1) as Hd. apply (Rmult_le_compat_l K) in Hd; auto.
    assert (Rabs (f (px q) - f (px d1)) <= K * W)%R as H2 by lra. apply Rabs_le_between in H2. lra. }
  assert (Hd0 : forall i j a b, Nat.odd i = true -> Nat.odd j = true -> l !! i = Some a -> l !! j = Some b -> (Rabs (px a - px b) <= W)%R) by (intros i j a b Oi Oj Ha Hb; apply Dis; [apply (skel_in s f l Hs i)|apply (skel_in s f l Hs j)]; auto).
  assert (Sl : forall i j a b z, Nat.odd i = true -> Nat.odd j = true -> l !! i = Some a -> l !! j = Some b -> px a <> px b -> (Rabs z <= W)%R -> (- (K * W) <= slope a b * z <= K * W)%R).
  { intros i j a b z Oi Oj Ha Hb Hne Hz. pose proof (slope_lip s f l i j a b K Hs HL Oi Oj Ha Hb Hne) as H. apply Rabs_le_between. rewrite Rabs_mult. apply Rmult_le_compat; auto using Rabs_pos. }
  exists (py d1 - 2 * (K * W))%R. intros i q Hq. pose proof (lookup_lt_Some _ _ _ Hq) as Hlt. destruct (Nat.odd i) eqn:Oi; [pose proof (Od i q Oi Hq); lra|].
  assert (Ei : Nat.even i = true) by (rewrite <- Nat.negb_odd, Oi; auto). destruct (even_odd_3 i Ei) as (O3 & O1 & O3' & O1'). specialize (Hr i Ei q Hq). pose proof (full_bounds s f l i q Hf Hq) as Iq.
  unfold mval, mvals, prv in Hr. destruct (decide (i = 0)) as [->|N0].
  - destruct (At 3) as (b3 & D3); [lia|]. cbn [Nat.ltb Nat.leb] in Hr. cbn [Nat.add] in Hr. rewrite D1, D3 in Hr. injection Hr as Hy. pose proof (skel_lt s f l Hs 1 _ _ eq_refl D1 D3) as Lt.
    pose proof (Sl 1 3 d1 b3 (px d1 - px q)%R eq_refl eq_refl D1 D3 ltac:(lra) (Dis _ _ I1 Iq)). lra.
  - replace (i <? 1) with false in Hr by (symmetry; apply Nat.ltb_ge; lia). destruct (At (i - 1)) as (a & Ea); [lia|]. specialize (O1' ltac:(lia)). rewrite Ea in Hr. pose proof (Od _ _ O1' Ea) as Ya.
    destruct (decide (i = length l - 1)) as [N1|N1].
    + rewrite (proj2 (lookup_ge_None l (i + 1))) in Hr by lia. replace (i <? 3) with false in Hr by (symmetry; apply Nat.ltb_ge; lia). destruct (At (i - 3)) as (a3 & E3); [lia|]. specialize (O3' ltac:(lia)). rewrite E3 in Hr. injection Hr as Hy.
      pose proof (skel_lt s f l Hs (i - 3) a3 a O3' E3) as Lt. replace (i - 3 + 2) with (i - 1) in Lt by lia. specialize (Lt Ea).
      pose proof (Sl (i - 1) (i - 3) a a3 (px q - px a)%R O1' O3' Ea E3 ltac:(lra) (Dis _ _ Iq (skel_in s f l Hs _ _ O1' Ea))). lra.
    + destruct (At (i + 1)) as (b & Eb); [lia|]. rewrite Eb in Hr. pose proof (Od _ _ O1 Eb) as Yb.
      assert (Lab : (px a < px b)%R). { apply (skel_lt s f l Hs (i - 1)); auto. replace (i - 1 + 2) with (i + 1) by lia. auto. }
      pose proof (slope_lip s f l _ _ b a K Hs HL O1 O1' Eb Ea ltac:(lra)) as Sc.
      assert (Hw : (0 <= px b - px a <= W)%R). { pose proof (skel_in s f l Hs _ _ O1' Ea). pose proof (skel_in s f l Hs _ _ O1 Eb). unfold W. lra. }
      assert (UB1 : forall d, (d <= 2 * K * (1 + convex s))%R -> (atl (d * (px b - px a)) <= 2 * (K * W * (1 + convex s)) + 1 / 10)%R).
      { intros d Hd. apply atl_up; [|apply Rmult_le_pos; [lra|apply Rmult_le_pos; lra]]. apply Rle_trans with (2 * K * (1 + convex s) * (px b - px a))%R; [apply Rmult_le_compat_r; lra|].
        replace (2 * (K * W * (1 + convex s)))%R with (2 * K * (1 + convex s) * W)%R by ring. apply Rmult_le_compat_l; [|lra]. apply Rmult_le_pos; lra. }
      assert (HUl : forall a3, l !! (i - 3) = Some a3 -> 3 <= i -> (atl ((adl s (slope a a3) (slope b a) - slope b a) * (px b - px a)) <= 2 * (K * W * (1 + convex s)) + 1 / 10)%R).
      { intros a3 E3 H3. apply UB1. apply adl_up; auto. apply (slope_lip s f l (i - 1) (i - 3)); auto. pose proof (skel_lt s f l Hs (i - 3) a3 a (O3' H3) E3) as Lt. replace (i - 3 + 2) with (i - 1) in Lt by lia. specialize (Lt Ea). lra. }
      assert (HUr : forall b3, l !! (i + 3) = Some b3 -> (atl ((slope b a - adr s (slope b b3) (slope b a)) * (px b - px a)) <= 2 * (K * W * (1 + convex s)) + 1 / 10)%R).
      { intros b3 E3. apply UB1. apply adr_up; auto. apply (slope_lip s f l (i + 1) (i + 3)); auto. pose proof (skel_lt s f l Hs (i + 1) b b3 O1 Eb) as Lt. replace (i + 1 + 2) with (i + 3) in Lt by lia. specialize (Lt E3). lra. }
      assert (HKW3 : (K * W * (1 + convex s) = K * W + K * W * convex s)%R) by ring.
      destruct (Nat.ltb_spec i 3) as [L3|L3].
      * destruct (At (i + 3)) as (b3 & E3); [lia|]. rewrite E3 in Hr. injection Hr as _ Hy. specialize (HUr _ E3). match type of HUr with (atl ?d <= _)%R => pose proof (atl_pos d) end. lra.
      * destruct (At (i - 3)) as (a3 & E4); [lia|]. rewrite E4 in Hr. specialize (HUl _ E4 L3). destruct (l !! (i + 3)) as [b3|] eqn:E3.
        -- injection Hr as _ Hy. specialize (HUr _ eq_refl). match type of Hy with _ = ((?dl * _ + ?dr * _ + _) / _)%R => pose proof (mix_height (py a) (py b) dl dr (py d1 - K * W) (py d1 + K * W) _ (atl_pos _) (atl_pos _) Ya Yb HUr) as HM end. rewrite <- Hy in HM. lra.
        -- injection Hr as _ Hy. match type of HUl with (atl ?d <= _)%R => pose proof (atl_pos d) end. lra.
Qed.
Lemma lipschitz_safe s f K : mode s f -> good_settings s -> lipschitz_on (xl s) (xr s) K f -> (0 <= K)%R -> (K * (xr s - xl s) * (1 + convex s) <= 19)%R -> forall st, reach s f st -> no_underflow st.
Proof.
  intros Hm Hg HL HK HB st Hr. pose proof (reach_inv s f st Hm Hg Hr) as HI. destruct Hg as (_ & _ & _ & Hv & _). destruct (spread s f (env st) K (proj1 HI) Hv HL HK) as (lo & H). destruct (inv_max s f st HI) as (_ & j & p & Hp & Ep).
  intros i q Hq. pose proof (H _ _ Hq). pose proof (H _ _ Hp). lra.
Qed.
