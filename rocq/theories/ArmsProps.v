(** C115 and C116: adaptive rejection (Metropolis) sampling. *)
From Coq Require Import Reals Lra.
From Verif Require Import DataModel ArmsModel ArmsSpec ArmsProofs ArmsProofs2 ArmsProofs3 ArmsProofs4 ArmsProofs5.
Local Open Scope list_scope.
Local Open Scope R_scope.

(** ---------- C115: the envelope ---------- *)
(** For settings that are in order, and a log density that is concave between the bounds or Metropolis switched on, the first envelope is built, without a failed
    assertion; every starting point is in it, on the log density. *)
Theorem C115_set_up s f : settings_ok s -> metro s = true \/ concave_on (xl s) (xr s) f ->
  exists st, initial s f = Ok (Some st) /\ forall x, In x (xinit s) -> exists q, In q (env st) /\ px q = x /\ py q = f x /\ pf q = true.
Proof.
  intros Hs Hm. destruct (initial_points s f Hm (settings_good s Hs)) as (st & E & _ & H). exists st. split; auto. intros x Hx. apply elem_of_list_In, elem_of_list_lookup in Hx as (k & Hk). destruct (H k x Hk) as (q & Hq & R). exists q. split; auto.
  apply elem_of_list_In. eapply elem_of_list_lookup_2; eauto.
Qed.
(** Settings that are not in order never get an envelope. *)
Theorem C115_bad_settings s f st : initial s f = Ok (Some st) -> settings_ok s.
Proof. apply initial_accepts. Qed.
(** After any history, a concave log density is nowhere above the envelope, which covers everything between the bounds; and it never has more points than there
    is room for. *)
Theorem C115_envelope s f st : settings_ok s -> concave_on (xl s) (xr s) f -> reach s f st ->
  (forall x, xl s <= x <= xr s -> (exists h, height_at (env st) x h) /\ forall h, height_at (env st) x h -> f x <= h) /\ (length (env st) <= npoint s)%nat.
Proof.
  intros Hs Hc Hr. pose proof (reach_inv s f st (or_intror Hc) (settings_good s Hs) Hr) as HI. split; [|apply HI]. intros x Hx. split; [apply (covered s f); auto; apply HI|]. intros h Hh. apply (above s f (env st)); auto. apply HI.
Qed.
(** In any history (of a concave log density, or with Metropolis on) the points are in order from one bound to the other, and those marked as being on the log
    density are. *)
Theorem C115_points s f st : settings_ok s -> metro s = true \/ concave_on (xl s) (xr s) f -> reach s f st ->
  (forall i a b, env st !! i = Some a -> env st !! S i = Some b -> px a <= px b) /\ (forall q, In q (env st) -> xl s <= px q <= xr s /\ (pf q = true -> py q = f (px q))) /\
  (exists q, env st !! 0%nat = Some q /\ px q = xl s) /\ (exists q, env st !! (length (env st) - 1)%nat = Some q /\ px q = xr s).
Proof.
  intros Hs Hm Hr. pose proof (reach_inv s f st Hm (settings_good s Hs) Hr) as HI. pose proof HI as (Hf & _). pose proof Hf as (Hk & _). pose proof Hk as ((n & Hn & Hlen) & _ & H3 & _ & H5 & H6 & _).
  split; [intros i a b Ha Hb; apply (full_sorted s f (env st) i); auto; rewrite Nat.add_1_r; auto|]. split.
  - intros q Hq. apply elem_of_list_In, elem_of_list_lookup in Hq as (i & Hi). split; [apply (full_bounds s f (env st) i); auto|apply (H3 i); auto].
  - assert (S0 : is_Some (env st !! 0%nat)) by (apply lookup_lt_is_Some_2; lia). assert (S1 : is_Some (env st !! (length (env st) - 1)%nat)) by (apply lookup_lt_is_Some_2; lia). destruct S0 as (q0 & E0), S1 as (q1 & E1). split; [exists q0|exists q1]; split; auto.
Qed.
(** No test ever reports a violation of the envelope then. *)
Theorem C115_no_violation s f st u1 u2 u3 p st' v x : settings_ok s -> metro s = true \/ concave_on (xl s) (xr s) f -> reach s f st -> 0 <= u1 < 1 ->
  invert u1 (env st) (ymax st) = Ok p -> test s f st p u2 u3 = Ok (st', v, x) -> v <> Violation.
Proof.
  intros Hs Hm Hr Hu E T. pose proof (reach_inv s f st Hm (settings_good s Hs) Hr) as HI. destruct (invert_piece s f st u1 p HI Hu E) as (a & b & Hk & Ha & Hb & Hab). eapply (test_inv s f st); eauto.
Qed.
(** The parabola -x^2 on [-2, 2]. *)
Definition s_para (m : bool) : aset := AS (-2) 2 [-1; 0; 1] 100 m 0.
Definition f_para (x : R) : R := - (x * x).
Lemma s_para_ok m : settings_ok (s_para m).
Proof.
  unfold settings_ok, s_para. cbn [xinit length npoint convex xl xr]. split; [lia|]. split; [lia|]. split; [lra|]. split; [|split].
  - intros [|[|[|i]]] x y Hx Hy; cbn in Hx, Hy; try discriminate; injection Hx as <-; injection Hy as <-; lra.
  - intros x Hx. cbn in Hx. injection Hx as <-. lra.
  - intros x Hx. cbn in Hx. injection Hx as <-. lra.
Qed.
Lemma f_para_concave a b : concave_on a b f_para.
Proof.
  intros x y t _ _ Ht. unfold f_para. assert (H : 0 <= t * (1 - t) * ((x - y) * (x - y))) by (apply Rmult_le_pos; [apply Rmult_le_pos; lra|apply Rle_0_sqr]). nra.
Qed.
Lemma f_para_lip : lipschitz_on (-2) 2 4 f_para.
Proof.
  intros x y Hx Hy. unfold f_para. replace (- (x * x) - - (y * y)) with (- ((x + y) * (x - y))) by ring. rewrite Rabs_Ropp, Rabs_mult. apply Rmult_le_compat_r; [apply Rabs_pos|]. apply Rabs_le. lra.
Qed.
Example C115_nonvacuous : settings_ok (s_para false) /\ concave_on (-2) 2 f_para /\ exists st, reach (s_para false) f_para st.
Proof.
  split; [apply s_para_ok|]. split; [apply f_para_concave|]. destruct (C115_set_up (s_para false) f_para (s_para_ok _) (or_intror (f_para_concave _ _))) as (st & E & _). exists st. constructor. auto.
Qed.
(** Without Metropolis a log density that is seen not to be concave, at three starting points that follow one another, is refused. *)
Theorem C115_not_concave s f st k x y z : metro s = false -> initial s f = Ok (Some st) -> xinit s !! k = Some x -> xinit s !! S k = Some y -> xinit s !! S (S k) = Some z ->
  (f z - f y) / (z - y) <= (f y - f x) / (y - x).
Proof. apply initial_slopes. Qed.
Example C115_not_concave_nonvacuous st : initial (s_para false) (fun x => x * x) <> Ok (Some st).
Proof. intros E. pose proof (C115_not_concave (s_para false) _ st 0%nat (-1) 0 1 eq_refl E eq_refl eq_refl eq_refl) as H. cbv beta in H. lra. Qed.
Print Assumptions C115_set_up. Print Assumptions C115_bad_settings. Print Assumptions C115_envelope. Print Assumptions C115_points. Print Assumptions C115_no_violation. Print Assumptions C115_not_concave.

(** ---------- C116: draws ---------- *)
(** The recorded mass to the left of each point is the integral of the proposal: G is an antiderivative of the proposal's density on the piece. *)
Theorem C116_mass s f st : settings_ok s -> metro s = true \/ concave_on (xl s) (xr s) f -> reach s f st -> no_underflow st ->
  (forall q, env st !! 0%nat = Some q -> pcum q = 0) /\
  (forall i a b, env st !! i = Some a -> env st !! S i = Some b -> px a = px b -> pcum b = pcum a) /\
  (forall i a b, env st !! i = Some a -> env st !! S i = Some b -> px a < px b -> exists G, (forall t, derivable_pt_lim G t (proposal (ymax st) a b t)) /\ G (px a) = pcum a /\ G (px b) = pcum b) /\
  (forall q, env st !! (length (env st) - 1)%nat = Some q -> 0 < pcum q).
Proof.
  intros Hs Hm Hr Hn. pose proof (reach_inv s f st Hm (settings_good s Hs) Hr) as HI. split; [apply (inv_first s f st HI)|]. split; [|split; [|apply (mass_pos s f st HI)]].
  - intros i a b Ha Hb E. rewrite (inv_step s f st HI i a b Ha Hb). unfold area. destruct (Req_EM_T (px a) (px b)); [lra|congruence].
  - intros i a b Ha Hb Hab. exists (anti (ymax st) a b). split; [intros t; apply anti_der; auto|]. split; [apply anti_left; auto|]. rewrite (inv_step s f st HI i a b Ha Hb). apply anti_right; auto.
    + rewrite (inv_ey s f st HI i a Ha). apply expshift_exp. eapply Hn; eauto.
    + rewrite (inv_ey s f st HI (S i) b Hb). apply expshift_exp. eapply Hn; eauto.
Qed.
(** A proposal inverts that integral: for the uniform number u1 the mass to the left of the proposed x is u1 of the whole, exactly, but in a nearly flat piece to
    within 1/4000 of the piece's mass.  The proposal's density at x is what the test is given. *)
Theorem C116_proposal s f st u1 : settings_ok s -> metro s = true \/ concave_on (xl s) (xr s) f -> reach s f st -> no_underflow st -> 0 <= u1 < 1 ->
  exists p i a b G total, invert u1 (env st) (ymax st) = Ok p /\ env st !! i = Some a /\ env st !! S i = Some b /\ px a < px b /\ env st !! (length (env st) - 1)%nat = Some total /\
    px a <= wx p <= px b /\ xl s <= wx p <= xr s /\ wey p = proposal (ymax st) a b (wx p) /\ 0 < wey p /\ wy p = ln (wey p) + ymax st - 50 /\
    (forall t, derivable_pt_lim G t (proposal (ymax st) a b t)) /\ G (px a) = pcum a /\ G (px b) = pcum b /\
    Rabs (G (wx p) - u1 * pcum total) <= (pcum b - pcum a) / 4000 /\
    ((1 / 10 <= Rabs (py b - py a) \/ (pey a + pey b) / 1000 < Rabs (pey b - pey a)) -> G (wx p) = u1 * pcum total).
Proof.
  intros Hs Hm Hr Hn Hu. pose proof (reach_inv s f st Hm (settings_good s Hs) Hr) as HI. destruct (invert_ok s f st u1 HI Hn Hu) as (p & a & b & tot & E & Hk & Ha & Hb & Hab & Ht & Hx & Hey & Hy & Hex & Hap).
  assert (Hb' : env st !! S (wr p - 1) = Some b) by (replace (S (wr p - 1)) with (wr p) by lia; auto).
  exists p, (wr p - 1)%nat, a, b, (anti (ymax st) a b), tot. split; [auto|]. split; [auto|]. split; [auto|]. split; [auto|]. split; [auto|]. split; [auto|].
  split. { pose proof (full_bounds s f (env st) _ _ (proj1 HI) Ha). pose proof (full_bounds s f (env st) _ _ (proj1 HI) Hb). lra. }
  split; [auto|]. split. { rewrite Hey. eapply Rlt_le_trans; [|apply proposal_line; auto]. apply exp_pos. }
  split; [auto|]. split; [intros t; apply anti_der; auto|]. split; [apply anti_left; auto|]. split; [|split; [auto|]].
  - rewrite (inv_step s f st HI (wr p - 1) a b Ha Hb'). apply anti_right; auto.
    + rewrite (inv_ey s f st HI _ a Ha). apply expshift_exp. eapply Hn; eauto.
    + rewrite (inv_ey s f st HI _ b Hb). apply expshift_exp. eapply Hn; eauto.
  - intros Hor. apply Hex. intros Hfl. unfold EYEPS. destruct Hor as [?|?]; lra.
Qed.
(** Without Metropolis and for a concave log density this is rejection sampling: the proposal's density is at or above the density (both relative to exp(ymax - 50)),
    and the proposed x is what is returned, if u2 times the one is below the other (on equality either way). *)
Theorem C116_rejection s f st u1 u2 u3 : settings_ok s -> metro s = false -> concave_on (xl s) (xr s) f -> reach s f st -> no_underflow st -> 0 <= u1 < 1 ->
  exists p st' v, invert u1 (env st) (ymax st) = Ok p /\ test s f st p u2 u3 = Ok (st', v, wx p) /\ exp (f (wx p) - ymax st + 50) <= wey p /\
    ((v = Accept /\ u2 * wey p <= exp (f (wx p) - ymax st + 50)) \/ (v = Reject /\ exp (f (wx p) - ymax st + 50) <= u2 * wey p)).
Proof.
  intros Hs Hm Hc Hr Hn Hu. pose proof (reach_inv s f st (or_intror Hc) (settings_good s Hs) Hr) as HI. destruct (invert_ok s f st u1 HI Hn Hu) as (p & a & b & tot & E & Hk & Ha & Hb & Hab & _ & Hx & Hey & _).
  destruct (test_plain s f st p u2 u3 a b Hm Hc HI Hk Ha Hb Hab Hx) as (st' & v & ET & _ & _ & Hv). exists p, st', v. split; auto. split; auto. split; auto. rewrite Hey. eapply (proposal_above s f st (wr p - 1)); eauto. replace (S (wr p - 1)) with (wr p) by lia. auto.
Qed.
(** With Metropolis, for any log density: after the rejection test the chain goes to the proposed x if u3 is at most
    min(1, exp(f(x) - min(env(x), f(x)) - f(old) + min(env(old), f(old)))) (0 if below exp(-50)), and otherwise stays and its old state is returned. *)
Theorem C116_metropolis s f st u1 u2 u3 : settings_ok s -> metro s = true -> reach s f st -> no_underflow st -> chain_ok s f st -> xl s < xprev st -> 0 <= u1 < 1 ->
  exists p, invert u1 (env st) (ymax st) = Ok p /\
  ((exists st', test s f st p u2 u3 = Ok (st', Reject, wx p) /\ exp (f (wx p) - ymax st + 50) <= u2 * wey p /\ xprev st' = xprev st /\ yprev st' = yprev st) \/
   (u2 * wey p <= exp (f (wx p) - ymax st + 50) /\ exists h, height_at (env st) (xprev st) h /\
     let e := f (wx p) - Rmin (wy p) (f (wx p)) - f (xprev st) + Rmin h (f (xprev st)) in
     let w := if Rlt_dec (-50) (Rmin e 0) then Rmin (exp e) 1 else 0 in
     (u3 <= w /\ exists st', test s f st p u2 u3 = Ok (st', Accept, wx p) /\ env st' = env st /\ xprev st' = wx p /\ yprev st' = f (wx p)) \/ (w < u3 /\ test s f st p u2 u3 = Ok (st, Accept, xprev st)))).
Proof.
  intros Hs Hm Hr Hn HC Hxl Hu. pose proof (reach_inv s f st (or_introl Hm) (settings_good s Hs) Hr) as HI. destruct (invert_ok s f st u1 HI Hn Hu) as (p & a & b & tot & E & Hk & Ha & Hb & Hab & _ & Hx & _). exists p. split; auto.
  destruct (test_metro s f st p u2 u3 a b Hm HI HC Hk Ha Hb Hab Hx) as [H|(L & w & Hor & [(i & ql & qr & Q1 & Q2 & Q3 & Q4 & Hw)|(_ & Hw)])]; [left; exact H| |lra]. right. split; auto. exists (line ql qr (xprev st)).
  split; [exists i, ql, qr; repeat split; auto; lra|]. cbv zeta in *. set (e := f (wx p) - Rmin (wy p) (f (wx p)) - f (xprev st) + Rmin (line ql qr (xprev st)) (f (xprev st))) in *.
  assert (Em : exp (Rmin e 0) = Rmin (exp e) 1). { unfold Rmin. rewrite <- exp_0. destruct (Rle_dec e 0) as [A|A], (Rle_dec (exp e) (exp 0)) as [B|B]; auto; exfalso; [apply B, exp_mono; auto|apply A, exp_mono_inv; auto]. }
  rewrite Em in Hw. rewrite <- Hw. destruct Hor as [(H1 & H2)|(H1 & H2)]; [left|right]; split; auto. eexists. split; [exact H2|]. auto.
Qed.
(** For a concave log density the chain always moves: Metropolis changes nothing. *)
Theorem C116_chain_moves s f st u1 u2 u3 : settings_ok s -> metro s = true -> concave_on (xl s) (xr s) f -> reach s f st -> no_underflow st -> chain_ok s f st -> 0 <= u1 < 1 -> u3 < 1 ->
  exists p st' v, invert u1 (env st) (ymax st) = Ok p /\ test s f st p u2 u3 = Ok (st', v, wx p) /\
    ((v = Accept /\ u2 * wey p <= exp (f (wx p) - ymax st + 50)) \/ (v = Reject /\ exp (f (wx p) - ymax st + 50) <= u2 * wey p)).
Proof.
  intros Hs Hm Hc Hr Hn HC Hu Hu3. pose proof (reach_inv s f st (or_introl Hm) (settings_good s Hs) Hr) as HI. destruct (invert_ok s f st u1 HI Hn Hu) as (p & a & b & tot & E & Hk & Ha & Hb & Hab & _ & Hx & Hey & Hy & _).
  assert (Hp : exp (f (wx p) - ymax st + 50) <= wey p). { rewrite Hey. eapply (proposal_above s f st (wr p - 1)); eauto. replace (S (wr p - 1)) with (wr p) by lia. auto. }
  assert (Hf : f (wx p) <= wy p). { rewrite Hy. assert (f (wx p) - ymax st + 50 <= ln (wey p)); [|lra]. apply exp_mono_inv. rewrite exp_ln; auto. eapply Rlt_le_trans; [apply exp_pos|exact Hp]. }
  destruct (metro_moves s f st p u2 u3 a b Hm Hc HI HC Hk Ha Hb Hab Hx Hf Hu3) as [(st' & ET & L)|(ET & L)]; eexists p, _, _; (split; [auto|]); (split; [exact ET|]); auto.
Qed.
(** Any number of draws, with any uniform numbers: each returns 0, and what it writes, if anything, is within the bounds; nothing fails. *)
Theorem C116_draws s f u k n st : settings_ok s -> metro s = true \/ concave_on (xl s) (xr s) f -> (forall st', reach s f st' -> no_underflow st') -> (forall i, 0 <= u i < 1) ->
  reach s f st -> (metro s = true -> chain_ok s f st) ->
  exists st' os, draws s f u k n st = Ok (st', os) /\ length os = k /\ reach s f st' /\ forall z o, In (z, o) os -> z = 0%Z /\ forall x, o = Some x -> xl s <= x <= xr s.
Proof.
  intros Hs Hm Hn Hu Hr HC. destruct (draws_ok s f u Hm (settings_good s Hs) Hn Hu k n st Hr HC) as (st' & os & E & HL & Hr' & _ & HF). exists st', os. split; auto. split; auto. split; auto.
  intros z o Hin. destruct (proj1 (Forall_forall _ _) HF _ Hin) as (A & B). cbn in A, B. auto.
Qed.
(** A log density that is not too steep never has an underflow. *)
Theorem C116_no_underflow s f k : settings_ok s -> metro s = true \/ concave_on (xl s) (xr s) f -> 0 <= k -> lipschitz_on (xl s) (xr s) k f -> k * (xr s - xl s) * (1 + convex s) <= 19 ->
  forall st, reach s f st -> no_underflow st.
Proof. intros Hs Hm Hk HL HB. apply (lipschitz_safe s f k); auto. apply settings_good. auto. Qed.
(** A draw that rejects 1,000 proposals returns 0, success, with nothing written: here for a flat density, with no room for more points. *)
Theorem C116_refuted_written : exists s f u st, settings_ok s /\ concave_on (xl s) (xr s) f /\ reach s f st /\ (forall i, 0 <= u i < 1) /\ exists st' n', arms_draw s f u 0 st = Ok (st', n', 0%Z, None).
Proof.
  destruct flat_rejects as (st & E & H). exists s_flat, f_flat, u_flat, st. split; [apply s_flat_ok|]. split; [apply f_flat_concave|]. split; [constructor; auto|]. split; [intros i; unfold u_flat; destruct (_ =? _)%nat; lra|].
  eexists st, _. unfold arms_draw. apply H. reflexivity.
Qed.
Example C116_nonvacuous : forall m, settings_ok (s_para m) /\ concave_on (-2) 2 f_para /\ (forall st, reach (s_para m) f_para st -> no_underflow st) /\
  exists st, reach (s_para m) f_para st /\ chain_ok (s_para m) f_para st /\ xl (s_para m) < xprev st.
Proof.
  intros m. split; [apply s_para_ok|]. split; [apply f_para_concave|]. split; [apply (C116_no_underflow _ _ 4); [apply s_para_ok|right; apply f_para_concave|lra|apply f_para_lip|cbn; lra]|].
  destruct (C115_set_up (s_para m) f_para (s_para_ok _) (or_intror (f_para_concave _ _))) as (st & E & _). exists (set_chain f_para (1 / 2) st). split; [apply reach_chain; constructor; auto|]. unfold chain_ok. cbn. lra.
Qed.
Print Assumptions C116_mass. Print Assumptions C116_proposal. Print Assumptions C116_rejection. Print Assumptions C116_metropolis. Print Assumptions C116_chain_moves. Print Assumptions C116_draws. Print Assumptions C116_no_underflow. Print Assumptions C116_refuted_written.
