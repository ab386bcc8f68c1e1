(** The starting points in the first envelope, and a draw that always rejects. *)
From Coq Require Import Reals Lra.
From Verif Require Import DataModel ArmsModel ArmsSpec ArmsProofs ArmsProofs2 ArmsProofs3 ArmsProofs4.
Local Open Scope list_scope.
Local Open Scope nat_scope.

Lemma initial_accepts s f st : initial s f = Ok (Some st) -> settings_ok s.
Proof.
  unfold initial. cbv zeta. destruct (Nat.ltb_spec (length (xinit s)) 3) as [|H1]; [discriminate|]. destruct (Nat.ltb_spec (npoint s) (2 * length (xinit s) + 1)) as [|H2]; [discriminate|].
  destruct (Rltb (match xinit s with x :: _ => x | [] => 0%R end) (xl s)) eqn:E1; [discriminate|]. destruct (Rltb (xr s) (List.last (xinit s) 0%R)) eqn:E2; [discriminate|]. cbn [orb].
  destruct (ordered (xinit s)) eqn:E3; [|discriminate]. cbn [negb]. destruct (Rltb (convex s) 0) eqn:E4; [discriminate|]. intros _. unfold Rltb in E1, E2, E4.
  repeat split; auto.
  - destruct (Rlt_dec (convex s) 0); [discriminate|lra].
  - intros i x y Hx Hy. eapply ordered_lt; eauto.
  - intros x Hx. destruct (xinit s) as [|a r]; [discriminate|]. cbn in Hx. injection Hx as ->. destruct (Rlt_dec x (xl s)); [discriminate|lra].
  - intros x Hx. assert (List.last (xinit s) 0%R = x) as E. { clear -Hx. induction (xinit s) as [|a r IH]; [discriminate|]. destruct r as [|b r]; [cbn in *; congruence|]. cbn [map List.last] in *. apply IH. exact Hx. }
    rewrite E in E2. destruct (Rlt_dec (xr s) x); [discriminate|lra].
Qed.
Lemma initial_points s f : mode s f -> good_settings s -> exists st, initial s f = Ok (Some st) /\ length (env st) = 2 * length (xinit s) + 1 /\
  forall k x, xinit s !! k = Some x -> exists q, env st !! (2 * k + 1) = Some q /\ px q = x /\ py q = f x /\ pf q = true.
Proof.
  intros Hm Hg. destruct (initial_ok s f Hm Hg) as (st & E0 & _). exists st. split; auto. revert E0. destruct Hg as (H1 & H2 & H3 & H4 & H5 & H6). unfold initial. cbv zeta.
  destruct (_ <? 3); [discriminate|]. destruct (_ <? _); [discriminate|]. destruct (_ || _); [discriminate|]. destruct (negb _); [discriminate|]. destruct (Rltb _ _); [discriminate|].
  pose proof (start_skel s f H1 H3 H5 H6) as Hs. set (l := blank (xl s) :: _) in *.
  assert (HL : length l = 2 * length (xinit s) + 1) by (unfold l; cbn [length]; rewrite start_len; lia).
  destruct (meets_ok s f Hm (map (fun j => 2 * j) (seq 0 (S (length (xinit s))))) l Hs) as (l' & E & A & (B1 & B2) & C & D).
  { apply List.Forall_forall. intros i Hi. apply in_map_iff in Hi as (j & <- & Hj). apply in_seq in Hj. split; [apply Nat.even_spec; exists j; auto|lia]. }
  rewrite E. cbn [rbind]. intros X. injection X as <-. cbn [env]. pose proof (cumulate_alike l') as HA. split; [rewrite <- (alike_len _ _ HA); lia|].
  intros k x Hk. assert (Hl' : l' !! (2 * k + 1) = Some (Pt x (f x) 0 0 true)). { rewrite B2 by apply odd_2k. unfold l. replace (2 * k + 1) with (S (2 * k)) by lia. apply start_even. auto. }
  symmetry in HA. destruct (alike_some _ _ _ _ HA Hl') as (q & Hq & E1 & E2 & E3). exists q. auto.
Qed.
Lemma test_no_room s f st p u2 u3 st' v x : metro s = false -> npoint s < length (env st) + 2 -> test s f st p u2 u3 = Ok (st', v, x) -> st' = st.
Proof.
  intros Hm Hn. unfold test. destruct (match env st !! (wr p - 1) with Some _ => _ | None => UB end) as [sq| |]; [|discriminate|discriminate]. cbn [rbind].
  destruct sq; [congruence|]. rewrite Hm. cbn [negb orb]. unfold update. replace (npoint s <? length (env st) + 2) with true by (symmetry; apply Nat.ltb_lt; auto). cbn [rbind]. congruence.
Qed.
Lemma invert_first s f st a b : Inv s f st -> no_underflow st -> env st !! 2 = Some a -> env st !! 3 = Some b -> pcum a = 0%R -> (0 < pcum b)%R -> ~ (Rabs (py b - py a) < 1 / 10)%R ->
  invert 0 (env st) (ymax st) = Ok (Wk (px a) (py a) (exp (py a - ymax st + 50)) 3).
Proof.
  intros HI Hn Ha Hb Ca Cb Hfl. destruct (piece_ok s f st HI 0 ltac:(lra)) as (tot & j & a' & b' & E1 & E2 & Hj & Ha' & Hb' & Hc & Hlt & _). rewrite Rmult_0_l in *.
  assert (j = 3) as ->.
  { destruct (Nat.lt_trichotomy j 3) as [L|[L|L]]; auto; exfalso.
    - pose proof (inv_mono_far s f st HI (2 - j) j b' a Hb') as M. replace (j + (2 - j)) with 2 in M by lia. specialize (M Ha). lra.
    - pose proof (inv_mono_far s f st HI (j - 1 - 3) 3 b a' Hb) as M. replace (3 + (j - 1 - 3)) with (j - 1) in M by lia. specialize (M Ha'). lra. }
  change (3 - 1) with 2 in Ha'. rewrite Ha in Ha'. injection Ha' as <-. rewrite Hb in Hb'. injection Hb' as <-.
  unfold invert. rewrite E1, Rmult_0_l, E2. cbn [rbind]. change (3 - 1) with 2. rewrite Ha, Hb. destruct (Req_EM_T (px a) (px b)); [lra|]. unfold YEPS. destruct (Rlt_dec (Rabs (py b - py a)) (1 / 10)); [lra|].
  rewrite Ca. replace ((0 - 0) / (pcum b - 0))%R with 0%R by (unfold Rdiv; ring). replace ((1 - 0) * pey a + 0 * pey b)%R with (pey a) by ring.
  assert (Xa : pey a = exp (py a - ymax st + 50)) by (rewrite (inv_ey s f st HI _ _ Ha); apply expshift_exp; eapply Hn; eauto). rewrite Xa. rewrite logshift_pos by apply exp_pos. rewrite ln_exp.
  assert (Hy : (py b - py a <> 0)%R). { intros X. apply Hfl. rewrite X, Rabs_R0. lra. }
  replace (px a + (px b - px a) / (py b - py a) * (- py a + (py a - ymax st + 50 + ymax st - 50)))%R with (px a) by (field; auto).
  replace ((px a - px a) / (px b - px a) * (py b - py a) + py a)%R with (py a) by (unfold Rdiv; ring). rewrite expshift_exp by (eapply Hn; eauto). auto.
Qed.
(** a flat density, no room for more points, and unlucky numbers *)
Definition s_flat : aset := AS (-1) 1 [(-1)%R; 0%R; 1%R] 7 false 0.
Definition f_flat (x : R) : R := 0%R.
Definition u_flat (n : nat) : R := if n mod 3 =? 0 then 0%R else (95 / 100)%R.
Lemma s_flat_ok : settings_ok s_flat.
Proof.
  unfold settings_ok, s_flat. cbn [xinit length npoint convex xl xr]. split; [lia|]. split; [lia|]. split; [lra|]. split; [|split].
  - intros [|[|[|i]]] x y Hx Hy; cbn in Hx, Hy; try discriminate; injection Hx as <-; injection Hy as <-; lra.
  - intros x Hx. cbn in Hx. injection Hx as <-. lra.
  - intros x Hx. cbn in Hx. injection Hx as <-. lra.
Qed.
Lemma f_flat_concave a b : concave_on a b f_flat.
Proof. intros x y t _ _ _. unfold f_flat. lra. Qed.
Lemma f_flat_lip a b : lipschitz_on a b 0 f_flat.
Proof. intros x y _ _. unfold f_flat. rewrite Rminus_eq_0, Rabs_R0. lra. Qed.
Lemma flat_rejects : exists st, initial s_flat f_flat = Ok (Some st) /\ forall k n, n mod 3 = 0 -> rounds s_flat f_flat u_flat k n st = Ok (st, n + 3 * k, 0%Z, None).
Proof.
  assert (Hm : mode s_flat f_flat) by (right; apply f_flat_concave). pose proof (settings_good _ s_flat_ok) as Hg. destruct (initial_points s_flat f_flat Hm Hg) as (st & E & HL & Hp). exists st. split; auto.
  assert (Hr : reach s_flat f_flat st) by (constructor; auto). pose proof (reach_inv _ _ _ Hm Hg Hr) as HI. pose proof HI as (Hf & _). pose proof Hf as (Hs & Hright).
  assert (Hn : no_underflow st). { apply (lipschitz_safe s_flat f_flat 0 Hm Hg); auto; [apply f_flat_lip|lra|lra]. }
  destruct (Hp 0 (-1)%R eq_refl) as (d1 & D1 & X1 & Y1 & _). destruct (Hp 1 0%R eq_refl) as (d2 & D2 & X2 & Y2 & _). destruct (Hp 2 1%R eq_refl) as (d3 & D3 & X3 & Y3 & _). cbn [Nat.mul Nat.add] in D1, D2, D3. cbn in HL. unfold f_flat in Y1, Y2, Y3.
  assert (S0 : is_Some (env st !! 0)) by (apply lookup_lt_is_Some_2; lia). destruct S0 as (q0 & Q0). assert (S2 : is_Some (env st !! 2)) by (apply lookup_lt_is_Some_2; lia). destruct S2 as (q2 & Q2).
  assert (X0 : px q0 = (-1)%R). { destruct Hs as (_ & _ & _ & _ & H5 & _). apply (H5 _ Q0). }
  assert (XY2 : px q2 = (-1)%R /\ py q2 = (1 / 10)%R).
  { pose proof (Hright 2 eq_refl q2 Q2) as H2. unfold mval, mvals, prv in H2. cbn [Nat.ltb Nat.leb] in H2. cbn [Nat.sub Nat.add] in H2. rewrite D1, D2, D3 in H2. injection H2 as Hx Hy. split; [congruence|].
    assert (Z : slope d2 d1 = 0%R) by (unfold slope; rewrite Y1, Y2; unfold Rdiv; ring). assert (Z3 : slope d2 d3 = 0%R) by (unfold slope; rewrite Y3, Y2; unfold Rdiv; ring). rewrite Z, Z3, Y1, adr_le in Hy by lra.
    replace ((0 - 0) * (px d2 - px d1))%R with 0%R in Hy by ring. unfold atl, YEPS in Hy. destruct (Rlt_dec 0 (1 / 10)); lra. }
  destruct XY2 as (XX2 & YY2).
  assert (C1 : pcum d1 = 0%R). { rewrite (inv_step s_flat f_flat st HI 0 q0 d1 Q0 D1), (inv_first s_flat f_flat st HI q0 Q0). unfold area. destruct (Req_EM_T (px q0) (px d1)); [lra|congruence]. }
  assert (C2 : pcum q2 = 0%R). { rewrite (inv_step s_flat f_flat st HI 1 d1 q2 D1 Q2), C1. unfold area. destruct (Req_EM_T (px d1) (px q2)); [lra|congruence]. }
  assert (C3 : (0 < pcum d2)%R). { rewrite (inv_step s_flat f_flat st HI 2 q2 d2 Q2 D2), C2. rewrite Rplus_0_l. apply (area_pos q2 d2 (ymax st)); [lra|apply (inv_ey s_flat f_flat st HI 2); auto|apply (inv_ey s_flat f_flat st HI 3); auto|]. left. rewrite (inv_ey s_flat f_flat st HI 2 q2 Q2). apply expshift_pos. unfold YCEIL. pose proof (Hn _ _ Q2). lra. }
  assert (EI : invert 0 (env st) (ymax st) = Ok (Wk (px q2) (py q2) (exp (py q2 - ymax st + 50)) 3)).
  { apply (invert_first s_flat f_flat st q2 d2); auto. rewrite Y2, YY2. rewrite Rabs_left by lra. lra. }
  set (p := Wk (px q2) (py q2) (exp (py q2 - ymax st + 50)) 3) in *.
  destruct (test_plain s_flat f_flat st p (95 / 100) (95 / 100) q2 d2 eq_refl (f_flat_concave _ _) HI) as (st' & v & ET & _ & _ & Hv); [cbn; lia|exact Q2|exact D2|lra|cbn; lra|].
  assert (st' = st) as ->. { eapply (test_no_room s_flat f_flat st); eauto. rewrite HL. cbn. lia. }
  destruct Hv as [(_ & Hv)|(-> & _)].
  { exfalso. cbn [wey wx p] in Hv. unfold f_flat in Hv. rewrite YY2 in Hv. replace (1 / 10 - ymax st + 50)%R with (1 / 10 + (0 - ymax st + 50))%R in Hv by ring. rewrite exp_plus in Hv. pose proof (exp_pos (0 - ymax st + 50)) as P. pose proof (exp_ineq1_le (1 / 10)) as P2.
    set (z := exp (0 - ymax st + 50)) in *. set (e := exp (1 / 10)) in *. assert (11 / 10 * z <= e * z)%R by (apply Rmult_le_compat_r; lra). lra. }
  induction k as [|k IH]; intros n Hn3; cbn [rounds]; [rewrite Nat.mul_0_r, Nat.add_0_r; auto|].
  assert (U0 : u_flat n = 0%R) by (unfold u_flat; rewrite Hn3; auto).
  assert (M1 : (n + 1) mod 3 = 1) by (rewrite Nat.add_mod, Hn3 by lia; auto). assert (M2 : (n + 2) mod 3 = 2) by (rewrite Nat.add_mod, Hn3 by lia; auto).
  assert (U1 : u_flat (n + 1) = (95 / 100)%R) by (unfold u_flat; rewrite M1; auto). assert (U2 : u_flat (n + 2) = (95 / 100)%R) by (unfold u_flat; rewrite M2; auto).
  rewrite U0, EI. cbn [rbind]. rewrite U1, U2, ET. cbn [rbind]. rewrite IH by (rewrite Nat.add_mod, Hn3 by lia; auto). do 4 f_equal. lia.
Qed.
(** what is refused *)
Lemma meets_some s : forall is l l', (forall i, In i is -> Nat.even i = true) -> meets s l is = Ok (Some l') -> forall i, In i is -> exists l1 q, same_odd l l1 /\ meet s l1 i = Ok (Some q).
Proof.
  induction is as [|j is IH]; intros l l' He E i Hi; [destruct Hi|]. cbn [meets] in E. unfold meet_at in E. destruct (meet s l j) as [[q|]| |] eqn:Em; try discriminate. cbn [rbind option_map] in E.
  assert (SO : same_odd l (<[j := q]> l)). { split; [apply insert_length|]. intros k Hk. apply list_lookup_insert_ne. intros ->. pose proof (He k (or_introl eq_refl)). rewrite <- Nat.negb_odd, Hk in H. discriminate. }
  destruct Hi as [<-|Hi]; [exists l, q; split; auto; split; auto|]. destruct (IH _ _ (fun i H => He i (or_intror H)) E i Hi) as (l1 & q1 & S1 & M1). exists l1, q1. split; auto. eapply same_odd_trans; eauto.
Qed.
Lemma initial_slopes s f st k x y z : metro s = false -> initial s f = Ok (Some st) -> xinit s !! k = Some x -> xinit s !! S k = Some y -> xinit s !! S (S k) = Some z ->
  ((f z - f y) / (z - y) <= (f y - f x) / (y - x))%R.
Proof.
  intros Hm E Hx Hy Hz. pose proof (settings_good s (initial_accepts s f st E)) as (H1 & H2 & H3 & H4 & H5 & H6). revert E. unfold initial. cbv zeta.
  destruct (_ <? 3); [discriminate|]. destruct (_ <? _); [discriminate|]. destruct (_ || _); [discriminate|]. destruct (negb _); [discriminate|]. destruct (Rltb _ _); [discriminate|].
  set (l := blank (xl s) :: _). set (is := map _ _). destruct (meets s l is) as [[l'|]| |] eqn:E; try discriminate. intros _.
  assert (Hev : forall i, In i is -> Nat.even i = true). { intros i Hi. apply in_map_iff in Hi as (j & <- & _). apply Nat.even_spec. exists j. auto. }
  assert (Hin : In (2 * S k) is). { apply in_map_iff. exists (S k). split; auto. apply in_seq. apply lookup_lt_Some in Hz. lia. }
  destruct (meets_some s is l l' Hev E _ Hin) as (l1 & q & (S1 & S2) & M).
  assert (Od : forall k x, xinit s !! k = Some x -> l1 !! (2 * k + 1) = Some (Pt x (f x) 0 0 true)). { intros k0 x0 Hk. rewrite S2 by apply odd_2k. unfold l. replace (2 * k0 + 1) with (S (2 * k0)) by lia. apply start_even. auto. }
  pose proof (Od _ _ Hx) as Ox. pose proof (Od _ _ Hy) as Oy. pose proof (Od _ _ Hz) as Oz. unfold meet in M. destruct (l1 !! (2 * S k)) as [q0|]; [|discriminate]. destruct (pf q0); [discriminate|]. cbv zeta in M.
  replace (2 * S k) with (S (S (2 * k))) in M by lia. replace (2 * k + 1) with (S (2 * k)) in Ox by lia. rewrite Ox in M. replace (2 * S k + 1) with (S (S (S (2 * k)))) in Oy by lia. rewrite Oy in M.
  replace (2 * S (S k) + 1) with (S (S (2 * k)) + 3) in Oz by lia. rewrite Oz in M. cbn [option_map] in M.
  match type of M with (do gl0 <- ?A; _) = _ => destruct A as [gl0| |]; try discriminate end. cbn [rbind] in M. destruct (l1 !! (S (S (2 * k)) + 2)); [|discriminate]. cbn [rbind] in M. rewrite Hm in M. cbn [negb] in M. rewrite andb_true_r in M.
  match type of M with (if ?b1 || ?b2 then _ else _) = _ => destruct b1; [discriminate|]; destruct b2 eqn:Eb; [discriminate|] end.
  unfold Rltb, slope in Eb. cbn [px py] in Eb. pose proof (ordered_lt _ _ _ _ H3 Hy Hz). pose proof (ordered_lt _ _ _ _ H3 Hx Hy). destruct (Rlt_dec _ _) as [|N]; [discriminate|].
  replace ((f z - f y) / (z - y))%R with ((f y - f z) / (y - z))%R by (field; lra). lra.
Qed.
