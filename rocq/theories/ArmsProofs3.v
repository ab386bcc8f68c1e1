(** More lemmas for C115 and C116: inverting and testing. *)
From Coq Require Import Reals Lra.
From Verif Require Import DataModel ArmsModel ArmsSpec ArmsProofs ArmsProofs2.
Local Open Scope list_scope.
Local Open Scope nat_scope.

Lemma ordered_of : forall xs, (forall i x y, xs !! i = Some x -> xs !! S i = Some y -> (x < y)%R) -> ordered xs = true.
Proof.
  induction xs as [|a xs IH]; intros H; auto. cbn. destruct xs as [|b xs]; auto. rewrite IH; [|intros i x y Hx Hy; apply (H (S i)); auto]. unfold Rltb. destruct (Rlt_dec a b) as [|N]; auto. exfalso. apply N. apply (H 0); auto.
Qed.
Lemma last_map : forall (xs : list R) x, xs !! (length xs - 1) = Some x -> List.last (map Some xs) None = Some x.
Proof.
  induction xs as [|a xs IH]; intros x H; [discriminate|]. destruct xs as [|b xs]; [cbn in *; congruence|]. cbn [length Nat.sub] in *. rewrite Nat.sub_0_r in *. cbn [map List.last]. apply IH. exact H.
Qed.
Lemma settings_good s : settings_ok s -> good_settings s.
Proof. intros (H1 & H2 & H3 & H4 & H5 & H6). repeat split; auto using ordered_of, last_map. Qed.
Lemma invert_piece s f st u1 p : Inv s f st -> (0 <= u1 < 1)%R -> invert u1 (env st) (ymax st) = Ok p ->
  exists a b, 1 <= wr p /\ env st !! (wr p - 1) = Some a /\ env st !! wr p = Some b /\ (px a < px b)%R.
Proof.
  intros HI Hu E. destruct (piece_ok s f st HI u1 Hu) as (last & j & a & b & E1 & E2 & Hj & Ha & Hb & _ & Hlt & _). unfold invert in E. rewrite E1, E2 in E. cbn [rbind] in E. rewrite Ha, Hb in E.
  destruct (Req_EM_T (px a) (px b)); [lra|]. exists a, b. assert (X : wr p = j); [|rewrite X; auto].
  destruct (Rlt_dec (Rabs (py b - py a)) YEPS); destruct (logshift _ _); try discriminate; injection E as <-; auto.
Qed.
Lemma test_inv s f st p u2 u3 a b st' v x : mode s f -> Inv s f st -> 1 <= wr p -> env st !! (wr p - 1) = Some a -> env st !! wr p = Some b -> (px a < px b)%R ->
  test s f st p u2 u3 = Ok (st', v, x) -> Inv s f st' /\ v <> Violation.
Proof.
  intros Hm HI Hk Ha Hb Hab. unfold test. destruct (match env st !! (wr p - 1) with Some _ => _ | None => UB end) as [sq| |]; [|discriminate|discriminate]. cbn [rbind].
  destruct sq; [intros E; injection E as <- <- _; split; [auto|discriminate]|]. cbv zeta. destruct (_ || _).
  - destruct (update_ok s f st (wx p) (wr p) a b Hm HI Ha Hb Hk Hab) as (st1 & -> & HI1 & _). cbn [rbind]. intros E. injection E as <- <- _. split; auto. destruct (log_lt _ _); discriminate.
  - destruct (chain_piece _ _ _ _) as [i| |]; [|discriminate|discriminate]. cbn [rbind]. destruct (env st !! i) as [ql|]; [|discriminate]. destruct (env st !! S i) as [qr|]; [|discriminate].
    destruct (Rlt_dec _ u3); intros E; injection E as <- <- _; (split; [|discriminate]); auto.
Qed.
Lemma reach_inv s f st : mode s f -> good_settings s -> reach s f st -> Inv s f st.
Proof.
  intros Hm Hg. induction 1 as [st E|st x0 H IH|st u1 u2 u3 p st' v x H IH U1 U2 U3 E T].
  - destruct (initial_ok s f Hm Hg) as (st0 & E0 & HI). rewrite E in E0. injection E0 as <-. auto.
  - exact IH.
  - destruct (invert_piece s f st u1 p IH U1 E) as (a & b & Hk & Ha & Hb & Hab). eapply test_inv; eauto.
Qed.
(** ---------- the proposal and its integral ---------- *)
Lemma exp_chord a b t : (0 <= t <= 1)%R -> (exp ((1 - t) * a + t * b) <= (1 - t) * exp a + t * exp b)%R.
Proof.
  intros Ht. set (c := ((1 - t) * a + t * b)%R). assert (G : forall z, (exp c * (1 + (z - c)) <= exp z)%R).
  { intros z. replace (exp z) with (exp c * exp (z - c))%R by (rewrite <- exp_plus; f_equal; ring). apply Rmult_le_compat_l; [left; apply exp_pos|]. apply exp_ineq1_le. }
  pose proof (G a) as Ga. pose proof (G b) as Gb. apply (Rmult_le_compat_l (1 - t)) in Ga; [|lra]. apply (Rmult_le_compat_l t) in Gb; [|lra].
  replace (exp c) with ((1 - t) * (exp c * (1 + (a - c))) + t * (exp c * (1 + (b - c))))%R by (unfold c; ring). lra.
Qed.
Lemma frac01 x u v : (u < v)%R -> (u <= x <= v)%R -> (0 <= (x - u) / (v - u) <= 1)%R.
Proof.
  intros H Hx. split; [apply Rmult_le_pos; [lra|left; apply Rinv_0_lt_compat; lra]|]. apply Rmult_le_reg_r with (v - u)%R; [lra|]. unfold Rdiv. rewrite Rmult_assoc, Rinv_l; lra.
Qed.
Lemma proposal_line ym a b t : (px a < px b)%R -> (px a <= t <= px b)%R -> (exp (line a b t - ym + 50) <= proposal ym a b t)%R.
Proof.
  intros H Ht. unfold proposal. destruct (Rlt_dec _ _); [|lra]. unfold line. set (w := ((t - px a) / (px b - px a))%R). assert (Hw : (0 <= w <= 1)%R) by (apply frac01; auto).
  pose proof (exp_chord (py a - ym + 50) (py b - ym + 50) w Hw) as E. replace ((1 - w) * (py a - ym + 50) + w * (py b - ym + 50))%R with (py a + w * (py b - py a) - ym + 50)%R in E by ring. lra.
Qed.
Definition anti (ym : R) (a b : pt) (t : R) : R :=
  if Rlt_dec (Rabs (py b - py a)) (1 / 10)
  then (pcum a + exp (py a - ym + 50) * (t - px a) + (exp (py b - ym + 50) - exp (py a - ym + 50)) / (2 * (px b - px a)) * ((t - px a) * (t - px a)))%R
  else (pcum a + (px b - px a) / (py b - py a) * (exp (line a b t - ym + 50) - exp (py a - ym + 50)))%R.
Lemma dlim_ext f t l l' : l = l' -> derivable_pt_lim f t l -> derivable_pt_lim f t l'.
Proof. intros ->. auto. Qed.
Lemma anti_der ym a b t : (px a < px b)%R -> derivable_pt_lim (anti ym a b) t (proposal ym a b t).
Proof.
  intros H. unfold anti, proposal. destruct (Rlt_dec _ _) as [L|L].
  - set (ea := exp (py a - ym + 50)). set (eb := exp (py b - ym + 50)). set (k := ((eb - ea) / (2 * (px b - px a)))%R).
    apply dlim_ext with (l := (0 + ea * (1 - 0) + k * ((1 - 0) * (t - px a) + (t - px a) * (1 - 0)))%R); [unfold k; field; lra|].
    apply (derivable_pt_lim_plus (fun t => pcum a + ea * (t - px a))%R (fun t => k * ((t - px a) * (t - px a)))%R).
    + apply (derivable_pt_lim_plus (fun _ => pcum a) (fun t => ea * (t - px a))%R); [apply derivable_pt_lim_const|]. apply (derivable_pt_lim_scal (fun t => t - px a)%R). apply (derivable_pt_lim_minus (fun t => t) (fun _ => px a)); [apply derivable_pt_lim_id|apply derivable_pt_lim_const].
    + apply (derivable_pt_lim_scal (fun t => (t - px a) * (t - px a))%R). apply (derivable_pt_lim_mult (fun t => t - px a)%R (fun t => t - px a)%R); apply (derivable_pt_lim_minus (fun t => t) (fun _ => px a)); try apply derivable_pt_lim_id; apply derivable_pt_lim_const.
  - assert (Hy : (py b - py a <> 0)%R). { intros X. apply L. rewrite X, Rabs_R0. lra. }
    set (k := ((px b - px a) / (py b - py a))%R). set (m := ((py b - py a) / (px b - px a))%R).
    apply dlim_ext with (l := (0 + k * (exp (line a b t - ym + 50) * m - 0))%R); [unfold k, m; field; split; lra|].
    apply (derivable_pt_lim_plus (fun _ => pcum a) (fun t => k * (exp (line a b t - ym + 50) - exp (py a - ym + 50)))%R); [apply derivable_pt_lim_const|].
    apply (derivable_pt_lim_scal (fun t => exp (line a b t - ym + 50) - exp (py a - ym + 50))%R). apply (derivable_pt_lim_minus (fun t => exp (line a b t - ym + 50)) (fun _ => exp (py a - ym + 50))); [|apply derivable_pt_lim_const].
    apply (derivable_pt_lim_comp (fun t => line a b t - ym + 50)%R exp); [|apply derivable_pt_lim_exp].
    apply dlim_ext with (l := (0 + m * (1 - 0))%R); [ring|].
    assert (E : forall z, (line a b z - ym + 50 = (py a - ym + 50) + m * (z - px a))%R) by (intros z; unfold line, m; field; lra).
    intros eps Heps. assert (D : derivable_pt_lim (fun z => (py a - ym + 50) + m * (z - px a))%R t (0 + m * (1 - 0))%R).
    { apply (derivable_pt_lim_plus (fun _ => py a - ym + 50)%R (fun t => m * (t - px a))%R); [apply derivable_pt_lim_const|]. apply (derivable_pt_lim_scal (fun t => t - px a)%R). apply (derivable_pt_lim_minus (fun t => t) (fun _ => px a)); [apply derivable_pt_lim_id|apply derivable_pt_lim_const]. }
    destruct (D eps Heps) as (d & Hd). exists d. intros h H1 H2. rewrite !E. apply Hd; auto.
Qed.
Lemma anti_left ym a b : (px a < px b)%R -> anti ym a b (px a) = pcum a.
Proof.
  intros H. unfold anti. destruct (Rlt_dec _ _); [rewrite Rminus_eq_0; ring|]. unfold line. rewrite Rminus_eq_0. replace (py a + 0 / (px b - px a) * (py b - py a))%R with (py a) by (field; lra). ring.
Qed.
Lemma expshift_exp y ym : (ym - 100 < y)%R -> expshift y ym = exp (y - ym + 50).
Proof. intros H. unfold expshift, YCEIL. destruct (Rlt_dec _ _); [auto|lra]. Qed.
Lemma anti_right ym a b : (px a < px b)%R -> pey a = exp (py a - ym + 50) -> pey b = exp (py b - ym + 50) -> anti ym a b (px b) = (pcum a + area a b)%R.
Proof.
  intros H Ea Eb. unfold anti, area, YEPS. destruct (Req_EM_T _ _); [lra|]. destruct (Rlt_dec _ _) as [L|L]; rewrite <- Ea; try rewrite <- Eb.
  - field. lra.
  - unfold line. replace (py a + (px b - px a) / (px b - px a) * (py b - py a))%R with (py b) by (field; lra). rewrite <- Eb. field. intros X. apply L. rewrite X, Rabs_R0. lra.
Qed.
Lemma logshift_pos e ym : (0 < e)%R -> logshift e ym = Some (ln e + ym - 50)%R.
Proof. intros H. unfold logshift, YCEIL. destruct (Rlt_dec 0 e); [auto|lra]. Qed.
Lemma mix_between p u v : (0 <= p <= 1)%R -> (Rmin u v <= (1 - p) * u + p * v <= Rmax u v)%R.
Proof.
  intros Hp. unfold Rmin, Rmax. destruct (Rle_dec u v) as [L|L].
  - assert (0 <= p * (v - u))%R by (apply Rmult_le_pos; lra). assert (0 <= (1 - p) * (v - u))%R by (apply Rmult_le_pos; lra). lra.
  - assert (0 <= p * (u - v))%R by (apply Rmult_le_pos; lra). assert (0 <= (1 - p) * (u - v))%R by (apply Rmult_le_pos; lra). lra.
Qed.
(** the drawn value *)
Lemma invert_ok s f st u1 : Inv s f st -> no_underflow st -> (0 <= u1 < 1)%R ->
  exists p a b tot, invert u1 (env st) (ymax st) = Ok p /\ 1 <= wr p /\ env st !! (wr p - 1) = Some a /\ env st !! wr p = Some b /\ (px a < px b)%R /\
    env st !! (length (env st) - 1) = Some tot /\ (px a <= wx p <= px b)%R /\ wey p = proposal (ymax st) a b (wx p) /\ wy p = (ln (wey p) + ymax st - 50)%R /\
    ((Rabs (py b - py a) < 1 / 10 -> EYEPS * (pey a + pey b) < Rabs (pey b - pey a))%R -> anti (ymax st) a b (wx p) = (u1 * pcum tot)%R) /\
    (Rabs (anti (ymax st) a b (wx p) - u1 * pcum tot) <= (pcum b - pcum a) / 4000)%R.
Proof.
  intros HI Hn Hu. destruct (piece_ok s f st HI u1 Hu) as (tot & j & a & b & E1 & E2 & Hj & Ha & Hb & Hc & Hlt & _).
  assert (Xa : pey a = exp (py a - ymax st + 50)) by (rewrite (inv_ey s f st HI _ _ Ha); apply expshift_exp; eapply Hn; eauto).
  assert (Xb : pey b = exp (py b - ymax st + 50)) by (rewrite (inv_ey s f st HI _ _ Hb); apply expshift_exp; eapply Hn; eauto).
  assert (Pa : (0 < pey a)%R) by (rewrite Xa; apply exp_pos). assert (Pb : (0 < pey b)%R) by (rewrite Xb; apply exp_pos).
  assert (Ecum : pcum b = (pcum a + area a b)%R). { apply (inv_step s f st HI (j - 1)); auto. replace (S (j - 1)) with j by lia. auto. }
  set (u := (u1 * pcum tot)%R) in *. set (prop := ((u - pcum a) / (pcum b - pcum a))%R).
  assert (Hp : (0 <= prop <= 1)%R) by (apply frac01; lra).
  assert (Hpa : (prop * area a b = u - pcum a)%R) by (unfold prop; rewrite Ecum; field; lra).
  unfold invert. rewrite E1. fold u. rewrite E2. cbn [rbind]. rewrite Ha, Hb. fold prop. destruct (Req_EM_T (px a) (px b)); [lra|]. unfold YEPS.
  set (ea := pey a) in *. set (eb := pey b) in *. set (xa := px a) in *. set (xb := px b) in *. unfold area in Hpa. fold xa xb ea eb in Hpa. destruct (Req_EM_T xa xb); [lra|]. unfold YEPS in Hpa.
  assert (HP : forall t, proposal (ymax st) a b t = if Rlt_dec (Rabs (py b - py a)) (1 / 10) then (ea + (t - xa) / (xb - xa) * (eb - ea))%R else exp (line a b t - ymax st + 50)) by (intros t; unfold proposal; fold xa xb; rewrite <- Xa, <- Xb; auto).
  assert (HA : forall t, anti (ymax st) a b t = if Rlt_dec (Rabs (py b - py a)) (1 / 10) then (pcum a + ea * (t - xa) + (eb - ea) / (2 * (xb - xa)) * ((t - xa) * (t - xa)))%R else (pcum a + (xb - xa) / (py b - py a) * (exp (line a b t - ymax st + 50) - ea))%R) by (intros t; unfold anti; fold xa xb; rewrite <- Xa, <- Xb; auto).
  destruct (Rlt_dec (Rabs (py b - py a)) (1 / 10)) as [L|L].
  - set (x := if Rlt_dec (EYEPS * Rabs (eb + ea)) (Rabs (eb - ea)) then _ else _). set (e := ((x - xa) / (xb - xa) * (eb - ea) + ea)%R).
    assert (HX : (xa <= x <= xb)%R /\ ((EYEPS * (ea + eb) < Rabs (eb - ea))%R -> (pcum a + ea * (x - xa) + (eb - ea) / (2 * (xb - xa)) * ((x - xa) * (x - xa)) = u)%R) /\
      (Rabs (pcum a + ea * (x - xa) + (eb - ea) / (2 * (xb - xa)) * ((x - xa) * (x - xa)) - u) <= (pcum b - pcum a) / 4000)%R).
    { assert (Hs : Rabs (eb + ea) = (ea + eb)%R) by (rewrite Rabs_pos_eq; lra). unfold x. rewrite Hs. clear x e. destruct (Rlt_dec (EYEPS * (ea + eb)) (Rabs (eb - ea))) as [L2|L2].
      - assert (Hne : (eb - ea <> 0)%R). { intros X. rewrite X, Rabs_R0 in L2. assert (0 < EYEPS * (ea + eb))%R by (apply Rmult_lt_0_compat; unfold EYEPS; lra). lra. }
        set (S2 := ((1 - prop) * ea * ea + prop * eb * eb)%R). set (r := R_sqrt.sqrt S2).
        assert (Hm : (Rmin (ea * ea) (eb * eb) <= S2 <= Rmax (ea * ea) (eb * eb))%R) by (pose proof (mix_between prop (ea * ea) (eb * eb) Hp); unfold S2; lra).
        assert (Hsq : (0 <= S2)%R) by (unfold S2; rewrite !Rmult_assoc; apply Rplus_le_le_0_compat; apply Rmult_le_pos; try lra; apply Rmult_le_pos; lra).
        assert (Hr2 : (r * r = S2)%R) by (apply R_sqrt.sqrt_sqrt; auto).
        assert (Hrb : (Rmin ea eb <= r <= Rmax ea eb)%R).
        { unfold Rmin, Rmax in *. split.
          - destruct (Rle_dec ea eb) as [Q|Q].
            + replace ea with (R_sqrt.sqrt (ea * ea)) by (apply R_sqrt.sqrt_square; lra). apply R_sqrt.sqrt_le_1; auto; [apply Rmult_le_pos; lra|]. destruct (Rle_dec (ea * ea) (eb * eb)) as [Q2|Q2]; [lra|]. exfalso. apply Q2. apply Rmult_le_compat; lra.
            + replace eb with (R_sqrt.sqrt (eb * eb)) by (apply R_sqrt.sqrt_square; lra). apply R_sqrt.sqrt_le_1; auto; [apply Rmult_le_pos; lra|]. assert (eb * eb <= ea * ea)%R by (apply Rmult_le_compat; lra). destruct (Rle_dec (ea * ea) (eb * eb)) as [Q2|Q2]; lra.
          - destruct (Rle_dec ea eb) as [Q|Q].
            + replace eb with (R_sqrt.sqrt (eb * eb)) by (apply R_sqrt.sqrt_square; lra). apply R_sqrt.sqrt_le_1; auto; [apply Rmult_le_pos; lra|]. assert (ea * ea <= eb * eb)%R by (apply Rmult_le_compat; lra). destruct (Rle_dec (ea * ea) (eb * eb)) as [Q2|Q2]; lra.
            + replace ea with (R_sqrt.sqrt (ea * ea)) by (apply R_sqrt.sqrt_square; lra). apply R_sqrt.sqrt_le_1; auto; [apply Rmult_le_pos; lra|]. assert (eb * eb <= ea * ea)%R by (apply Rmult_le_compat; lra). destruct (Rle_dec (ea * ea) (eb * eb)) as [Q2|Q2]; lra. }
        assert (Hfr : (0 <= (r - ea) / (eb - ea) <= 1)%R).
        { unfold Rmin, Rmax in Hrb. destruct (Rle_dec ea eb) as [Q|Q]; [apply frac01; lra|]. replace ((r - ea) / (eb - ea))%R with (1 - (r - eb) / (ea - eb))%R by (field; lra). pose proof (frac01 r eb ea ltac:(lra) ltac:(lra)). lra. }
        set (x := (xa + (xb - xa) / (eb - ea) * (- ea + r))%R). assert (Hxx : (x - xa = (xb - xa) * ((r - ea) / (eb - ea)))%R) by (unfold x; field; auto).
        assert (Hin : (xa <= x <= xb)%R). { assert (0 <= (xb - xa) * ((r - ea) / (eb - ea)))%R by (apply Rmult_le_pos; lra). assert ((xb - xa) * ((r - ea) / (eb - ea)) <= (xb - xa) * 1)%R by (apply Rmult_le_compat_l; lra). lra. }
        assert (Heq : (pcum a + ea * (x - xa) + (eb - ea) / (2 * (xb - xa)) * ((x - xa) * (x - xa)) = u)%R).
        { replace u with (pcum a + prop * (1 / 2 * (eb + ea) * (xb - xa)))%R by lra. rewrite Hxx.
          replace (pcum a + ea * ((xb - xa) * ((r - ea) / (eb - ea))) + (eb - ea) / (2 * (xb - xa)) * ((xb - xa) * ((r - ea) / (eb - ea)) * ((xb - xa) * ((r - ea) / (eb - ea)))))%R
            with (pcum a + (xb - xa) / (2 * (eb - ea)) * (r * r - ea * ea))%R by (field; split; lra). rewrite Hr2. unfold S2. field. lra. }
        split; [auto|]. split; [auto|]. rewrite Heq, Rminus_eq_0, Rabs_R0. apply Rmult_le_pos; lra.
      - assert (0 <= (xb - xa) * prop)%R by (apply Rmult_le_pos; lra). assert ((xb - xa) * prop <= (xb - xa) * 1)%R by (apply Rmult_le_compat_l; lra).
        split; [lra|]. split; [intros X; lra|]. replace u with (pcum a + prop * (1 / 2 * (eb + ea) * (xb - xa)))%R by lra.
        replace (pcum a + ea * (xa + (xb - xa) * prop - xa) + (eb - ea) / (2 * (xb - xa)) * ((xa + (xb - xa) * prop - xa) * (xa + (xb - xa) * prop - xa)) - (pcum a + prop * (1 / 2 * (eb + ea) * (xb - xa))))%R
          with (- ((eb - ea) * ((xb - xa) / 2 * (prop * (1 - prop)))))%R by (field; lra).
        rewrite Rabs_Ropp, Rabs_mult. assert (Hq : (0 <= prop * (1 - prop) <= 1 / 4)%R). { split; [apply Rmult_le_pos; lra|]. pose proof (Rle_0_sqr (prop - 1 / 2)) as Q. unfold Rsqr in Q. lra. }
        assert (Hk : (0 <= (xb - xa) / 2 * (prop * (1 - prop)) <= (xb - xa) / 8)%R). { split; [apply Rmult_le_pos; lra|]. replace ((xb - xa) / 8)%R with ((xb - xa) / 2 * (1 / 4))%R by field. apply Rmult_le_compat_l; lra. }
        rewrite (Rabs_pos_eq ((xb - xa) / 2 * _)) by lra. replace (pcum b - pcum a)%R with (1 / 2 * (eb + ea) * (xb - xa))%R.
        2:{ rewrite Ecum. unfold area. fold xa xb ea eb. destruct (Req_EM_T xa xb); [lra|]. unfold YEPS. destruct (Rlt_dec (Rabs (py b - py a)) (1 / 10)); [|lra]. ring. }
        replace (1 / 2 * (eb + ea) * (xb - xa) / 4000)%R with (EYEPS * (ea + eb) * ((xb - xa) / 8))%R by (unfold EYEPS; field). apply Rmult_le_compat; try lra. apply Rabs_pos. }
    destruct HX as (Hin & Hex & Hap). pose proof (frac01 x xa xb Hlt Hin) as Hf. pose proof (mix_between _ ea eb Hf) as Hmx.
    assert (He : (0 < e)%R). { assert (0 < Rmin ea eb)%R by (unfold Rmin; destruct (Rle_dec ea eb); auto). unfold e. lra. }
    rewrite (logshift_pos e (ymax st) He). exists (Wk x (ln e + ymax st - 50) e j), a, b, tot. cbn [wx wy wey wr]. fold xa xb ea eb. rewrite HP, HA.
    split; [auto|]. split; [auto|]. split; [auto|]. split; [auto|]. split; [auto|]. split; [auto|]. split; [auto|]. split; [unfold e; ring|]. split; [auto|]. split; auto.
  - assert (Hy : (py b - py a <> 0)%R). { intros X. apply L. rewrite X, Rabs_R0. lra. }
    set (m := ((1 - prop) * ea + prop * eb)%R). pose proof (mix_between prop ea eb Hp) as Hmx. fold m in Hmx.
    assert (Hm0 : (0 < m)%R). { assert (0 < Rmin ea eb)%R by (unfold Rmin; destruct (Rle_dec ea eb); auto). lra. }
    rewrite (logshift_pos m (ymax st) Hm0). set (z := (ln m + ymax st - 50)%R).
    assert (Hez : (exp (z - ymax st + 50) = m)%R) by (unfold z; replace (ln m + ymax st - 50 - ymax st + 50)%R with (ln m) by ring; apply exp_ln; auto).
    assert (Hln : forall y1 y2, (exp (y1 - ymax st + 50) <= exp (y2 - ymax st + 50))%R -> (y1 <= y2)%R).
    { intros y1 y2 Hle. destruct (Rle_dec y1 y2) as [|Q]; auto. exfalso. pose proof (exp_increasing (y2 - ymax st + 50) (y1 - ymax st + 50)). lra. }
    assert (Hz : (Rmin (py a) (py b) <= z <= Rmax (py a) (py b))%R).
    { unfold Rmin, Rmax in *. destruct (Rle_dec (py a) (py b)) as [Q|Q].
      - assert (ea <= eb)%R. { rewrite Xa, Xb. destruct (Req_EM_T (py a) (py b)) as [->|]; [lra|]. left. apply exp_increasing. lra. } destruct (Rle_dec ea eb); [|lra]. split; apply Hln; lra.
      - assert (eb < ea)%R by (rewrite Xa, Xb; apply exp_increasing; lra). destruct (Rle_dec ea eb); [lra|]. split; apply Hln; lra. }
    set (x := (xa + (xb - xa) / (py b - py a) * (- py a + z))%R). assert (Hyx : ((x - xa) / (xb - xa) * (py b - py a) + py a = z)%R) by (unfold x; field; split; lra).
    assert (Hli : line a b x = z) by (unfold line; fold xa xb; lra).
    assert (Hfr : (0 <= (z - py a) / (py b - py a) <= 1)%R).
    { unfold Rmin, Rmax in Hz. destruct (Rle_dec (py a) (py b)) as [Q|Q]; [apply frac01; lra|]. replace ((z - py a) / (py b - py a))%R with (1 - (z - py b) / (py a - py b))%R by (field; lra). pose proof (frac01 z (py b) (py a) ltac:(lra) ltac:(lra)). lra. }
    assert (Hxx : (x - xa = (xb - xa) * ((z - py a) / (py b - py a)))%R) by (unfold x; field; auto).
    assert (Hin : (xa <= x <= xb)%R). { assert (0 <= (xb - xa) * ((z - py a) / (py b - py a)))%R by (apply Rmult_le_pos; lra). assert ((xb - xa) * ((z - py a) / (py b - py a)) <= (xb - xa) * 1)%R by (apply Rmult_le_compat_l; lra). lra. }
    rewrite Hyx. assert (Hez2 : expshift z (ymax st) = m). { rewrite expshift_exp; auto. pose proof (Hn _ _ Ha). pose proof (Hn _ _ Hb). unfold Rmin in Hz. destruct (Rle_dec (py a) (py b)); lra. }
    assert (Heq : (pcum a + (xb - xa) / (py b - py a) * (exp (line a b x - ymax st + 50) - ea) = u)%R).
    { rewrite Hli, Hez. replace u with (pcum a + prop * ((eb - ea) / (py b - py a) * (xb - xa)))%R by lra. unfold m. field. auto. }
    exists (Wk x z (expshift z (ymax st)) j), a, b, tot. cbn [wx wy wey wr]. fold xa xb. rewrite HP, HA, Heq.
    split; [auto|]. split; [auto|]. split; [auto|]. split; [auto|]. split; [auto|]. split; [auto|]. split; [auto|]. split; [rewrite Hli, Hez; auto|]. split; [rewrite Hez2; auto|]. split; [auto|].
    rewrite Rminus_eq_0, Rabs_R0. apply Rmult_le_pos; [lra|lra].
Qed.
