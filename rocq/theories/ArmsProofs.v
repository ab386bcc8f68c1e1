(** Lemmas for C115 and C116 (apop_arms.c). *)
From Coq Require Import Reals Lra.
From Verif Require Import DataModel ArmsModel ArmsSpec.
Local Open Scope list_scope.
Local Open Scope nat_scope.

(** ---------- the intersection as a function of the four neighbours ---------- *)
Definition atl (d : R) : R := if Rlt_dec d YEPS then YEPS else d.
Definition adl (s : aset) (g c : R) : R := if Rltb g c then (g + (1 + convex s) * (c - g))%R else g.
Definition adr (s : aset) (g c : R) : R := if Rltb c g then (g + (1 + convex s) * (c - g))%R else g.
Definition mvals (s : aset) (a3 a b b3 : option pt) (x0 : R) : R * R :=
  match a, b with
  | Some a, Some b =>
    let c := slope b a in let w := (px b - px a)%R in
    match a3, b3 with
    | Some a3, Some b3 => let dr := atl ((adl s (slope a a3) c - c) * w) in let dl := atl ((c - adr s (slope b b3) c) * w) in
        ((dl * px b + dr * px a) / (dl + dr), (dl * py b + dr * py a + dl * dr) / (dl + dr))%R
    | Some a3, None => (px b, (py b + atl ((adl s (slope a a3) c - c) * w))%R)
    | None, Some b3 => (px a, (py a + atl ((c - adr s (slope b b3) c) * w))%R)
    | None, None => (0, 0)%R end
  | Some a, None => match a3 with Some a3 => (x0, (py a + slope a a3 * (x0 - px a))%R) | None => (0, 0)%R end
  | None, Some b => match b3 with Some b3 => (x0, (py b - slope b b3 * (px b - x0))%R) | None => (0, 0)%R end
  | None, None => (0, 0)%R
  end.
Definition prv (l : list pt) (i k : nat) : option pt := if i <? k then None else l !! (i - k).
Definition mval (s : aset) (l : list pt) (i : nat) (x0 : R) : R * R := mvals s (prv l i 3) (prv l i 1) (l !! (i + 1)) (l !! (i + 3)) x0.
(** the parts of the envelope that the intersections depend on *)
Definition skel (s : aset) (f : R -> R) (l : list pt) : Prop :=
  (exists n, 3 <= n /\ length l = 2 * n + 1) /\
  (forall i q, l !! i = Some q -> pf q = Nat.odd i) /\
  (forall i q, l !! i = Some q -> pf q = true -> py q = f (px q)) /\
  (forall i a b, Nat.odd i = true -> l !! i = Some a -> l !! (i + 2) = Some b -> (px a < px b)%R) /\
  (forall q, l !! 0 = Some q -> px q = xl s) /\ (forall q, l !! (length l - 1) = Some q -> px q = xr s) /\
  (forall q, l !! 1 = Some q -> (xl s <= px q)%R) /\ (forall q, l !! (length l - 2) = Some q -> (px q <= xr s)%R).
Definition mode (s : aset) (f : R -> R) : Prop := metro s = true \/ concave_on (xl s) (xr s) f.
Lemma atl_pos d : (0 < atl d)%R.
Proof. unfold atl, YEPS. destruct (Rlt_dec _ _); lra. Qed.
Lemma atl_le d : (d <= atl d)%R.
Proof. unfold atl. destruct (Rlt_dec _ _); lra. Qed.
(** the chords of a concave function *)
Lemma concave_mid a b f x y z : concave_on a b f -> (a <= x)%R -> (x < y)%R -> (y < z)%R -> (z <= b)%R -> ((z - y) * f x + (y - x) * f z <= (z - x) * f y)%R.
Proof.
  intros H H1 H2 H3 H4. pose proof (H x z ((z - y) / (z - x))%R) as Hc.
  assert (E : ((z - y) / (z - x) * x + (1 - (z - y) / (z - x)) * z = y)%R) by (field; lra). rewrite E in Hc.
  assert (T : (0 <= (z - y) / (z - x) <= 1)%R). { split; [apply Rmult_le_pos; [lra|left; apply Rinv_0_lt_compat; lra]|]. apply Rmult_le_reg_r with (z - x)%R; [lra|]. unfold Rdiv. rewrite Rmult_assoc, Rinv_l; lra. }
  specialize (Hc ltac:(lra) ltac:(lra) T). apply Rmult_le_compat_l with (r := (z - x)%R) in Hc; [|lra].
  replace ((z - x) * ((z - y) / (z - x) * f x + (1 - (z - y) / (z - x)) * f z))%R with ((z - y) * f x + (y - x) * f z)%R in Hc by (field; lra). exact Hc.
Qed.
Lemma div_le a b c d : (0 < b)%R -> (0 < d)%R -> (a * d <= c * b)%R -> (a / b <= c / d)%R.
Proof.
  intros Hb Hd H. apply Rmult_le_reg_r with (b * d)%R; [apply Rmult_lt_0_compat; auto|]. replace (a / b * (b * d))%R with (a * d)%R by (field; lra). replace (c / d * (b * d))%R with (c * b)%R by (field; lra). auto.
Qed.
(** slopes of chords decrease *)
Lemma chord_mono a b f (p q r : pt) : concave_on a b f -> (a <= px p)%R -> (px p < px q)%R -> (px q < px r)%R -> (px r <= b)%R ->
  py p = f (px p) -> py q = f (px q) -> py r = f (px r) -> (slope r q <= slope q p)%R.
Proof.
  intros H H1 H2 H3 H4 E1 E2 E3. pose proof (concave_mid a b f _ _ _ H H1 H2 H3 H4) as Hc. unfold slope. rewrite E1, E2, E3. apply div_le; lra.
Qed.
Lemma slope_sym p q : px p <> px q -> slope p q = slope q p.
Proof. intros H. unfold slope. field. split; intros E; apply H; lra. Qed.

Lemma odd_2k k : Nat.odd (2 * k + 1) = true.
Proof. rewrite Nat.add_comm, Nat.odd_add_mul_2. auto. Qed.
Section skel.
Variables (s : aset) (f : R -> R) (l : list pt).
Hypothesis (Hs : skel s f l).
Lemma skel_lt i a b : Nat.odd i = true -> l !! i = Some a -> l !! (i + 2) = Some b -> (px a < px b)%R.
Proof. destruct Hs as (_ & _ & _ & H & _). eauto. Qed.
Lemma skel_y i a : Nat.odd i = true -> l !! i = Some a -> py a = f (px a).
Proof. destruct Hs as (_ & H1 & H2 & _). intros Hi Ha. apply (H2 i); auto. rewrite (H1 _ _ Ha). auto. Qed.
(** all density points are within the bounds *)
Lemma skel_ge : forall k a, l !! (2 * k + 1) = Some a -> (xl s <= px a)%R.
Proof.
  induction k as [|k IH]; intros a Ha.
  - destruct Hs as (_ & _ & _ & _ & _ & _ & H & _). apply H. exact Ha.
  - assert (Hl : 2 * k + 1 < length l) by (apply lookup_lt_Some in Ha; lia). apply lookup_lt_is_Some_2 in Hl as (p & Hp). specialize (IH p Hp).
    assert (px p < px a)%R; [|lra]. apply (skel_lt (2 * k + 1)); [apply odd_2k|exact Hp|]. replace (2 * k + 1 + 2) with (2 * S k + 1) by lia. auto.
Qed.
Lemma skel_le : forall d k a, length l - 2 - (2 * k + 1) = 2 * d -> l !! (2 * k + 1) = Some a -> (px a <= xr s)%R.
Proof.
  destruct Hs as ((n & Hn & Hlen) & _). induction d as [|d IH]; intros k a Hd Ha.
  - destruct Hs as (_ & _ & _ & _ & _ & _ & _ & H). apply H. assert (2 * k + 1 < length l) by (apply lookup_lt_Some in Ha; lia). replace (length l - 2) with (2 * k + 1) by lia. auto.
  - assert (Hl : 2 * S k + 1 < length l) by lia. apply lookup_lt_is_Some_2 in Hl as (p & Hp). specialize (IH (S k) p ltac:(lia) Hp).
    assert (px a < px p)%R; [|lra]. apply (skel_lt (2 * k + 1)); [apply odd_2k|exact Ha|]. replace (2 * k + 1 + 2) with (2 * S k + 1) by lia. auto.
Qed.
Lemma skel_in i a : Nat.odd i = true -> l !! i = Some a -> (xl s <= px a <= xr s)%R.
Proof.
  intros Hi Ha. apply Nat.odd_spec in Hi as (k & ->). split; [eapply skel_ge; eauto|]. destruct Hs as ((n & Hn & Hlen) & _). eapply (skel_le (n - 1 - k)); eauto.
  apply lookup_lt_Some in Ha. lia.
Qed.
Lemma even_prev i : Nat.even (S i) = true -> Nat.odd i = true.
Proof. rewrite Nat.even_succ. auto. Qed.
(** the meeting point is computed, and is as the four neighbours say *)
Lemma meet_ok i q : mode s f -> Nat.even i = true -> l !! i = Some q ->
  meet s l i = Ok (Some (Pt (fst (mval s l i (px q))) (snd (mval s l i (px q))) (pey q) (pcum q) false)).
Proof.
  intros Hm Hi Hq. destruct Hs as ((n & Hn & Hlen) & Hf & _). pose proof Hi as Hi'. apply Nat.even_spec in Hi' as (k & Hk).
  assert (Hlt : i < length l) by (eapply lookup_lt_Some; eauto).
  assert (Hpf : pf q = false) by (rewrite (Hf _ _ Hq), <- Nat.negb_even, Hi; auto).
  unfold meet. rewrite Hq, Hpf. unfold mval, prv.
  destruct (decide (i = 0)) as [->|H0].
  - assert (S1 : is_Some (l !! 1)) by (apply lookup_lt_is_Some_2; lia). assert (S2 : is_Some (l !! 2)) by (apply lookup_lt_is_Some_2; lia). assert (S3 : is_Some (l !! 3)) by (apply lookup_lt_is_Some_2; lia).
    destruct S1 as (b & Eb), S2 as (b2 & E2), S3 as (b3 & E3). cbn [Nat.add Nat.ltb Nat.leb]. rewrite Eb. cbn [rbind]. rewrite E2, E3. cbn [rbind option_map andb orb mvals fst snd].
    assert (L : (xl s <= px b)%R) by (eapply (skel_in 1); eauto). assert (Ex : px q = xl s). { destruct Hs as (_ & _ & _ & _ & H & _). auto. }
    unfold Rltb. destruct (Rlt_dec (px b) (px q)) as [X|X]; [lra|]. auto.
  - destruct k as [|k]; [lia|]. assert (Hi3 : exists j, i = S (S j)) by (exists (2 * k); lia). destruct Hi3 as (j & Ej). assert (Hk2 : j = 2 * k) by lia. clear Hk. subst i.
    assert (S1 : is_Some (l !! S j)) by (apply lookup_lt_is_Some_2; lia). destruct S1 as (a & Ea). cbv zeta. cbv iota beta. rewrite Ea.
    assert (Oj : Nat.odd (S j) = true) by (apply even_prev; auto).
    replace (S (S j) <? 1) with false by (symmetry; apply Nat.ltb_ge; lia). replace (S (S j) - 1) with (S j) by lia. rewrite Ea.
    destruct (decide (S (S j) = 2 * n)) as [Hend|Hend].
    + (* right bound *)
      assert (Eb : l !! S (S (S j)) = None) by (apply lookup_ge_None; lia). replace (S (S j) + 1) with (S (S (S j))) by lia. rewrite Eb.
      destruct j as [|j]; [lia|]. assert (S3 : is_Some (l !! j)) by (apply lookup_lt_is_Some_2; lia). destruct S3 as (a3 & E3). rewrite E3. cbn [option_map rbind andb orb].
      replace (S (S (S j)) <? 3) with false by (symmetry; apply Nat.ltb_ge; lia). replace (S (S (S j)) - 3) with j by lia. rewrite E3. cbn [mvals fst snd].
      assert (L : (px a <= xr s)%R) by (eapply (skel_in (S (S j))); eauto). assert (Ex : px q = xr s). { destruct Hs as (_ & _ & _ & _ & _ & H & _). apply H. rewrite Hlen. replace (2 * n + 1 - 1) with (S (S (S j))) by lia. auto. }
      unfold Rltb. destruct (Rlt_dec (px q) (px a)) as [X|X]; [lra|]. auto.
    + assert (S1 : is_Some (l !! S (S (S j)))) by (apply lookup_lt_is_Some_2; lia). destruct S1 as (b & Eb).
      assert (S2 : is_Some (l !! (S (S j) + 2))) by (apply lookup_lt_is_Some_2; lia). destruct S2 as (b2 & E2).
      replace (S (S j) + 1) with (S (S (S j))) by lia. rewrite Eb, E2.
      assert (Lab : (px a < px b)%R). { eapply (skel_lt (S j)); eauto. replace (S j + 2) with (S (S (S j))) by lia. auto. }
      assert (Oj2 : Nat.odd (S (S (S j))) = true) by auto.
      set (B3 := l !! (S (S j) + 3)).
      assert (HB3 : forall b3, B3 = Some b3 -> (px b < px b3)%R /\ Nat.odd (S (S j) + 3) = true).
      { intros b3 E. assert (O : Nat.odd (S (S j) + 3) = true) by (replace (S (S j) + 3) with (2 + (2 + S j)) by lia; auto). split; auto. eapply (skel_lt (S (S (S j)))); eauto. rewrite <- E. unfold B3. f_equal. lia. }
      set (A3 := match j with O => None | S j' => l !! j' end).
      assert (HA3 : forall a3, A3 = Some a3 -> (px a3 < px a)%R /\ Nat.odd (j - 1) = true /\ l !! (j - 1) = Some a3).
      { intros a3 E. unfold A3 in E. destruct j as [|j]; [discriminate|]. replace (S j - 1) with j by lia. assert (O : Nat.odd j = true) by auto. split; auto. eapply (skel_lt j); eauto. replace (j + 2) with (S (S j)) by lia. auto. }
      assert (EA3 : (if S (S j) <? 3 then None else l !! (S (S j) - 3)) = A3). { unfold A3. destruct j as [|j]; auto. replace (S (S (S j)) <? 3) with false by (symmetry; apply Nat.ltb_ge; lia). f_equal. lia. }
      rewrite EA3.
      assert (EG : match j with 0 => Ok None | S j' => Ok (option_map (slope a) (l !! j')) end = Ok (option_map (slope a) A3)) by (unfold A3; destruct j; auto).
      replace (match S j with 0 => UB | 1 => Ok None | S (S j') => Ok (option_map (slope a) (l !! j')) end) with (Ok (option_map (slope a) A3)) by (rewrite <- EG; destruct j; auto).
      cbn [rbind].
      assert (Hone : A3 <> None \/ B3 <> None).
      { destruct (decide (j = 0)) as [->|Hj].
        - right. unfold B3. intros E. apply lookup_ge_None in E. lia.
        - left. unfold A3. destruct j as [|j]; [lia|]. intros E. apply lookup_ge_None in E. lia. }
      assert (HvL : forall a3, A3 = Some a3 -> metro s = true \/ (slope b a <= slope a a3)%R).
      { intros a3 E. destruct Hm as [Hm|Hm]; auto. right. destruct (HA3 _ E) as (L3 & O3 & E3). apply (chord_mono (xl s) (xr s) f a3 a b); auto; eauto using skel_y.
        - eapply (skel_in (j - 1)); eauto.
        - eapply (skel_in (S (S (S j)))); eauto. }
      assert (HvR : forall b3, B3 = Some b3 -> metro s = true \/ (slope b b3 <= slope b a)%R).
      { intros b3 E. destruct Hm as [Hm|Hm]; auto. right. destruct (HB3 _ E) as (L3 & O3). rewrite (slope_sym b b3) by lra. apply (chord_mono (xl s) (xr s) f a b b3); auto; eauto using skel_y.
        - eapply (skel_in (S j)); eauto.
        - eapply (skel_in (S (S j) + 3)); eauto. }
      set (bl := match option_map (slope a) A3 with Some g => Rltb g (slope b a) | None => false end).
      set (br := match option_map (slope b) B3 with Some g => Rltb (slope b a) g | None => false end).
      assert (HV : (bl || br) && negb (metro s) = false).
      { unfold bl, br, Rltb. destruct (metro s) eqn:Em; [apply andb_false_r|]. destruct A3 as [a3|], B3 as [b3|]; cbn [option_map]; repeat (destruct (Rlt_dec _ _) as [?X|?X]); auto; exfalso.
        all: try (destruct (HvL _ eq_refl) as [?|?]; [discriminate|lra]). all: try (destruct (HvR _ eq_refl) as [?|?]; [discriminate|lra]). }
      rewrite HV. fold (atl ((0)%R)).
      assert (Hx : forall dl dr, (0 < dl)%R -> (0 < dr)%R -> (px a <= (dl * px b + dr * px a) / (dl + dr) <= px b)%R).
      { intros dl dr Hdl Hdr. split; apply Rmult_le_reg_r with (dl + dr)%R; try lra; unfold Rdiv; rewrite Rmult_assoc, Rinv_l, Rmult_1_r by lra.
        - assert (dl * px a <= dl * px b)%R by (apply Rmult_le_compat_l; lra). lra.
        - assert (dr * px a <= dr * px b)%R by (apply Rmult_le_compat_l; lra). lra. }
      unfold bl, br. clear bl br HV. destruct A3 as [a3|], B3 as [b3|]; cbn [option_map mvals]; [| | |destruct Hone; congruence].
      * unfold adl, adr. destruct (Rltb (slope a a3) (slope b a)), (Rltb (slope b a) (slope b b3)); cbv zeta; cbn [rbind fst snd];
          (match goal with |- context [Rltb ((?d1 * px b + ?d2 * px a) / (?d1 + ?d2))%R (px a)] => pose proof (Hx d1 d2 (atl_pos _) (atl_pos _)) as HX; unfold Rltb;
             destruct (Rlt_dec ((d1 * px b + d2 * px a) / (d1 + d2)) (px a)) as [X1|X1]; [lra|]; destruct (Rlt_dec (px b) ((d1 * px b + d2 * px a) / (d1 + d2))) as [X2|X2]; [lra|]; reflexivity end).
      * unfold adl. destruct (Rltb (slope a a3) (slope b a)); cbv zeta; cbn [rbind fst snd]; unfold Rltb; destruct (Rlt_dec (px b) (px a)) as [X|X]; try lra; destruct (Rlt_dec (px b) (px b)) as [X2|X2]; try lra; reflexivity.
      * unfold adr. destruct (Rltb (slope b a) (slope b b3)); cbv zeta; cbn [rbind fst snd]; unfold Rltb; destruct (Rlt_dec (px a) (px a)) as [X|X]; try lra; destruct (Rlt_dec (px b) (px a)) as [X2|X2]; try lra; reflexivity.
Qed.
End skel.

(** ---------- meeting at several places ---------- *)
Definition right_at (s : aset) (l : list pt) (i : nat) : Prop := forall q, l !! i = Some q -> (px q, py q) = mval s l i (px q).
Definition same_odd (l l' : list pt) : Prop := length l' = length l /\ forall i, Nat.odd i = true -> l' !! i = l !! i.
Lemma even_odd_3 i : Nat.even i = true -> Nat.odd (i + 3) = true /\ Nat.odd (i + 1) = true /\ (3 <= i -> Nat.odd (i - 3) = true) /\ (1 <= i -> Nat.odd (i - 1) = true).
Proof.
  intros H. apply Nat.even_spec in H as (k & ->). repeat split; intros; apply Nat.odd_spec.
  - exists (k + 1). lia. - exists k. lia. - exists (k - 2). lia. - exists (k - 1). lia.
Qed.
Lemma mval_ext s l l' i x0 : same_odd l l' -> Nat.even i = true -> mval s l' i x0 = mval s l i x0.
Proof.
  intros (_ & H) Hi. destruct (even_odd_3 i Hi) as (A & B & C & D). unfold mval.
  assert (P3 : prv l' i 3 = prv l i 3). { unfold prv. destruct (Nat.ltb_spec i 3) as [X|X]; auto. }
  assert (P1 : prv l' i 1 = prv l i 1). { unfold prv. destruct (Nat.ltb_spec i 1) as [X|X]; auto. }
  rewrite P3, P1, !H by auto. auto.
Qed.
Lemma mval_ends s f l i q : skel s f l -> l !! i = Some q -> i = 0 \/ i = length l - 1 -> fst (mval s l i (px q)) = px q.
Proof.
  intros ((n & Hn & Hl) & _) Hq [-> | ->]; unfold mval, prv; cbn [Nat.ltb Nat.leb].
  - assert (S1 : is_Some (l !! (0 + 1))) by (apply lookup_lt_is_Some_2; lia). assert (S3 : is_Some (l !! (0 + 3))) by (apply lookup_lt_is_Some_2; lia). destruct S1 as (b & ->), S3 as (b3 & ->). auto.
  - rewrite Hl. replace (2 * n + 1 - 1 <? 3) with false by (symmetry; apply Nat.ltb_ge; lia). replace (2 * n + 1 - 1 <? 1) with false by (symmetry; apply Nat.ltb_ge; lia).
    rewrite (proj2 (lookup_ge_None l (2 * n + 1 - 1 + 1))) by lia.
    assert (S1 : is_Some (l !! (2 * n + 1 - 1 - 1))) by (apply lookup_lt_is_Some_2; lia). assert (S3 : is_Some (l !! (2 * n + 1 - 1 - 3))) by (apply lookup_lt_is_Some_2; lia). destruct S1 as (b & ->), S3 as (b3 & ->). auto.
Qed.
Lemma even_not_odd i : Nat.even i = true -> Nat.odd i = false.
Proof. intros H. rewrite <- Nat.negb_even, H. auto. Qed.
Lemma skel_insert s f l i q x y e c : skel s f l -> Nat.even i = true -> l !! i = Some q -> (i = 0 \/ i = length l - 1 -> x = px q) ->
  skel s f (<[i := Pt x y e c false]> l) /\ same_odd l (<[i := Pt x y e c false]> l).
Proof.
  intros Hs Hi Hq Hx. pose proof (even_not_odd i Hi) as Ho. assert (Hlt : i < length l) by (eapply lookup_lt_Some; eauto).
  assert (SO : same_odd l (<[i := Pt x y e c false]> l)). { split; [apply insert_length|]. intros j Hj. apply list_lookup_insert_ne. intros ->. congruence. }
  split; [|exact SO]. destruct SO as [SL SO]. destruct Hs as (H1 & H2 & H3 & H4 & H5 & H6 & H7 & H8). rewrite <- SL in H1. split; [exact H1|]. destruct H1 as (n & Hn & Hlen). rewrite SL in *.
  split; [|split; [|split; [|split; [|split; [|split]]]]].
  - intros j p Hp. destruct (decide (i = j)) as [<-|]; [rewrite list_lookup_insert in Hp by auto; injection Hp as <-; auto|rewrite list_lookup_insert_ne in Hp by auto; eauto].
  - intros j p Hp. destruct (decide (i = j)) as [<-|]; [rewrite list_lookup_insert in Hp by auto; injection Hp as <-; discriminate|rewrite list_lookup_insert_ne in Hp by auto; eauto].
  - intros j a b Hj Ha Hb. rewrite SO in Ha by auto. rewrite SO in Hb by (rewrite Nat.add_comm; auto). eauto.
  - intros p Hp. destruct (decide (i = 0)) as [->|]; [rewrite list_lookup_insert in Hp by auto; injection Hp as <-; cbn; rewrite Hx; auto|rewrite list_lookup_insert_ne in Hp by auto; eauto].
  - intros p Hp. destruct (decide (i = length l - 1)) as [E|]; [subst i; rewrite list_lookup_insert in Hp by auto; injection Hp as <-; cbn; rewrite Hx; auto|rewrite list_lookup_insert_ne in Hp by auto; eauto].
  - intros p Hp. rewrite SO in Hp by auto. eauto.
  - intros p Hp. rewrite SO in Hp; eauto. apply Nat.odd_spec. exists (n - 1). lia.
Qed.
Lemma same_odd_trans a b c : same_odd a b -> same_odd b c -> same_odd a c.
Proof. intros (L1 & H1) (L2 & H2). split; [congruence|]. intros i Hi. rewrite H2, H1; auto. Qed.
Lemma meets_ok s f : mode s f -> forall is l, skel s f l -> Forall (fun i => Nat.even i = true /\ i < length l) is ->
  exists l', meets s l is = Ok (Some l') /\ skel s f l' /\ same_odd l l' /\ (forall i, In i is -> right_at s l' i) /\ (forall i, ~ In i is -> l' !! i = l !! i).
Proof.
  intros Hm. induction is as [|i is IH]; intros l Hs Hf; cbn [meets].
  - exists l. split; auto. split; auto. split; [split; auto|]. split; [intros i []|auto].
  - inversion Hf as [|? ? (Hi & Hlt) Hf2]; subst. apply lookup_lt_is_Some_2 in Hlt as (q & Hq). unfold meet_at. rewrite (meet_ok s f l Hs i q Hm Hi Hq). cbn [rbind option_map].
    set (q' := Pt _ _ _ _ _). assert (Hx : i = 0 \/ i = length l - 1 -> fst (mval s l i (px q)) = px q) by (intros X; eapply mval_ends; eauto).
    destruct (skel_insert s f l i q (fst (mval s l i (px q))) (snd (mval s l i (px q))) (pey q) (pcum q) Hs Hi Hq Hx) as (Hs1 & SO). fold q' in Hs1, SO.
    destruct (IH (<[i:=q']> l) Hs1) as (l' & E & A & B & C & D).
    { rewrite insert_length. auto. }
    exists l'. split; auto. split; auto. split; [eapply same_odd_trans; eauto|]. split.
    + intros j [<-|Hj]; auto. destruct (in_dec Nat.eq_dec i is) as [|Hni]; auto.
      intros p Hp. rewrite D in Hp by auto. rewrite list_lookup_insert in Hp by (eapply lookup_lt_Some; eauto). injection Hp as <-. unfold q'. cbn [px py].
      rewrite (mval_ext s l l' i _ (same_odd_trans _ _ _ SO B) Hi). destruct (decide (i = 0 \/ i = length l - 1)) as [He|He].
      * rewrite (Hx He). rewrite <- (Hx He) at 1. symmetry. apply surjective_pairing.
      * rewrite <- surjective_pairing. unfold mval. unfold mvals, prv.
        destruct Hs as ((n & Hn & Hlen) & _). assert (1 <= i) by lia. pose proof (lookup_lt_Some _ _ _ Hq) as Hlt.
        assert (i + 1 < length l) by lia. replace (i <? 1) with false by (symmetry; apply Nat.ltb_ge; lia).
        assert (S1 : is_Some (l !! (i + 1))) by (apply lookup_lt_is_Some_2; lia). assert (S2 : is_Some (l !! (i - 1))) by (apply lookup_lt_is_Some_2; lia). destruct S1 as (b & ->), S2 as (a & ->). auto.
    + intros j Hj. rewrite D by (intros X; apply Hj; right; auto). apply list_lookup_insert_ne. intros ->. apply Hj. left. auto.
Qed.
Definition full (s : aset) (f : R -> R) (l : list pt) : Prop := skel s f l /\ forall i, Nat.even i = true -> right_at s l i.

(** ---------- order along the envelope ---------- *)
Lemma between u v dl dr : (u < v)%R -> (0 < dl)%R -> (0 < dr)%R -> (u < (dl * v + dr * u) / (dl + dr) < v)%R.
Proof.
  intros H Hdl Hdr. split; apply Rmult_lt_reg_r with (dl + dr)%R; try lra; unfold Rdiv; rewrite Rmult_assoc, Rinv_l, Rmult_1_r by lra.
  - assert (dl * u < dl * v)%R by (apply Rmult_lt_compat_l; lra). lra.
  - assert (dr * u < dr * v)%R by (apply Rmult_lt_compat_l; lra). lra.
Qed.
(** an inner intersection and its neighbours: strictly between, except next to the last density points *)
Lemma inner_pos s f l i q : full s f l -> Nat.even i = true -> l !! i = Some q -> 1 <= i -> i + 1 < length l ->
  exists a b, l !! (i - 1) = Some a /\ l !! (i + 1) = Some b /\ (px a < px b)%R /\ (px a <= px q <= px b)%R /\
    (3 <= i -> (px a < px q)%R) /\ (i + 3 < length l -> (px q < px b)%R) /\ (i < 3 -> px q = px a /\ (py a < py q)%R) /\ (length l <= i + 3 -> px q = px b /\ (py b < py q)%R).
Proof.
  intros (Hs & Hr) Hi Hq H1 H2. destruct (even_odd_3 i Hi) as (O3 & O1 & O3' & O1'). specialize (Hr i Hi q Hq).
  assert (S1 : is_Some (l !! (i + 1))) by (apply lookup_lt_is_Some_2; lia). assert (S2 : is_Some (l !! (i - 1))) by (apply lookup_lt_is_Some_2; lia). destruct S1 as (b & Eb), S2 as (a & Ea).
  exists a, b. split; [auto|]. split; [auto|].
  assert (Lab : (px a < px b)%R). { eapply (skel_lt s f l Hs (i - 1)); eauto. replace (i - 1 + 2) with (i + 1) by lia. auto. }
  split; [auto|]. pose proof Hs as ((n & Hn & Hlen) & _).
  unfold mval, mvals, prv in Hr. replace (i <? 1) with false in Hr by (symmetry; apply Nat.ltb_ge; lia). rewrite Ea, Eb in Hr.
  destruct (Nat.ltb_spec i 3) as [L3|L3].
  - assert (S3 : is_Some (l !! (i + 3))) by (apply lookup_lt_is_Some_2; lia). destruct S3 as (b3 & E3). rewrite E3 in Hr. injection Hr as Hx Hy. rewrite Hx, Hy.
    pose proof (atl_pos ((slope b a - adr s (slope b b3) (slope b a)) * (px b - px a))). repeat split; intros; try lra; try lia.
  - assert (S4 : is_Some (l !! (i - 3))) by (apply lookup_lt_is_Some_2; lia). destruct S4 as (a3 & E4). rewrite E4 in Hr.
    destruct (l !! (i + 3)) as [b3|] eqn:E3.
    + injection Hr as Hx Hy. apply lookup_lt_Some in E3. rewrite Hx.
      match type of Hx with _ = ((?d1 * px b + ?d2 * px a) / (?d1 + ?d2))%R => pose proof (between (px a) (px b) d1 d2 Lab (atl_pos _) (atl_pos _)) as HB end.
      repeat split; intros; try lra; lia.
    + injection Hr as Hx Hy. apply lookup_ge_None in E3. rewrite Hx, Hy. match goal with |- context [atl ?d] => pose proof (atl_pos d) end. repeat split; intros; try lra; lia.
Qed.
Lemma full_sorted s f l i a b : full s f l -> l !! i = Some a -> l !! (i + 1) = Some b -> (px a <= px b)%R.
Proof.
  intros Hf Ha Hb. pose proof Hf as (Hs & _). pose proof Hs as ((n & Hn & Hlen) & _). pose proof (lookup_lt_Some _ _ _ Hb) as Hlt.
  destruct (Nat.even i) eqn:Ei.
  - destruct (decide (i = 0)) as [->|H0].
    + destruct Hs as (_ & _ & _ & _ & H5 & _ & H7 & _). rewrite (H5 _ Ha). apply H7. auto.
    + destruct (inner_pos s f l i a Hf Ei Ha) as (u & v & E1 & E2 & _ & R & _); [lia|lia|]. assert (v = b) as -> by congruence. lra.
  - assert (Ei' : Nat.even (i + 1) = true) by (rewrite Nat.add_1_r, Nat.even_succ, <- Nat.negb_even, Ei; auto).
    destruct (decide (i + 1 = length l - 1)) as [He|He].
    + destruct Hs as (_ & _ & _ & _ & _ & H6 & _ & H8). rewrite <- He in H6. rewrite (H6 _ Hb). apply H8. replace (length l - 2) with i by lia. auto.
    + destruct (inner_pos s f l (i + 1) b Hf Ei' Hb) as (u & v & E1 & E2 & _ & R & _); [lia|lia|]. replace (i + 1 - 1) with i in E1 by lia. assert (u = a) as -> by congruence. lra.
Qed.
(** ---------- only x, y and the flag matter ---------- *)
Definition strip (q : pt) : pt := Pt (px q) (py q) 0 0 (pf q).
Definition alike (l l' : list pt) : Prop := map strip l = map strip l'.
Lemma alike_at l l' i : alike l l' -> option_map strip (l !! i) = option_map strip (l' !! i).
Proof. intros H. change (strip <$> l !! i = strip <$> l' !! i). rewrite <- !list_lookup_fmap. change (map strip l !! i = map strip l' !! i). rewrite H. auto. Qed.
Lemma alike_some l l' i q : alike l l' -> l' !! i = Some q -> exists p, l !! i = Some p /\ px p = px q /\ py p = py q /\ pf p = pf q.
Proof. intros H Hq. pose proof (alike_at _ _ i H) as E. rewrite Hq in E. destruct (l !! i) as [p|]; [|discriminate]. exists p. cbn in E. injection E as -> -> ->. auto. Qed.
Lemma alike_len l l' : alike l l' -> length l = length l'.
Proof. intros H. apply (f_equal length) in H. rewrite !map_length in H. auto. Qed.
Lemma mvals_strip s a3 a b b3 x0 : mvals s (option_map strip a3) (option_map strip a) (option_map strip b) (option_map strip b3) x0 = mvals s a3 a b b3 x0.
Proof. destruct a3, a, b, b3; reflexivity. Qed.
Lemma mval_alike s l l' i x0 : alike l l' -> mval s l i x0 = mval s l' i x0.
Proof.
  intros H. unfold mval. rewrite <- (mvals_strip s (prv l i 3)), <- (mvals_strip s (prv l' i 3)). f_equal; try apply alike_at; auto; unfold prv; destruct (_ <? _); auto; apply alike_at; auto.
Qed.
Lemma full_alike s f l l' : alike l l' -> full s f l -> full s f l'.
Proof.
  intros H ((H1 & H2 & H3 & H4 & H5 & H6 & H7 & H8) & Hr). pose proof (alike_len _ _ H) as HL. rewrite HL in H1, H6, H8. split; [split; [exact H1|]; split; [|split; [|split; [|split; [|split; [|split]]]]]|].
  - intros i q Hq. destruct (alike_some _ _ _ _ H Hq) as (p & Hp & _ & _ & E). rewrite <- E. eauto.
  - intros i q Hq Hf. destruct (alike_some _ _ _ _ H Hq) as (p & Hp & E1 & E2 & E). rewrite <- E1, <- E2. apply (H3 i); [auto|congruence].
  - intros i a b Hi Ha Hb. destruct (alike_some _ _ _ _ H Ha) as (p & Hp & E1 & _). destruct (alike_some _ _ _ _ H Hb) as (p' & Hp' & E2 & _). rewrite <- E1, <- E2. eauto.
  - intros q Hq. destruct (alike_some _ _ _ _ H Hq) as (p & Hp & E & _). rewrite <- E. eauto.
  - intros q Hq. destruct (alike_some _ _ _ _ H Hq) as (p & Hp & E & _). rewrite <- E. eauto.
  - intros q Hq. destruct (alike_some _ _ _ _ H Hq) as (p & Hp & E & _). rewrite <- E. eauto.
  - intros q Hq. destruct (alike_some _ _ _ _ H Hq) as (p & Hp & E & _). rewrite <- E. eauto.
  - intros i Hi q Hq. destruct (alike_some _ _ _ _ H Hq) as (p & Hp & E1 & E2 & _). rewrite <- E1, <- E2, <- (mval_alike s l l') by auto. apply Hr; auto.
Qed.
Lemma with_cum_alike : forall r a, map strip (with_cum a r) = map strip r.
Proof. induction r as [|q r IH]; intros a; cbn; auto. rewrite IH. auto. Qed.
Lemma cumulate_alike l : alike l (cumulate l).
Proof.
  unfold alike, cumulate. assert (E : map strip l = map strip (with_ey l (ymax_of l))) by (unfold with_ey; rewrite map_map; auto).
  rewrite E. destruct (with_ey l (ymax_of l)) as [|q r]; auto. cbn. rewrite with_cum_alike. auto.
Qed.
(** ---------- a new point ---------- *)
Definition grown (l l1 : list pt) (c : nat) : Prop :=
  length l1 = length l + 2 /\ Nat.odd c = true /\ c + 1 < length l1 /\
  (forall i, i + 2 <= c -> l1 !! i = l !! i) /\ (forall i, c + 2 <= i -> l1 !! i = l !! (i - 2)) /\
  (forall i q, l1 !! i = Some q -> pf q = Nat.odd i) /\
  (c = 1 -> l1 !! 0 = l !! 0) /\ (c + 2 = length l1 -> l1 !! (c + 1) = l !! (length l - 1)).
Lemma grown_step s f st x y k a b : full s f (env st) -> env st !! (k - 1) = Some a -> env st !! k = Some b -> 1 <= k ->
  exists l1 c, (if pf a && negb (pf b) then Some (take k (env st) ++ [blank 0; Pt x y 0 0 true] ++ drop k (env st), k + 1)
           else if negb (pf a) && pf b then Some (take k (env st) ++ [Pt x y 0 0 true; blank 0] ++ drop k (env st), k) else None) = Some (l1, c) /\ grown (env st) l1 c.
Proof.
  set (l := env st). intros (Hs & _) Ha Hb Hk. destruct Hs as ((n & Hn & Hlen) & H2 & _). pose proof (lookup_lt_Some _ _ _ Hb) as Hlt. rewrite (H2 _ _ Ha), (H2 _ _ Hb).
  assert (HO : forall j, Nat.odd (j - 2) = Nat.odd j \/ j < 2). { intros j. destruct (decide (j < 2)); auto. left. destruct j as [|[|j]]; try lia. cbn [Nat.sub]. rewrite Nat.sub_0_r. auto. }
  assert (Tk : forall (p q : pt) i, i < k -> (take k l ++ [p; q] ++ drop k l) !! i = l !! i). { intros p q i Hi. rewrite lookup_app_l by (rewrite take_length; lia). apply lookup_take. auto. }
  assert (Dk : forall (p q : pt) i, k + 2 <= i -> (take k l ++ [p; q] ++ drop k l) !! i = l !! (i - 2)).
  { intros p q i Hi. rewrite lookup_app_r by (rewrite take_length; lia). rewrite take_length. replace (k `min` length l) with k by lia. rewrite lookup_app_r by (cbn; lia). rewrite lookup_drop. f_equal. cbn. lia. }
  assert (P0 : forall (p q : pt), (take k l ++ [p; q] ++ drop k l) !! k = Some p). { intros p q. rewrite lookup_app_r by (rewrite take_length; lia). rewrite take_length. replace (k - k `min` length l) with 0 by lia. auto. }
  assert (P1 : forall (p q : pt), (take k l ++ [p; q] ++ drop k l) !! (k + 1) = Some q). { intros p q. rewrite lookup_app_r by (rewrite take_length; lia). rewrite take_length. replace (k + 1 - k `min` length l) with 1 by lia. auto. }
  assert (LL : forall (p q : pt), length (take k l ++ [p; q] ++ drop k l) = length l + 2). { intros p q. rewrite !app_length, take_length, drop_length. cbn. lia. }
  destruct (Nat.odd k) eqn:Ok.
  - (* right end on the density *)
    assert (Ek : Nat.odd (k - 1) = false). { destruct k as [|k]; [discriminate|]. cbn [Nat.sub]. rewrite Nat.sub_0_r. rewrite Nat.odd_succ in Ok. apply even_not_odd. auto. }
    rewrite Ek. cbn [andb negb]. eexists _, _. split; [reflexivity|]. split; [apply LL|]. split; [auto|]. split; [rewrite LL; apply Nat.odd_spec in Ok as (j & ->); lia|]. split; [|split; [|split; [|split]]].
    + intros i Hi. apply Tk. lia.
    + intros i Hi. apply Dk. lia.
    + intros i q Hq. destruct (decide (i < k)); [rewrite Tk in Hq by lia; eauto|]. destruct (decide (i = k)) as [->|]; [rewrite P0 in Hq; injection Hq as <-; auto|].
      destruct (decide (i = k + 1)) as [->|]; [rewrite P1 in Hq; injection Hq as <-; rewrite Nat.add_1_r, Nat.odd_succ, <- Nat.negb_odd, Ok; auto|].
      rewrite Dk in Hq by lia. rewrite (H2 _ _ Hq). destruct (HO i); [auto|lia].
    + intros ->. apply Tk. lia.
    + intros E. rewrite LL in E. apply Nat.odd_spec in Ok as (j & Ej). lia.
  - assert (Ek : Nat.odd (k - 1) = true). { destruct k as [|k]; [lia|]. cbn [Nat.sub]. rewrite Nat.sub_0_r. rewrite Nat.odd_succ in Ok. rewrite <- Nat.negb_even, Ok. auto. }
    rewrite Ek. cbn [andb negb]. eexists _, _. split; [reflexivity|]. split; [apply LL|]. split; [rewrite Nat.add_1_r, Nat.odd_succ, <- Nat.negb_odd, Ok; auto|]. split; [rewrite LL; lia|]. split; [|split; [|split; [|split]]].
    + intros i Hi. apply Tk. lia.
    + intros i Hi. apply Dk. lia.
    + intros i q Hq. destruct (decide (i < k)); [rewrite Tk in Hq by lia; eauto|]. destruct (decide (i = k)) as [->|]; [rewrite P0 in Hq; injection Hq as <-; auto|].
      destruct (decide (i = k + 1)) as [->|]; [rewrite P1 in Hq; injection Hq as <-; rewrite Nat.add_1_r, Nat.odd_succ, <- Nat.negb_odd, Ok; auto|].
      rewrite Dk in Hq by lia. rewrite (H2 _ _ Hq). destruct (HO i); [auto|lia].
    + intros E. apply Nat.odd_spec in Ek as (j & Ej). lia.
    + intros E. rewrite LL in E. rewrite Dk by lia. f_equal. lia.
Qed.
Lemma grown_skel s f l l1 c q : full s f l -> grown l l1 c -> pf q = true -> py q = f (px q) -> (xl s <= px q <= xr s)%R ->
  (forall a, 2 <= c -> l1 !! (c - 2) = Some a -> (px a < px q)%R) -> (forall b, l1 !! (c + 2) = Some b -> (px q < px b)%R) -> skel s f (<[c := q]> l1).
Proof.
  intros (Hs & _) (G1 & G2 & G3 & G4 & G5 & G6 & G7 & G8) Q1 Q2 Q3 Q4 Q5. destruct Hs as ((n & Hn & Hlen) & H2 & H3 & H4 & H5 & H6 & H7 & H8).
  pose proof G2 as G2'. apply Nat.odd_spec in G2' as (m & Hm).
  assert (At : forall i p, <[c := q]> l1 !! i = Some p -> i <> c -> l1 !! i = Some p) by (intros i p Hp Hne; rewrite list_lookup_insert_ne in Hp by auto; auto).
  assert (Cc : forall p, <[c := q]> l1 !! c = Some p -> p = q) by (intros p Hp; rewrite list_lookup_insert in Hp by lia; congruence).
  unfold skel. rewrite insert_length. split; [exists (S n); lia|]. split; [|split; [|split; [|split; [|split; [|split]]]]].
  - intros i p Hp. destruct (decide (i = c)) as [->|Hne]; [rewrite (Cc _ Hp), G2; auto|]. apply (G6 i). auto.
  - intros i p Hp Hf. destruct (decide (i = c)) as [->|Hne]; [rewrite (Cc _ Hp); auto|]. apply At in Hp; auto. pose proof (G6 _ _ Hp) as Ho. rewrite Hf in Ho. symmetry in Ho. apply Nat.odd_spec in Ho as (j & Hj).
    destruct (decide (i + 2 <= c)); [rewrite G4 in Hp by auto; eauto|]. rewrite G5 in Hp by lia. eauto.
  - intros i a b Hi Ha Hb. apply Nat.odd_spec in Hi as (j & Hj). destruct (decide (i = c)) as [->|H1c].
    + rewrite (Cc _ Ha). apply At in Hb; [|lia]. auto.
    + apply At in Ha; auto. destruct (decide (i + 2 = c)) as [E2|H2c].
      * rewrite E2 in Hb. rewrite (Cc _ Hb). apply Q4; [lia|]. replace (c - 2) with i by lia. auto.
      * apply At in Hb; auto. destruct (decide (i + 2 < c)).
        -- rewrite G4 in Ha, Hb by lia. apply (H4 i); auto. apply Nat.odd_spec. exists j. auto.
        -- rewrite G5 in Ha, Hb by lia. apply (H4 (i - 2)); auto; [apply Nat.odd_spec; exists (j - 1); lia|]. rewrite <- Hb. f_equal. lia.
  - intros p Hp. apply At in Hp; [|lia]. destruct (decide (c = 1)) as [E1|]; [rewrite G7 in Hp by auto|rewrite G4 in Hp by lia]; auto.
  - intros p Hp. apply At in Hp; [|lia]. destruct (decide (c + 2 = length l1)) as [E1|].
    + replace (length l1 - 1) with (c + 1) in Hp by lia. rewrite G8 in Hp by auto. auto.
    + rewrite G5 in Hp by lia. apply H6. rewrite <- Hp. f_equal. lia.
  - intros p Hp. destruct (decide (c = 1)) as [->|]; [rewrite (Cc _ Hp); lra|]. apply At in Hp; [|lia]. rewrite G4 in Hp by lia. auto.
  - intros p Hp. destruct (decide (length l1 - 2 = c)) as [E|]; [rewrite E in Hp; rewrite (Cc _ Hp); lra|]. apply At in Hp; [|auto]. rewrite G5 in Hp by lia. apply H8. rewrite <- Hp. f_equal. lia.
Qed.
(** intersections away from the new point have the neighbours they had *)
Lemma mval_far s l l1 l2 c q i x0 : grown l l1 c -> same_odd (<[c := q]> l1) l2 -> Nat.even i = true ->
  (i + 5 <= c -> mval s l2 i x0 = mval s l i x0) /\ (c + 5 <= i -> mval s l2 i x0 = mval s l (i - 2) x0).
Proof.
  intros (G1 & G2 & G3 & G4 & G5 & _) SO Hi. assert (Et : mval s l2 i x0 = mval s (<[c := q]> l1) i x0) by (apply mval_ext; auto). rewrite Et. unfold mval, prv. split; intros Hc.
  - rewrite !list_lookup_insert_ne by lia. rewrite (G4 (i + 1)), (G4 (i + 3)), (G4 (i - 3)), (G4 (i - 1)) by lia. auto.
  - replace (i <? 3) with false by (symmetry; apply Nat.ltb_ge; lia). replace (i <? 1) with false by (symmetry; apply Nat.ltb_ge; lia). replace (i - 2 <? 3) with false by (symmetry; apply Nat.ltb_ge; lia). replace (i - 2 <? 1) with false by (symmetry; apply Nat.ltb_ge; lia).
    rewrite !list_lookup_insert_ne by lia. rewrite (G5 (i + 1)), (G5 (i + 3)), (G5 (i - 3)), (G5 (i - 1)) by lia.
    replace (i - 3 - 2) with (i - 2 - 3) by lia. replace (i - 1 - 2) with (i - 2 - 1) by lia. replace (i + 1 - 2) with (i - 2 + 1) by lia. replace (i + 3 - 2) with (i - 2 + 3) by lia. auto.
Qed.
Lemma odd_even_pred c : Nat.odd c = true -> Nat.even (c - 1) = true /\ Nat.even (c + 1) = true /\ Nat.even (c + 3) = true /\ (3 <= c -> Nat.even (c - 3) = true).
Proof. intros H. apply Nat.odd_spec in H as (k & ->). repeat split; intros; apply Nat.even_spec; [exists k|exists (k + 1)|exists (k + 2)|exists (k - 1)]; lia. Qed.
(** the state between draws *)
Definition cumulated (st : arms) : Prop := exists l, env st = cumulate l /\ ymax st = ymax_of l.
Definition Inv (s : aset) (f : R -> R) (st : arms) : Prop := full s f (env st) /\ cumulated st /\ length (env st) <= npoint s.
Lemma update_ok s f st x k a b : mode s f -> Inv s f st -> env st !! (k - 1) = Some a -> env st !! k = Some b -> 1 <= k -> (px a < px b)%R ->
  exists st', update s f st x (f x) k = Ok (Some st') /\ Inv s f st' /\ xprev st' = xprev st /\ yprev st' = yprev st.
Proof.
  intros Hm (Hf & Hcu & Hnp) Ha Hb Hk Hab. unfold update. destruct (Nat.ltb_spec (npoint s) (length (env st) + 2)) as [Hfull|Hroom].
  { exists st. split; auto. repeat split; auto; apply Hf. }
  rewrite Ha, Hb. destruct (grown_step s f st x (f x) k a b Hf Ha Hb Hk) as (l1 & c & E & HG). rewrite E. pose proof HG as (G1 & G2 & G3 & G4 & G5 & G6 & G7 & G8). set (l := env st) in *.
  pose proof Hf as (Hs & Hright). pose proof Hs as ((n & Hn & Hlen) & _). pose proof G2 as G2'. apply Nat.odd_spec in G2' as (m & Hmc). destruct (odd_even_pred c G2) as (Ep1 & Es1 & Es3 & Ep3).
  (* c is k or k+1 *)
  assert (Ck : (c = k /\ Nat.odd k = true) \/ (c = k + 1 /\ Nat.odd k = false)).
  { pose proof Hs as (_ & H2 & _). rewrite (H2 _ _ Ha), (H2 _ _ Hb) in E. destruct (Nat.odd (k - 1)), (Nat.odd k) eqn:Ok; cbn [andb negb] in E; try discriminate; injection E as <- <-; auto. }
  set (iql := if c <? 2 then c - 1 else c - 2). set (iqr := if c + 2 <? length l1 then c + 2 else c + 1).
  assert (Sl : is_Some (l1 !! iql)) by (apply lookup_lt_is_Some_2; unfold iql; destruct (c <? 2); lia).
  assert (Sr : is_Some (l1 !! iqr)) by (apply lookup_lt_is_Some_2; unfold iqr; destruct (Nat.ltb_spec (c + 2) (length l1)); lia).
  destruct Sl as (ql & Eql), Sr as (qr & Eqr). rewrite Eql, Eqr.
  (* where they are in l, and that they are apart *)
  assert (Hql : (px ql <= px a)%R /\ (xl s <= px ql)%R).
  { unfold iql in Eql. destruct (Nat.ltb_spec c 2) as [C2|C2].
    - assert (c = 1) by lia. replace (c - 1) with 0 in Eql by lia. rewrite G7 in Eql by auto. assert (k = 1) by (destruct Ck as [[]|[? X]]; [lia|assert (k = 0) by lia; lia]). subst k. cbn in Ha. assert (ql = a) as -> by congruence. split; [lra|].
      destruct Hs as (_ & _ & _ & _ & H5 & _). rewrite (H5 _ Ha). lra.
    - rewrite G4 in Eql by lia. destruct Ck as [[Ec Ok]|[Ec Ok]].
      + split; [apply (full_sorted s f l (c - 2)); auto; replace (c - 2 + 1) with (k - 1) by lia; auto|]. apply (skel_in s f l Hs (c - 2)); auto. apply Nat.odd_spec. exists (m - 1). lia.
      + replace (c - 2) with (k - 1) in Eql by lia. assert (ql = a) as -> by congruence. split; [lra|]. apply (skel_in s f l Hs (k - 1)); auto. apply Nat.odd_spec. exists (m - 1). lia. }
  assert (Hqr : (px b <= px qr)%R /\ (px qr <= xr s)%R).
  { unfold iqr in Eqr. destruct (Nat.ltb_spec (c + 2) (length l1)) as [C2|C2].
    - rewrite G5 in Eqr by lia. replace (c + 2 - 2) with c in Eqr by lia. split; [|apply (skel_in s f l Hs c); auto]. destruct Ck as [[Ec Ok]|[Ec Ok]].
      + rewrite Ec in Eqr. assert (qr = b) as -> by congruence. lra.
      + apply (full_sorted s f l k); auto. rewrite <- Ec. auto.
    - pose proof (lookup_lt_Some _ _ _ Hb) as Hkl. rewrite G8 in Eqr by lia. destruct Ck as [[Ec Ok]|[Ec Ok]]; [apply Nat.odd_spec in Ok as (j & Hj); lia|]. replace (length l - 1) with k in Eqr by lia. assert (qr = b) as -> by congruence. split; [lra|].
      destruct Hs as (_ & _ & _ & _ & _ & H6 & _). rewrite (H6 b); [lra|]. rewrite <- Hb. f_equal. lia. }
  set (lo := ((1 - XEPS) * px ql + XEPS * px qr)%R). set (hi := (XEPS * px ql + (1 - XEPS) * px qr)%R).
  set (q := if Rlt_dec x lo then Pt lo (f lo) 0 0 true else if Rlt_dec hi x then Pt hi (f hi) 0 0 true else Pt x (f x) 0 0 true).
  assert (Hlh : (px ql < lo /\ lo <= hi /\ hi < px qr)%R). { unfold lo, hi, XEPS. assert (px ql < px qr)%R by lra. lra. }
  assert (Hq : pf q = true /\ py q = f (px q) /\ (px ql < px q < px qr)%R). { unfold q. destruct (Rlt_dec x lo) as [X|X]; [cbn; lra|]. destruct (Rlt_dec hi x) as [Y|Y]; cbn; lra. }
  destruct Hq as (Q1 & Q2 & Q3).
  assert (Hs1 : skel s f (<[c := q]> l1)).
  { apply (grown_skel s f l); auto; [lra| |].
    - intros a' H2c Ha'. assert (Eq : iql = c - 2) by (unfold iql; replace (c <? 2) with false by (symmetry; apply Nat.ltb_ge; lia); auto). rewrite Eq in Eql. assert (a' = ql) as -> by congruence. lra.
    - intros b' Hb'. assert (Eq : iqr = c + 2) by (unfold iqr; pose proof (lookup_lt_Some _ _ _ Hb'); replace (c + 2 <? length l1) with true by (symmetry; apply Nat.ltb_lt; lia); auto). rewrite Eq in Eqr. assert (b' = qr) as -> by congruence. lra. }
  set (is := [c - 1; c + 1] ++ (if c <? 2 then [] else [c - 3]) ++ (if c + 2 <? length l1 then [c + 3] else [])).
  destruct (meets_ok s f Hm is (<[c := q]> l1) Hs1) as (l2 & E2 & Hs2 & SO & R1 & R2).
  { rewrite insert_length. apply List.Forall_forall. intros i Hi. unfold is in Hi. apply in_app_or in Hi as [Hi|Hi]; [|apply in_app_or in Hi as [Hi|Hi]].
    - destruct Hi as [<-|[<-|[]]]; split; auto; lia.
    - destruct (Nat.ltb_spec c 2) as [X|X]; [destruct Hi|]. destruct Hi as [<-|[]]. split; [apply Ep3|]; lia.
    - destruct (Nat.ltb_spec (c + 2) (length l1)) as [X|X]; [|destruct Hi]. destruct Hi as [<-|[]]. split; [auto|lia]. }
  rewrite E2. cbn [rbind]. eexists. split; [reflexivity|]. split; [|auto]. split; [|split; [exists l2; auto|]].
  - cbn [env]. apply (full_alike s f l2); [apply cumulate_alike|]. split; [auto|]. intros i Hi. pose proof Hi as Hi'. apply Nat.even_spec in Hi' as (j & Hj).
    destruct (in_dec Nat.eq_dec i is) as [Hin|Hin]; auto. intros p Hp. rewrite R2 in Hp by auto.
    assert (Hfar : i + 5 <= c \/ c + 5 <= i).
    { destruct (decide (i + 5 <= c)); auto. destruct (decide (c + 5 <= i)); auto. exfalso. apply Hin. unfold is. apply lookup_lt_Some in Hp. rewrite insert_length in Hp.
      assert (i = c - 1 \/ i = c + 1 \/ (i = c - 3 /\ 2 <= c) \/ i = c + 3) as [?|[?|[[? ?]|?]]] by lia; apply in_or_app.
      - left. cbn. auto. - left. cbn. auto.
      - right. apply in_or_app. left. destruct (Nat.ltb_spec c 2); [lia|]. cbn. auto.
      - right. apply in_or_app. right. destruct (Nat.ltb_spec (c + 2) (length l1)); [cbn; auto|lia]. }
    destruct (mval_far s l l1 l2 c q i (px p) HG SO Hi) as (F1 & F2). rewrite list_lookup_insert_ne in Hp by lia. destruct Hfar as [Hfar|Hfar].
    + rewrite F1 by auto. rewrite G4 in Hp by lia. apply Hright; auto.
    + rewrite F2 by auto. rewrite G5 in Hp by lia. apply Hright; auto. apply Nat.even_spec. exists (j - 1). lia.
  - cbn [env]. rewrite <- (alike_len _ _ (cumulate_alike l2)). destruct SO as (SL & _). rewrite SL, insert_length. lia.
Qed.

(** ---------- the start ---------- *)
Lemma start_len f b : forall xs, length (start_points f b xs) = 2 * length xs.
Proof. induction xs as [|x xs IH]; cbn [start_points length]; auto. rewrite IH. lia. Qed.
Lemma start_even f b : forall xs k x, xs !! k = Some x -> start_points f b xs !! (2 * k) = Some (Pt x (f x) 0 0 true).
Proof.
  induction xs as [|x0 xs IH]; intros k x Hk; [discriminate|]. cbn [start_points]. destruct k as [|k]; cbn in Hk; [injection Hk as ->; auto|].
  replace (2 * S k) with (S (S (2 * k))) by lia. cbn. apply IH. auto.
Qed.
Lemma start_odd f b : forall xs k x, xs !! k = Some x -> start_points f b xs !! (2 * k + 1) = Some (blank (if S k =? length xs then b else 0%R)).
Proof.
  induction xs as [|x0 xs IH]; intros k x Hk; [discriminate|]. cbn [start_points]. destruct k as [|k]; cbn in Hk; [destruct xs; auto|].
  replace (2 * S k + 1) with (S (S (2 * k + 1))) by lia. change (start_points f b xs !! (2 * k + 1) = Some (blank (if S k =? length xs then b else 0%R))). apply (IH _ _ Hk).
Qed.
Lemma ordered_lt : forall xs k x y, ordered xs = true -> xs !! k = Some x -> xs !! S k = Some y -> (x < y)%R.
Proof.
  induction xs as [|a xs IH]; intros k x y H Hx Hy; [discriminate|]. cbn in H. destruct xs as [|b xs]; [destruct k; discriminate|]. apply andb_true_iff in H as [H1 H2].
  destruct k as [|k]; [|apply (IH k); auto]. cbn in Hx, Hy. injection Hx as <-. injection Hy as <-. unfold Rltb in H1. destruct (Rlt_dec a b); [auto|discriminate].
Qed.
Lemma last_lookup {A} (l : list A) d : l <> [] -> l !! (length l - 1) = Some (List.last l d).
Proof.
  induction l as [|a l IH]; intros H; [congruence|]. destruct l as [|b l]; auto. cbn [length Nat.sub] in *. rewrite Nat.sub_0_r in *. cbn [lookup list_lookup]. cbn [List.last]. apply IH. discriminate.
Qed.
Lemma start_skel s f : 3 <= length (xinit s) -> ordered (xinit s) = true -> (forall x, xinit s !! 0 = Some x -> (xl s <= x)%R) -> (forall x, xinit s !! (length (xinit s) - 1) = Some x -> (x <= xr s)%R) ->
  skel s f (blank (xl s) :: start_points f (xr s) (xinit s)).
Proof.
  intros Hn Ho H0 H1. set (xs := xinit s) in *. set (l := blank (xl s) :: start_points f (xr s) xs). assert (HL : length l = 2 * length xs + 1) by (unfold l; cbn [length]; rewrite start_len; lia).
  assert (Od : forall k x, xs !! k = Some x -> l !! (2 * k + 1) = Some (Pt x (f x) 0 0 true)). { intros k x Hk. unfold l. replace (2 * k + 1) with (S (2 * k)) by lia. apply start_even. auto. }
  assert (Ev : forall k x, xs !! k = Some x -> l !! (2 * k + 2) = Some (blank (if S k =? length xs then xr s else 0%R))). { intros k x Hk. unfold l. replace (2 * k + 2) with (S (2 * k + 1)) by lia. eapply start_odd; eauto. }
  assert (Cs : forall i q, l !! i = Some q -> (i = 0 /\ q = blank (xl s)) \/ (exists k x, i = 2 * k + 1 /\ xs !! k = Some x /\ q = Pt x (f x) 0 0 true) \/ (exists k x, i = 2 * k + 2 /\ xs !! k = Some x /\ q = blank (if S k =? length xs then xr s else 0%R))).
  { intros i q Hq. destruct i as [|i]; [left; split; auto; cbn in Hq; congruence|]. right. pose proof (lookup_lt_Some _ _ _ Hq) as Hlt. destruct (Nat.Even_or_Odd i) as [(k & Hk)|(k & Hk)].
    - left. assert (S1 : is_Some (xs !! k)) by (apply lookup_lt_is_Some_2; lia). destruct S1 as (x & Hx). exists k, x. split; [lia|]. split; auto. replace (S i) with (2 * k + 1) in Hq by lia. rewrite (Od _ _ Hx) in Hq. congruence.
    - right. assert (S1 : is_Some (xs !! k)) by (apply lookup_lt_is_Some_2; lia). destruct S1 as (x & Hx). exists k, x. split; [lia|]. split; auto. replace (S i) with (2 * k + 2) in Hq by lia. rewrite (Ev _ _ Hx) in Hq. congruence. }
  split; [exists (length xs); auto|]. split; [|split; [|split; [|split; [|split; [|split]]]]].
  - intros i q Hq. destruct (Cs _ _ Hq) as [[-> ->]|[(k & x & -> & _ & ->)|(k & x & -> & _ & ->)]]; auto; cbn [pf blank].
    + symmetry. apply odd_2k.
    + symmetry. apply even_not_odd. apply Nat.even_spec. exists (k + 1). lia.
  - intros i q Hq Hf. destruct (Cs _ _ Hq) as [[-> ->]|[(k & x & -> & _ & ->)|(k & x & -> & _ & ->)]]; try discriminate. auto.
  - intros i a b Hi Ha Hb. apply Nat.odd_spec in Hi as (k & ->).
    destruct (Cs _ _ Ha) as [[? _]|[(k1 & x & E1 & Hx & ->)|(k1 & x & E1 & _ & _)]]; try lia. destruct (Cs _ _ Hb) as [[? _]|[(k2 & y & E2 & Hy & ->)|(k2 & y & E2 & _ & _)]]; try lia.
    cbn. apply (ordered_lt xs k1); auto. replace (S k1) with k2 by lia. auto.
  - intros q Hq. cbn in Hq. injection Hq as <-. auto.
  - intros q Hq. destruct (Cs _ _ Hq) as [[E _]|[(k & x & E & Hx & ->)|(k & x & E & Hx & ->)]]; try lia. replace (S k =? length xs) with true by (symmetry; apply Nat.eqb_eq; lia). auto.
  - intros q Hq. destruct (Cs _ _ Hq) as [[E _]|[(k & x & E & Hx & ->)|(k & x & E & Hx & ->)]]; try lia. assert (k = 0) as -> by lia. cbn. auto.
  - intros q Hq. destruct (Cs _ _ Hq) as [[E _]|[(k & x & E & Hx & ->)|(k & x & E & Hx & ->)]]; try lia. cbn. apply H1. replace (length xs - 1) with k by lia. auto.
Qed.
Definition good_settings (s : aset) : Prop :=
  3 <= length (xinit s) /\ 2 * length (xinit s) + 1 <= npoint s /\ ordered (xinit s) = true /\ (0 <= convex s)%R /\
  (forall x, xinit s !! 0 = Some x -> (xl s <= x)%R) /\ (forall x, xinit s !! (length (xinit s) - 1) = Some x -> (x <= xr s)%R).
Lemma initial_ok s f : mode s f -> good_settings s -> exists st, initial s f = Ok (Some st) /\ Inv s f st.
Proof.
  intros Hm (H1 & H2 & H3 & H4 & H5 & H6). unfold initial. cbv zeta. set (xs := xinit s) in *.
  replace (length xs <? 3) with false by (symmetry; apply Nat.ltb_ge; lia). replace (npoint s <? 2 * length xs + 1) with false by (symmetry; apply Nat.ltb_ge; lia).
  destruct xs as [|x0 xs'] eqn:Ex; [cbn in H1; lia|]. rewrite <- Ex in *. rewrite H3. cbn [negb].
  assert (L0 : (xl s <= x0)%R) by (apply H5; rewrite Ex; auto). assert (L1 : (List.last xs 0%R <= xr s)%R) by (apply H6; apply last_lookup; rewrite Ex; discriminate).
  unfold Rltb. destruct (Rlt_dec x0 (xl s)); [lra|]. destruct (Rlt_dec (xr s) _); [lra|]. cbn [orb]. destruct (Rlt_dec (convex s) 0); [lra|].
  pose proof (start_skel s f) as Hs. unfold xs in *. specialize (Hs H1 H3 H5 H6). set (l := blank (xl s) :: _) in *.
  assert (HL : length l = 2 * length (xinit s) + 1) by (unfold l; cbn [length]; rewrite start_len; lia).
  destruct (meets_ok s f Hm (map (fun j => 2 * j) (seq 0 (S (length (xinit s))))) l Hs) as (l' & E & A & B & C & D).
  { apply List.Forall_forall. intros i Hi. apply in_map_iff in Hi as (j & <- & Hj). apply in_seq in Hj. split; [apply Nat.even_spec; exists j; auto|lia]. }
  rewrite E. cbn [rbind]. eexists. split; [reflexivity|]. assert (HL' : length l' = length l) by (destruct B; auto). split; [|split; [exists l'; auto|]].
  - apply (full_alike s f l'); [apply cumulate_alike|]. split; auto. intros i Hi q Hq. pose proof (lookup_lt_Some _ _ _ Hq) as Hlt. apply C; [|auto]. apply in_map_iff. apply Nat.even_spec in Hi as (j & ->). exists j. split; auto. apply in_seq. lia.
  - cbn [env]. rewrite <- (alike_len _ _ (cumulate_alike l')). lia.
Qed.

(** ---------- the envelope is above a concave function ---------- *)
Lemma ext_left a b f (p r : pt) x : concave_on a b f -> (a <= x)%R -> (x <= px p)%R -> (px p < px r)%R -> (px r <= b)%R -> py p = f (px p) -> py r = f (px r) ->
  (f x <= py p - slope p r * (px p - x))%R.
Proof.
  intros H H1 H2 H3 H4 E1 E2. destruct (Req_EM_T x (px p)) as [->|Hne]; [rewrite E1; lra|]. pose proof (concave_mid a b f x (px p) (px r) H H1 ltac:(lra) H3 H4) as Hc.
  rewrite <- E1, <- E2 in Hc. unfold slope. apply Rmult_le_reg_r with (px r - px p)%R; [lra|].
  replace ((py p - (py p - py r) / (px p - px r) * (px p - x)) * (px r - px p))%R with (py p * (px r - px p) + (py p - py r) * (px p - x))%R by (field; lra). lra.
Qed.
Lemma ext_right a b f (p r : pt) x : concave_on a b f -> (x <= b)%R -> (px p <= x)%R -> (px r < px p)%R -> (a <= px r)%R -> py p = f (px p) -> py r = f (px r) ->
  (f x <= py p + slope p r * (x - px p))%R.
Proof.
  intros H H1 H2 H3 H4 E1 E2. destruct (Req_EM_T x (px p)) as [->|Hne]; [rewrite E1; lra|]. pose proof (concave_mid a b f (px r) (px p) x H H4 H3 ltac:(lra) H1) as Hc.
  rewrite <- E1, <- E2 in Hc. unfold slope. apply Rmult_le_reg_r with (px p - px r)%R; [lra|].
  replace ((py p + (py p - py r) / (px p - px r) * (x - px p)) * (px p - px r))%R with (py p * (px p - px r) + (py p - py r) * (x - px p))%R by (field; lra). lra.
Qed.
Lemma on_line (m k x1 x2 y1 y2 x : R) : (x1 < x2)%R -> y1 = (m * x1 + k)%R -> y2 = (m * x2 + k)%R -> (y1 + (x - x1) / (x2 - x1) * (y2 - y1) = m * x + k)%R.
Proof. intros H -> ->. field. lra. Qed.
Lemma adl_ge s g c : (c <= g)%R -> adl s g c = g.
Proof. intros H. unfold adl, Rltb. destruct (Rlt_dec g c); [lra|auto]. Qed.
Lemma adr_le s g c : (g <= c)%R -> adr s g c = g.
Proof. intros H. unfold adr, Rltb. destruct (Rlt_dec c g); [lra|auto]. Qed.
Lemma mul_div d w : w <> 0%R -> (d / w * w = d)%R.
Proof. intros. field. auto. Qed.
Lemma above s f l x h : concave_on (xl s) (xr s) f -> full s f l -> height_at l x h -> (f x <= h)%R.
Proof.
  intros Hc Hf (i & a & b & Ha & Hb & Hx & Hab & ->). pose proof Hf as (Hs & Hr). pose proof Hs as ((n & Hn & Hlen) & _).
  assert (Hxin : (xl s <= x <= xr s)%R).
  { assert (G : forall j p, l !! j = Some p -> (xl s <= px p <= xr s)%R).
    { intros j p Hp. pose proof (lookup_lt_Some _ _ _ Hp) as Hj. destruct (Nat.odd j) eqn:Oj; [apply (skel_in s f l Hs j); auto|]. assert (Ej : Nat.even j = true) by (rewrite <- Nat.negb_odd, Oj; auto).
      destruct (skel_in s f l Hs 1) with (a := match l !! 1 with Some q => q | None => a end) as [W1 W2]; auto; [destruct (lookup_lt_is_Some_2 l 1) as (z & ->); [lia|auto]|].
      destruct (decide (j = 0)) as [->|]; [destruct Hs as (_ & _ & _ & _ & H5 & _); rewrite (H5 _ Hp); lra|].
      destruct (decide (j = length l - 1)) as [->|]; [destruct Hs as (_ & _ & _ & _ & _ & H6 & _); rewrite (H6 _ Hp); lra|].
      destruct (inner_pos s f l j p Hf Ej Hp) as (u & v & E1 & E2 & _ & R & _); [lia|lia|]. destruct (even_odd_3 j Ej) as (_ & O1 & _ & O1'). pose proof (skel_in s f l Hs _ _ O1 E2). pose proof (skel_in s f l Hs _ _ (O1' ltac:(lia)) E1). lra. }
    pose proof (G _ _ Ha). pose proof (G _ _ Hb). lra. }
  pose proof (lookup_lt_Some _ _ _ Hb) as Hlt. destruct (Nat.even i) eqn:Ei.
  - (* from an intersection to a density point *)
    destruct (even_odd_3 i Ei) as (O3 & O1 & O3' & O1'). replace (S i) with (i + 1) in Hb by lia. pose proof (skel_y s f l Hs _ _ O1 Hb) as Yb.
    specialize (Hr i Ei a Ha). destruct (decide (length l <= i + 3)) as [Hfar|Hfar].
    { destruct (inner_pos s f l i a Hf Ei Ha) as (u & v & E1 & E2 & _ & _ & _ & _ & _ & R); [lia|lia|]. destruct (R Hfar) as [R' _]. assert (v = b) as -> by congruence. lra. }
    assert (S3 : is_Some (l !! (i + 3))) by (apply lookup_lt_is_Some_2; lia). destruct S3 as (b3 & E3).
    assert (Lb3 : (px b < px b3)%R). { apply (skel_lt s f l Hs (i + 1)); auto. replace (i + 1 + 2) with (i + 3) by lia. auto. }
    pose proof (skel_y s f l Hs _ _ O3 E3) as Y3. pose proof (skel_in s f l Hs _ _ O3 E3) as I3.
    pose proof (ext_left _ _ _ b b3 x Hc (proj1 Hxin) (proj2 Hx) Lb3 (proj2 I3) Yb Y3) as HE.
    destruct (decide (i = 0)) as [->|H0].
    + unfold mval, mvals, prv in Hr. cbn [Nat.ltb Nat.leb] in Hr. cbn [Nat.add] in Hr, Hb, E3. rewrite Hb, E3 in Hr. injection Hr as Hy.
      rewrite (on_line (slope b b3) (py b - slope b b3 * px b)); [lra|auto|rewrite Hy; ring|ring].
    + unfold mval, mvals, prv in Hr. replace (i <? 1) with false in Hr by (symmetry; apply Nat.ltb_ge; lia).
      assert (S2 : is_Some (l !! (i - 1))) by (apply lookup_lt_is_Some_2; lia). destruct S2 as (p & Ep). rewrite Ep, Hb, E3 in Hr.
      assert (Lpb : (px p < px b)%R). { apply (skel_lt s f l Hs (i - 1)); auto; [apply O1'; lia|]. replace (i - 1 + 2) with (i + 1) by lia. auto. }
      pose proof (skel_y s f l Hs _ _ (O1' ltac:(lia)) Ep) as Yp. pose proof (skel_in s f l Hs _ _ (O1' ltac:(lia)) Ep) as Ip.
      assert (Hsl : (slope b b3 <= slope b p)%R) by (rewrite (slope_sym b b3) by lra; apply (chord_mono (xl s) (xr s) f p b b3); auto; lra).
      rewrite (adr_le s _ _ Hsl) in Hr. set (c := slope b p) in *. set (w := (px b - px p)%R) in *. assert (Hw : (0 < w)%R) by (unfold w; lra).
      set (dl := atl ((c - slope b b3) * w)) in *. assert (Hdl : ((c - slope b b3) * w <= dl)%R) by apply atl_le. assert (Hdl0 : (0 < dl)%R) by apply atl_pos.
      assert (Hcw : (c * w = py b - py p)%R) by (unfold c, w, slope; field; lra).
      assert (Hline : (py a = (c - dl / w) * px a + (py b - (c - dl / w) * px b))%R).
      { destruct (if i <? 3 then None else l !! (i - 3)) as [a3|].
        - injection Hr as Hxa Hya. set (dr := atl ((adl s (slope p a3) c - c) * w)) in *. assert (Hdr0 : (0 < dr)%R) by apply atl_pos. rewrite Hxa, Hya.
          replace (py p) with (py b - c * w)%R by lra. replace (px p) with (px b - w)%R by (unfold w; lra). field. repeat split; lra.
        - injection Hr as Hxa Hya. rewrite Hxa, Hya. replace (px p) with (px b - w)%R by (unfold w; lra). replace (py p) with (py b - c * w)%R by lra. field. repeat split; lra. }
      rewrite (on_line (c - dl / w) (py b - (c - dl / w) * px b)); [|auto|exact Hline|ring].
      assert (Hd : (c - dl / w <= slope b b3)%R). { assert (c - slope b b3 <= dl / w)%R; [|lra]. apply Rmult_le_reg_r with w; auto. rewrite mul_div by lra. auto. }
      assert (Hp0 : ((c - dl / w) * (px b - x) <= slope b b3 * (px b - x))%R) by (apply Rmult_le_compat_r; lra). lra.
  - (* from a density point to an intersection *)
    assert (Oi : Nat.odd i = true) by (rewrite <- Nat.negb_even, Ei; auto). assert (Ei1 : Nat.even (S i) = true) by (rewrite Nat.even_succ; auto).
    pose proof (skel_y s f l Hs _ _ Oi Ha) as Ya. pose proof (skel_in s f l Hs _ _ Oi Ha) as Ia. destruct (even_odd_3 (S i) Ei1) as (O3 & O1 & O3' & O1').
    specialize (Hr (S i) Ei1 b Hb). destruct (decide (S i < 3)) as [Hfar|Hfar].
    { destruct (inner_pos s f l (S i) b Hf Ei1 Hb) as (u & v & E1 & E2 & _ & _ & _ & _ & R & _); [lia|lia|]. destruct (R Hfar) as [R' _]. replace (S i - 1) with i in E1 by lia. assert (u = a) as -> by congruence. lra. }
    assert (S3 : is_Some (l !! (S i - 3))) by (apply lookup_lt_is_Some_2; lia). destruct S3 as (a3 & E3). specialize (O3' ltac:(lia)).
    assert (La3 : (px a3 < px a)%R). { apply (skel_lt s f l Hs (S i - 3)); auto. replace (S i - 3 + 2) with i by lia. auto. }
    pose proof (skel_y s f l Hs _ _ O3' E3) as Y3. pose proof (skel_in s f l Hs _ _ O3' E3) as I3.
    pose proof (ext_right _ _ _ a a3 x Hc (proj2 Hxin) (proj1 Hx) La3 (proj1 I3) Ya Y3) as HE.
    unfold mval, mvals, prv in Hr. replace (S i <? 1) with false in Hr by (symmetry; apply Nat.ltb_ge; lia). replace (S i <? 3) with false in Hr by (symmetry; apply Nat.ltb_ge; lia). replace (S i - 1) with i in Hr by lia. rewrite Ha, E3 in Hr.
    destruct (l !! (S i + 1)) as [p|] eqn:Ep.
    + assert (Lap : (px a < px p)%R). { apply (skel_lt s f l Hs i); auto. replace (i + 2) with (S i + 1) by lia. auto. }
      pose proof (skel_y s f l Hs _ _ O1 Ep) as Yp. pose proof (skel_in s f l Hs _ _ O1 Ep) as Ip.
      assert (Hsl : (slope p a <= slope a a3)%R) by (apply (chord_mono (xl s) (xr s) f a3 a p); auto; lra).
      rewrite (adl_ge s _ _ Hsl) in Hr. set (c := slope p a) in *. set (w := (px p - px a)%R) in *. assert (Hw : (0 < w)%R) by (unfold w; lra).
      set (dr := atl ((slope a a3 - c) * w)) in *. assert (Hdr : ((slope a a3 - c) * w <= dr)%R) by apply atl_le. assert (Hdr0 : (0 < dr)%R) by apply atl_pos.
      assert (Hcw : (c * w = py p - py a)%R) by (unfold c, w, slope; field; lra).
      assert (Hline : (py b = (c + dr / w) * px b + (py a - (c + dr / w) * px a))%R).
      { destruct (l !! (S i + 3)) as [b3|].
        - injection Hr as Hxa Hya. set (dl := atl ((c - _) * w)) in *. assert (Hdl0 : (0 < dl)%R) by apply atl_pos. rewrite Hxa, Hya.
          replace (py p) with (py a + c * w)%R by lra. replace (px p) with (px a + w)%R by (unfold w; lra). field. repeat split; lra.
        - injection Hr as Hxa Hya. rewrite Hxa, Hya. replace (px p) with (px a + w)%R by (unfold w; lra). replace (py p) with (py a + c * w)%R by lra. field. repeat split; lra. }
      rewrite (on_line (c + dr / w) (py a - (c + dr / w) * px a)); [|auto|ring|exact Hline].
      assert (Hd : (slope a a3 <= c + dr / w)%R). { assert (slope a a3 - c <= dr / w)%R; [|lra]. apply Rmult_le_reg_r with w; auto. rewrite mul_div by lra. auto. }
      assert (Hp0 : (slope a a3 * (x - px a) <= (c + dr / w) * (x - px a))%R) by (apply Rmult_le_compat_r; lra). lra.
    + injection Hr as Hy. rewrite (on_line (slope a a3) (py a - slope a a3 * px a)); [lra|auto|ring|rewrite Hy; ring].
Qed.
