(** Proofs for C112. *)
From Coq Require Import Reals Lra.
From Verif Require Import Base ParseModel ParseSpec ParseProofs ParseProps OutModel OutSpec.
Local Open Scope list_scope.
Local Open Scope nat_scope.

(** ---- digits ---- *)
Lemma dig_nat d : (0 <= d < 10)%Z -> nat_of_ascii (dig d) = 48 + Z.to_nat d.
Proof. intros H. unfold dig. apply nat_ascii_embedding. lia. Qed.
Lemma dig_ok d : (0 <= d < 10)%Z -> is_digit (dig d) /\ digit_value (dig d) = d.
Proof. intros H. unfold is_digit, digit_value. rewrite dig_nat by auto. lia. Qed.
Lemma value_app s c : numeral_value (s ++ [c]) = (10 * numeral_value s + digit_value c)%Z.
Proof. unfold numeral_value. rewrite fold_left_app. reflexivity. Qed.
Lemma digits_ok fuel : forall n, (0 <= n < 2 ^ Z.of_nat fuel)%Z -> 0 < fuel ->
  Forall is_digit (digits fuel n) /\ digits fuel n <> [] /\ numeral_value (digits fuel n) = n.
Proof.
  induction fuel as [|f IH]; intros n H H0; [lia|]. cbn [digits]. destruct (Z.ltb_spec n 10) as [Hs|Hs].
  - destruct (dig_ok n) as [H1 H2]; [lia|]. split; [constructor; [exact H1|constructor]|]. split; [discriminate|]. rewrite <- (app_nil_l [dig n]), value_app, H2. unfold numeral_value. cbn [fold_left]. lia.
  - assert (0 < f) as Hf by (destruct f; [change (2 ^ Z.of_nat 1)%Z with 2%Z in H; lia|lia]).
    assert (0 <= n mod 10 < 10)%Z as Hm by (apply Z.mod_pos_bound; lia).
    assert (0 <= n / 10 < 2 ^ Z.of_nat f)%Z as Hd.
    { split; [apply Z.div_pos; lia|]. apply Z.div_lt_upper_bound; [lia|]. rewrite Nat2Z.inj_succ, Z.pow_succ_r in H by lia. lia. }
    destruct (IH (n / 10)%Z Hd Hf) as (H1 & H2 & H3). destruct (dig_ok _ Hm) as [H4 H5]. split; [|split].
    + apply List.Forall_app. split; [auto|constructor; [exact H4|constructor]].
    + destruct (digits f (n / 10)); discriminate.
    + rewrite value_app, H3, H5. pose proof (Z.div_mod n 10). lia.
Qed.
Lemma decimal_ok n : (0 <= n)%Z -> Forall is_digit (decimal n) /\ decimal n <> [] /\ numeral_value (decimal n) = n.
Proof.
  intros H. apply digits_ok; [|lia]. split; [auto|]. rewrite Nat2Z.inj_succ, Z2Nat.id by apply Z.log2_nonneg.
  destruct (Z.eq_dec n 0%Z) as [->|]; [reflexivity|]. apply Z.log2_spec. lia.
Qed.
Lemma fixed_ok k : forall n, (0 <= n < 10 ^ Z.of_nat k)%Z -> Forall is_digit (fixed k n) /\ length (fixed k n) = k /\ numeral_value (fixed k n) = n.
Proof.
  induction k as [|k IH]; intros n H; cbn [fixed].
  - change (10 ^ Z.of_nat 0)%Z with 1%Z in H. repeat split; [constructor|]. cbn. lia.
  - assert (0 <= n mod 10 < 10)%Z as Hm by (apply Z.mod_pos_bound; lia).
    assert (0 <= n / 10 < 10 ^ Z.of_nat k)%Z as Hd.
    { split; [apply Z.div_pos; lia|]. apply Z.div_lt_upper_bound; [lia|]. rewrite Nat2Z.inj_succ, Z.pow_succ_r in H by lia. lia. }
    destruct (IH _ Hd) as (H1 & H2 & H3). destruct (dig_ok _ Hm) as [H4 H5]. split; [|split].
    + apply List.Forall_app. split; [auto|constructor; [exact H4|constructor]].
    + rewrite app_length, H2. cbn. lia.
    + rewrite value_app, H3, H5. pose proof (Z.div_mod n 10). lia.
Qed.

(** ---- a number's text: blanks and a numeral close to the number ---- *)
Section Num.
Context (rnd : R -> Z) (Hrnd : forall x, (Rabs (IZR (rnd x) - x) <= / 2)%R).
Lemma abs_bounds a b : (Rabs a <= b -> - b <= a <= b)%R.
Proof. unfold Rabs. destruct (Rcase_abs a); lra. Qed.
Lemma Int_IZR k : Int_part (IZR k) = k.
Proof.
  destruct (base_Int_part (IZR k)) as [Ha Hb]. apply le_IZR in Ha. assert (IZR k < IZR (Int_part (IZR k) + 1))%R as Hc by (rewrite plus_IZR; lra). apply lt_IZR in Hc. lia.
Qed.
Lemma to_int_whole k : to_int (IZR k) = k.
Proof.
  unfold to_int. destruct (Rlt_dec (IZR k) 0).
  - rewrite <- opp_IZR, Int_IZR. lia.
  - apply Int_IZR.
Qed.
Definition num_chars (c : ascii) : Prop := is_digit c \/ c = minus \/ c = point.
Lemma numeral_chars s x : numeral s x -> Forall num_chars s /\ s <> [].
Proof.
  intros (neg & ip & fp & -> & H1 & H2 & H3 & _). split.
  - apply List.Forall_app. split; [destruct neg; [constructor; [unfold num_chars; auto|constructor]|constructor]|]. apply List.Forall_app.
    split; [refine (List.Forall_impl _ _ H2); unfold num_chars; auto|].
    destruct fp; constructor; [unfold num_chars; auto|]. refine (List.Forall_impl _ _ H3). unfold num_chars. auto.
  - destruct neg; [discriminate|]. destruct ip; [congruence|discriminate].
Qed.
Lemma width_signed neg s : exists n, width 5 (signed neg s) = pads n ++ (if neg then [minus] else []) ++ s.
Proof.
  unfold width, signed. destruct neg.
  - eexists. reflexivity.
  - exists (S (5 - length (sp :: s))). cbn [app]. replace (S (5 - length (sp :: s))) with ((5 - length (sp :: s)) + 1) by lia.
    unfold pads. rewrite repeat_app. cbn. rewrite <- app_assoc. reflexivity.
Qed.
Lemma p_fn_text x t : p_fn rnd x = Ok t -> exists n core y, t = pads n ++ core /\ numeral core y /\ close_to x y.
Proof.
  unfold p_fn. destruct (is_int (to_int x)); [|discriminate]. intros H. injection H as <-.
  destruct (Req_EM_T x (IZR (to_int x))) as [E|E].
  - set (k := to_int x) in *. unfold int_text. destruct (width_signed (k <? 0)%Z (decimal (Z.abs k))) as [n Hn]. rewrite Hn.
    destruct (decimal_ok (Z.abs k)) as (H1 & H2 & H3); [lia|].
    eexists n, _, x. split; [reflexivity|]. split.
    + exists (k <? 0)%Z, (decimal (Z.abs k)), []. rewrite app_nil_r. repeat split; auto. rewrite H3. cbn [length pow numeral_value fold_left].
      unfold Rdiv. rewrite Rmult_0_l, Rplus_0_r. rewrite E at 1. destruct (Z.ltb_spec k 0) as [Hk|Hk].
      * rewrite Z.abs_neq by lia. rewrite opp_IZR. lra.
      * rewrite Z.abs_eq by lia. lra.
    + split; [|auto]. unfold Rminus. rewrite Rplus_opp_r, Rabs_R0. lra.
  - unfold fixed_text. set (z := rnd (Rabs x * 1000000)%R). set (neg := if Rlt_dec x 0 then true else false).
    destruct (width_signed neg (decimal (z / 1000000)%Z ++ "."%char :: fixed 6 (z mod 1000000)%Z)) as [n Hn]. rewrite Hn.
    assert (0 <= z)%Z as Hz.
    { destruct (Z_lt_le_dec z 0); [|auto]. assert (z <= -1)%Z as Hl by lia. apply IZR_le in Hl.
      pose proof (Hrnd (Rabs x * 1000000)%R) as Hb. fold z in Hb. pose proof (Rabs_pos x). apply abs_bounds in Hb. lra. }
    assert (0 <= z mod 1000000 < 1000000)%Z as Hm by (apply Z.mod_pos_bound; lia).
    destruct (decimal_ok (z / 1000000)%Z) as (H1 & H2 & H3); [apply Z.div_pos; lia|].
    destruct (fixed_ok 6 (z mod 1000000)%Z) as (H4 & H5 & H6); [exact Hm|].
    assert (fixed 6 (z mod 1000000)%Z <> []) as H7 by (intros E'; rewrite E' in H5; discriminate).
    set (ip := decimal _) in *. set (fp := fixed 6 _) in *.
    eexists n, _, _. split; [reflexivity|]. split.
    + exists neg, ip, fp. repeat split; auto.
    + split.
      * rewrite H3, H5, H6. assert (IZR (z / 1000000) + IZR (z mod 1000000) / 10 ^ 6 = IZR z / 1000000)%R as ->.
        { pose proof (Z.div_mod z 1000000 ltac:(lia)) as Hd. apply (f_equal IZR) in Hd. rewrite plus_IZR, mult_IZR in Hd. lra. }
        pose proof (Hrnd (Rabs x * 1000000)%R) as Hb. fold z in Hb.
        unfold neg. destruct (Rlt_dec x 0) as [Hx|Hx].
        -- rewrite (Rabs_left x Hx) in Hb. apply Rabs_le. apply abs_bounds in Hb. lra.
        -- rewrite (Rabs_pos_eq x ltac:(lra)) in Hb. apply Rabs_le. apply abs_bounds in Hb. lra.
      * intros [k ->]. exfalso. apply E. rewrite to_int_whole. auto.
Qed.
Lemma p_fn_defined x : (-2147483648 <= x <= 2147483647)%R -> exists t, p_fn rnd x = Ok t.
Proof.
  intros H. unfold p_fn. assert (is_int (to_int x) = true) as ->; [|eauto].
  assert (-2147483648 <= to_int x <= 2147483647)%Z; [|unfold is_int; lia].
  unfold to_int. destruct (Rlt_dec x 0).
  - destruct (base_Int_part (- x)) as [Ha Hb]. split.
    + enough (Int_part (- x) <= 2147483648)%Z by lia. apply le_IZR. lra.
    + enough (- 1 < Int_part (- x))%Z by lia. apply lt_IZR. lra.
  - destruct (base_Int_part x) as [Ha Hb]. split.
    + enough (- 1 < Int_part x)%Z by lia. apply lt_IZR. lra.
    + apply le_IZR. lra.
Qed.
End Num.

(** ---- fields written with blanks around them ---- *)
Definition blankb (c : ascii) : bool := Ascii.eqb c (ascii_of_nat 32) || Ascii.eqb c (ascii_of_nat 13) || Ascii.eqb c (ascii_of_nat 9).
Lemma blankb_spec c : blankb c = true <-> blank_char c.
Proof. unfold blankb, blank_char. rewrite !orb_true_iff, !Ascii.eqb_eq. tauto. Qed.
Lemma blankb_false c : ~ blank_char c -> blankb c = false.
Proof. intros H. destruct (blankb c) eqn:E; auto. apply blankb_spec in E. contradiction. Qed.
Definition pieces (s : str) : list piece := map (fun c => if blankb c then Soft c else Solid c) s.
Definition mark (c : ascii) : ascii * bool := (c, negb (blankb c)).
Lemma write_pieces s : write_field (pieces s) = s.
Proof. unfold write_field, pieces. induction s as [|c s IH]; [auto|]. cbn. rewrite IH. destruct (blankb c); auto. Qed.
Lemma ink_pieces s : ink (pieces s) = map mark s.
Proof. unfold ink, pieces, mark. induction s as [|c s IH]; [auto|]. cbn. rewrite IH. destruct (blankb c); auto. Qed.
Lemma lead_pads n l : lead (map mark (pads n) ++ l) = lead l.
Proof. unfold pads. induction n as [|n IH]; [auto|]. cbn [repeat map app]. exact IH. Qed.
Lemma rev_pads n : rev (pads n) = pads n.
Proof. unfold pads. induction n as [|n IH]; [auto|]. cbn [repeat rev]. rewrite IH. symmetry. apply repeat_cons. Qed.
Section Cells.
Context (delims : list ascii).
Lemma solid_first core (l : list (ascii * bool)) : (exists c r, core = c :: r /\ ordinary delims c) -> lead (map mark core ++ l) = map mark core ++ l.
Proof. intros (c & r & -> & H). cbn. rewrite blankb_false by apply H. auto. Qed.
Definition cellt := (nat * str * nat)%type.
Definition ctext (x : cellt) : str := let '(n, s, m) := x in pads n ++ s ++ pads m.
Definition core (x : cellt) : str := let '(n, s, m) := x in s.
Lemma lead_cell x : good_name delims (core x) -> lead (ink (pieces (ctext x))) = map mark (core x) ++ map mark (pads (x.2)).
Proof.
  destruct x as [[n s] m]. cbn [core ctext snd]. intros (H1 & H2 & H3). rewrite ink_pieces, map_app, lead_pads, map_app.
  apply solid_first. auto.
Qed.
Lemma value_cell x : good_name delims (core x) -> value (pieces (ctext x)) = core x.
Proof.
  intros H. unfold value. rewrite lead_cell by auto. rewrite rev_app_distr, <- (map_rev mark (pads _)), rev_pads, lead_pads.
  destruct H as (H1 & H2 & (c & r & Hr & Hc)). rewrite <- map_rev, Hr, rev_app_distr. cbn [rev app map]. cbn [lead mark]. rewrite blankb_false by apply Hc.
  cbn [negb rev]. rewrite map_app, map_rev, map_map. cbn. rewrite map_id, rev_involutive. auto.
Qed.
Lemma blank_cell x : good_name delims (core x) -> blank (pieces (ctext x)) = false.
Proof. intros H. unfold blank. rewrite lead_cell by auto. destruct H as (_ & (c & r & Hc & _) & _). rewrite Hc. cbn. auto. Qed.
Lemma ok_cell x : ~ In (ascii_of_nat 32) delims -> good_name delims (core x) -> Forall (ok_piece delims) (pieces (ctext x)).
Proof.
  intros Hs (H & _). unfold pieces. apply List.Forall_map.
  assert (forall n, Forall (fun c => ordinary delims c \/ soft_blank delims c) (pads n)) as Hp.
  { intros n. unfold pads. induction n; constructor; auto. right. split; [left; auto|auto]. }
  assert (Forall (fun c => ordinary delims c \/ soft_blank delims c) (ctext x)) as HF.
  { destruct x as [[n s] m]. cbn in *. rewrite !List.Forall_app. auto. }
  refine (List.Forall_impl _ _ HF). intros c [Hc|Hc].
  - rewrite blankb_false by apply Hc. exact Hc.
  - destruct Hc as [Hc Hc']. rewrite (proj2 (blankb_spec c) Hc). split; auto.
Qed.

(** a line: cells, each after a number of delimiters *)
Context (c : ascii) (Hc : In c delims) (HD : ok_delims delims) (Hsp : ~ In (ascii_of_nat 32) delims).
Definition sepk (k : nat) : sep := if blankb c then Loose (repeat c k) else Tight c [].
Definition itext (x : nat * cellt) : str := repeat c (x.1) ++ ctext (x.2).
Definition okk (k : nat) : Prop := k = 1 \/ (0 < k /\ blank_char c).
Definition mk (x : cellt) (l : list (nat * cellt)) : line := Line [] (pieces (ctext x)) (map (fun y => (sepk (y.1), pieces (ctext (y.2)))) l).
Lemma write_sepk k : okk k -> write_sep (sepk k) = repeat c k.
Proof. intros Hk. unfold sepk. destruct (blankb c) eqn:E; [auto|]. destruct Hk as [->|[_ Hb]]; [auto|]. apply blankb_spec in Hb. congruence. Qed.
Lemma write_mk x l : Forall (fun y => okk (y.1)) l -> write_line (mk x l) = concat (map itext ((0, x) :: l)).
Proof.
  intros H. unfold write_line, mk. cbn [lpre lfirst lrest app map concat]. rewrite write_pieces. unfold itext at 1. cbn [fst snd repeat app]. f_equal.
  induction l as [|y l IH]; [auto|]. inversion H; subst. cbn [map concat fst snd]. rewrite write_pieces, write_sepk by auto. rewrite IH by auto. auto.
Qed.
Lemma values_mk x l : good_name delims (core x) -> Forall (fun y => good_name delims (core (y.2))) l ->
  values (mk x l) = core x :: map (fun y => core (y.2)) l.
Proof.
  intros H H2. unfold values, mk. cbn [lrest lfirst]. destruct l as [|y l]; cbn [map].
  - rewrite blank_cell, value_cell by auto. auto.
  - unfold line_fields. cbn [lfirst lrest map snd]. inversion H2; subst. rewrite !value_cell by auto. do 2 f_equal. rewrite !map_map. cbn [snd].
    apply map_ext_in. intros z Hz. apply value_cell. rewrite List.Forall_forall in *. auto.
Qed.
Lemma ok_mk x l : good_name delims (core x) -> Forall (fun y => good_name delims (core (y.2))) l -> Forall (fun y => okk (y.1)) l -> ok_line delims (mk x l).
Proof.
  intros H H2 H3. unfold ok_line, mk. cbn [lpre lfirst lrest]. split; [constructor|]. split; [apply ok_cell; auto|].
  revert x H. induction l as [|y l IH]; intros x H; cbn [map ok_rest]; [exact I|]. inversion H2; inversion H3; subst. split; [|split; [apply ok_cell; auto|apply IH; auto]].
  unfold sepk. destruct (blankb c) eqn:E.
  - apply blankb_spec in E. repeat split.
    + match goal with h : okk _ |- _ => destruct h as [->|[? _]] end; [discriminate|]. destruct (fst y); [lia|discriminate].
    + generalize (fst y). intros k. induction k; constructor; auto. split; auto.
    + apply blank_cell. auto.
  - split; [|constructor]. split; auto. intros Hb. apply blankb_spec in Hb. congruence.
Qed.
End Cells.

Lemma numeral_good delims s x : ok_delims delims -> numbers_free delims -> numeral s x -> good_name delims s.
Proof.
  intros HD [Hf Hs] Hn. destruct (numeral_chars _ _ Hn) as [H1 H2].
  assert (forall c, num_chars c -> ordinary delims c) as Ho.
  { intros c Hc. assert (c <> ascii_of_nat 255 /\ c <> nul /\ ~ special c /\ ~ blank_char c) as (A1 & A2 & A3 & A4); [|repeat split; auto].
    assert (forall n, n < 256 -> n < 45 \/ 57 < n -> c <> ascii_of_nat n) as Hne.
    { intros n Hn1 Hn2 ->. destruct Hc as [Hc|[Hc|Hc]].
      - unfold is_digit in Hc. rewrite nat_ascii_embedding in Hc by auto. lia.
      - apply (f_equal nat_of_ascii) in Hc. rewrite nat_ascii_embedding in Hc by auto. change (nat_of_ascii minus) with 45 in Hc. lia.
      - apply (f_equal nat_of_ascii) in Hc. rewrite nat_ascii_embedding in Hc by auto. change (nat_of_ascii point) with 46 in Hc. lia. }
    repeat split.
    - apply Hne; lia.
    - apply Hne; lia.
    - intros [E|[E|[E|E]]]; revert E; [apply (Hne 10)|apply (Hne 34)|apply (Hne 92)|apply (Hne 35)]; lia.
    - intros [E|[E|E]]; revert E; apply Hne; lia. }
  split; [|split].
  - refine (List.Forall_impl _ _ H1). auto.
  - destruct s as [|c r]; [congruence|]. exists c, r. split; auto. inversion H1; auto.
  - destruct (exists_last H2) as (r & c & ->). exists c, r. split; auto. apply List.Forall_app in H1 as [_ H1]. inversion H1; auto.
Qed.
