(** Lemmas on the line parser. *)
From Verif Require Import Base NamesModel ParseModel ParseSpec.
Local Open Scope list_scope.
Local Open Scope nat_scope.
Local Arguments chr : simpl never.
Local Arguments Ascii.eqb : simpl never.

(** ---- safety on every input ---- *)
Definition inv (p : pst) : Prop :=
  ct p <= length (cells p) /\ lastnw p <= length (cur p) /\ length (cur p) + 2 <= mlen p /\ 5 <= mlen p /\
  (infield p = true -> 0 < ct p) /\ (infield p = false -> cur p = []).
Definition keeps (fn : list (list ascii)) (p : pst) : Prop := drop (ct p) (cells p) = drop (ct p) fn.

Lemma use_char_inv p t c : inv p -> infield p = true -> exists p', use_char p t c = Ok p' /\ inv p' /\ ct p' = ct p /\ inqq p' = inqq p /\
  drop (ct p) (cells p') = drop (ct p) (cells p).
Proof.
  intros (H1 & H2 & H3 & H4 & H5 & H6) Hi. specialize (H5 Hi). unfold use_char.
  destruct (ctype_eqb t Td || ctype_eqb t Tn || ctype_eqb t TE || ctype_eqb t TW).
  - destruct (Nat.ltb_spec (lastnw p) (mlen p)); [|lia]. destruct (Nat.ltb_spec (ct p - 1) (length (cells p))); [|lia].
    eexists. split; [reflexivity|]. unfold inv. cbn. rewrite insert_length. repeat split; auto; try lia; try discriminate.
    rewrite drop_insert_gt by lia. auto.
  - destruct (ctype_eqb t Tw || ctype_eqb t Tr); [|exists p; unfold inv; repeat split; auto; try (rewrite H6; auto)].
    cbv zeta. set (m := if mlen p <? S (length (cur p)) + 2 then mlen p * 2 else mlen p).
    assert (S (length (cur p)) + 2 <= m /\ 5 <= m) as [Hm Hm5] by (unfold m; destruct (Nat.ltb_spec (mlen p) (S (length (cur p)) + 2)); lia).
    destruct (Nat.ltb_spec (S (length (cur p)) - 1) m); [|lia]. eexists. split; [reflexivity|].
    unfold inv. cbn. rewrite app_length. cbn. destruct (ctype_eqb t Tw); repeat split; auto; try lia; congruence.
Qed.
Lemma open_field_inv p t : inv p -> infield p = false -> lastnw p = 0 -> inv (open_field p t) /\ ct p <= ct (open_field p t) /\
  drop (ct (open_field p t)) (cells (open_field p t)) = drop (ct (open_field p t)) (cells p).
Proof.
  intros (H1 & H2 & H3 & H4 & H5 & H6) Hi Hl. unfold open_field.
  destruct (_ || _); [|repeat split; auto; rewrite ?Hi; try congruence]. unfold inv. cbn.
  destruct (Nat.ltb_spec (length (cells p)) (S (ct p))).
  - rewrite app_length. cbn. repeat split; auto; try lia; try congruence.
    rewrite drop_ge by (rewrite app_length; cbn; lia). rewrite drop_ge by lia. auto.
  - repeat split; auto; try lia; congruence.
Qed.
(** stronger invariant used between turns *)
Definition invt p := inv p /\ (infield p = false -> lastnw p = 0).
Lemma settle_inv p t c : invt p -> exists p', settle p t c = Ok p' /\ invt p' /\ inqq p' = inqq p /\ ct p <= ct p' /\
  drop (ct p') (cells p') = drop (ct p') (cells p).
Proof.
  intros [HI Hl]. unfold settle. destruct (ctype_eqb t TW && lastwhite p); [exists p; repeat split; auto; apply HI|].
  set (p1 := Ps (cells p) (ct p) (cur p) (inqq p) (infield p) (mlen p) (ctype_eqb t TW) (lastnw p)).
  assert (inv p1) as H1 by (unfold inv, p1 in *; cbn; auto).
  change (infield p1) with (infield p). destruct (infield p) eqn:Ei; cbn [negb andb].
  - change (infield p1) with true. cbv iota. destruct (use_char_inv p1 t c H1 eq_refl) as (p' & E & H2 & H3 & H4 & H5).
    exists p'. rewrite E. split; [auto|]. split; [|rewrite H3; repeat split; auto].
    split; [auto|]. intros Hi. revert E. unfold use_char.
    destruct (_ || _); [repeat (destruct (_ <? _); try discriminate); intros [= <-]; auto|].
    destruct (_ || _); [destruct (_ <? _); try discriminate; intros [= <-]; cbn in Hi; congruence|]. intros [= <-]. discriminate Hi.
  - destruct (ctype_eqb t Tw); [exists p1; repeat split; auto; apply H1|].
    destruct (open_field_inv p1 t H1 eq_refl (Hl eq_refl)) as (H2 & H3 & H4). cbv zeta.
    destruct (infield (open_field p1 t)) eqn:Eo.
    + destruct (use_char_inv (open_field p1 t) t c H2 Eo) as (p' & E & H5 & H6 & H7 & H8). exists p'. rewrite E.
      split; [auto|]. split; [split; [auto|]|].
      * intros Hi. revert E. unfold use_char.
        destruct (_ || _); [repeat (destruct (_ <? _); try discriminate); intros [= <-]; auto|].
        destruct (_ || _); [destruct (_ <? _); try discriminate; intros [= <-]; cbn in Hi; congruence|]. intros [= <-]. congruence.
      * rewrite H6. split; [rewrite H7; unfold open_field; destruct (_ || _); auto|]. split; [auto|]. rewrite H8. auto.
    + exists (open_field p1 t). split; [auto|]. split; [split; [auto|]|].
      * intros _. unfold open_field. destruct (_ || _); cbn; apply (Hl eq_refl).
      * split; [unfold open_field; destruct (_ || _); auto|]. split; auto.
Qed.
Lemma get_next_safe s : past s = false -> exists o s', get_next s = Ok (o, s') /\
  ((exists c, bytes s = c :: bytes s' /\ past s' = false /\ (o = Some c \/ o = None)) \/ (o = None /\ bytes s = [] /\ bytes s' = [])).
Proof.
  destruct s as [[|c r] b]; cbn; intros ->; unfold get_next; cbn.
  - eexists _, _. split; [reflexivity|]. right; auto.
  - eexists _, _. split; [reflexivity|]. left. exists c. cbn. destruct (Ascii.eqb c (chr 255)); auto.
Qed.
Lemma skip_comment_safe : forall fuel s, past s = false -> length (bytes s) < fuel ->
  exists s', skip_comment fuel s = Ok s' /\ exists w, bytes s = w ++ bytes s'.
Proof.
  induction fuel as [|fuel IH]; intros s Hp Hf; [lia|]. cbn [skip_comment].
  destruct (get_next_safe s Hp) as (o & s1 & -> & [(c & E & Hp1 & Ho)|(-> & E & E1)]); cbn [rbind].
  - destruct o as [c'|]; [|exists s1; split; [auto|exists [c]; auto]].
    destruct (Ascii.eqb c' nl); [exists s1; split; [auto|exists [c]; auto]|].
    destruct (IH s1 Hp1) as (s2 & H2 & w & Hw); [rewrite E in Hf; cbn in Hf; lia|]. exists s2. split; [auto|]. exists (c :: w). rewrite E, Hw. auto.
  - exists s1. split; [auto|]. exists []. rewrite E, E1. auto.
Qed.
Lemma next_char_E delims s o t s' : next_char delims s = Ok (o, t, s') -> get_next s = Ok (o, s') /\ t = classify delims o.
Proof. unfold next_char. destruct (get_next s) as [[o1 s1]| |]; cbn; intros [= <- <- <-]; auto. Qed.
Lemma classify_None delims o : o = None -> classify delims o = TE.
Proof. intros ->. auto. Qed.
Lemma classify_Some delims c : classify delims (Some c) <> TE.
Proof. cbn. repeat (destruct (_ : bool); try discriminate). Qed.

Lemma turn_safe delims p s : invt p -> past s = false ->
  exists p' t s', turn delims p s = Ok (p', t, s') /\ invt p' /\ ct p <= ct p' /\ drop (ct p') (cells p') = drop (ct p') (cells p) /\
    (exists w, bytes s = w ++ bytes s' /\ (w = [] -> t = TE)) /\ (t = Tn \/ t = TE \/ past s' = false).
Proof.
  intros HI Hp. unfold turn.
  destruct (get_next_safe s Hp) as (o & s1 & E & Hc). unfold next_char at 1. rewrite E. cbn [rbind].
  assert (exists t2 s2 w, (if ctype_eqb (classify delims o) Ts && negb (inqq p) then do s' <- skip_comment (S (S (length (bytes s1)))) s1; Ok (Tn, s')
            else Ok (classify delims o, s1)) = Ok (t2, s2) /\ bytes s = w ++ bytes s2 /\
            ((t2 = TE /\ o = None) \/ (w <> [] /\ (past s2 = false \/ (t2 = Tn /\ inqq p = false)))) /\ (t2 = Tb -> past s2 = false)) as (t2 & s2 & w & -> & Hw & Ht & Hb).
  { destruct Hc as [(c & E1 & Hp1 & [-> | ->])|(-> & E1 & E2)].
    - destruct (ctype_eqb (classify delims (Some c)) Ts && negb (inqq p)) eqn:Ets.
      + destruct (skip_comment_safe (S (S (length (bytes s1)))) s1 Hp1 ltac:(lia)) as (s2 & -> & w & Hw). cbn [rbind].
        eexists _, _, (c :: w). split; [reflexivity|]. split; [rewrite E1, Hw; auto|]. split; [|discriminate].
        right; split; [discriminate|]. right. split; [auto|]. apply andb_true_iff in Ets as [_ Ets]. apply negb_true_iff in Ets. auto.
      + eexists _, _, [c]. split; [reflexivity|]. split; [auto|]. split; [right; split; [discriminate|auto]|auto].
    - cbn. eexists _, _, [c]. split; [reflexivity|]. split; [auto|]. split; [left; auto|discriminate].
    - cbn. eexists _, _, []. split; [reflexivity|]. rewrite E1, E2. split; [auto|]. split; [left; auto|discriminate]. }
  cbn [rbind].
  assert (exists o3 t3 s3 w3, (if ctype_eqb t2 Tb then do ots <- next_char delims s2;
             let '(o', t', s') := ots in Ok (o', (if ctype_eqb t' TE then TE else Tr), s') else Ok (o, t2, s2)) = Ok (o3, t3, s3) /\
             bytes s = w3 ++ bytes s3 /\ (w3 = [] -> t3 = TE) /\ (t3 = TE \/ past s3 = false \/ (t3 = Tn /\ inqq p = false))) as (o3 & t3 & s3 & w3 & -> & Hw3 & Ht3 & Hp3).
  { destruct (ctype_eqb t2 Tb) eqn:Eb.
    - assert (t2 = Tb) by (destruct t2; try discriminate; auto). subst t2. specialize (Hb eq_refl).
      destruct (get_next_safe s2 Hb) as (o3 & s3 & E3 & Hc3). unfold next_char. rewrite E3. cbn [rbind].
      eexists _, _, _. destruct Hc3 as [(c & E1 & Hp1 & Ho)|(-> & E1 & E2)].
      + exists (w ++ [c]). split; [reflexivity|]. split; [rewrite Hw, E1, <- app_assoc; auto|]. split; [destruct w; discriminate|auto].
      + exists w. split; [reflexivity|]. split; [rewrite Hw, E1, E2; auto|]. cbn. auto.
    - eexists _, _, _, w. split; [reflexivity|]. split; [auto|]. split; [intros ->; destruct Ht as [[H _]|[H _]]; congruence|].
      destruct Ht as [[H _]|[_ [H|H]]]; auto. }
  cbn [rbind].
  set (b := inqq p && negb (ctype_eqb t3 Tq) && negb (ctype_eqb t3 TE)).
  set (q := if b then inqq p else if ctype_eqb t3 Tq then negb (inqq p) else inqq p).
  set (p1 := Ps (cells p) (ct p) (cur p) q (infield p) (mlen p) (lastwhite p) (lastnw p)).
  assert (invt p1) as H1 by (unfold invt, inv, p1 in *; cbn; auto).
  destruct (settle_inv p1 (if b then Tr else t3) (default (chr 255) o3) H1) as (p' & -> & H2 & H3 & H4 & H5). cbn [rbind].
  eexists _, _, _. split; [reflexivity|]. split; [auto|]. split; [exact H4|]. split; [exact H5|].
  assert (b = true -> t3 <> TE) as Hbe. { unfold b. destruct t3; cbn; rewrite ?andb_false_r; discriminate. }
  split.
  - exists w3. split; [auto|]. intros Ew. specialize (Ht3 Ew). destruct b eqn:Eb; auto. exfalso. apply Hbe; auto.
  - destruct b eqn:Eb.
    + destruct Hp3 as [->|[Hp3|[-> Hq]]]; [exfalso; apply Hbe; auto|auto|]. unfold b in Eb. rewrite Hq in Eb. discriminate.
    + destruct Hp3 as [->|[Hp3|[-> Hq]]]; auto.
Qed.
Lemma ctype_eqb_eq a b : ctype_eqb a b = true <-> a = b.
Proof. destruct a, b; cbn; split; congruence. Qed.
Lemma parse_loop_safe delims : forall fuel p s, invt p -> past s = false -> length (bytes s) < fuel ->
  exists p' e s', parse_loop fuel delims p s = Ok (p', e, s') /\ invt p' /\ ct p <= ct p' /\ drop (ct p') (cells p') = drop (ct p') (cells p) /\
    exists w, bytes s = w ++ bytes s' /\ (w = [] -> e = true).
Proof.
  induction fuel as [|fuel IH]; intros p s HI Hp Hf; [lia|]. cbn [parse_loop].
  destruct (turn_safe delims p s HI Hp) as (p1 & t & s1 & -> & H1 & H2 & H3 & (w & Hw & Hwt) & Ht). cbn [rbind].
  destruct (ctype_eqb t Tn) eqn:En.
  - apply ctype_eqb_eq in En. subst t. eexists _, _, _. split; [reflexivity|]. repeat split; auto; try apply H1.
    exists w. split; [auto|]. intros ->. specialize (Hwt eq_refl). discriminate.
  - destruct (ctype_eqb t TE) eqn:Ee.
    + eexists _, _, _. split; [reflexivity|]. repeat split; auto; try apply H1. exists w. auto.
    + assert (past s1 = false) as Hp1 by (destruct Ht as [->|[->|?]]; auto; discriminate).
      assert (w <> []) as Hne by (intros ->; rewrite (Hwt eq_refl) in Ee; discriminate).
      destruct (IH p1 s1 H1 Hp1) as (p2 & e & s2 & -> & H4 & H5 & H6 & w2 & Hw2 & Hwe).
      { rewrite Hw, app_length in Hf. destruct w; [congruence|cbn in Hf; lia]. }
      eexists _, _, _. split; [reflexivity|]. split; [auto|]. split; [lia|]. split.
      * rewrite H6. replace (ct p2) with (ct p1 + (ct p2 - ct p1)) by lia. rewrite <- !drop_drop, H3. auto.
      * exists (w ++ w2). split; [rewrite Hw, Hw2, app_assoc; auto|]. destruct w; [congruence|discriminate].
Qed.
Lemma start_inv fn : invt (Ps fn 0 [] false false 5 false 0).
Proof. unfold invt, inv; cbn. repeat split; auto; try lia; discriminate. Qed.

Definition good_q (x : qchar) : Prop :=
  match x with QC c => plain c /\ c <> quote /\ c <> backslash | QE c => plain c end.
Definition good_piece (delims : list ascii) (x : piece) : Prop :=
  match x with
  | Solid c => plain c /\ classify delims (Some c) = Tr
  | Soft c => plain c /\ classify delims (Some c) = Tw
  | Esc c => plain c
  | Quot l => Forall good_q l
  end.
Definition good_delims (delims : list ascii) : Prop :=
  classify delims (Some nl) = Tn /\ classify delims (Some quote) = Tq /\ classify delims (Some backslash) = Tb /\
  classify delims (Some sharp) = Ts.

Section R.
Variable delims : list ascii.
Hypothesis HD : good_delims delims.

(** reading [w] takes state p to p' *)
Definition reads (p : pst) (w : list ascii) (p' : pst) : Prop :=
  exists k, k <= length w /\ forall f r b, parse_loop (k + f) delims p (St (w ++ r) b) = parse_loop f delims p' (St r b).
Lemma reads_nil p : reads p [] p.
Proof. exists 0. split; [cbn; lia|]. auto. Qed.
Lemma reads_trans p w p1 w2 p2 : reads p w p1 -> reads p1 w2 p2 -> reads p (w ++ w2) p2.
Proof.
  intros (k1 & H1 & E1) (k2 & H2 & E2). exists (k1 + k2). rewrite app_length. split; [lia|]. intros f r b.
  rewrite <- Nat.add_assoc, <- app_assoc, E1, E2. auto.
Qed.
Lemma reads_turn p w p' t : w <> [] -> (forall r b, turn delims p (St (w ++ r) b) = Ok (p', t, St r b)) -> t <> Tn -> t <> TE -> reads p w p'.
Proof.
  intros Hw H Hn He. exists 1. split; [destruct w; [congruence|cbn; lia]|]. intros f r b. cbn [Nat.add parse_loop]. rewrite H. cbn [rbind].
  destruct t; cbn; try congruence; auto.
Qed.
Lemma get_next_cons c r b : plain c -> get_next (St (c :: r) b) = Ok (Some c, St r b).
Proof. intros Hc. unfold get_next. cbn. destruct (Ascii.eqb_spec c (chr 255)); [contradiction|auto]. Qed.

(** states: not inside quotes; [l] is what the current field holds so far, from its first counting character *)
Definition solid_len (l : list (ascii * bool)) : nat := length (lead (rev l)).
Definition room (cs : list (list ascii)) (n : nat) := if length cs <? S n then cs ++ [[]] else cs.
Definition is_state (p : pst) (cs : list (list ascii)) (n : nat) (q : bool) (l : list (ascii * bool)) : Prop :=
  invt p /\ inqq p = q /\
  match l with
  | [] => infield p = false /\ ct p = n /\ cells p = cs
  | _ => infield p = true /\ ct p = S n /\ cells p = room cs n /\ cur p = map fst l /\ lastnw p = solid_len l /\ lastwhite p = false
  end.
Definition grow (l : list (ascii * bool)) (x : ascii * bool) : list (ascii * bool) := match l with [] => lead [x] | _ => l ++ [x] end.
Lemma lead_snoc l x : lead (l ++ [x]) = grow (lead l) x.
Proof. induction l as [|[c b] l IH]; cbn; auto. destruct b; auto. Qed.
Lemma lead_app l m : lead (l ++ m) = fold_left grow m (lead l).
Proof.
  revert l; induction m as [|x m IH]; intros l; cbn; [rewrite app_nil_r; auto|]. rewrite <- lead_snoc, <- IH, <- app_assoc. auto.
Qed.
Lemma solid_len_snoc l c b : solid_len (l ++ [(c, b)]) = if b then S (length l) else solid_len l.
Proof. unfold solid_len. rewrite rev_app_distr. cbn. destruct b; auto. cbn. rewrite rev_length. auto. Qed.

Lemma set_q p q : invt p -> invt (Ps (cells p) (ct p) (cur p) q (infield p) (mlen p) (lastwhite p) (lastnw p)).
Proof. intros H; exact H. Qed.
Lemma settle_char p cs n q l c (b : bool) : is_state p cs n q l ->
  exists p', settle p (if b then Tr else Tw) c = Ok p' /\ is_state p' cs n q (grow l (c, b)) /\ lastwhite p' = false.
Proof.
  intros (HI & Hq & Hl).
  destruct (settle_inv p (if b then Tr else Tw) c HI) as (p' & E & HI' & Hq' & _ & _).
  exists p'. split; [auto|]. unfold is_state. rewrite Hq', Hq. cut (lastwhite p' = false /\
    match grow l (c, b) with
    | [] => infield p' = false /\ ct p' = n /\ cells p' = cs
    | _ => infield p' = true /\ ct p' = S n /\ cells p' = room cs n /\ cur p' = map fst (grow l (c, b)) /\ lastnw p' = solid_len (grow l (c, b))
    end); [intros [? M]; split; [split; [auto|split; [auto|]]; revert M; destruct (grow l (c, b)); tauto|auto]|].
  destruct HI as [(I1 & I2 & I3 & I4 & I5 & I6) I7]. clear HI' Hq'. revert E.
  destruct p as [pc pn pcur pq pi pm plw pl]. cbn [cells ct cur inqq infield mlen lastwhite lastnw] in *.
  unfold settle. cbn [cells ct cur inqq infield mlen lastwhite lastnw].
  replace (ctype_eqb (if b then Tr else Tw) TW) with false by (destruct b; auto). cbn [andb]. destruct l as [|x l]; cbn [grow].
  - destruct Hl as (L1 & L2 & L3). subst pi pn pc. cbn [negb andb]. destruct b; cbn [ctype_eqb lead].
    + unfold open_field. cbn [ctype_eqb orb infield ct cells inqq lastwhite lastnw]. unfold use_char.
      cbn [ctype_eqb orb cur mlen length cells ct inqq infield lastwhite lastnw app].
      change (5 <? 1 + 2) with false. cbv iota. change (1 - 1 <? 5) with true. cbv iota. intros [= <-]. cbn. unfold room. repeat split.
    + intros [= <-]. cbn. repeat split.
  - destruct Hl as (L1 & L2 & L3 & L4 & L5 & L6). subst pi pn pc pcur pl. cbn [negb andb].
    unfold use_char. cbn [cells ct cur inqq infield mlen lastwhite lastnw].
    replace (ctype_eqb _ Td || ctype_eqb _ Tn || ctype_eqb _ TE || ctype_eqb _ TW) with false by (destruct b; auto).
    replace (ctype_eqb (if b then Tr else Tw) Tw || ctype_eqb (if b then Tr else Tw) Tr) with true by (destruct b; auto).
    destruct (S _ - 1 <? _); [|discriminate]. intros [= <-].
    cbn [cells ct cur inqq infield mlen lastwhite lastnw]. split; [auto|]. rewrite map_app.
    change (x :: l ++ [(c, b)]) with ((x :: l) ++ [(c, b)]). rewrite solid_len_snoc, map_length. destruct b; cbn; repeat split.
Qed.

(** one turn on a plain character outside quotes *)
Lemma turn_out p c r b t : plain c -> classify delims (Some c) = t -> t <> Ts -> t <> Tb -> t <> Tq -> inqq p = false ->
  turn delims p (St (c :: r) b) = do p' <- settle p t c; Ok (p', t, St r b).
Proof.
  intros Hc Ht H1 H2 H3 Hq. unfold turn, next_char. rewrite get_next_cons by auto. cbn [rbind]. rewrite Ht.
  destruct p as [pc pn pcur pq pi pm plw pl]. cbn [inqq] in *. subst pq.
  destruct t; try congruence; reflexivity.
Qed.
(** an escaped character, quoted or not *)
Lemma turn_esc p c r b : plain c -> turn delims p (St (backslash :: c :: r) b) = do p' <- settle p Tr c; Ok (p', Tr, St r b).
Proof.
  intros Hc. destruct HD as (_ & _ & HB & _). unfold turn, next_char. rewrite get_next_cons by discriminate. cbn [rbind]. rewrite HB.
  cbn [ctype_eqb andb rbind]. rewrite get_next_cons by auto. cbn [rbind].
  destruct (ctype_eqb (classify delims (Some c)) TE) eqn:E; [apply ctype_eqb_eq in E; destruct (classify_Some _ _ E)|].
  destruct p as [pc pn pcur pq pi pm plw pl]. cbn [inqq ctype_eqb negb andb rbind default]. destruct pq; reflexivity.
Qed.
Lemma classify_q c : classify delims (Some c) = Tq -> c = quote.
Proof.
  cbn. repeat match goal with |- context [if ?x then _ else _] => destruct x eqn:?; try discriminate end.
  intros _. apply Ascii.eqb_eq. auto.
Qed.
Lemma classify_b c : classify delims (Some c) = Tb -> c = backslash.
Proof.
  cbn. repeat match goal with |- context [if ?x then _ else _] => destruct x eqn:?; try discriminate end.
  intros _. apply Ascii.eqb_eq. auto.
Qed.
(** any character other than quote and backslash, inside quotes *)
Lemma turn_in p c r b : plain c -> c <> quote -> c <> backslash -> inqq p = true ->
  turn delims p (St (c :: r) b) = do p' <- settle p Tr c; Ok (p', Tr, St r b).
Proof.
  intros Hc H1 H2 Hq. unfold turn, next_char. rewrite get_next_cons by auto. cbn [rbind].
  pose proof (classify_q c) as Q. pose proof (classify_b c) as B. pose proof (classify_Some delims c) as E.
  rewrite Hq. cbn [negb]. rewrite andb_false_r. cbn [rbind].
  destruct (classify delims (Some c)); try (destruct H1; auto; fail); try (destruct H2; auto; fail); try (destruct E; auto; fail);
  cbn [ctype_eqb rbind andb negb default]; reflexivity || (destruct p; cbn in *; subst; reflexivity).
Qed.
Lemma turn_quote p r b : turn delims p (St (quote :: r) b) =
  do p' <- settle (Ps (cells p) (ct p) (cur p) (negb (inqq p)) (infield p) (mlen p) (lastwhite p) (lastnw p)) Tq quote; Ok (p', Tq, St r b).
Proof.
  destruct HD as (_ & HQ & _ & _). unfold turn, next_char. rewrite get_next_cons by discriminate. cbn [rbind]. rewrite HQ.
  cbn [ctype_eqb andb rbind negb default]. rewrite andb_false_r. cbn [andb]. reflexivity.
Qed.
Lemma settle_quote p cs n q l c : is_state p cs n q l ->
  exists p', settle p Tq c = Ok p' /\ is_state p' cs n q l.
Proof.
  intros (HI & Hq & Hl).
  destruct (settle_inv p Tq c HI) as (p' & E & HI' & Hq' & _ & _).
  exists p'. split; [auto|]. split; [auto|]. split; [congruence|]. clear HI HI' Hq Hq'. revert E.
  destruct p as [pc pn pcur pq pi pm plw pl]. cbn [cells ct cur inqq infield mlen lastwhite lastnw] in *.
  unfold settle. cbn [cells ct cur inqq infield mlen lastwhite lastnw ctype_eqb andb].
  rewrite andb_false_r. destruct l as [|x l].
  - destruct Hl as (L1 & L2 & L3). subst pi pn pc. unfold open_field. cbn. intros [= <-]. cbn. auto.
  - destruct Hl as (L1 & L2 & L3 & L4 & L5 & L6). subst pi pn pc pcur pl. cbn. intros [= <-]. cbn. repeat split; auto.
Qed.
Lemma read_q p cs n l x : is_state p cs n true l -> good_q x ->
  exists p', reads p (write_q x) p' /\ is_state p' cs n true (grow l (q_char x, true)).
Proof.
  intros Hs Hx. pose proof Hs as (_ & Hq & _).
  destruct (settle_char p cs n true l (q_char x) true Hs) as (p' & E & Hs' & _). exists p'. split; [|auto].
  destruct x as [c|c]; cbn [q_char write_q good_q] in *.
  - destruct Hx as (H1 & H2 & H3). apply (reads_turn p [c] p' Tr); try discriminate.
    intros r b. cbn [app]. rewrite turn_in, E; auto.
  - apply (reads_turn p [backslash; c] p' Tr); try discriminate. intros r b. cbn [app]. rewrite turn_esc, E; auto.
Qed.
Lemma read_qs : forall qs p cs n l, is_state p cs n true l -> Forall good_q qs ->
  exists p', reads p (concat (map write_q qs)) p' /\ is_state p' cs n true (fold_left grow (map (fun q => (q_char q, true)) qs) l).
Proof.
  induction qs as [|x qs IH]; intros p cs n l Hs HF; cbn.
  - exists p. split; [apply reads_nil|auto].
  - inversion HF; subst. destruct (read_q p cs n l x Hs) as (p1 & R1 & S1); [auto|].
    destruct (IH p1 cs n _ S1) as (p2 & R2 & S2); [auto|]. exists p2. split; [eapply reads_trans; eauto|auto].
Qed.
Lemma read_quote p cs n q l : is_state p cs n q l -> exists p', reads p [quote] p' /\ is_state p' cs n (negb q) l.
Proof.
  intros (HI & Hq & Hl). 
  destruct (settle_quote (Ps (cells p) (ct p) (cur p) (negb (inqq p)) (infield p) (mlen p) (lastwhite p) (lastnw p)) cs n (negb q) l quote) as (p' & E & Hs').
  { split; [apply set_q; auto|]. split; [cbn; congruence|]. exact Hl. }
  exists p'. split; [|auto]. apply (reads_turn p [quote] p' Tq); try discriminate. intros r b. cbn [app]. rewrite turn_quote, E. auto.
Qed.
Lemma read_piece p cs n l x : is_state p cs n false l -> good_piece delims x ->
  exists p', reads p (write_piece x) p' /\ is_state p' cs n false (fold_left grow (ink_piece x) l).
Proof.
  intros Hs Hx. pose proof Hs as (_ & Hq & _). destruct x as [c|c|c|qs]; cbn [good_piece write_piece ink_piece fold_left] in *.
  - destruct Hx as [H1 H2]. destruct (settle_char p cs n false l c true Hs) as (p' & E & Hs' & _). exists p'. split; [|auto].
    apply (reads_turn p [c] p' Tr); try discriminate. intros r b. cbn [app]. rewrite (turn_out p c r b Tr), E; auto; discriminate.
  - destruct Hx as [H1 H2]. destruct (settle_char p cs n false l c false Hs) as (p' & E & Hs' & _). exists p'. split; [|auto].
    apply (reads_turn p [c] p' Tw); try discriminate. intros r b. cbn [app]. rewrite (turn_out p c r b Tw), E; auto; discriminate.
  - destruct (settle_char p cs n false l c true Hs) as (p' & E & Hs' & _). exists p'. split; [|auto].
    apply (reads_turn p [backslash; c] p' Tr); try discriminate. intros r b. cbn [app]. rewrite turn_esc, E; auto.
  - destruct (read_quote p cs n false l Hs) as (p1 & R1 & S1). cbn [negb] in S1.
    destruct (read_qs qs p1 cs n l S1 Hx) as (p2 & R2 & S2).
    destruct (read_quote p2 cs n true _ S2) as (p3 & R3 & S3). cbn [negb] in S3.
    exists p3. split; [|auto]. apply (reads_trans p [quote] p1 (concat (map write_q qs) ++ [quote]) p3); [auto|].
    eapply reads_trans; eauto.
Qed.
Lemma read_field : forall f p cs n l, is_state p cs n false l -> Forall (good_piece delims) f ->
  exists p', reads p (write_field f) p' /\ is_state p' cs n false (fold_left grow (ink f) l).
Proof.
  induction f as [|x f IH]; intros p cs n l Hs HF.
  - exists p. split; [apply reads_nil|auto].
  - inversion HF; subst. destruct (read_piece p cs n l x Hs) as (p1 & R1 & S1); [auto|].
    destruct (IH p1 cs n _ S1) as (p2 & R2 & S2); [auto|]. exists p2. split; [eapply reads_trans; eauto|].
    unfold ink. cbn. rewrite fold_left_app. auto.
Qed.
(** closing a field *)
Definition trimmed (l : list (ascii * bool)) : list ascii := map fst (rev (lead (rev l))).
Lemma lead_suffix l : exists w, l = w ++ lead l.
Proof. induction l as [|[c b] l [w IH]]; cbn; [exists []; auto|]. destruct b; [exists []; auto|]. exists ((c, false) :: w). cbn. f_equal; auto. Qed.
Lemma take_solid l : take (solid_len l) (map fst l) = trimmed l.
Proof.
  unfold solid_len, trimmed. destruct (lead_suffix (rev l)) as (w & E).
  assert (l = rev (lead (rev l)) ++ rev w) as E2 by (rewrite <- rev_app_distr, <- E, rev_involutive; auto).
  rewrite E2 at 2. rewrite map_app, take_app_alt; auto. rewrite map_length, rev_length. auto.
Qed.
Definition put (cs : list (list ascii)) (n : nat) (v : list ascii) : list (list ascii) := <[n := v]> (room cs n).
Definition closes (t : ctype) (n : nat) (l : list (ascii * bool)) : Prop :=
  t = Td \/ (t = TW /\ l <> []) \/ ((t = Tn \/ t = TE) /\ (l <> [] \/ 0 < n)).
Lemma settle_close p cs n l c t : is_state p cs n false l -> closes t n l ->
  exists p', settle p t c = Ok p' /\ is_state p' (put cs n (trimmed l)) (S n) false [].
Proof.
  intros (HI & Hq & Hl) Hc.
  destruct (settle_inv p t c HI) as (p' & E & HI' & Hq' & _ & _).
  exists p'. split; [auto|]. split; [auto|]. split; [congruence|]. clear HI' Hq Hq'. revert E.
  destruct HI as [(I1 & I2 & I3 & I4 & I5 & I6) I7].
  destruct p as [pc pn pcur pq pi pm plw pl]. cbn [cells ct cur inqq infield mlen lastwhite lastnw] in *.
  unfold settle. cbn [cells ct cur inqq infield mlen lastwhite lastnw].
  assert (ctype_eqb t TW && plw = false) as -> .
  { destruct (ctype_eqb t TW) eqn:Et; auto. apply ctype_eqb_eq in Et. subst t. cbn.
    destruct Hc as [?|[[_ Hc]|[[?|?] _]]]; try discriminate. destruct l; [congruence|]. apply Hl. }
  assert (ctype_eqb t Tw = false) as Etw by (destruct Hc as [->|[[-> _]|[[-> | ->] _]]]; auto).
  rewrite Etw, andb_false_r. destruct l as [|x l].
  - destruct Hl as (L1 & L2 & L3). subst pi pn pc. unfold open_field. cbn [cells ct cur inqq infield mlen lastwhite lastnw].
    assert (ctype_eqb t Tr || ctype_eqb t Td || (ctype_eqb t Tn || ctype_eqb t TE) && (0 <? n) = true) as ->.
    { destruct Hc as [->|[[_ Hc]|[Ht [Hc|Hc]]]]; try congruence; auto.
      apply Nat.ltb_lt in Hc. rewrite Hc. destruct Ht as [-> | ->]; auto. }
    cbn [infield]. unfold use_char. cbn [cells ct cur inqq infield mlen lastwhite lastnw].
    assert (ctype_eqb t Td || ctype_eqb t Tn || ctype_eqb t TE || ctype_eqb t TW = true) as -> by (destruct Hc as [->|[[-> _]|[[-> | ->] _]]]; auto).
    rewrite (I7 eq_refl). destruct (0 <? 5); [|discriminate]. destruct (S n - 1 <? _); [|discriminate].
    intros [= <-]. cbn [cells ct cur inqq infield mlen lastwhite lastnw]. unfold put, room. split; [auto|]. split; [auto|]. f_equal. lia.
  - destruct Hl as (L1 & L2 & L3 & L4 & L5 & L6). subst pi pn pc pcur pl. cbn [infield]. unfold use_char. cbn [cells ct cur inqq infield mlen lastwhite lastnw].
    assert (ctype_eqb t Td || ctype_eqb t Tn || ctype_eqb t TE || ctype_eqb t TW = true) as -> by (destruct Hc as [->|[[-> _]|[[-> | ->] _]]]; auto).
    destruct (_ <? pm); [|discriminate]. destruct (S n - 1 <? _); [|discriminate].
    intros [= <-]. cbn [cells ct cur inqq infield mlen lastwhite lastnw]. unfold put. replace (S n - 1) with n by lia.
    rewrite <- take_solid. split; [auto|]. split; [auto|]. cbn [map]. f_equal. lia.
Qed.
Lemma settle_none p cs n c t : is_state p cs n false [] -> t = TW \/ ((t = Tn \/ t = TE) /\ n = 0) ->
  exists p', settle p t c = Ok p' /\ is_state p' cs n false [].
Proof.
  intros (HI & Hq & Hl) Hc.
  destruct (settle_inv p t c HI) as (p' & E & HI' & Hq' & _ & _).
  exists p'. split; [auto|]. split; [auto|]. split; [congruence|]. clear HI' Hq Hq'. revert E.
  destruct p as [pc pn pcur pq pi pm plw pl]. cbn [cells ct cur inqq infield mlen lastwhite lastnw] in *.
  unfold settle. cbn [cells ct cur inqq infield mlen lastwhite lastnw]. destruct Hl as (L1 & L2 & L3). subst pi pn pc.
  destruct (_ && plw); [intros [= <-]; auto|].
  assert (ctype_eqb t Tw = false) as -> by (destruct Hc as [->|[[-> | ->] _]]; auto).
  cbn [negb andb]. unfold open_field. cbn [cells ct cur inqq infield mlen lastwhite lastnw].
  assert (ctype_eqb t Tr || ctype_eqb t Td || (ctype_eqb t Tn || ctype_eqb t TE) && (0 <? n) = false) as ->.
  { destruct Hc as [->|[[-> | ->] ->]]; auto. }
  cbn [infield]. intros [= <-]; auto.
Qed.

Lemma white_plain c : classify delims (Some c) = TW -> plain c.
Proof. intros H ->. revert H. unfold classify. fold (chr 255). change (Ascii.eqb (chr 255) (chr 32) || Ascii.eqb (chr 255) (chr 13) || Ascii.eqb (chr 255) (chr 9) || Ascii.eqb (chr 255) (chr 0)) with false.
  cbv iota. repeat match goal with |- context [if ?x then _ else _] => destruct x; try discriminate end. Qed.
Lemma read_white : forall ws p cs n, is_state p cs n false [] -> Forall (fun c => classify delims (Some c) = TW) ws ->
  exists p', reads p ws p' /\ is_state p' cs n false [].
Proof.
  induction ws as [|c ws IH]; intros p cs n Hs HF.
  - exists p. split; [apply reads_nil|auto].
  - inversion HF; subst. destruct (settle_none p cs n c TW Hs) as (p1 & E1 & S1); [auto|].
    destruct (IH p1 cs n S1) as (p2 & R2 & S2); [auto|]. exists p2. split; [|auto]. apply (reads_trans p [c] p1 ws p2); [|auto].
    apply (reads_turn p [c] p1 TW); try discriminate. intros r b. cbn [app]. destruct Hs as (_ & Hq & _).
    rewrite (turn_out p c r b TW), E1; auto; try discriminate. apply white_plain; auto.
Qed.
Lemma room_length cs n : length (room cs n) = if length cs <? S n then S (length cs) else length cs.
Proof. unfold room. destruct (_ <? _); auto. rewrite app_length. cbn. lia. Qed.
Lemma put_spec fn vs v n : n = length vs -> put (vs ++ drop (length vs) fn) n v = (vs ++ [v]) ++ drop (length (vs ++ [v])) fn.
Proof.
  intros ->. unfold put, room. rewrite !app_length, drop_length. cbn [length].
  destruct (Nat.ltb_spec (length vs + (length fn - length vs)) (S (length vs))).
  - rewrite (drop_ge fn) by lia. rewrite (drop_ge fn) by lia. rewrite !app_nil_r, insert_app_r_alt by lia. rewrite Nat.sub_diag. auto.
  - rewrite <- app_assoc, insert_app_r_alt by lia. rewrite Nat.sub_diag. f_equal.
    destruct (drop (length vs) fn) as [|x r] eqn:E; [apply (f_equal length) in E; rewrite drop_length in E; cbn in E; lia|].
    cbn. f_equal. rewrite <- drop_drop, E. reflexivity.
Qed.
End R.

Definition white (delims : list ascii) (c : ascii) : Prop := classify delims (Some c) = TW.
Fixpoint good_rest (delims : list ascii) (prev : list piece) (l : list (sep * list piece)) : Prop :=
  match l with
  | [] => True
  | (x, f) :: l' =>
    match x with
    | Tight c pre => plain c /\ classify delims (Some c) = Td /\ Forall (white delims) pre
    | Loose ws => ws <> [] /\ Forall (white delims) ws /\ blank prev = false
    end /\ Forall (good_piece delims) f /\ good_rest delims f l'
  end.
Definition good_line (delims : list ascii) (L : line) : Prop :=
  Forall (white delims) (lpre L) /\ Forall (good_piece delims) (lfirst L) /\ good_rest delims (lfirst L) (lrest L).
Definition good_end (e : ending) : Prop := match e with Newline => True | Comment w => Forall (fun c => plain c /\ c <> nl) w end.

Section Lines.
Variable delims : list ascii.
Hypothesis HD : good_delims delims.

Lemma blank_lead f : blank f = true <-> lead (ink f) = [].
Proof. unfold blank. destruct (lead (ink f)); split; congruence. Qed.
Lemma read_rest fn : forall l f p vs, is_state p (vs ++ drop (length vs) fn) (length vs) false (lead (ink f)) ->
  good_rest delims f l ->
  exists p' vs' g, reads delims p (concat (map (fun x => write_sep (fst x) ++ write_field (snd x)) l)) p' /\
    is_state p' (vs' ++ drop (length vs') fn) (length vs') false (lead (ink g)) /\
    vs' ++ [value g] = vs ++ value f :: map value (map snd l) /\ (l = [] -> g = f /\ vs' = vs).
Proof.
  induction l as [|[x h] l IH]; intros f p vs Hs HG.
  - exists p, vs, f. split; [apply reads_nil|]. cbn. auto.
  - cbn [good_rest] in HG. destruct HG as (Hx & Hh & HG).
    assert (exists p1, reads delims p (write_sep x) p1 /\ is_state p1 ((vs ++ [value f]) ++ drop (length (vs ++ [value f])) fn) (length (vs ++ [value f])) false []) as (p1 & R1 & S1).
    { destruct x as [c pre|ws]; cbn [write_sep].
      - destruct Hx as (H1 & H2 & H3).
        destruct (settle_close p _ _ _ c Td Hs) as (p1 & E1 & S1); [left; auto|].
        rewrite put_spec in S1 by auto. replace (S (length vs)) with (length (vs ++ [value f])) in S1 by (rewrite app_length; cbn; lia).
        destruct (read_white delims pre p1 _ _ S1 H3) as (p2 & R2 & S2). exists p2. split; [|auto].
        apply (reads_trans delims p [c] p1 pre p2); [|auto]. apply (reads_turn delims p [c] p1 Td); try discriminate.
        intros r b. cbn [app]. destruct Hs as (_ & Hq & _). rewrite (turn_out delims p c r b Td), E1; auto; discriminate.
      - destruct Hx as (H1 & H2 & H3). destruct ws as [|c ws]; [congruence|]. inversion H2; subst.
        destruct (settle_close p _ _ _ c TW Hs) as (p1 & E1 & S1).
        { right; left. split; [auto|]. intros E. apply blank_lead in E. congruence. }
        rewrite put_spec in S1 by auto. replace (S (length vs)) with (length (vs ++ [value f])) in S1 by (rewrite app_length; cbn; lia).
        destruct (read_white delims ws p1 _ _ S1 ltac:(auto)) as (p2 & R2 & S2). exists p2. split; [|auto].
        apply (reads_trans delims p [c] p1 ws p2); [|auto]. apply (reads_turn delims p [c] p1 TW); try discriminate.
        intros r b. cbn [app]. destruct Hs as (_ & Hq & _). rewrite (turn_out delims p c r b TW), E1; auto; try discriminate.
        apply (white_plain delims); auto. }
    destruct (read_field delims HD h p1 _ _ [] S1 Hh) as (p2 & R2 & S2).
    change (fold_left grow (ink h) []) with (fold_left grow (ink h) (lead [])) in S2. rewrite <- (lead_app [] (ink h)) in S2. cbn [app] in S2.
    destruct (IH h p2 (vs ++ [value f]) S2 HG) as (p3 & vs3 & g & R3 & S3 & E3 & _).
    exists p3, vs3, g. split; [|split; [auto|split; [|discriminate]]].
    + cbn [map concat fst snd]. rewrite <- app_assoc. eapply reads_trans; [eauto|]. eapply reads_trans; eauto.
    + rewrite E3, <- app_assoc. reflexivity.
Qed.
Lemma skip_comment_line : forall w fuel r b, Forall (fun c => plain c /\ c <> nl) w -> length w < fuel ->
  skip_comment fuel (St (w ++ nl :: r) b) = Ok (St r b).
Proof.
  induction w as [|c w IH]; intros fuel r b HF Hf; (destruct fuel; [cbn in Hf; lia|]); cbn [skip_comment app].
  - rewrite get_next_cons by discriminate. cbn [rbind]. reflexivity.
  - inversion HF as [|? ? [H1 H2] HF2]; subst. rewrite get_next_cons by auto. cbn [rbind]. destruct (Ascii.eqb_spec c nl); [contradiction|].
    apply IH; auto. cbn in Hf. lia.
Qed.
Lemma turn_end e p r b : good_end e -> inqq p = false ->
  exists c, turn delims p (St (write_end e ++ r) b) = do p' <- settle p Tn c; Ok (p', Tn, St r b).
Proof.
  intros He Hq. destruct e as [|w]; cbn [write_end].
  - exists nl. apply turn_out; auto; try discriminate. apply HD.
  - exists sharp. unfold turn, next_char. cbn [app]. rewrite get_next_cons by discriminate. cbn [rbind].
    change hash with sharp. change newline with nl. destruct HD as (_ & _ & _ & ->). cbn [ctype_eqb]. rewrite Hq. cbn [andb negb bytes]. rewrite <- app_assoc. cbn [app].
    rewrite skip_comment_line; [|auto|rewrite app_length; lia]. cbn [rbind ctype_eqb andb default].
    destruct p; cbn in *. subst. reflexivity.
Qed.
Lemma turn_eof p : inqq p = false -> turn delims p (St [] false) = do p' <- settle p TE (chr 255); Ok (p', TE, St [] true).
Proof. intros Hq. destruct p; cbn in Hq; subst. reflexivity. Qed.
Lemma settle_end p fn vs g t c : is_state p (vs ++ drop (length vs) fn) (length vs) false (lead (ink g)) -> t = Tn \/ t = TE ->
  exists p', settle p t c = Ok p' /\
    let out := if blank g && (length vs =? 0) then [] else vs ++ [value g] in
    cells p' = out ++ drop (length out) fn /\ ct p' = length out.
Proof.
  intros Hs Ht. destruct (blank g) eqn:Eb; cbn [andb].
  - pose proof Eb as El. apply blank_lead in El. destruct (Nat.eqb_spec (length vs) 0) as [E0|E0].
    + rewrite El in Hs. destruct (settle_none p _ _ c t Hs) as (p' & E & (_ & _ & S1 & S2 & S3)); [auto|]. exists p'. split; [auto|].
      destruct vs; [|discriminate]. cbn. auto.
    + destruct (settle_close p _ _ _ c t Hs) as (p' & E & (_ & _ & S1 & S2 & S3)); [right; right; split; [auto|right; lia]|].
      exists p'. split; [auto|]. cbv zeta. rewrite S2, S3, put_spec by auto. rewrite !app_length. cbn [length]. split; [auto|lia].
  - destruct (settle_close p _ _ _ c t Hs) as (p' & E & (_ & _ & S1 & S2 & S3)).
    { right; right. split; [auto|]. left. intros E. apply blank_lead in E. congruence. }
    exists p'. split; [auto|]. cbv zeta. rewrite S2, S3, put_spec by auto. rewrite !app_length. cbn [length]. split; [auto|lia].
Qed.
Lemma read_line fn L : good_line delims L ->
  exists p vs g, reads delims (Ps fn 0 [] false false 5 false 0) (write_line L) p /\
    is_state p (vs ++ drop (length vs) fn) (length vs) false (lead (ink g)) /\
    (if blank g && (length vs =? 0) then [] else vs ++ [value g]) = values L.
Proof.
  intros (H1 & H2 & H3). destruct L as [pre f l]. cbn [lpre lfirst lrest] in *. unfold write_line, values, line_fields. cbn [lpre lfirst lrest].
  assert (is_state (Ps fn 0 [] false false 5 false 0) fn 0 false []) as S0 by (split; [apply start_inv|cbn; auto]).
  destruct (read_white delims pre _ _ _ S0 H1) as (p1 & R1 & S1).
  destruct (read_field delims HD f p1 _ _ [] S1 H2) as (p2 & R2 & S2). change (fold_left grow (ink f) []) with (fold_left grow (ink f) (lead [])) in S2. rewrite <- (lead_app [] (ink f)) in S2. cbn [app] in S2.
  destruct (read_rest fn l f p2 [] S2 H3) as (p3 & vs & g & R3 & S3 & E3 & E4).
  exists p3, vs, g. split; [|split; [auto|]].
  - eapply reads_trans; [eauto|]. eapply reads_trans; eauto.
  - cbn [app] in E3. destruct l as [|x l].
    + destruct (E4 eq_refl) as [-> ->]. cbn. destruct (blank f); auto.
    + transitivity (value f :: map value (map snd (x :: l))); [|reflexivity]. rewrite <- E3. destruct vs; [|cbn; rewrite andb_false_r; auto].
      apply (f_equal length) in E3. cbn in E3. lia.
Qed.
Theorem parse_line_end fn L e rest b : good_line delims L -> good_end e ->
  parse_line delims fn (St (write_line L ++ write_end e ++ rest) b) =
    Ok (values L ++ drop (length (values L)) fn, length (values L), false, St rest b).
Proof.
  intros HL He. destruct (read_line fn L HL) as (p & vs & g & (k & Hk & R) & Hs & Ev). unfold parse_line. cbn [bytes].
  rewrite !app_length. replace (S (S (length (write_line L) + (length (write_end e) + length rest)))) with
    (k + S (S (length (write_line L) + (length (write_end e) + length rest)) - k)) by lia.
  rewrite R. cbn [parse_loop]. destruct (turn_end e p rest b He) as (c & ->); [apply Hs|].
  destruct (settle_end p fn vs g Tn c Hs) as (p' & -> & Hc & Hn); [auto|]. cbn [rbind ctype_eqb]. cbv zeta in Hc, Hn. rewrite Ev in Hc, Hn.
  rewrite Hc, Hn. auto.
Qed.
Theorem parse_line_eof fn L : good_line delims L ->
  parse_line delims fn (St (write_line L) false) =
    Ok (values L ++ drop (length (values L)) fn, length (values L), true, St [] true).
Proof.
  intros HL. destruct (read_line fn L HL) as (p & vs & g & (k & Hk & R) & Hs & Ev). unfold parse_line. cbn [bytes].
  replace (S (S (length (write_line L)))) with (k + S (S (length (write_line L)) - k)) by lia.
  replace (St (write_line L) false) with (St (write_line L ++ []) false) by (rewrite app_nil_r; auto).
  rewrite R. cbn [parse_loop]. rewrite turn_eof by apply Hs.
  destruct (settle_end p fn vs g TE (chr 255) Hs) as (p' & -> & Hc & Hn); [auto|]. cbn [rbind ctype_eqb]. cbv zeta in Hc, Hn. rewrite Ev in Hc, Hn.
  rewrite Hc, Hn. auto.
Qed.
End Lines.

(** ---- fixed-width lines ---- *)
Fixpoint cut (prev : nat) (ends : list nat) (w : list ascii) : list (list ascii) :=
  match ends with
  | [] => []
  | e :: r => match w with [] => [] | _ => take (e - prev) w :: cut e r (drop (e - prev) w) end
  end.
Lemma cut_nil prev ends : cut prev ends [] = [].
Proof. destruct ends; auto. Qed.
Definition write_stop (b : bool) (rest : list ascii) : list ascii := if b then nl :: rest else [].
Lemma fixed_loop_cut fn0 (b : bool) rest : forall w ends fn ct prev cur vs,
  Forall (fun c => c <> nl) w -> increasing prev ends -> match ends with [] => True | e :: _ => length cur + prev < e end ->
  prev + length cur + length w <= List.last ends prev ->
  ct = length vs + (match cur with [] => 0 | _ => 1 end) ->
  fn = (match cur with [] => vs ++ drop (length vs) fn0 | _ => room (vs ++ drop (length vs) fn0) (length vs) end) ->
  fixed_loop (w ++ write_stop b rest) ends fn ct (prev + length cur) cur (match cur with [] => true | _ => false end) =
  Ok (let out := vs ++ cut prev ends (cur ++ w) in (out ++ drop (length out) fn0, length out, negb b, if b then rest else [])).
Proof.
  assert (forall (vs : list (list ascii)), length vs + 1 - 1 < length (room (vs ++ drop (length vs) fn0) (length vs))) as Hroom.
  { intros vs. rewrite room_length. rewrite app_length. destruct (Nat.ltb_spec (length vs + length (drop (length vs) fn0)) (S (length vs))); lia. }
  induction w as [|c w IH]; intros ends fn ct prev cur vs Hw Hi Hh Hlen Hct Hfn.
  - rewrite app_nil_r. assert (fixed_loop ([] ++ write_stop b rest) ends fn ct (prev + length cur) cur (match cur with [] => true | _ => false end) =
      if (match cur with [] => true | _ => false end) then Ok (fn, ct, negb b, if b then rest else [])
      else if ct - 1 <? length fn then Ok (<[ct - 1 := cur]> fn, ct, negb b, if b then rest else []) else UB) as ->.
    { destruct b; cbn; [|reflexivity]. change (Ascii.eqb nl nl) with true. reflexivity. }
    destruct cur as [|c0 cur].
    + rewrite cut_nil, app_nil_r. cbv zeta. rewrite Hct, Hfn, Nat.add_0_r. auto.
    + destruct ends as [|e ends]; [cbn in Hlen; lia|]. cbn [cut length] in *.
      assert (length (c0 :: cur) <= e - prev) as Hle by (cbn [length]; lia).
      rewrite take_ge, drop_ge by exact Hle. rewrite cut_nil. cbv zeta.
      subst ct fn. destruct (Nat.ltb_spec (length vs + 1 - 1) (length (room (vs ++ drop (length vs) fn0) (length vs)))) as [_|H1].
      * replace (length vs + 1 - 1) with (length vs) by lia. fold (put (vs ++ drop (length vs) fn0) (length vs) (c0 :: cur)).
        rewrite put_spec by auto. rewrite !app_length. cbn [length]. auto.
      * exfalso. specialize (Hroom vs). lia.
  - assert (c <> nl /\ Forall (fun c => c <> nl) w) as [Hc Hw2] by (inversion Hw; auto). cbn [app fixed_loop]. destruct (Ascii.eqb_spec c nl); [contradiction|]. clear n.
    destruct ends as [|e ends]; [cbn in Hlen; lia|]. cbn [increasing] in Hi. destruct Hi as [Hpe Hi].
    cbv zeta.
    replace (if match cur with [] => true | _ => false end then S ct else ct) with (length vs + 1) by (destruct cur; lia).
    replace (if match cur with [] => true | _ => false end then if length fn <? length vs + 1 then fn ++ [[]] else fn else fn)
      with (room (vs ++ drop (length vs) fn0) (length vs)) by (rewrite Hfn; destruct cur; [unfold room; rewrite Nat.add_1_r|]; auto).
    assert ((if match cur with [] => true | _ => false end then [] else cur) ++ [c] = cur ++ [c]) as -> by (destruct cur; auto).
    replace (S (prev + length cur)) with (prev + length (cur ++ [c])) by (rewrite app_length; cbn; lia).
    destruct (Nat.eqb_spec (prev + length (cur ++ [c])) e) as [He|He].
    + destruct (Nat.ltb_spec (length vs + 1 - 1) (length (room (vs ++ drop (length vs) fn0) (length vs)))) as [_|H1];
        [|exfalso; specialize (Hroom vs); lia].
      replace (length vs + 1 - 1) with (length vs) by lia. fold (put (vs ++ drop (length vs) fn0) (length vs) (cur ++ [c])).
      rewrite put_spec by auto.
      specialize (IH ends ((vs ++ [cur ++ [c]]) ++ drop (length (vs ++ [cur ++ [c]])) fn0) (length (vs ++ [cur ++ [c]])) e [] (vs ++ [cur ++ [c]]) Hw2 Hi).
      cbn [length app] in IH. rewrite Nat.add_0_r in IH. rewrite He.
      replace (length vs + 1) with (length (vs ++ [cur ++ [c]])) by (rewrite app_length; cbn; lia). rewrite IH; auto.
      * f_equal. cbv zeta.
        replace (cut prev (e :: ends) (cur ++ c :: w)) with ((cur ++ [c]) :: cut e ends w).
        { rewrite <- !app_assoc. cbn [app]. auto. }
        replace (cur ++ c :: w) with ((cur ++ [c]) ++ w) by (rewrite <- app_assoc; auto).
        cbn [cut]. destruct ((cur ++ [c]) ++ w) eqn:E; [destruct cur; discriminate|]. rewrite <- E.
        rewrite take_app_alt, drop_app_alt by lia. auto.
      * destruct ends as [|e2 ends]; [auto|]. cbn in Hi. lia.
      * rewrite app_length in He. cbn in He. cbn [length] in Hlen. destruct ends as [|e2 ends]; [cbn in Hlen |- *; lia|].
        replace (List.last (e2 :: ends) e) with (List.last (e :: e2 :: ends) prev); [lia|]. 
        change (List.last (e :: e2 :: ends) prev) with (List.last (e2 :: ends) prev). clear. revert e2; induction ends as [|e3 ends IH]; intros e2; auto.
        cbn. cbn in IH. apply IH.
    + specialize (IH (e :: ends) (room (vs ++ drop (length vs) fn0) (length vs)) (length vs + 1) prev (cur ++ [c]) vs Hw2).
      assert (match cur ++ [c] with [] => true | _ => false end = false) as En by (destruct cur; auto). rewrite En in IH.
      rewrite IH.
      * f_equal. cbv zeta. replace (cur ++ c :: w) with ((cur ++ [c]) ++ w) by (rewrite <- app_assoc; auto). auto.
      * cbn. auto.
      * rewrite app_length in *. cbn in *. lia.
      * rewrite app_length in *. cbn [length] in *. lia.
      * destruct cur; cbn; auto.
      * destruct cur; cbn; auto.
Qed.

Theorem parse_fixed_cut ends fn w b rest : Forall (fun c => c <> nl) w -> increasing 0 ends -> length w <= List.last ends 0 ->
  parse_fixed_line ends fn (w ++ write_stop b rest) =
  Ok (cut 0 ends w ++ drop (length (cut 0 ends w)) fn, length (cut 0 ends w), negb b, if b then rest else []).
Proof.
  intros Hw Hi Hl. unfold parse_fixed_line. apply (fixed_loop_cut fn b rest w ends fn 0 0 [] []); auto.
  destruct ends; cbn in *; auto. lia.
Qed.
(** the i-th field is the stretch between the (i-1)st and the i-th end; together they are the line *)
Lemma cut_lookup : forall ends prev w i f, increasing prev ends -> cut prev ends w !! i = Some f ->
  exists e, ends !! i = Some e /\ let a := match i with 0 => prev | S j => default 0 (ends !! j) end in
    prev <= a /\ f = take (e - a) (drop (a - prev) w) /\ a - prev < length w.
Proof.
  induction ends as [|e ends IH]; intros prev w i f Hi H; cbn in H; [discriminate|].
  destruct w as [|c w]; [discriminate|]. destruct Hi as [Hp Hi]. destruct i as [|i]; cbn in H.
  - injection H as <-. exists e. split; [auto|]. cbv zeta. split; [lia|]. rewrite Nat.sub_diag. cbn [drop length]. split; [auto|lia].
  - destruct (IH e (drop (e - prev) (c :: w)) i f Hi H) as (e2 & H2 & H3 & H4 & H5). exists e2. split; [auto|].
    destruct i as [|j]; cbn [default lookup list_lookup from_option id] in *.
    + cbv zeta in *. rewrite Nat.sub_diag in H4, H5. cbn [drop] in H4. split; [lia|]. split; [auto|]. rewrite drop_length in H5. lia.
    + set (a := default 0 (ends !! j)) in *. split; [lia|]. rewrite drop_drop in H4. replace (e - prev + (a - e)) with (a - prev) in H4 by lia.
      split; [auto|]. rewrite drop_length in H5. lia.
Qed.
Lemma cut_concat : forall ends prev w, increasing prev ends -> prev + length w <= List.last ends prev -> concat (cut prev ends w) = w.
Proof.
  induction ends as [|e ends IH]; intros prev w Hi Hl.
  - cbn in *. destruct w; auto. cbn in Hl. lia.
  - destruct w as [|c w]; [auto|]. destruct Hi as [Hp Hi]. cbn [cut concat]. rewrite IH; auto.
    + rewrite take_drop. auto.
    + rewrite drop_length. destruct ends as [|e2 ends]; [cbn in *; lia|].
      assert (List.last (e2 :: ends) e = List.last (e :: e2 :: ends) prev) as ->.
      { change (List.last (e :: e2 :: ends) prev) with (List.last (e2 :: ends) prev). clear. revert e2; induction ends as [|e3 ends IH]; intros e2; auto. cbn. cbn in IH. apply IH. }
      assert (e <= List.last (e :: e2 :: ends) prev); [|lia].
      change (List.last (e :: e2 :: ends) prev) with (List.last (e2 :: ends) prev). clear -Hi. revert e e2 Hi; induction ends as [|e3 ends IH]; intros e e2 [H1 H2]; [cbn; lia|].
      change (List.last (e2 :: e3 :: ends) prev) with (List.last (e3 :: ends) prev). specialize (IH e2 e3 H2). lia.
Qed.

(** ---- whole files ---- *)
Definition good_file (delims : list ascii) (ls : list (line * ending)) (last : line) : Prop :=
  Forall (fun x => good_line delims (fst x) /\ good_end (snd x)) ls /\ good_line delims last.

Lemma nonblank_cons v l : nonblank (v :: l) = match v with [] => nonblank l | _ => v :: nonblank l end.
Proof. unfold nonblank. rewrite filter_cons. destruct v; [rewrite decide_False by congruence|rewrite decide_True by congruence]; auto. Qed.
Lemma file_cons x ls T : file_of (x :: ls) T = write_line (fst x) ++ write_end (snd x) ++ file_of ls T.
Proof. unfold file_of. cbn. rewrite <- !app_assoc. auto. Qed.
Lemma file_lines ls T : length ls <= length (file_of ls T).
Proof.
  induction ls as [|x ls IH]; [cbn; lia|]. rewrite file_cons, !app_length. cbn [length].
  assert (1 <= length (write_end (snd x))) by (destruct (snd x); cbn; lia). lia.
Qed.
Lemma values_take (v : list (list ascii)) fn : take (length v) (v ++ drop (length v) fn) = v.
Proof. apply take_app. Qed.

Lemma list_find_drop ls : match list_find (fun x : line * ending => values (fst x) <> []) ls with
  | Some (k, x) => nonblank (map (fun x => values (fst x)) ls) = values (fst x) :: nonblank (map (fun x => values (fst x)) (drop (S k) ls)) /\ values (fst x) <> [] /\ k < length ls
  | None => nonblank (map (fun x => values (fst x)) ls) = []
  end.
Proof.
  induction ls as [|x ls IH]; [reflexivity|]. cbn [list_find].
  change (map (fun x => values (fst x)) (x :: ls)) with (values (fst x) :: map (fun x => values (fst x)) ls). rewrite nonblank_cons. destruct (decide (values (fst x) <> [])) as [H|H].
  - cbn [drop]. destruct (values (fst x)) eqn:EV; [congruence|]. repeat split; auto. cbn; lia.
  - destruct (values (fst x)) eqn:EV; [|exfalso; apply H; congruence]. destruct (list_find _ ls) as [[k y]|]; cbn; auto.
    destruct IH as (H1 & H2 & H3). repeat split; auto. lia.
Qed.

Section Files.
Variable delims : list ascii.
Hypothesis HD : good_delims delims.

Section Body.
Context {E : Type} (number : list ascii -> option E).
Definition row_of (h : bool) (v : list (list ascii)) : list (tcell E) := map (field_cell number) (drop (if h then 1 else 0) v).
Definition extend (h : bool) (t : tset E) (vs : list (list (list ascii))) : tset E :=
  Ts_ (twidth t) (trows t ++ map (row_of h) (nonblank vs)) (tnames t ++ (if h then map (fun v => default [] (v !! 0)) (nonblank vs) else [])) false.
Definition fits (h : bool) (w : nat) (v : list (list ascii)) : Prop := v = [] \/ length v = (if h then 1 else 0) + w.
Lemma add_row_fits h t v fn : v <> [] -> fits h (twidth t) v -> terr t = false ->
  add_row number h t (v ++ drop (length v) fn) (length v) = extend h t [v].
Proof.
  intros Hv [->|Hf] He; [congruence|]. unfold add_row, extend. rewrite values_take.
  destruct (Nat.ltb_spec (twidth t) (length v - if h then 1 else 0)); [lia|].
  rewrite nonblank_cons. destruct v as [|x v]; [congruence|]. cbn [map app lookup list_lookup nonblank filter list_filter].
  rewrite He. f_equal.
  - f_equal. f_equal. unfold row_of. rewrite drop_length. replace (twidth t - _) with 0 by lia. cbn [replicate]. rewrite app_nil_r. auto.
  - destruct h; auto. rewrite app_nil_r. auto.
Qed.
Lemma extend_app h t a b : extend h (extend h t a) b = extend h t (a ++ b).
Proof.
  unfold extend. cbn. unfold nonblank. rewrite stdpp.list.filter_app, !map_app, <- !app_assoc. destruct h; auto.
Qed.
Lemma extend_nil h t : terr t = false -> extend h t [] = t.
Proof. destruct t. cbn. intros ->. unfold extend. cbn. destruct h; rewrite !app_nil_r; auto. Qed.
Lemma extend_blank h t vs : extend h t ([] :: vs) = extend h t vs.
Proof. unfold extend. rewrite nonblank_cons. auto. Qed.
Lemma values_ct_0 {A} (v : list A) : (length v =? 0) = match v with [] => true | _ => false end.
Proof. destruct v; auto. Qed.

Lemma body_some h : forall ls T t fn fuel, good_file delims ls T -> terr t = false -> length ls < fuel ->
  Forall (fits h (twidth t)) (map (fun x => values (fst x)) ls ++ [values T]) ->
  (do r <- parse_line delims fn (St (file_of ls T) false); let '(fn, ct, eof, s) := r in data_body number fuel delims h (Some t) fn ct eof s)
  = Ok (extend h t (map (fun x => values (fst x)) ls ++ [values T])).
Proof.
  induction ls as [|x ls IH]; intros T t fn fuel [HG HT] Ht Hf HW.
  - unfold file_of. cbn [map concat app]. rewrite parse_line_eof by auto. cbn [rbind]. destruct fuel; [cbn in Hf; lia|]. cbn [data_body].
    rewrite bool_decide_true by eauto. cbn [andb]. rewrite values_ct_0. inversion HW; subst. destruct (values T) as [|v0 v] eqn:EV.
    + rewrite extend_blank, extend_nil; auto.
    + rewrite add_row_fits; auto; try congruence.
  - rewrite file_cons. assert (good_line delims (fst x) /\ good_end (snd x)) as [H1 H2] by (inversion HG; auto).
    rewrite parse_line_end by auto. cbn [rbind]. destruct fuel as [|fuel]; [cbn in Hf; lia|]. cbn [data_body].
    rewrite bool_decide_true by eauto. cbn [andb]. rewrite values_ct_0. cbn [map app] in HW |- *. inversion HW; subst. inversion HG; subst.
    destruct (values (fst x)) as [|v0 v] eqn:EV.
    + rewrite IH; [rewrite extend_blank; auto|split; auto|auto|cbn in Hf; lia|auto].
    + rewrite add_row_fits; auto; try congruence. set (t1 := extend h t [v0 :: v]). change (terr t1) with false. cbv iota.
      rewrite IH; [unfold t1; rewrite extend_app; auto|split; auto|auto|cbn in Hf; lia|auto].
Qed.
Lemma body_none h : forall ls T fn fuel v, good_file delims ls T -> length ls < fuel ->
  head (nonblank (map (fun x => values (fst x)) ls ++ [values T])) = Some v -> (h = true -> 0 < length v) ->
  Forall (fits h (length v - if h then 1 else 0)) (map (fun x => values (fst x)) ls ++ [values T]) ->
  (do r <- parse_line delims fn (St (file_of ls T) false); let '(fn, ct, eof, s) := r in data_body number fuel delims h None fn ct eof s)
  = Ok (extend h (Ts_ (length v - if h then 1 else 0) [] [] false) (map (fun x => values (fst x)) ls ++ [values T])).
Proof.
  induction ls as [|x ls IH]; intros T fn fuel v [HG HT] Hf Hh Hv HW.
  - unfold file_of. cbn [map concat app] in *. rewrite parse_line_eof by auto. cbn [rbind]. destruct fuel; [cbn in Hf; lia|]. cbn [data_body].
    rewrite bool_decide_false by (intros [? ?]; discriminate). cbn [andb]. rewrite values_ct_0.
    rewrite nonblank_cons in Hh. destruct (values T) as [|v0 w] eqn:EV; [discriminate|]. injection Hh as <-.
    rewrite (add_row_fits h (Ts_ (length (v0 :: w) - if h then 1 else 0) [] [] false)); auto; try congruence. inversion HW; subst; auto.
  - rewrite file_cons. assert (good_line delims (fst x) /\ good_end (snd x)) as [H1 H2] by (inversion HG; auto).
    rewrite parse_line_end by auto. cbn [rbind]. destruct fuel as [|fuel]; [cbn in Hf; lia|]. cbn [data_body].
    rewrite bool_decide_false by (intros [? ?]; discriminate). cbn [andb]. rewrite values_ct_0. cbn [map app] in *. rewrite nonblank_cons in Hh.
    inversion HW; subst. inversion HG; subst.
    destruct (values (fst x)) as [|v0 w] eqn:EV.
    + rewrite (IH T _ fuel v); [rewrite extend_blank; auto|split; auto|cbn in Hf; lia|auto|auto|auto].
    + injection Hh as <-. rewrite (add_row_fits h (Ts_ (length (v0 :: w) - if h then 1 else 0) [] [] false)); auto; try congruence.
      set (t1 := extend h _ [v0 :: w]). change (terr t1) with false. cbv iota.
      rewrite body_some; [unfold t1; rewrite extend_app; auto|split; auto|auto|cbn in Hf; lia|auto].
Qed.
End Body.
Lemma until_some : forall bl x e fuel rest, Forall (fun y => good_line delims (fst y) /\ good_end (snd y) /\ values (fst y) = []) bl ->
  good_line delims x -> good_end e -> values x <> [] -> length bl < fuel ->
  parse_until_some fuel delims (St (concat (map (fun x => write_line (fst x) ++ write_end (snd x)) bl) ++ write_line x ++ write_end e ++ rest) false)
  = Ok (values x, St rest false).
Proof.
  induction bl as [|b bl IH]; intros x e fuel rest HB Hx He Hv Hf; (destruct fuel; [cbn in Hf; lia|]); cbn [parse_until_some map concat app].
  - rewrite parse_line_end by auto. cbn [rbind]. rewrite drop_nil, app_nil_r. destruct (values x); [congruence|auto].
  - inversion HB as [|? ? (H1 & H2 & H3) HB2]; subst. rewrite <- !app_assoc, parse_line_end by auto. cbn [rbind]. rewrite H3. cbn [length drop app].
    rewrite IH; auto. cbn in Hf. lia.
Qed.

(** text_to_db *)
Lemma next_nonblank_lines : forall ls fn rows fuel, good_file delims ls (Line [] [] []) -> length ls < fuel ->
  next_nonblank fuel delims fn rows (St (file_of ls (Line [] [] [])) false) =
  Ok (match list_find (fun x => values (fst x) <> []) ls with
      | Some (k, x) => (values (fst x) ++ drop (length (values (fst x))) fn, length (values (fst x)), false, St (file_of (drop (S k) ls) (Line [] [] [])) false, S (rows + k))
      | None => (fn, 0, true, St [] true, S (rows + length ls))
      end).
Proof.
  induction ls as [|x ls IH]; intros fn rows fuel [HG HT] Hf; (destruct fuel; [cbn in Hf; lia|]); cbn [next_nonblank].
  - unfold file_of. cbn [map concat app]. rewrite parse_line_eof by auto. cbn. rewrite Nat.add_0_r. auto.
  - rewrite file_cons. inversion HG as [|? ? [H1 H2] HG2]; subst. rewrite parse_line_end by auto. cbn [rbind]. rewrite values_ct_0.
    cbn [list_find]. destruct (values (fst x)) as [|v0 v] eqn:EV; cbn [andb negb].
    + rewrite decide_False by congruence. rewrite IH; [|split; auto|cbn in Hf; lia]. cbn [length drop app].
      destruct (list_find _ ls) as [[k y]|]; cbn [fmap option_fmap option_map prod_map fst snd]; rewrite ?Nat.add_succ_r; cbn [length drop]; rewrite ?Nat.add_succ_r; auto.
    + rewrite decide_True by congruence. rewrite Nat.add_0_r, EV. auto.
Qed.
Lemma db_body_lines : forall fuel ls v fn rows ins, good_file delims ls (Line [] [] []) -> S (length ls) < fuel -> v <> [] ->
  db_body fuel delims (v ++ drop (length v) fn) (length v) false (St (file_of ls (Line [] [] [])) false) rows ins =
  Ok (ins ++ v :: nonblank (map (fun x => values (fst x)) ls), S (rows + length ls)).
Proof.
  induction fuel as [|fuel IH]; intros ls v fn rows ins HG Hf Hv; [lia|]. cbn [db_body]. rewrite values_ct_0.
  destruct v as [|v0 v]; [congruence|]. cbn [orb]. cbn [bytes].
  rewrite next_nonblank_lines; [|auto|pose proof (file_lines ls (Line [] [] [])); lia]. cbn [rbind]. rewrite values_take.
  pose proof (list_find_drop ls) as HL. destruct (list_find _ ls) as [[k x]|].
  - destruct HL as (H1 & H2 & H3). rewrite IH; auto.
    + rewrite H1, drop_length, <- app_assoc. cbn [app]. do 2 f_equal. lia.
    + destruct HG as [HG HT]. split; [|auto]. apply Forall_drop. auto.
    + rewrite drop_length. lia.
  - destruct fuel; [lia|]. cbn [db_body]. change (0 =? 0) with true. cbn [orb]. rewrite HL. auto.
Qed.
End Files.
