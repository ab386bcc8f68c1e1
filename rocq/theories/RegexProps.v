(** C60 apop_regex, C61 apop_beta_from_mean_var, C62 apop_model_draws (apop_asst.m4.c). *)
From Coq Require Import Reals Lra.
From Verif Require Import Base AsstModel.

(** ---------- C60: specification ---------- *)
(** what POSIX promises of regexec on string [s]: the whole match ends inside the string and each group, if it takes part, is a stretch of it *)
Definition posix (ex : matcher) : Prop := forall s nb eo gs, ex s nb = Some (eo, gs) -> (0 <= eo <= Z.of_nat (length s))%Z /\
  Forall (fun '(so, e) => (so = -1 /\ e = -1)%Z \/ (0 <= so <= e /\ e <= Z.of_nat (length s))%Z) gs.
(** every match moves on *)
Definition moving (ex : matcher) : Prop := forall s nb eo gs, s <> [] -> ex s nb = Some (eo, gs) -> (0 < eo)%Z.
(** group [g] of [s] reads [t]: nothing if the group takes no part, else the characters from so up to eo *)
Definition reads (s : list ascii) (g : Z * Z) (t : list ascii) : Prop :=
  (snd g = -1 /\ t = [])%Z \/ (0 <= fst g /\ Z.of_nat (length t) = snd g - fst g /\ exists pre post, s = pre ++ t ++ post /\ Z.of_nat (length pre) = fst g)%Z.
(** [scan s first rows]: the regular expression, applied again and again where the last match ended, until it does not match or the string is used
    up, yields [rows] *)
Inductive scan (ex : matcher) : list ascii -> bool -> list (list (list ascii)) -> Prop :=
| scan_no s nb : ex s nb = None -> scan ex s nb []
| scan_end s nb eo gs row : ex s nb = Some (eo, gs) -> Forall2 (reads s) gs row -> drop (Z.to_nat eo) s = [] -> scan ex s nb [row]
| scan_more s nb eo gs row rows : ex s nb = Some (eo, gs) -> Forall2 (reads s) gs row -> drop (Z.to_nat eo) s <> [] ->
    scan ex (drop (Z.to_nat eo) s) true rows -> scan ex s nb (row :: rows).

Lemma group_reads s g : (fst g = -1 /\ snd g = -1)%Z \/ (0 <= fst g <= snd g /\ snd g <= Z.of_nat (length s))%Z -> reads s g (group_text s g).
Proof.
  destruct g as [so eo]. cbn [fst snd group_text]. intros H. unfold group_text. destruct (Z.ltb_spec 0 eo).
  - right. cbn. split; [lia|]. split.
    + rewrite take_length, drop_length. lia.
    + exists (take (Z.to_nat so) s), (drop (Z.to_nat (eo - so)) (drop (Z.to_nat so) s)). rewrite take_drop, take_drop. split; [auto|]. rewrite take_length. lia.
  - destruct H as [H|H]; [left; cbn; split; [lia|auto]|]. right. cbn. split; [lia|]. split; [lia|]. exists [], s. cbn. split; [auto|]. lia.
Qed.
Lemma regex_loop_spec ex : posix ex -> moving ex -> forall fuel s rows ct, length s < fuel ->
  exists more, regex_loop fuel ex s rows ct = Ok (ct + length more, rows ++ more) /\ scan ex s (negb (length rows =? 0)) more.
Proof.
  intros HP HM. induction fuel as [|fuel IH]; intros s rows ct Hf; [lia|]. cbn [regex_loop]. destruct (ex s _) as [[eo gs]|] eqn:E.
  - destruct (HP _ _ _ _ E) as [He Hg]. assert (HR : Forall2 (reads s) gs (map (group_text s) gs)).
    { clear -Hg. induction Hg as [|[so e] gs H]; cbn; constructor; auto. apply group_reads. auto. }
    destruct (drop (Z.to_nat eo) s) as [|c s'] eqn:Ed.
    + exists [map (group_text s) gs]. split; [|eapply scan_end; eauto]. f_equal. f_equal. cbn. lia.
    + assert (Hs : s <> []) by (intros ->; rewrite drop_nil in Ed; discriminate). pose proof (HM _ _ _ _ Hs E). rewrite <- Ed.
      destruct (IH (drop (Z.to_nat eo) s) (rows ++ [map (group_text s) gs]) (S ct)) as (more & E1 & E2).
      { rewrite drop_length. destruct s; [congruence|cbn in *; lia]. }
      exists (map (group_text s) gs :: more). rewrite E1. split.
      * f_equal. f_equal; [cbn; lia|]. rewrite <- app_assoc. auto.
      * eapply scan_more; eauto; [congruence|]. rewrite app_length in E2. cbn in E2. rewrite Nat.add_1_r in E2. cbn in E2. auto.
  - exists []. rewrite app_nil_r, Nat.add_0_r. split; auto. constructor. auto.
Qed.
(** C60: with a regular expression that never matches the empty string, apop_regex ends, its rows are the successive matches, and it returns their number. *)
Theorem C60_substrings : forall ex s, posix ex -> moving ex -> exists rows, (forall fuel, length s < fuel -> regex_subs fuel ex s = Ok (length rows, rows)) /\ scan ex s false rows.
Proof.
  intros ex s HP HM. destruct (regex_loop_spec ex HP HM (S (length s)) s [] 0) as (rows & E & Hs); [lia|]. exists rows. split; [|exact Hs]. intros fuel Hf.
  assert (EQ : forall f1 f2 ex s r c, length s < f1 -> length s < f2 -> moving ex -> posix ex -> regex_loop f1 ex s r c = regex_loop f2 ex s r c).
  { clear. induction f1 as [|f1 IH]; intros [|f2] ex s r c H1 H2 HM HP; try lia. cbn [regex_loop]. destruct (ex s _) as [[eo gs]|] eqn:E; auto.
    destruct (drop (Z.to_nat eo) s) as [|a s'] eqn:Ed; auto. rewrite <- Ed. assert (Hs : s <> []) by (intros ->; rewrite drop_nil in Ed; discriminate). pose proof (HM _ _ _ _ Hs E).
    destruct (HP _ _ _ _ E) as [He _]. apply IH; auto; rewrite drop_length; destruct s; cbn in *; try congruence; lia. }
  unfold regex_subs. rewrite (EQ fuel (S (length s))) by (auto; lia). rewrite E. reflexivity.
Qed.
Print Assumptions C60_substrings.
(** C60: without a place for substrings the answer is whether there is a match. *)
Theorem C60_count : forall ex s, regex_count ex s = 1 <-> ex s false <> None.
Proof. intros ex s. unfold regex_count. destruct (ex s false); split; intros; try congruence; auto. Qed.
(** the columns: closing parentheses not preceded by an (unescaped) backslash.  [unescaped s n]: reading [s] as escapes and plain characters there are n of them. *)
Inductive unescaped : list ascii -> nat -> Prop :=
| un_nil : unescaped [] 0
| un_last : unescaped ["\"%char] 0
| un_esc c s n : unescaped s n -> unescaped ("\"%char :: c :: s) n
| un_paren s n : unescaped s n -> unescaped (")"%char :: s) (S n)
| un_other c s n : c <> "\"%char -> c <> ")"%char -> unescaped s n -> unescaped (c :: s) n.
Theorem C60_columns : forall s n, unescaped s n -> count_parens s = n.
Proof.
  intros s n H. unfold count_parens. assert (G : forall k, count_parens_from s false k = k + n); [|apply G].
  induction H; intros k; try (cbn; lia).
  - change (count_parens_from ("\"%char :: c :: s) false k) with (count_parens_from s false (if Ascii.eqb c ")"%char && false then S k else k)) || idtac.
    cbn [count_parens_from]. rewrite Ascii.eqb_refl. cbn [andb negb]. rewrite !andb_false_r. apply IHunescaped.
  - cbn [count_parens_from]. change (Ascii.eqb ")" "\"%char) with false. rewrite Ascii.eqb_refl. cbn [andb negb]. rewrite IHunescaped. lia.
  - cbn [count_parens_from]. destruct (Ascii.eqb_spec c "\"%char); [congruence|]. destruct (Ascii.eqb_spec c ")"%char); [congruence|]. cbn [andb]. apply IHunescaped.
Qed.
Print Assumptions C60_columns.
(** a matcher for the regular expression "(.)" *)
Definition any_char : matcher := fun s _ => match s with [] => None | _ => Some (1, [(0, 1)])%Z end.
Example C60_nonvacuous : posix any_char /\ moving any_char /\ regex_subs 5 any_char (list_ascii_of_string "abc") =
  Ok (3, [[["a"%char]]; [["b"%char]]; [["c"%char]]]) /\ unescaped (list_ascii_of_string "a\)(b)\\") 1.
Proof.
  split; [|split; [|split; [reflexivity|]]].
  - intros [|c s] nb eo gs [= <- <-]. cbn [length]. split; [lia|]. constructor; auto. lia.
  - intros [|c s] nb eo gs Hs [= <- <-]. lia.
  - cbn. apply un_other; [discriminate..|]. apply un_esc. apply un_other; [discriminate..|]. apply un_other; [discriminate..|]. apply un_paren. apply un_esc. constructor.
Qed.
(** Deviation: a regular expression that matches the empty string at the start of a nonempty one is applied to it forever, with ever more rows. *)
Theorem C60_empty_match_refuted : forall ex s, s <> [] -> (forall nb, exists gs, ex s nb = Some (0%Z, gs)) -> forall fuel, regex_subs fuel ex s = Fuel.
Proof.
  intros ex s Hs H fuel. unfold regex_subs. generalize (@nil (list (list ascii))) as rows, 0 as ct. induction fuel as [|fuel IH]; intros rows ct; cbn [regex_loop]; auto.
  destruct (H (negb (length rows =? 0))) as (gs & ->). cbn [Z.to_nat]. rewrite drop_0. destruct s; [congruence|]. apply IH.
Qed.
Print Assumptions C60_empty_match_refuted.

(** ---------- C61 ---------- *)
(** mean and variance of the Beta(a, b) distribution *)
Definition beta_mean (a b : R) : R := (a / (a + b))%R.
Definition beta_variance (a b : R) : R := (a * b / ((a + b) ^ 2 * (a + b + 1)))%R.
Theorem C61_moments : forall m v, (0 < m < 1)%R -> (0 < v < m * (1 - m))%R -> exists a b, beta_from_mean_var m v = inr (a, b) /\ (0 < a)%R /\ (0 < b)%R /\ beta_mean a b = m /\ beta_variance a b = v.
Proof.
  intros m v Hm Hv. unfold beta_from_mean_var. destruct (Rle_dec 1 m); [lra|]. destruct (Rle_dec m 0); [lra|]. eexists _, _. split; [reflexivity|].
  set (q := (m * (1 - m))%R) in *. assert (Hk : (0 < q / v - 1)%R). { assert (1 < q / v)%R; [|lra]. apply Rmult_lt_reg_r with v; [lra|]. unfold Rdiv. rewrite Rmult_assoc, Rinv_l by lra. lra. }
  set (k := (q / v - 1)%R) in *. assert (Hv' : (v * (k + 1) = q)%R) by (unfold k; field; lra).
  split; [apply Rmult_lt_0_compat; lra|]. split; [apply Rmult_lt_0_compat; lra|]. unfold beta_mean, beta_variance. replace (m * k + k * (1 - m))%R with k by ring. split; [field; lra|].
  apply Rmult_eq_reg_r with (k + 1)%R; [|lra]. rewrite Hv'. unfold q. field. lra.
Qed.
Print Assumptions C61_moments.
(** the parameters are the only ones *)
Theorem C61_unique : forall m v a b, (0 < a)%R -> (0 < b)%R -> beta_mean a b = m -> beta_variance a b = v -> beta_from_mean_var m v = inr (a, b).
Proof.
  intros m v a b Ha Hb Hm Hv. unfold beta_mean, beta_variance in *. assert (H1 : (0 < m < 1)%R).
  { rewrite <- Hm. split; [apply Rdiv_lt_0_compat; lra|]. apply Rmult_lt_reg_r with (a + b)%R; [lra|]. unfold Rdiv. rewrite Rmult_assoc, Rinv_l by lra. lra. }
  unfold beta_from_mean_var. destruct (Rle_dec 1 m); [lra|]. destruct (Rle_dec m 0); [lra|].
  assert (K : (m * (1 - m) / v - 1 = a + b)%R). { rewrite <- Hm, <- Hv. field. repeat split; try lra; apply Rgt_not_eq; try nra. }
  rewrite K, <- Hm. f_equal. f_equal; field; lra.
Qed.
Print Assumptions C61_unique.
Theorem C61_range : forall m v, (m <= 0 \/ 1 <= m)%R -> beta_from_mean_var m v = inl "r"%char.
Proof. intros m v H. unfold beta_from_mean_var. destruct (Rle_dec 1 m); auto. destruct (Rle_dec m 0); auto. lra. Qed.
Example C61_nonvacuous : (0 < 1/4 < 1)%R /\ (0 < 1/20 < 1/4 * (1 - 1/4))%R.
Proof. lra. Qed.
(** Deviation: a variance too great for a Beta distribution with that mean is not refused; both parameters are then negative or zero. *)
Theorem C61_variance_refuted : forall m v, (0 < m < 1)%R -> (m * (1 - m) <= v)%R -> exists a b, beta_from_mean_var m v = inr (a, b) /\ (a <= 0)%R /\ (b <= 0)%R.
Proof.
  intros m v Hm Hv. unfold beta_from_mean_var. destruct (Rle_dec 1 m); [lra|]. destruct (Rle_dec m 0); [lra|]. eexists _, _. split; [reflexivity|].
  assert (Hq : (0 < m * (1 - m))%R) by (apply Rmult_lt_0_compat; lra). set (q := (m * (1 - m))%R) in *.
  assert (Hk : (q / v - 1 <= 0)%R). { assert (q / v <= 1)%R; [|lra]. apply Rmult_le_reg_r with v; [lra|]. unfold Rdiv. rewrite Rmult_assoc, Rinv_l by lra. lra. } split; nra.
Qed.
Print Assumptions C61_variance_refuted.

(** ---------- C62 ---------- *)
Section C62.
Context {G V : Type} (draw : G -> option (list V) * G) (nan : V).
(** the generator after [k] draws, and the row a draw makes of [old] *)
Definition after (g : G) (k : nat) : G := Nat.iter k (fun g => snd (draw g)) g.
Definition drawn (g : G) (old : list V) : list V := match fst (draw g) with Some l => l ++ drop (length l) old | None => replicate (length old) nan end.
(** the rows thread [th] takes, in order *)
Definition taken (th : nat) (order : list (nat * nat)) : list nat := map fst (filter (fun e => snd e = th) order).
Lemma after_S g k : after g (S k) = after (snd (draw g)) k.
Proof. unfold after. rewrite Nat.iter_succ_r. auto. Qed.
Lemma drawn_row row g : draw_row draw nan row g = (drawn g row, match fst (draw g) with Some _ => false | None => true end, snd (draw g)).
Proof.
  unfold draw_row, drawn. destruct (draw g) as [[l|] g']; cbn; auto. f_equal. f_equal. induction row; cbn; f_equal; auto.
Qed.
Lemma draw_loop_spec order : forall rows gs bad, NoDup (map fst order) -> Forall (fun e => fst e < length rows) order ->
  let '(rows', bad') := draw_loop draw nan order rows gs bad in
  length rows' = length rows /\ (forall i, ~ In i (map fst order) -> rows' !! i = rows !! i) /\
  (forall th k i, taken th order !! k = Some i -> exists old, rows !! i = Some old /\ rows' !! i = Some (drawn (after (gs th) k) old)) /\
  (bad' = true <-> bad = true \/ exists th k i, taken th order !! k = Some i /\ fst (draw (after (gs th) k)) = None).
Proof.
  induction order as [|[i0 th0] order IH]; intros rows gs bad HN HF; cbn [draw_loop].
  - split; [auto|]. split; [auto|]. split; [intros th k i H; discriminate|]. split; [auto|]. intros [H|(th & k & i & H & _)]; [auto|discriminate].
  - cbn [map] in HN. apply stdpp.list.NoDup_cons in HN as [HN1 HN2]. cbn [fst] in HN1. inversion HF as [|? ? HF1 HF2]; subst. cbn in HF1.
    destruct (rows !! i0) as [old0|] eqn:E0; [|apply lookup_ge_None in E0; lia]. cbn [default]. cbn [option_map from_option]. rewrite drawn_row. set (gs' := fun t => if t =? th0 then snd (draw (gs th0)) else gs t).
    change (from_option (fun x : list V => x) [] (Some old0)) with old0.
    specialize (IH (<[i0 := drawn (gs th0) old0]> rows) gs' (bad || match fst (draw (gs th0)) with Some _ => false | None => true end) HN2).
    assert (HF' : Forall (fun e => fst e < length (<[i0 := drawn (gs th0) old0]> rows)) order) by (rewrite insert_length; auto). specialize (IH HF').
    destruct (draw_loop _ _ _ _ _ _) as [rows' bad']. destruct IH as (L & U & T & B). rewrite insert_length in L. split; [auto|].
    assert (HK : forall th, taken th ((i0, th0) :: order) = if decide (th0 = th) then i0 :: taken th order else taken th order).
    { intros th. unfold taken. rewrite filter_cons. cbn [snd]. destruct (decide (th0 = th)); auto. }
    assert (HA : forall k, after (gs' th0) k = after (gs th0) (S k)). { intros k. rewrite after_S. unfold gs'. rewrite Nat.eqb_refl. auto. }
    assert (HO : forall th, th0 <> th -> gs' th = gs th). { intros th Hne. unfold gs'. destruct (Nat.eqb_spec th th0); congruence. }
    split; [|split].
    + intros i Hi. cbn in Hi. rewrite U by tauto. apply list_lookup_insert_ne. intros ->. apply Hi. auto.
    + intros th k i Hk. rewrite HK in Hk. destruct (decide (th0 = th)) as [<-|Hne].
      * destruct k as [|k]; cbn in Hk.
        -- injection Hk as <-. exists old0. split; [auto|]. rewrite U by (rewrite <- elem_of_list_In; auto). apply list_lookup_insert. lia.
        -- destruct (T _ _ _ Hk) as (old & O1 & O2). exists old. split; [|rewrite <- HA; auto]. rewrite <- O1. symmetry. apply list_lookup_insert_ne. intros ->.
           apply HN1. unfold taken in Hk. apply elem_of_list_lookup_2 in Hk. apply elem_of_list_fmap in Hk as (e & -> & He). apply elem_of_list_filter in He as [_ He]. apply elem_of_list_fmap. eauto.
      * destruct (T _ _ _ Hk) as (old & O1 & O2). exists old. rewrite <- (HO th Hne). split; [|auto]. rewrite <- O1. symmetry. apply list_lookup_insert_ne. intros ->.
        apply HN1. unfold taken in Hk. apply elem_of_list_lookup_2 in Hk. apply elem_of_list_fmap in Hk as (e & -> & He). apply elem_of_list_filter in He as [_ He]. apply elem_of_list_fmap. eauto.
    + rewrite B, orb_true_iff. split.
      * intros [[H|H]|(th & k & i & H1 & H2)].
        -- auto.
        -- right. exists th0, 0, i0. rewrite HK. destruct (decide (th0 = th0)); [|congruence]. split; [auto|]. cbn. destruct (fst (draw (gs th0))); congruence.
        -- right. destruct (decide (th0 = th)) as [<-|Hne].
           ++ exists th0, (S k), i. rewrite HK, <- HA. destruct (decide (th0 = th0)); [|congruence]. auto.
           ++ exists th, k, i. rewrite HK, <- (HO th Hne). destruct (decide (th0 = th)); [congruence|]. auto.
      * intros [H|(th & k & i & H1 & H2)]; [auto|]. rewrite HK in H1. destruct (decide (th0 = th)) as [<-|Hne].
        -- destruct k as [|k]; [left; right; cbn in H2; rewrite H2; auto|]. right. exists th0, k, i. rewrite HA. auto.
        -- right. exists th, k, i. rewrite (HO th Hne). auto.
Qed.
(** an order in which the threads of the OpenMP loop may take the rows of a matrix with [n] rows: each row once *)
Definition sharing (order : list (nat * nat)) (n : nat) : Prop := Permutation (map fst order) (seq 0 n).
(** C62: for every sharing of the rows among threads and every interleaving of them: the k-th row a thread takes holds the k-th draw of that
    thread's generator in its first columns and is otherwise as before, or is all NaN if that draw failed; the error is 'd' exactly if one failed. *)
Theorem C62_rows : forall dsize given count blank order gs,
  (0 < dsize)%Z -> (forall g, given = Some g -> exists m, g = Some m /\ wf_grid m /\ (dsize <= Z.of_nat (gc m))%Z) -> wf_grid blank -> gr blank = count ->
  let start := match given with Some (Some m) => ga m | _ => ga blank end in
  sharing order (length start) ->
  exists err rows, model_draws draw nan true dsize given count blank order gs = (err, Some rows) /\ length rows = length start /\
    (forall th k i, taken th order !! k = Some i -> exists old, start !! i = Some old /\ rows !! i = Some (drawn (after (gs th) k) old)) /\
    (err = None \/ err = Some "d"%char) /\ (err = Some "d"%char <-> exists th k i, taken th order !! k = Some i /\ fst (draw (after (gs th) k)) = None).
Proof.
  intros dsize given count blank order gs Hd Hg Hb Hc start HS.
  assert (HD : draw_loop draw nan order start gs false = draw_loop draw nan order start gs false) by auto.
  assert (E : model_draws draw nan true dsize given count blank order gs = let '(rows, bad) := draw_loop draw nan order start gs false in (if bad then Some "d"%char else None, Some rows)).
  { unfold model_draws. cbn [negb]. destruct (Z.eqb_spec dsize 0); [lia|]. destruct given as [g|].
    - destruct (Hg g eq_refl) as (m & -> & _ & Hm). destruct (Z.ltb_spec (Z.of_nat (gc m)) dsize); [lia|]. auto.
    - destruct (Z.leb_spec dsize 0); [lia|]. auto. }
  rewrite E. pose proof (draw_loop_spec order start gs false) as P. destruct (draw_loop _ _ _ _ _ _) as [rows bad]. destruct P as (L & _ & T & B).
  - rewrite HS. apply NoDup_seq.
  - apply Forall_forall. intros e He. cut (In (fst e) (seq 0 (length start))); [rewrite in_seq; lia|]. eapply Permutation_in; [exact HS|]. apply in_map. auto.
  - eexists _, rows. split; [reflexivity|]. split; [auto|]. split; [auto|]. split; [destruct bad; auto|]. destruct bad.
    + split; auto. intros _. destruct (proj1 B eq_refl); [discriminate|auto].
    + split; [discriminate|]. intros H. pose proof (proj2 B (or_intror H)). discriminate.
Qed.
(** C62: two interleavings in which each thread takes the same rows in the same order give the same output. *)
Theorem C62_schedule : forall order1 order2 rows gs, sharing order1 (length rows) -> sharing order2 (length rows) -> (forall th, taken th order1 = taken th order2) ->
  draw_loop draw nan order1 rows gs false = draw_loop draw nan order2 rows gs false.
Proof.
  intros o1 o2 rows gs S1 S2 HT.
  assert (ND : forall o, sharing o (length rows) -> NoDup (map fst o) /\ Forall (fun e => fst e < length rows) o).
  { intros o HS. split; [rewrite HS; apply NoDup_seq|]. apply Forall_forall. intros e He. cut (In (fst e) (seq 0 (length rows))); [rewrite in_seq; lia|].
    eapply Permutation_in; [exact HS|]. apply in_map. auto. }
  destruct (ND o1 S1) as [N1 F1]. destruct (ND o2 S2) as [N2 F2].
  pose proof (draw_loop_spec o1 rows gs false N1 F1) as P1. pose proof (draw_loop_spec o2 rows gs false N2 F2) as P2.
  destruct (draw_loop draw nan o1 rows gs false) as [r1 b1]. destruct (draw_loop draw nan o2 rows gs false) as [r2 b2].
  destruct P1 as (L1 & _ & T1 & B1). destruct P2 as (L2 & _ & T2 & B2). f_equal.
  - apply list_eq. intros i. destruct (decide (i < length rows)).
    + assert (Hi : In i (map fst o1)) by (eapply Permutation_in; [symmetry; exact S1|]; apply in_seq; lia). apply in_map_iff in Hi as ([i' th] & <- & He). cbn.
      assert (Hk : exists k, taken th o1 !! k = Some i'). { apply elem_of_list_lookup. unfold taken. apply elem_of_list_fmap. exists (i', th). split; auto. apply elem_of_list_filter. split; auto. apply elem_of_list_In. auto. }
      destruct Hk as (k & Hk). destruct (T1 _ _ _ Hk) as (old & O1 & O2). rewrite HT in Hk. destruct (T2 _ _ _ Hk) as (old' & O1' & O2'). cbn in *. congruence.
    + rewrite !lookup_ge_None_2 by lia. auto.
  - apply eq_true_iff_eq. rewrite B1, B2. setoid_rewrite HT. tauto.
Qed.
End C62.
Print Assumptions C62_rows.
Print Assumptions C62_schedule.
(** numbers drawn: a counter, which fails at 3; two threads, three rows *)
Definition counter (g : Z) : option (list Z) * Z := (if (g =? 3)%Z then None else Some [g], (g + 1)%Z).
Example C62_nonvacuous : sharing [(1, 0); (0, 1); (2, 0)] 3 /\
  model_draws counter (-9)%Z true 1 None 3 (Gr 3 1 [[0]; [0]; [0]])%Z [(1, 0); (0, 1); (2, 0)] (fun t : nat => if t =? 0 then 2%Z else 7%Z) = (Some "d"%char, Some [[7]; [2]; [-9]]%Z).
Proof. split; [|reflexivity]. unfold sharing. cbn. apply perm_swap. Qed.
(** Deviation: the documented error for a NULL model or one whose draws have no size is 'm', for a matrix with too few columns 's'; they are 'n' and 'm'. *)
Theorem C62_errors_refuted : forall {G V} (draw : G -> option (list V) * G) nan given count blank order gs m,
  fst (model_draws draw nan false 1 given count blank order gs) = Some "n"%char /\ fst (model_draws draw nan true 0 given count blank order gs) = Some "n"%char /\
  (gc m = 0 -> fst (model_draws draw nan true 1 (Some (Some m)) count blank order gs) = Some "m"%char).
Proof. intros. split; [auto|]. split; [auto|]. intros H. unfold model_draws. rewrite H. auto. Qed.
