(** C112: what is printed can be read back.  Numerals and names are in OutSpec; written files in ParseSpec. *)
From Coq Require Import Reals Lra.
From Verif Require Import Base ParseModel ParseSpec ParseProofs ParseProps OutModel OutSpec OutProofs.
Local Open Scope list_scope.
Local Open Scope nat_scope.

(** ---- the table a set holds: on each row the vector's element, the matrix's row, the weight, as far as they are there ---- *)
Definition column_part (o : option (list R)) (j : nat) (a : list R) : Prop :=
  match o with None => a = [] | Some l => exists x, l !! j = Some x /\ a = [x] end.
Definition matrix_part (o : option (grid R)) (j : nat) (a : list R) : Prop :=
  match o with None => a = [] | Some g => ga g !! j = Some a end.
Definition same_length {A B} (o : option (list A)) (T : list B) : Prop := match o with Some l => length l = length T | None => True end.
Definition holds (D : odata) (T : list (list R)) : Prop :=
  same_length (ov D) T /\ same_length (ow D) T /\
  match om D with Some g => wf_grid g /\ gr g = length T /\ 0 < gc g | None => is_some (ov D) = true end /\
  forall j r, T !! j = Some r -> exists a m w, r = a ++ m ++ w /\ column_part (ov D) j a /\ matrix_part (om D) j m /\ column_part (ow D) j w.
(** its names: of all columns, or of none; of all rows, or of none *)
Definition named (D : odata) (names rows : list (list ascii)) (len : nat) : Prop :=
  match on D with
  | None => names = [] /\ rows = []
  | Some n =>
    ntitle n = None /\ ntext n = [] /\ rows = nrow n /\ names = option_list (nvec n) ++ ncol n /\
    (rows = [] \/ length rows = len) /\
    (names = [] \/ ow D = None /\ is_some (nvec n) = is_some (ov D) /\ match om D with Some g => length (ncol n) = gc g | None => ncol n = [] end)
  end.
Definition in_int (x : R) : Prop := (-2147483648 <= x <= 2147483647)%R.

Section Rows.
Context (rnd : R -> Z) (Hrnd : forall x, (Rabs (IZR (rnd x) - x) <= / 2)%R) (delims : list ascii) (c : ascii) (db : str).
Context (HD : ok_delims delims) (HN : numbers_free delims) (Hc : In c delims).
Notation ptext := (p_fn rnd).
(** a number's cell *)
Definition shows (x : R) (t : cellt) : Prop := ptext x = Ok (ctext t) /\ exists y, numeral (core t) y /\ close_to x y.
Lemma shown x : in_int x -> exists t, shows x t.
Proof.
  intros H. destruct (p_fn_defined rnd Hrnd x H) as [t Ht]. destruct (p_fn_text rnd Hrnd x t Ht) as (n & k & y & -> & H1 & H2).
  exists (n, k, 0). split; [|eauto]. cbn. rewrite app_nil_r. auto.
Qed.
Lemma shown_all xs : Forall in_int xs -> exists ts, Forall2 shows xs ts.
Proof.
  induction 1 as [|x xs H _ [ts IH]]; [exists []; constructor|]. destruct (shown x H) as [t Ht]. exists (t :: ts). constructor; auto.
Qed.
Lemma shows_good x t : shows x t -> good_name delims (core t).
Proof. intros [_ (y & Hy & _)]. eapply numeral_good; eauto. Qed.
Lemma names_text_items (d : str) (s : str) (l : list str) : names_text d (s :: l) = s ++ concat (map (fun t => d ++ t) l).
Proof. revert s. induction l as [|t l IH]; intros s; [cbn; rewrite app_nil_r; auto|]. change (names_text d (s :: t :: l)) with (s ++ d ++ names_text d (t :: l)). rewrite IH. cbn [map concat]. rewrite <- app_assoc. auto. Qed.
Lemma cat_ok (l : list str) : cat (map Ok l) = Ok (concat l).
Proof. induction l as [|s l IH]; [auto|]. cbn. rewrite IH. auto. Qed.
Lemma cat_app l1 l2 : cat (l1 ++ l2) = (do a <- cat l1; do b <- cat l2; Ok (a ++ b)).
Proof.
  induction l1 as [|r l1 IH]; cbn; [destruct (cat l2); auto|]. rewrite IH. destruct r; cbn; auto. destruct (cat l1); cbn; auto. destruct (cat l2); cbn; auto. rewrite app_assoc. auto.
Qed.
(** a row of the matrix *)
Lemma row_mat_text D g j xs ts : om D = Some g -> wf_grid g -> ga g !! j = Some xs -> Forall2 shows xs ts ->
  row_mat rnd [c] D j = Ok (names_text [c] (map ctext ts)).
Proof.
  intros Hm [Hw1 Hw2] Hj HF. unfold row_mat. rewrite Hm.
  assert (length xs = gc g) as Hl by (rewrite List.Forall_forall in Hw2; apply Hw2; apply elem_of_list_In; eapply elem_of_list_lookup_2; eauto).
  assert (j < gr g) as Hjg by (rewrite <- Hw1; eapply lookup_lt_Some; eauto).
  pose proof (Forall2_length _ _ _ HF) as Hl2.
  assert (forall k, k <= length ts -> cat (map (mat_cell rnd [c] g j) (seq (length ts - k) k)) = Ok (names_text [c] (map ctext (drop (length ts - k) ts)))) as HK.
  { induction k as [|k IH]; intros Hk.
    - rewrite Nat.sub_0_r, drop_all. reflexivity.
    - cbn [seq map cat]. set (i := length ts - S k). assert (S i = length ts - k) as Hi by lia. rewrite Hi, IH by lia.
      destruct (ts !! i) as [t|] eqn:Et; [|apply lookup_ge_None in Et; lia].
      destruct (Forall2_lookup_r _ _ _ _ _ HF Et) as (x & Hx & [Hp _]).
      unfold mat_cell. destruct (Nat.ltb_spec j (gr g)); [|lia]. destruct (Nat.ltb_spec i (gc g)); [|lia]. cbn [andb].
      unfold cell. rewrite Hj. cbn [mbind option_bind]. rewrite Hx, Hp. cbn [rbind].
      rewrite (drop_S ts t i Et). rewrite <- Hi. cbn [map]. rewrite <- Hl, Hl2. destruct (Nat.ltb_spec (S i) (length ts)).
      + destruct (drop (S i) ts) as [|t' r] eqn:Er; [apply (f_equal length) in Er; rewrite drop_length in Er; cbn in Er; lia|]. cbn [map names_text]. rewrite <- !app_assoc. auto.
      + rewrite (drop_ge ts (S i)) by lia. cbn. rewrite !app_nil_r. auto. }
  specialize (HK (length ts) ltac:(lia)). rewrite Nat.sub_diag, drop_0 in HK. rewrite <- Hl, Hl2. exact HK.
Qed.
Lemma cat_ctext (l : list cellt) : concat (map (fun t => [c] ++ t) (map ctext l)) = concat (map (itext c) (map (pair 1) l)).
Proof. induction l as [|t l IH]; [auto|]. cbn. cbn in IH. rewrite IH. auto. Qed.

(** the items of a row: name, vector's element, matrix's row, weight; each after the delimiters printed before it *)
Definition lead_name (o : option str) (L : nat) : list cellt := match o with Some s => [(L + 2 - length s, s, 0)] | None => [] end.
Definition gap (l : list cellt) (k : nat) : nat := match l with [] => 0 | _ => k end.
Definition mat_items (k : nat) (l : list cellt) : list (nat * cellt) := match l with [] => [] | t :: l => (k, t) :: map (pair 1) l end.
Definition items (nm tv tm tw : list cellt) : list (nat * cellt) :=
  map (pair 0) nm ++ map (pair (gap nm 1)) tv ++ mat_items (match tv with [] => gap nm 1 | _ => 2 end) tm ++ map (pair 1) tw.
Lemma mat_items_text (k : nat) l : l <> [] -> concat (map (itext c) (mat_items k l)) = repeat c k ++ names_text [c] (map ctext l).
Proof. destruct l as [|t l]; [congruence|]. intros _. cbn [mat_items map]. rewrite names_text_items, cat_ctext. cbn [map concat]. unfold itext at 1. cbn [fst snd]. rewrite app_assoc. auto. Qed.

Lemma itext_eq (k : nat) t : itext c (k, t) = repeat c k ++ ctext t.
Proof. auto. Qed.
Lemma row_text_items D T names rows j r ts :
  holds D T -> named D names rows (length T) -> ot D = None -> T !! j = Some r -> Forall2 shows r ts ->
  exists nm tv tm tw, ts = tv ++ tm ++ tw /\ nm = lead_name (rows !! j) (max_len rows) /\ (tv = [] <-> ov D = None) /\ length tv <= 1 /\ (tm = [] <-> om D = None) /\
    length tw <= 1 /\ (tv ++ tm <> []) /\
    print_row rnd [c] false D j = Ok (concat (map (itext c) (items nm tv tm tw)) ++ [lf]).
Proof.
  intros (H1 & H2 & H3 & H4) HNm HT Hj HF. destruct (H4 j r Hj) as (a & m & w & -> & Ha & Hm & Hw).
  apply Forall2_app_inv_l in HF as (tv & tr & HFa & HF & ->). apply Forall2_app_inv_l in HF as (tm & tw & HFm & HFw & ->).
  set (nm := lead_name (rows !! j) (max_len rows)).
  assert (row_name [c] D j = concat (map (itext c) (map (pair 0) nm)) ++ match nm with [] => [] | _ => [c] end) as Hname.
  { unfold row_name, nm. unfold named in HNm. destruct (on D) as [n|].
    - destruct HNm as (_ & _ & -> & _). destruct (nrow n !! j) as [s|]; [|auto]. cbn. unfold itext, width, ctext. cbn. rewrite !app_nil_r. auto.
    - destruct HNm as [_ ->]. cbn. auto. }
  assert (row_weight rnd [c] false D j = Ok (concat (map (itext c) (map (pair 1) tw)))) as Hwt.
  { unfold row_weight. unfold column_part in Hw. destruct (ow D) as [l|].
    - destruct Hw as (x & Hx & ->). inversion HFw as [|? t ? l2 [Hp _] HF2]; subst. inversion HF2; subst. rewrite Hx, Hp. cbn. rewrite app_nil_r. auto.
    - subst. inversion HFw; subst. auto. }
  exists nm, tv, tm, tw. split; [auto|]. split; [auto|].
  unfold print_row, row_text. rewrite HT, Hname, Hwt. cbn [app].
  unfold column_part in Ha, Hw.
  assert (length tw <= 1) as Hlw.
  { rewrite <- (Forall2_length _ _ _ HFw). destruct (ow D); [destruct Hw as (? & _ & ->)|subst]; cbn; lia. }
  unfold row_vec. destruct (ov D) as [v|] eqn:Ev.
  - destruct Ha as (x & Hx & ->). inversion HFa as [|? t ? l2 [Hp _] HF2]; subst. inversion HF2; subst. rewrite Hx, Hp. cbn [rbind].
    destruct (om D) as [g|] eqn:Em.
    + destruct H3 as (Hg & Hgr & Hgc). cbn [matrix_part] in Hm.
      assert (length m = gc g) as Hlm by (destruct Hg as [_ Hg]; rewrite List.Forall_forall in Hg; apply Hg; apply elem_of_list_In; eapply elem_of_list_lookup_2; eauto).
      assert (tm <> []) as Htm by (intros ->; apply Forall2_length in HFm; cbn in HFm; lia).
      rewrite (row_mat_text D g j m tm) by auto. cbn [rbind].
      split; [split; discriminate|]. split; [cbn; lia|]. split; [split; intros; congruence|]. split; [auto|]. split; [discriminate|].
      unfold cols_end. rewrite Em. destruct (Nat.ltb_spec 0 (gc g)); [|lia]. cbn [is_some a_pipe].
      unfold items. rewrite !map_app, !concat_app. rewrite (mat_items_text _ tm) by auto. cbn [map concat repeat]. rewrite ?itext_eq.
      f_equal. destruct nm; cbn [gap repeat app]; repeat (rewrite ?app_nil_r, <- ?app_assoc; cbn [app]); auto.
    + cbn [matrix_part] in Hm. subst m. inversion HFm; subst. unfold row_mat. rewrite Em. cbn [rbind is_some]. unfold cols_end. rewrite Em. cbn [Nat.ltb Nat.leb].
      split; [split; discriminate|]. split; [cbn; lia|]. split; [split; auto|]. split; [auto|]. split; [discriminate|].
      unfold items. rewrite !map_app, !concat_app. cbn [mat_items map concat]. rewrite ?itext_eq.
      f_equal. destruct nm; cbn [gap repeat app]; repeat (rewrite ?app_nil_r, <- ?app_assoc; cbn [app]); auto.
  - subst a. inversion HFa; subst. cbn [rbind]. destruct (om D) as [g|] eqn:Em; [|discriminate].
    destruct H3 as (Hg & Hgr & Hgc). cbn [matrix_part] in Hm.
    assert (length m = gc g) as Hlm by (destruct Hg as [_ Hg]; rewrite List.Forall_forall in Hg; apply Hg; apply elem_of_list_In; eapply elem_of_list_lookup_2; eauto).
    assert (tm <> []) as Htm by (intros ->; apply Forall2_length in HFm; cbn in HFm; lia).
    rewrite (row_mat_text D g j m tm) by auto. cbn [rbind].
    split; [split; auto|]. split; [cbn; lia|]. split; [split; intros; congruence|]. split; [auto|]. split; [auto|].
    unfold items. rewrite !map_app, !concat_app. rewrite (mat_items_text _ tm) by auto. cbn [map concat repeat].
    f_equal. destruct nm; cbn [gap repeat app]; repeat (rewrite ?app_nil_r, <- ?app_assoc; cbn [app]); auto.
Qed.

Context (D : odata) (T : list (list R)) (names rows : list (list ascii)).
Context (HH : holds D T) (HNm : named D names rows (length T)) (Hot : ot D = None) (HR : Forall (good_name delims) rows) (HCn : Forall (good_name delims) names)
        (HI : Forall (Forall in_int) T) (Hsep : is_some (ov D) = true -> is_some (om D) = true -> blank_char c).
Definition name_at (j : nat) : list (list ascii) := match rows !! j with Some s => [s] | None => [] end.
Definition row_line (j : nat) (r : list R) (L : line) : Prop :=
  ok_line delims L /\ print_row rnd [c] false D j = Ok (write_line L ++ [lf]) /\
  exists cores, values L = name_at j ++ cores /\ Forall2 (fun x s => exists y, numeral s y /\ close_to x y) r cores.
Lemma first_item nm tv tm tw : tv ++ tm <> [] -> exists x l, items nm tv tm tw = (0, x) :: l.
Proof.
  intros H. unfold items. destruct nm as [|x nm]; [|cbn; eauto]. destruct tv as [|x tv]; [|cbn; eauto]. destruct tm as [|x tm]; [exfalso; apply H; reflexivity|]. cbn. eauto.
Qed.
Lemma items_cores nm tv tm tw : map (fun y => core (y.2)) (items nm tv tm tw) = map core nm ++ map core (tv ++ tm ++ tw).
Proof.
  unfold items. rewrite !map_app, !map_map. cbn [snd]. f_equal. f_equal. f_equal. destruct tm as [|t tm]; [auto|]. cbn [mat_items map]. rewrite map_map. auto.
Qed.
Lemma items_gaps nm tv tm tw x l : length nm <= 1 -> length tv <= 1 -> length tw <= 1 -> tv ++ tm <> [] -> (tv <> [] -> tm <> [] -> blank_char c) ->
  items nm tv tm tw = (0, x) :: l -> Forall (fun y => okk c (y.1)) l.
Proof.
  intros H1 H2 H3 H4 H5. assert (okk c 1) as K1 by (left; auto).
  assert (forall l' : list cellt, Forall (fun y => okk c (y.1)) (map (pair 1) l')) as KM by (intros l'; apply List.Forall_map; rewrite List.Forall_forall; auto).
  assert (tv <> [] -> tm <> [] -> okk c 2) as K2 by (right; split; [lia|auto]).
  unfold items. destruct nm as [|n [|]]; [| |cbn in H1; lia]; destruct tv as [|v [|]]; try (cbn in H2; lia); destruct tm as [|t tm]; cbn [map app gap mat_items];
    try (exfalso; apply H4; reflexivity); intros E; injection E as <- <-;
    repeat first [apply KM | apply List.Forall_nil | apply List.Forall_app; split | apply List.Forall_cons; cbn [fst] | exact K1 | apply K2; discriminate].
Qed.
Lemma row_line_ex j r : T !! j = Some r -> exists L, row_line j r L.
Proof.
  intros Hj. assert (Forall in_int r) as Hi by (rewrite List.Forall_forall in HI; apply HI; apply elem_of_list_In; eapply elem_of_list_lookup_2; eauto).
  destruct (shown_all r Hi) as [ts Hts].
  destruct (row_text_items D T names rows j r ts HH HNm Hot Hj Hts) as (nm & tv & tm & tw & -> & -> & Hv & Hlv & Hm & Hlw & Hne & Hp).
  set (nm := lead_name (rows !! j) (max_len rows)) in *.
  destruct (first_item nm tv tm tw Hne) as (x & l & El).
  assert (length nm <= 1) as Hln by (unfold nm; destruct (rows !! j); cbn; lia).
  assert (tv <> [] -> tm <> [] -> blank_char c) as Hb.
  { intros A1 A2. apply Hsep; [destruct (ov D) as [?|] eqn:Eov|destruct (om D) as [?|] eqn:Eom]; cbn; auto; exfalso; tauto. }
  pose proof (items_gaps nm tv tm tw x l Hln Hlv Hlw Hne Hb El) as Hg.
  pose proof (items_cores nm tv tm tw) as Hcores. rewrite El in Hcores. cbn [map snd] in Hcores.
  assert (Forall (good_name delims) (map core nm ++ map core (tv ++ tm ++ tw))) as Hgood.
  { apply List.Forall_app. split.
    - unfold nm. destruct (rows !! j) as [s|] eqn:Es; cbn; constructor; [|constructor]. rewrite List.Forall_forall in HR. apply HR. apply elem_of_list_In. eapply elem_of_list_lookup_2. eauto.
    - apply List.Forall_map. rewrite List.Forall_forall. intros t Ht. apply elem_of_list_In, elem_of_list_lookup in Ht as [i Hi2].
      destruct (Forall2_lookup_r _ _ _ _ _ Hts Hi2) as (y & _ & Hy). eapply shows_good; eauto. }
  rewrite <- Hcores in Hgood. inversion Hgood as [|? ? Hg1 Hg2]; subst.
  assert (Forall (fun y : nat * cellt => good_name delims (core (y.2))) l) as Hg3 by (rewrite List.Forall_map in Hg2; exact Hg2).
  exists (mk c x l). split; [|split].
  - apply ok_mk; auto. apply HN.
  - rewrite Hp. rewrite (write_mk c x l Hg). rewrite El. auto.
  - exists (map core (tv ++ tm ++ tw)). split.
    + rewrite (values_mk delims c x l Hg1 Hg3), Hcores. f_equal. unfold nm, name_at. destruct (rows !! j); auto.
    + clear -Hts. induction Hts as [|y t r' ts' [_ Hy] Hr IH]; constructor; auto.
Qed.
Lemma rows_end_T : rows_end D = length T.
Proof. unfold rows_end. destruct HH as (H1 & H2 & H3 & H4). destruct (om D) as [g|]; [apply H3|]. destruct (ov D); [exact H1|discriminate]. Qed.
Lemma all_rows : exists Ls, length Ls = length T /\ (forall j r, T !! j = Some r -> exists L, Ls !! j = Some L /\ row_line j r L) /\
  cat (map (print_row rnd [c] false D) (seq 0 (rows_end D))) = Ok (concat (map (fun L => write_line L ++ [lf]) Ls)).
Proof.
  rewrite rows_end_T.
  assert (forall n, n <= length T -> exists Ls, length Ls = n /\ (forall j r, j < n -> T !! j = Some r -> exists L, Ls !! j = Some L /\ row_line j r L) /\
    cat (map (print_row rnd [c] false D) (seq 0 n)) = Ok (concat (map (fun L => write_line L ++ [lf]) Ls))) as Hn.
  { induction n as [|n IH]; intros Hn; [exists []; split; [auto|]; split; [intros; lia|auto]|]. destruct IH as (Ls & L1 & L2 & L3); [lia|].
    destruct (T !! n) as [r|] eqn:Er; [|apply lookup_ge_None in Er; lia]. destruct (row_line_ex n r Er) as [L HL].
    exists (Ls ++ [L]). split; [rewrite app_length, L1; cbn; lia|]. split.
    - intros j r' Hj Hr. destruct (Nat.eq_dec j n) as [->|Hne].
      + rewrite Er in Hr. injection Hr as <-. exists L. split; auto. rewrite lookup_app_r by lia. rewrite L1, Nat.sub_diag. auto.
      + destruct (L2 j r') as (L' & HL1 & HL2); [lia|auto|]. exists L'. split; auto. apply lookup_app_l_Some. auto.
    - rewrite seq_S, map_app, cat_app, L3. change (0 + n) with n. cbn [map cat rbind]. destruct HL as (_ & -> & _). cbn [rbind]. rewrite map_app, concat_app. cbn [map concat]. auto. }
  destruct (Hn (length T) (le_n _)) as (Ls & L1 & L2 & L3). exists Ls. split; [auto|]. split; [|auto]. intros j r Hj. apply L2; auto. eapply lookup_lt_Some; eauto.
Qed.
(** the line of names *)
Lemma heading_none : names = [] -> heading (Some db) [c] false D = Ok [].
Proof.
  intros Hn. unfold heading. unfold named in HNm. destruct (on D) as [n|]; [|auto]. destruct HNm as (N1 & N2 & N3 & N4 & N5 & N6).
  rewrite Hn in N4. symmetry in N4. apply app_eq_nil in N4 as [N4 N7]. destruct (nvec n) as [s|] eqn:Ev; [discriminate|].
  unfold corner, col_names, title_text, head_vec, head_mat, head_text. rewrite N1, N2, N7, Ev. cbn [is_some nempty orb andb]. rewrite !andb_false_r. cbn [rbind app].
  destruct (ov D), (om D); cbn; auto.
Qed.
Lemma heading_some : names <> [] -> exists L, ok_line delims L /\ heading (Some db) [c] false D = Ok (write_line L ++ [lf]) /\ values L = names.
Proof.
  intros Hn. unfold heading. unfold named in HNm. destruct (on D) as [n|]; [|tauto]. destruct HNm as (N1 & N2 & N3 & N4 & N5 & [N6|(N6 & N7 & N8)]); [contradiction|].
  assert (col_names n = true) as Hcn. { unfold col_names. rewrite N4 in Hn. destruct (nvec n), (ncol n); cbn in *; auto; congruence. }
  assert (exists p, corner (Some db) n = Ok (pads p)) as [p Hp].
  { unfold corner. rewrite Hcn. destruct (nempty (nrow n)); cbn [andb]; [|exists 0; auto]. exists (max_len (nrow n) + 2 + 2). f_equal. unfold width. cbn [length].
    unfold pads. rewrite (repeat_app sp (max_len (nrow n) + 2)). f_equal. replace (max_len (nrow n) + 2) with ((max_len (nrow n) + 2 - 1) + 1) at 2 by lia. rewrite repeat_app. auto. }
  rewrite Hp. cbn [rbind]. rewrite Hcn. unfold title_text. rewrite N1. cbn [app]. unfold head_text. rewrite N2. cbn [nempty]. rewrite andb_false_r. cbn [app].
  rewrite N4 in HCn. 
  assert (forall (x : cellt) (l : list str), good_name delims (core x) -> Forall (good_name delims) l ->
    let L := mk c x (map (fun s => (1, (0, s, 0))) l) in ok_line delims L /\ write_line L = ctext x ++ concat (map (fun s => [c] ++ s) l) /\ values L = core x :: l) as HM.
  { intros x l Hx Hl. cbv zeta. assert (Forall (fun y : nat * cellt => okk c (y.1)) (map (fun s => (1, (0, s, 0))) l)) as K1 by (apply List.Forall_map; rewrite List.Forall_forall; intros; left; auto).
    assert (Forall (fun y : nat * cellt => good_name delims (core (y.2))) (map (fun s => (1, (0, s, 0))) l)) as K2 by (apply List.Forall_map; exact Hl).
    split; [apply ok_mk; auto; apply HN|]. split.
    - rewrite write_mk by auto. cbn [map concat]. unfold itext at 1. cbn [fst snd repeat app]. f_equal. rewrite map_map. f_equal. apply map_ext. intros s. unfold itext. cbn. rewrite app_nil_r. auto.
    - rewrite (values_mk delims) by auto. f_equal. rewrite map_map. cbn. apply map_id. }
  pose proof HH as HX. unfold holds in HX. destruct HX as (_ & _ & HX & _). unfold head_vec, head_mat. destruct (ov D) as [v|]; destruct (nvec n) as [s|] eqn:Es; try discriminate; cbn [option_list app] in *.
  - inversion HCn as [|? ? Hs Hcs]; subst. destruct (om D) as [g|].
    + destruct HX as (_ & _ & Hgc). destruct (ncol n) as [|k l] eqn:Ek; [cbn in N8; lia|]. cbn [is_some nempty andb a_pipe].
      destruct (HM (p, s, 2) (k :: l) Hs Hcs) as (M1 & M2 & M3). eexists. split; [exact M1|]. split; [|rewrite M3; auto].
      rewrite M2, names_text_items. cbn [ctext map concat app pads repeat]. f_equal. repeat (rewrite <- ?app_assoc; cbn [app]). auto.
    + rewrite N8 in *. destruct (HM (p, s, 0) [] Hs (List.Forall_nil _)) as (M1 & M2 & M3). eexists. split; [exact M1|]. split; [|rewrite M3; auto].
      rewrite M2. cbn [ctext map concat app pads repeat]. rewrite !app_nil_r. rewrite <- app_assoc. auto.
  - destruct (om D) as [g|] eqn:Em; [|discriminate].
    destruct (ncol n) as [|k l] eqn:Ek; [exfalso; apply Hn; rewrite N4; reflexivity|]. cbn [is_some nempty andb]. inversion HCn as [|? ? Hs Hcs]; subst.
    destruct (HM (p, k, 0) l Hs Hcs) as (M1 & M2 & M3). eexists. split; [exact M1|]. split; [|rewrite M3; auto].
    rewrite M2, names_text_items. cbn [ctext map concat app pads repeat]. rewrite app_nil_r. repeat (rewrite <- ?app_assoc; cbn [app]). auto.
Qed.
End Rows.

Lemma lookup_mapped {A B} (f : A -> B) l j : map f l !! j = match l !! j with Some x => Some (f x) | None => None end.
Proof. revert j. induction l as [|x l IH]; intros [|j]; cbn; auto. Qed.
Lemma file_of_lines Ls : file_of (map (fun L => (L, Newline)) Ls) no_line = concat (map (fun L => write_line L ++ [lf]) Ls).
Proof. unfold file_of. rewrite map_map. cbn [fst snd write_end]. change (write_line no_line) with (@nil ascii). rewrite app_nil_r. auto. Qed.
Lemma nonblank_all (vs : list (list (list ascii))) : Forall (fun v => v <> []) vs -> nonblank (vs ++ [values no_line]) = vs.
Proof.
  intros H. unfold nonblank. change (values no_line) with (@nil (list ascii)). rewrite list.filter_app. induction H as [|v vs Hv _ IH]; [auto|].
  rewrite filter_cons_True by auto. cbn [app]. rewrite IH. auto.
Qed.
Definition close_cell (x : R) (y : tcell R) : Prop := exists r, y = Num r /\ close_to x r.
Lemma cells_close number r cores : reads_numerals number -> Forall2 (fun x s => exists y, numeral s y /\ close_to x y) r cores ->
  Forall2 close_cell r (map (entry number) cores).
Proof.
  intros Hn HF. induction HF as [|x s r cores (y & Hy & Hxy) _ IH]; constructor; auto. exists y. split; auto.
  destruct (numeral_chars _ _ Hy) as [_ Hs]. unfold entry. destruct s; [congruence|]. rewrite (Hn _ _ Hy). auto.
Qed.

(** C112: a set with a matrix, a vector, or both (and weights, if columns have no names), printed to a file with a delimiter the reader knows -- a blank one, such as the tab, if there are
    both a vector and a matrix -- and read back, is a matrix of the set's columns, vector first, weights last, with the same names of columns and rows.  Whole numbers come back exactly, others
    to within half of the sixth decimal. *)
Theorem C112_read_back : forall rnd delims c number db D T names rows,
  (forall x, (Rabs (IZR (rnd x) - x) <= / 2)%R) -> ok_delims delims -> numbers_free delims -> In c delims -> reads_numerals number ->
  holds D T -> named D names rows (length T) -> ot D = None -> T <> [] -> Forall (Forall in_int) T ->
  Forall (good_name delims) names -> Forall (good_name delims) rows ->
  (is_some (ov D) = true -> is_some (om D) = true -> blank_char c) ->
  exists out w cells, print_core rnd (Some db) [c] false D = Ok out /\
    text_to_data number delims (nempty rows) (nempty names) out = Ok (names, Ts_ w cells rows false) /\
    Forall2 (Forall2 close_cell) T cells /\ Forall (fun r => length r = w) T.
Proof.
  intros rnd delims c number db D T names rows Hrnd HD HN Hc Hnum HH HNm Hot HT HI HCn HR Hsep.
  destruct (all_rows rnd Hrnd delims c HD HN Hc D T names rows HH HNm Hot HR HI Hsep) as (Ls & HL1 & HL2 & HL3).
  assert (exists w, 0 < w /\ Forall (fun r => length r = w) T /\ (names <> [] -> length names = w)) as (w & Hw0 & Hw & Hnw).
  { destruct HH as (H1 & H2 & H3 & H4). exists (nat_of (is_some (ov D)) + match om D with Some g => gc g | None => 0 end + nat_of (is_some (ow D))).
    split; [destruct (om D) as [g|]; [lia|rewrite H3; cbn; lia]|]. split.
    2: { intros Hne. unfold named in HNm. destruct (on D) as [n|]; [|tauto]. destruct HNm as (_ & _ & _ & -> & _ & [N6|(N6 & N7 & N8)]); [contradiction|]. rewrite N6, <- N7, app_length.
         destruct (nvec n); destruct (om D); cbn; rewrite ?N8; cbn; lia. }
    rewrite List.Forall_forall. intros r Hr. apply elem_of_list_In, elem_of_list_lookup in Hr as [j Hj].
    destruct (H4 j r Hj) as (a & m & ww & -> & Ha & Hm & Hww). rewrite !app_length.
    assert (forall o a, column_part o j a -> length a = nat_of (is_some o)) as Hcp by (intros [l|] a' Ha'; cbn in Ha'; [destruct Ha' as (? & _ & ->)|subst]; auto).
    rewrite (Hcp _ _ Ha), (Hcp _ _ Hww). assert (length m = match om D with Some g => gc g | None => 0 end) as ->; [|lia].
    destruct (om D) as [g|]; cbn in Hm; [|subst; auto]. destruct H3 as ((_ & Hg) & _). rewrite List.Forall_forall in Hg. apply Hg. apply elem_of_list_In. eapply elem_of_list_lookup_2. eauto. }
  set (h := nempty rows).
  assert (rows = [] \/ length rows = length T) as Hrl.
  { unfold named in HNm. destruct (on D); [|left; apply HNm]. destruct HNm as (_ & _ & _ & _ & H & _). auto. }
  assert (forall j, j < length T -> length (name_at rows j) = nat_of h) as Hna.
  { intros j Hj. unfold name_at, h. destruct Hrl as [->|Hrl]; [destruct j; auto|]. destruct (rows !! j) as [s|] eqn:E; [|apply lookup_ge_None in E; lia]. destruct rows; [discriminate|auto]. }
  assert (forall j L, Ls !! j = Some L -> exists r, T !! j = Some r /\ row_line rnd delims c D rows j r L) as HL4.
  { intros j L Hj. destruct (T !! j) as [r|] eqn:Er; [|apply lookup_ge_None in Er; apply lookup_lt_Some in Hj; lia].
    destruct (HL2 j r Er) as (L' & HL' & HL''). rewrite HL' in Hj. injection Hj as ->. eauto. }
  assert (forall j L r, Ls !! j = Some L -> T !! j = Some r -> row_line rnd delims c D rows j r L) as HL5.
  { intros j L r Hj Hr. destruct (HL4 j L Hj) as (r' & Hr' & HL'). rewrite Hr' in Hr. injection Hr as ->. auto. }
  assert (forall L, In L Ls -> ok_line delims L /\ length (values L) = nat_of h + w) as HLw.
  { intros L HL. apply elem_of_list_In, elem_of_list_lookup in HL as [j Hj]. destruct (HL4 j L Hj) as (r & Hr & Hok & _ & cores & Hv & HF). split; auto.
    rewrite Hv, app_length, (Hna j) by (eapply lookup_lt_Some; eauto). f_equal. rewrite <- (Forall2_length _ _ _ HF). rewrite List.Forall_forall in Hw. apply Hw. apply elem_of_list_In. eapply elem_of_list_lookup_2. eauto. }
  remember (map values Ls) as vs eqn:Evs.
  assert (Forall (fun v => v <> []) vs) as Hvne.
  { rewrite Evs. apply List.Forall_map. rewrite List.Forall_forall. intros L HL E. destruct (HLw L HL) as [_ Hl]. rewrite E in Hl. cbn in Hl. lia. }
  assert (Forall (fits_row (nat_of h) w) (vs ++ [values no_line])) as Hfit.
  { apply List.Forall_app. split; [|constructor; [left; auto|constructor]]. rewrite Evs. apply List.Forall_map. rewrite List.Forall_forall. intros L HL. right. apply HLw. auto. }
  assert (data_set number h w vs = Ts_ w (map (fun v => map (entry number) (drop (nat_of h) v)) vs) rows false) as Hds.
  { unfold data_set. f_equal. unfold h in *. destruct Hrl as [->|Hrl]; [auto|]. destruct rows as [|s0 rows'] eqn:Erows; [auto|]. rewrite <- Erows in *. assert (nempty rows = true) as -> by (rewrite Erows; auto).
    apply list_eq. intros j. rewrite Evs. rewrite map_map.
rewrite lookup_mapped. destruct (Ls !! j) as [L|] eqn:EL.
    - destruct (HL4 j L EL) as (r & Hr & _ & _ & cores & Hv & _). cbn. rewrite Hv. unfold name_at. destruct (rows !! j) as [s|] eqn:Es; [cbn; auto|].
      apply lookup_ge_None in Es. apply lookup_lt_Some in Hr. lia.
    - cbn. apply lookup_ge_None in EL. symmetry. apply lookup_ge_None. lia. }
  assert (Forall2 (Forall2 close_cell) T (map (fun v => map (entry number) (drop (nat_of h) v)) vs)) as Hcells.
  { rewrite Evs. rewrite map_map. apply Forall2_same_length_lookup_2; [rewrite map_length; auto|]. intros j r y Hr Hy. rewrite lookup_mapped in Hy.
    destruct (Ls !! j) as [L|] eqn:EL; [|discriminate]. injection Hy as <-. destruct (HL5 j L r EL Hr) as (_ & _ & cores & Hv & HF).
    rewrite Hv. rewrite <- (Hna j) by (eapply lookup_lt_Some; eauto). rewrite drop_app. apply cells_close; auto. }
  assert (forall e, ok_lines delims (map (fun L => (L, Newline)) e) <-> Forall (ok_line delims) e) as Hokl.
  { intros e. unfold ok_lines. rewrite List.Forall_map. cbn [fst snd ok_end]. split; intros HF; refine (List.Forall_impl _ _ HF); tauto. }
  assert (Forall (ok_line delims) Ls) as HokL by (rewrite List.Forall_forall; intros L HL; apply HLw; auto).
  assert (forall e, row_lines (map (fun L => (L, Newline)) e) = map values e) as Hrw by (intros e; unfold row_lines; rewrite map_map; auto).
  destruct Ls as [|L0 Ls'] eqn:ELs; [destruct T; [congruence|discriminate]|]. rewrite <- ELs in *.
  unfold print_core. rewrite HL3. destruct names as [|s0 names'] eqn:En.
  - rewrite (heading_none c db D T [] rows HNm Hsep eq_refl). cbn [rbind app nempty].
    eexists _, w, _. split; [reflexivity|]. split; [|split; [exact Hcells|exact Hw]]. rewrite <- file_of_lines, <- Hds. fold h.
    assert (length (values L0) = nat_of h + w) as Hl0 by (apply HLw; rewrite ELs; left; auto).
    rewrite (C29_no_header number delims h (map (fun L => (L, Newline)) Ls) no_line (values L0)).
    + rewrite Hrw. rewrite <- Evs. rewrite nonblank_all by exact Hvne. rewrite Hl0. replace (nat_of h + w - nat_of h) with w by lia. reflexivity.
    + auto.
    + apply Hokl. auto.
    + repeat split; constructor.
    + rewrite Hrw. rewrite <- Evs. rewrite nonblank_all by exact Hvne. rewrite Evs. rewrite ELs. auto.
    + rewrite Hrw, Hl0. rewrite <- Evs. replace (nat_of h + w - nat_of h) with w by lia. auto.
  - rewrite <- En in *. assert (names <> []) as Hne by (rewrite En; discriminate).
    destruct (heading_some delims c db HN Hc D T names rows HH HNm HR HCn Hsep Hne) as (H & Hh1 & -> & Hh3). cbn [rbind].
    eexists _, w, _. split; [reflexivity|]. split; [|split; [exact Hcells|exact Hw]]. rewrite <- Hds. fold h.
    assert (nempty names = true) as -> by (rewrite En; auto).
    assert (length (values L0) = nat_of h + w) as Hl0 by (apply HLw; rewrite ELs; left; auto).
    pose proof (C29_header number delims h [] H Newline [] L0 Newline (map (fun L => (L, Newline)) Ls') no_line) as HC.
    cbn [app] in HC. rewrite Hl0, Hrw, Hh3 in HC. replace (nat_of h + w - nat_of h) with w in HC by lia.
    change ((H, Newline) :: (L0, Newline) :: map (fun L => (L, Newline)) Ls') with (map (fun L => (L, Newline)) (H :: L0 :: Ls')) in HC.
    rewrite <- ELs in HC. rewrite file_of_lines in HC. cbn [map concat] in HC. rewrite HC.
    + rewrite (nonblank_all (map values Ls')) by (rewrite Evs, ELs in Hvne; cbn in Hvne; inversion Hvne; auto).
      rewrite <- (Hnw Hne). rewrite firstn_all. rewrite (Hnw Hne). rewrite Evs. rewrite ELs. auto.
    + auto.
    + change ((H, Newline) :: map (fun L => (L, Newline)) Ls) with (map (fun L => (L, Newline)) (H :: Ls)). apply Hokl. constructor; auto.
    + repeat split; constructor.
    + constructor.
    + constructor.
    + auto.
    + intros E. rewrite E in Hl0. cbn in Hl0. lia.
    + rewrite (Hnw Hne). lia.
    + rewrite Evs, ELs in Hfit. exact Hfit.
Qed.
Print Assumptions C112_read_back.

(** a reader of numerals *)
Fixpoint cut_point (s : list ascii) : list ascii * list ascii :=
  match s with [] => ([], []) | c :: r => if Ascii.eqb c point then ([], r) else let '(a, b) := cut_point r in (c :: a, b) end.
Definition read_numeral (s : list ascii) : option R :=
  let neg := match s with c :: _ => Ascii.eqb c minus | [] => false end in
  let '(ip, fp) := cut_point (if neg then List.tl s else s) in
  Some ((if neg then -1 else 1) * (IZR (numeral_value ip) + IZR (numeral_value fp) / 10 ^ length fp))%R.
Lemma cut_numeral ip fp : Forall is_digit ip -> cut_point (ip ++ match fp with [] => [] | _ => point :: fp end) = (ip, fp).
Proof.
  induction 1 as [|c ip Hc _ IH]; [destruct fp; auto|]. cbn [app cut_point]. destruct (Ascii.eqb_spec c point) as [->|_]; [unfold is_digit in Hc; change (nat_of_ascii point) with 46 in Hc; lia|]. rewrite IH. auto.
Qed.
Lemma reads : reads_numerals read_numeral.
Proof.
  intros s x (neg & ip & fp & -> & H1 & H2 & H3 & ->). unfold read_numeral. destruct neg.
  - cbn [app List.tl]. rewrite Ascii.eqb_refl. rewrite cut_numeral by auto. auto.
  - cbn [app]. destruct ip as [|c ip]; [congruence|]. cbn [app]. replace (Ascii.eqb c minus) with false.
    + pose proof (cut_numeral (c :: ip) fp H2) as Hcut. cbn [app] in Hcut. rewrite Hcut. auto.
    + symmetry. apply Ascii.eqb_neq. intros ->. inversion H2; subst. unfold is_digit in *. change (nat_of_ascii minus) with 45 in *. lia.
Qed.
Definition round_up (x : R) : Z := up (x - / 2).
Lemma round_near x : (Rabs (IZR (round_up x) - x) <= / 2)%R.
Proof. unfold round_up. destruct (archimed (x - / 2)). apply Rabs_le. lra. Qed.
Lemma std_free : numbers_free std_delims.
Proof.
  split; [|char_tac]. intros c [Hc|[->| ->]]; [|char_tac|char_tac]. intros [<-|[<-|[<-|[]]]]; unfold is_digit in Hc; rewrite nat_ascii_embedding in Hc; lia.
Qed.
Lemma good_by s : Forall (fun c => ordinary std_delims c \/ soft_blank std_delims c) s -> (match s with c :: _ => ordinary std_delims c | [] => False end) ->
  (match rev s with c :: _ => ordinary std_delims c | [] => False end) -> good_name std_delims s.
Proof.
  intros H1 H2 H3. split; [auto|]. split.
  - destruct s as [|c r]; [contradiction|]. eauto.
  - destruct (rev s) as [|c r] eqn:E; [contradiction|]. exists c, (rev r). split; auto. rewrite <- (rev_involutive s), E. auto.
Qed.
(** a vector and a matrix of two rows, all named; a name with a blank in it *)
Definition ex_set : odata :=
  Od (Some [1; 5/2]%R) (Some (Gr 2 1 [[3]; [-7]]%R)) None 0 None (Some (Ns None (Some (bytes_of "v")) [bytes_of "a b"] [] [bytes_of "r1"; bytes_of "row2"])).
Definition ex_table : list (list R) := [[1; 3]; [5/2; -7]]%R.
Example C112_nonvacuous : (forall x, (Rabs (IZR (round_up x) - x) <= / 2)%R) /\ ok_delims std_delims /\ numbers_free std_delims /\ In tab std_delims /\ reads_numerals read_numeral /\
  holds ex_set ex_table /\ named ex_set [bytes_of "v"; bytes_of "a b"] [bytes_of "r1"; bytes_of "row2"] (length ex_table) /\ Forall (Forall in_int) ex_table /\
  Forall (good_name std_delims) [bytes_of "v"; bytes_of "a b"] /\ Forall (good_name std_delims) [bytes_of "r1"; bytes_of "row2"] /\ blank_char tab.
Proof.
  split; [exact round_near|]. split; [exact ex_ok_delims|]. split; [exact std_free|]. split; [cbn; auto|]. split; [exact reads|]. split; [|split; [|split; [|split; [|split]]]].
  - split; [reflexivity|]. split; [exact I|]. split; [split; [split; [reflexivity|constructor; [reflexivity|constructor; [reflexivity|constructor]]]|split; [reflexivity|cbn; lia]]|].
    intros [|[|j]] r Hr; [| |destruct j; discriminate]; injection Hr as <-.
    + exists [1%R], [3%R], []. split; [reflexivity|]. split; [exists 1%R; auto|]. split; reflexivity.
    + exists [(5/2)%R], [(-7)%R], []. split; [reflexivity|]. split; [exists (5/2)%R; auto|]. split; reflexivity.
  - cbn. repeat split; auto.
  - unfold ex_table, in_int. constructor; [constructor; [lra|constructor; [lra|constructor]]|constructor; [constructor; [lra|constructor; [lra|constructor]]|constructor]].
  - constructor; [|constructor; [|constructor]]; apply good_by; cbn [bytes_of list_ascii_of_string rev app]; try char_tac;
      repeat first [apply List.Forall_nil | apply List.Forall_cons]; first [left; char_tac; fail | right; char_tac; fail].
  - constructor; [|constructor; [|constructor]]; apply good_by; cbn [bytes_of list_ascii_of_string rev app]; try char_tac;
      repeat first [apply List.Forall_nil | apply List.Forall_cons]; first [left; char_tac; fail | right; char_tac; fail].
  - right. right. reflexivity.
Qed.

(** ---- deviations ---- *)
Lemma p_fn_whole rnd k : is_int k = true -> p_fn rnd (IZR k) = Ok (int_text k).
Proof. intros H. unfold p_fn. rewrite to_int_whole, H. destruct (Req_EM_T _ _); [auto|congruence]. Qed.
Definition lines_of (l : list string) : list ascii := concat (map (fun s => bytes_of s ++ [newline]) l).
Ltac whole := cbv -[p_fn IZR]; repeat (rewrite p_fn_whole by reflexivity; cbv -[p_fn IZR]); reflexivity.
(** C112: with a visible delimiter, a vector beside a matrix is followed by two delimiters in the rows, but by one in the line of names: the rows have a field too many, and reading the file with
    its names runs past the names. *)
Definition vm_set (n : option nameset) : odata := Od (Some [IZR 1]) (Some (Gr 1 1 [[IZR 2]])) None 0 None n.
Theorem C112_refuted_visible_delimiter : forall rnd db,
  print_core rnd db [","%char] false (vm_set (Some (Ns None (Some (bytes_of "v")) [bytes_of "a"] [] []))) = Ok (lines_of ["v  ,a"; "    1,,    2"]) /\
  text_to_data digit std_delims false true (lines_of ["v  ,a"; "    1,,    2"]) = UB /\
  text_to_data digit std_delims false false (lines_of ["    1,,    2"]) = Ok ([], Ts_ 3 [[Num 1; NaN; Num 2]] [] false).
Proof. intros rnd db. split; [whole|]. split; vm_compute; reflexivity. Qed.
Print Assumptions C112_refuted_visible_delimiter.
(** C112: the weights are printed as a last column that the line of names does not have: likewise. *)
Theorem C112_refuted_named_weights : forall rnd db,
  print_core rnd db [tab] false (Od None (Some (Gr 1 1 [[IZR 2]])) None 0 (Some [IZR 1]) (Some (Ns None None [bytes_of "a"] [] []))) = Ok (lines_of ["a"] ++ bytes_of "    2" ++ [tab] ++ lines_of ["    1"]) /\
  text_to_data digit std_delims false true (lines_of ["a"] ++ bytes_of "    2" ++ [tab] ++ lines_of ["    1"]) = UB.
Proof. intros rnd db. split; [whole|]. vm_compute; reflexivity. Qed.
Print Assumptions C112_refuted_named_weights.
(** C112: a title is read as the names, and the names as a row of NaNs. *)
Theorem C112_refuted_title : forall rnd db,
  print_core rnd db [tab] false (Od None (Some (Gr 1 1 [[IZR 2]])) None 0 None (Some (Ns (Some (bytes_of "T")) None [bytes_of "a"] [] []))) = Ok ([tab] ++ lines_of ["T"; ""; "a"; "    2"]) /\
  text_to_data digit std_delims false true ([tab] ++ lines_of ["T"; ""; "a"; "    2"]) = Ok ([bytes_of "T"], Ts_ 1 [[NaN]; [Num 2]] [] false).
Proof. intros rnd db. split; [whole|]. vm_compute; reflexivity. Qed.
Print Assumptions C112_refuted_title.
(** C112: elements of the vector past the matrix's rows are not printed. *)
Theorem C112_refuted_longer_vector : forall rnd db,
  print_core rnd db [tab] false (Od (Some [IZR 1; IZR 8]) (Some (Gr 1 1 [[IZR 2]])) None 0 None None) = Ok (bytes_of "    1" ++ [tab; tab] ++ lines_of ["    2"]).
Proof. intros rnd db. whole. Qed.
Print Assumptions C112_refuted_longer_vector.
(** C112: apop_opts.db_name_column = NULL, which its documentation allows: printing a set with row and column names follows the NULL pointer. *)
Theorem C112_refuted_null_name_column : forall rnd, print_core rnd None [tab] false ex_set = UB.
Proof. reflexivity. Qed.
Print Assumptions C112_refuted_null_name_column.
(** C112: and where it is set, the column's name is not printed, whatever it is. *)
Theorem C112_refuted_name_column : forall rnd s, print_core rnd (Some s) [tab] false ex_set = print_core rnd (Some []) [tab] false ex_set.
Proof. reflexivity. Qed.
Print Assumptions C112_refuted_name_column.
(** C112: a number out of the range of int is converted to int all the same. *)
Theorem C112_refuted_large : forall rnd, p_fn rnd (IZR 3000000000) = UB.
Proof. intros rnd. unfold p_fn. rewrite to_int_whole. reflexivity. Qed.
Print Assumptions C112_refuted_large.
(** C112: small numbers are printed as zero; so different data can be printed alike. *)
Theorem C112_refuted_small : forall rnd, (forall x, (Rabs (IZR (rnd x) - x) <= / 2)%R) ->
  p_fn rnd (/ 10000000) = Ok (bytes_of " 0.000000") /\ p_fn rnd (2 / 10000000) = Ok (bytes_of " 0.000000").
Proof.
  intros rnd Hr. assert (forall x, (0 < x <= 2 / 10000000)%R -> p_fn rnd x = Ok (bytes_of " 0.000000")) as H; [|split; apply H; lra].
  intros x Hx. unfold p_fn. assert (to_int x = 0%Z) as ->.
  { unfold to_int. destruct (Rlt_dec x 0); [lra|]. destruct (base_Int_part x) as [Ha Hb]. assert (Int_part x < 1)%Z by (apply lt_IZR; lra). assert (-1 < Int_part x)%Z by (apply lt_IZR; lra). lia. }
  cbn [is_int Z.leb Z.compare andb]. destruct (Req_EM_T x (IZR 0)) as [E|E]; [cbn in E; lra|]. unfold fixed_text. destruct (Rlt_dec x 0); [lra|].
  assert (rnd (Rabs x * 1000000)%R = 0%Z) as ->; [|vm_compute; reflexivity].
  pose proof (Hr (Rabs x * 1000000)%R) as Hb. apply abs_bounds in Hb. rewrite (Rabs_pos_eq x) in * by lra.
  assert (rnd (x * 1000000)%R < 1)%Z by (apply lt_IZR; lra). assert (-1 < rnd (x * 1000000)%R)%Z by (apply lt_IZR; lra). lia.
Qed.
Print Assumptions C112_refuted_small.
