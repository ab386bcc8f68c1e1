(** C77: regression with instruments.  Vocabulary in OlsSpec. *)
From Coq Require Import Reals Lra.
From Verif Require Import DataModel NamesModel NamesProofs StatsModel StatsSpec StatsProofs LinModel LinProps FactModel LikeModel OlsModel OlsSpec OlsProofs OlsProps.
Local Open Scope list_scope.
Local Open Scope R_scope.

(** ** which columns are replaced *)
Lemma put_col_length j : forall rows c, length c = length rows -> length (put_col j c rows) = length rows.
Proof. induction rows as [|r rows IH]; intros [|x c] H; cbn in *; try lia. rewrite IH; lia. Qed.
Lemma put_col_row j : forall rows c i r x, rows !! i = Some r -> c !! i = Some x -> put_col j c rows !! i = Some (<[j := x]> r).
Proof. induction rows as [|r0 rows IH]; intros [|x0 c] [|i] r x H1 H2; cbn in *; try discriminate; [injection H1 as ->; injection H2 as ->; auto|]. eapply IH; eauto. Qed.
Lemma copy_col_ok z m from to : wf_grid z -> wf_grid m -> (from < gc m)%nat -> (to < gc z)%nat -> gr m = gr z ->
  exists z', copy_col z (Some m) from to = Ok z' /\ wf_grid z' /\ gr z' = gr z /\ gc z' = gc z /\ forall i j, (i < gr z)%nat -> elt z' false i j = if (j =? to)%nat then elt m false i from else elt z false i j.
Proof.
  intros [Z1 Z2] [M1 M2] Hf Ht Hg. unfold copy_col. rewrite (proj2 (Nat.ltb_lt _ _) Hf), (proj2 (Nat.ltb_lt _ _) Ht), (proj2 (Nat.eqb_eq _ _) Hg). cbn [andb]. eexists. split; [reflexivity|].
  assert (Lc : length (get_col m from) = length (ga z)) by (unfold get_col; rewrite map_length; lia).
  split. { split; cbn; [rewrite put_col_length; auto|]. apply List.Forall_forall. intros r Hr. apply elem_of_list_In, elem_of_list_lookup in Hr as (i & Hi). assert (Hlt : (i < length (ga z))%nat) by (apply lookup_lt_Some in Hi; rewrite put_col_length in Hi; auto). destruct (lookup_lt_is_Some_2 _ _ Hlt) as [r0 Hr0]. rewrite <- Lc in Hlt. destruct (lookup_lt_is_Some_2 _ _ Hlt) as [x Hx]. rewrite (put_col_row _ _ _ _ _ _ Hr0 Hx) in Hi. injection Hi as <-. rewrite insert_length. rewrite Forall_lookup in Z2. eauto. }
  split; [auto|]. split; [auto|]. intros i j Hi. destruct (lookup_lt_is_Some_2 (ga z) i ltac:(lia)) as [r Hr]. destruct (lookup_lt_is_Some_2 (ga m) i ltac:(lia)) as [q Hq].
  assert (Hx : get_col m from !! i = Some (nth from q 0)) by (unfold get_col; rewrite list_lookup_fmap, Hq; auto). assert (Lr : length r = gc z) by (rewrite Forall_lookup in Z2; eauto).
  rewrite (elt_row _ _ _ (put_col_row to _ _ _ _ _ Hr Hx : ga (Gr (gr z) (gc z) (put_col to (get_col m from) (ga z))) !! i = _)), (elt_row _ _ _ Hq), (elt_row _ _ _ Hr). rewrite nth_lookup. destruct (Nat.eqb_spec j to) as [->|Hne].
  - rewrite list_lookup_insert by lia. auto.
  - rewrite list_lookup_insert_ne by auto. symmetry. apply nth_lookup.
Qed.
(** column [j] of the instruments matrix: the last one whose target is [j], if any, of those numbered [from], ... *)
Fixpoint source (from : nat) (l : list (option nat)) (j : nat) : option nat := match l with [] => None | t :: l => match source (S from) l j with Some k => Some k | None => match t with Some t => if (t =? j)%nat then Some from else None | None => None end end end.
Lemma copy_cols_ok m : wf_grid m -> forall l z from, wf_grid z -> (0 < gc z)%nat -> (from + length l <= gc m)%nat -> gr m = gr z -> (forall t, In (Some t) l -> (t < gc z)%nat) ->
  exists z', copy_cols z (Some m) from l = Ok z' /\ wf_grid z' /\ gr z' = gr z /\ gc z' = gc z /\ forall i j, (i < gr z)%nat -> elt z' false i j = match source from l j with Some k => elt m false i k | None => elt z false i j end.
Proof.
  intros Wm. induction l as [|t l IH]; intros z from Wz Hc Hl Hg Hin.
  - exists z. split; [auto|]. split; [auto|]. split; [auto|]. split; [auto|]. auto.
  - cbn [length] in Hl. destruct t as [t|]; cbn [copy_cols].
    + destruct (copy_col_ok z m from t Wz Wm ltac:(lia) ltac:(apply Hin; left; auto) Hg) as (z1 & -> & W1 & R1 & C1 & N1). cbn [rbind].
      destruct (IH z1 (S from) W1 ltac:(lia) ltac:(lia) ltac:(lia)) as (z2 & E2 & W2 & R2 & C2 & N2). { intros. rewrite C1. apply Hin. right. auto. }
      exists z2. split; [auto|]. split; [auto|]. split; [lia|]. split; [lia|]. intros i j Hi. rewrite N2 by lia. cbn [source]. destruct (source (S from) l j); [auto|]. rewrite N1 by auto. rewrite Nat.eqb_sym. destruct (t =? j)%nat; auto.
    + destruct (copy_col_ok z m from 0 Wz Wm ltac:(lia) ltac:(lia) Hg) as (z1 & -> & _). cbn [rbind].
      destruct (IH z (S from) Wz Hc ltac:(lia) Hg) as (z2 & E2 & W2 & R2 & C2 & N2). { intros. apply Hin. right. auto. }
      exists z2. split; [auto|]. split; [auto|]. split; [lia|]. split; [lia|]. intros i j Hi. rewrite N2 by lia. cbn [source]. destruct (source (S from) l j); auto.
Qed.
Lemma source_some : forall l from j k, source from (map Some l) j = Some k -> (from <= k)%nat /\ l !! (k - from)%nat = Some j.
Proof.
  induction l as [|t l IH]; intros from j k; cbn; [discriminate|]. destruct (source (S from) (map Some l) j) as [k'|] eqn:E.
  - intros [= ->]. apply IH in E as [H1 H2]. split; [lia|]. replace (k - from)%nat with (S (k - S from)) by lia. auto.
  - destruct (Nat.eqb_spec t j) as [->|]; [|discriminate]. intros [= ->]. split; [lia|]. rewrite Nat.sub_diag. auto.
Qed.
Lemma source_none : forall l from j, source from (map Some l) j = None -> ~ In j l.
Proof.
  induction l as [|t l IH]; intros from j; cbn; [auto|]. destruct (source (S from) (map Some l) j) as [k'|] eqn:E; [discriminate|]. destruct (Nat.eqb_spec t j) as [->|]; [discriminate|]. intros _ [->|Hin]; [congruence|]. eapply IH; eauto.
Qed.
(** columns of the instruments, listed by number: number [k] replaces the column the vector says; the others are those of the data *)
Theorem C77_substitution xn X inst l m : i_cols inst = Some l -> i_mat inst = Some m -> wf_grid X -> wf_grid m -> gr m = gr X -> (0 < gc X)%nat -> (length l <= gc m)%nat -> List.NoDup l -> (forall t, In t l -> (t < gc X)%nat) ->
  exists Z, prep_z xn X inst = Ok Z /\ wf_grid Z /\ gr Z = gr X /\ gc Z = gc X /\ (forall k t i, l !! k = Some t -> (i < gr X)%nat -> elt Z false i t = elt m false i k) /\ (forall t i, ~ In t l -> (i < gr X)%nat -> elt Z false i t = elt X false i t).
Proof.
  intros Hl Hm WX Wm Hg Hc Hlen ND Hin. unfold prep_z. rewrite Hl, Hm. destruct (copy_cols_ok m Wm (map Some l) X 0%nat WX Hc ltac:(rewrite map_length; lia) Hg) as (Z & E & WZ & R1 & C1 & N). { intros t Ht. apply in_map_iff in Ht as (t' & [= ->] & Ht). auto. }
  exists Z. split; [auto|]. split; [auto|]. split; [auto|]. split; [auto|]. split.
  - intros k t i Hk Hi. rewrite N by auto. destruct (source 0 (map Some l) t) as [k'|] eqn:Es.
    + apply source_some in Es as [_ Es]. rewrite Nat.sub_0_r in Es. f_equal. apply NoDup_ListNoDup in ND. eapply NoDup_lookup; eauto.
    + apply source_none in Es. exfalso. apply Es. apply elem_of_list_In, elem_of_list_lookup. eauto.
  - intros t i Ht Hi. rewrite N by auto. destruct (source 0 (map Some l) t) as [k'|] eqn:Es; [|auto]. apply source_some in Es as [_ Es]. exfalso. apply Ht, elem_of_list_In, elem_of_list_lookup. eauto.
Qed.
(** the names, when there is no vector, stand for the numbers of the columns so named *)
Theorem C77_by_name xn X inst l : i_cols inst = None -> i_names inst <> [] -> Forall2 (fun c t => name_find xn c "c" = Ok (Z.of_nat t)) (i_names inst) l ->
  prep_z xn X inst = prep_z xn X (Inst (Some l) (i_mat inst) []).
Proof.
  intros Hc Hn HF. unfold prep_z. rewrite Hc. cbn [i_cols i_mat]. destruct (i_names inst) as [|c cs] eqn:En; [congruence|]. clear Hn.
  assert (A : forall cs l, Forall2 (fun c t => name_find xn c "c" = Ok (Z.of_nat t)) cs l -> all_res (map (fun c => do j <- name_find xn c "c"; if (j =? -2)%Z then UB else Ok (if (j <? 0)%Z then None else Some (Z.to_nat j))) cs) = Ok (map Some l)).
  { induction 1 as [|c0 t cs0 l0 H0 HF0 IH]; [reflexivity|]. cbn [map all_res]. rewrite H0. cbn [rbind]. destruct (Z.eqb_spec (Z.of_nat t) (-2)); [lia|]. destruct (Z.ltb_spec (Z.of_nat t) 0); [lia|]. cbn [rbind]. rewrite IH, Nat2Z.id. reflexivity. }
  rewrite (A _ _ HF). reflexivity.
Qed.

(** ** the estimate *)
(** Z'QX, with Q the diagonal matrix of the [q r] *)
Definition cross (q : nat -> R) (Z X : grid R) (i j : nat) : R := sum_to (gr X) (fun r => q r * elt Z false r i * elt X false r j).
Lemma xpxinvxpy_ok linv hh data y X M v H s : vect data = Some y -> mat data = Some X -> wf_grid X -> length y = gr X -> skips s = false -> linv M = Some H -> wf_grid H -> gr H = gc X -> gc H = gc X -> length v = gc X ->
  exists beta fw, length beta = gc X /\ (forall i, (i < gc X)%nat -> nth i beta 0 = sum_to (gc X) (fun l => elt H false i l * nth l v 0)) /\ length fw = gr X /\ (forall i, (i < gr X)%nat -> nth i fw 0 = fitted X beta i) /\
    let s2 := if (gr X <? gc X)%nat then None else cdiv (wsse None X y beta) (INR (gr X - gc X)) in
    xpxinvxpy linv hh data M v s true = Ok (beta, Is (match s2 with None => None | Some q => Some (Gr (gr H) (gc H) (map (map (fun x => x * q)) (ga H))) end), Is s2, Is (y, zip_with Rplus y (zip_with Rminus fw y), zip_with Rminus fw y)).
Proof.
  intros Vy VX WX Ly Hs Hlinv WH H1 H2 Lv.
  destruct (C33_matrix_vector (of_mat H) (of_vec v) "000" "000" H v) as (o3 & beta & D3 & _ & _ & V3 & L3 & N3 & _); auto; try discriminate. { cbn. lia. }
  destruct (C33_matrix_vector data (of_vec beta) "000" "000" X beta) as (o4 & fw & D4 & _ & _ & V4 & L4 & N4 & _); auto; try discriminate. { cbn. cbn in L3. lia. }
  cbn in L3, L4. exists beta, fw. split; [lia|]. split. { intros i Hi. rewrite (nth_of beta i _ (N3 i ltac:(lia))). rewrite Lv. reflexivity. } split; [lia|].
  assert (Nf : forall i, (i < gr X)%nat -> nth i fw 0 = fitted X beta i). { intros i Hi. rewrite (nth_of fw i _ (N4 i ltac:(lia))). rewrite L3, H1. reflexivity. }
  split; [exact Nf|]. cbv zeta. unfold xpxinvxpy. fold (skips s). rewrite Hs, Hlinv. rewrite D3. unfold the_vec at 1. rewrite V3. cbn [rbind]. rewrite D4. unfold the_vec. rewrite V4. cbn [rbind]. rewrite Vy, VX. unfold vzip. rewrite (proj2 (Nat.eqb_eq _ _)) by lia. cbn [rbind].
  assert (Es : ddot_loop (zip_with Rminus fw y) (zip_with Rminus fw y) 0 = wsse None X y beta).
  { rewrite ddot_self. assert (Lz : length (zip_with Rminus fw y) = gr X) by (rewrite zip_with_length; lia). rewrite Lz. apply sum_to_ext. intros i Hi. rewrite (nth_zip _ _ _ 0 0) by lia. rewrite Nf by auto. cbn [weight]. ring. }
  rewrite Es. reflexivity.
Qed.
Lemma elt_scaled a b (H : grid R) q i j : elt (Gr a b (map (map (fun x => x * q)) (ga H))) false i j = q * elt H false i j.
Proof. unfold elt, cell. cbn [ga]. rewrite list_lookup_fmap. destruct (ga H !! i) as [r|]; cbn; [|lra]. rewrite list_lookup_fmap. destruct (r !! j); cbn; lra. Qed.
Lemma wf_scaled (H : grid R) q : wf_grid H -> wf_grid (Gr (gr H) (gc H) (map (map (fun x => x * q)) (ga H))).
Proof. intros [W1 W2]. split; cbn; [rewrite map_length; auto|]. apply List.Forall_map. eapply List.Forall_impl; [|exact W2]. cbn. intros l. rewrite map_length. auto. Qed.
(** the equations the estimate meets *)
Definition moments (q : nat -> R) (Z X : grid R) (y b : list R) : Prop := forall j, (j < gc X)%nat -> sum_to (gr X) (fun r => q r * elt Z false r j * (nth r y 0 - fitted X b r)) = 0.
Section C77.
  Context (linv : grid R -> option (grid R)) (hh : grid R -> list R -> option (list R)) (d : page R) (y : list R) (X : grid R) (s : lm) (inst : instruments) (Z H : grid R).
  Context (Hr : regression d y X) (Hs : skips s = false) (HZ : prep_z (nms d) X inst = Ok Z) (WZ : wf_grid Z) (RZ : gr Z = gr X) (CZ : gc Z = gc X).
  Context (Hinv : inverts linv (gc X) (cross (sq (wts d)) Z X) H).
  Lemma iv_ok : (forall w, wts d = Some w -> destroy s = false) -> exists beta fw c', length beta = gc X /\ moments (sq (wts d)) Z X y beta /\ length fw = gr X /\ (forall i, (i < gr X)%nat -> nth i fw 0 = fitted X beta i) /\
    let s2 := if (gr X <? gc X)%nat then None else cdiv (wsse None X y beta) (INR (gr X - gc X)) in
    estimate_iv linv hh d (Some inst) s = Ok (beta, Is (match s2 with None => None | Some _ => Some c' end), Is s2, Is (y, zip_with Rplus y (zip_with Rminus fw y), zip_with Rminus fw y)) /\
    (forall q, s2 = Some q -> wf_grid c' /\ gr c' = gc X /\ gc c' = gc X /\ forall i j, (i < gc X)%nat -> (j < gc X)%nat ->
       elt c' false i j = sum_to (gc X) (fun a => q * elt H false i a * sum_to (gc X) (fun b => cross (fun _ => 1) Z Z a b * elt H false j b))).
  Proof.
    intros Hd. destruct (set_ok d y X s Hr) as (set & y' & X' & E & Vy & VX & WX & G1 & G2 & Ly & Ny & NX & Plain). pose proof Hr as (Hy & HX & WX0 & Ly0 & _).
    set (zp := set_mat d (Some Z)). destruct Hinv as ((WH & H1 & H2 & HL & HR) & Hlinv).
    destruct (C33_matrix_matrix zp set "t" "000" Z X' eq_refl VX) as (o1 & M & D1 & _ & _ & M1 & WM & RM & CM & CellM & _); auto; try discriminate. { cbn. lia. }
    destruct (C33_matrix_vector zp set "t" "v" Z y' eq_refl) as (o2 & v & D2 & _ & _ & V2 & Lv & NV & _); auto; try discriminate. { cbn. lia. }
    destruct (C33_matrix_matrix zp zp "t" "000" Z Z eq_refl eq_refl) as (o3 & ZZ & D3 & _ & _ & M3 & W3 & R3 & C3 & Cell3 & _); auto; try discriminate.
    cbn in RM, CM, Lv, R3, C3.
    assert (CellM' : forall i j, (i < gc X)%nat -> (j < gc X)%nat -> cell M i j = Some (cross (sq (wts d)) Z X i j)).
    { intros i j Hi Hj. rewrite CellM by lia. f_equal. change (snd (shape_of Z (transposing "t"))) with (gr Z). rewrite RZ. unfold cross. apply sum_to_ext. intros l Hl. change (transposing "000") with false. change (elt Z (transposing "t") i l) with (elt Z false l i). rewrite NX by auto. ring. }
    specialize (Hlinv M WM ltac:(lia) ltac:(lia) CellM').
    assert (Edata : (if destroy s then set else d) = d). { destruct (wts d) as [w|] eqn:Ew; [rewrite (Hd w eq_refl); auto|]. destruct (Plain eq_refl) as (-> & _). destruct (destroy s); auto. }
    destruct (xpxinvxpy_ok linv hh d y X M v H s Hy HX WX0 Ly0 Hs Hlinv WH H1 H2 ltac:(lia)) as (beta & fw & Lb & Nb & Lf & Nf & EX). cbv zeta in EX.
    assert (Mo : moments (sq (wts d)) Z X y beta).
    { intros j Hj. pose proof (normal (gr X) (gc X) (sq (wts d)) (elt X false) (fun r => nth r y 0) (elt Z false) (elt H false) HR j Hj) as N. cbv beta zeta in N. etransitivity; [|exact N]. apply sum_to_ext. intros r Hrr. f_equal. apply (f_equal (fun z => nth r y 0 - z)). unfold fitted. apply sum_to_ext. intros i Hi. f_equal. rewrite Nb by auto. apply sum_to_ext. intros l Hl. f_equal. rewrite (nth_of v l _ (NV l ltac:(lia))). rewrite Ly. apply sum_to_ext. intros r' Hr'. change (elt Z (transposing "t") l r') with (elt Z false r' l). rewrite Ny by auto. ring. }
    destruct (C33_matrix_matrix (of_mat ZZ) (of_mat H) "000" "t" ZZ H eq_refl eq_refl) as (o4 & half & D4 & _ & _ & M4 & W4 & R4 & C4 & Cell4 & _); auto; try discriminate. { cbn. lia. }
    cbn in R4, C4.
    assert (EI : forall s2, (if (gr X <? gc X)%nat then None else cdiv (wsse None X y beta) (INR (gr X - gc X))) = s2 -> exists c', estimate_iv linv hh d (Some inst) s = Ok (beta, Is (match s2 with None => None | Some _ => Some c' end), Is s2, Is (y, zip_with Rplus y (zip_with Rminus fw y), zip_with Rminus fw y)) /\
      (forall q, s2 = Some q -> wf_grid c' /\ gr c' = gc X /\ gc c' = gc X /\ forall i j, (i < gc X)%nat -> (j < gc X)%nat ->
       elt c' false i j = sum_to (gc X) (fun a => q * elt H false i a * sum_to (gc X) (fun b => cross (fun _ => 1) Z Z a b * elt H false j b)))).
    { intros s2 Es2. rewrite Es2 in EX. unfold estimate_iv. rewrite HX. fold (set_of d s). replace (match wts d with None => Ok d | Some w => _ end) with (set_of d s) by (unfold set_of; rewrite HX; destruct (wts d); auto). rewrite E. cbn [rbind]. rewrite HZ. cbn [rbind]. fold zp. rewrite D1, D2. unfold the_mat at 1, the_vec at 1. rewrite M1, V2. cbn [rbind]. rewrite Edata, EX. cbn [rbind]. rewrite D3. unfold the_mat at 1. rewrite M3. cbn [rbind].
      destruct s2 as [q|].
      - rewrite Hlinv, D4. unfold the_mat at 1. rewrite M4. cbn [rbind].
        destruct (C33_matrix_matrix (of_mat (Gr (gr H) (gc H) (map (map (fun x => x * q)) (ga H)))) (of_mat half) "000" "000" _ half eq_refl eq_refl) as (o5 & c' & D5 & _ & _ & M5 & W5 & R5 & C5 & Cell5 & _); auto using wf_scaled; try discriminate. { cbn. lia. }
        cbn in R5, C5. rewrite D5. unfold the_mat. rewrite M5. cbn [rbind]. exists c'. split; [reflexivity|]. intros q' [= <-]. split; [auto|]. split; [lia|]. split; [lia|]. intros i j Hi Hj. rewrite (cell_elt _ _ _ _ (Cell5 i j ltac:(lia) ltac:(lia))). change (transposing "000") with false. change (snd (shape_of (Gr (gr H) (gc H) (map (map (fun x => x * q)) (ga H))) false)) with (gc H). rewrite H2. apply sum_to_ext. intros a Ha. rewrite elt_scaled. f_equal. rewrite (cell_elt _ _ _ _ (Cell4 a j ltac:(lia) ltac:(lia))). change (transposing "000") with false. change (snd (shape_of ZZ false)) with (gc ZZ). rewrite C3, CZ. apply sum_to_ext. intros b Hb. change (elt H (transposing "t") b j) with (elt H false j b). f_equal. rewrite (cell_elt _ _ _ _ (Cell3 a b ltac:(lia) ltac:(lia))). change (snd (shape_of Z (transposing "t"))) with (gr Z). unfold cross. apply sum_to_ext. intros r _. change (transposing "000") with false. change (elt Z (transposing "t") a r) with (elt Z false r a). ring.
      - exists Z. split; [reflexivity|]. intros q [=]. }
    destruct (EI _ eq_refl) as (c' & E1 & E2). exists beta, fw, c'. split; [auto|]. split; [auto|]. split; [auto|]. split; [auto|]. cbv zeta. split; [exact E1|exact E2].
  Qed.
  Lemma iv_only b b' : length b = gc X -> length b' = gc X -> moments (sq (wts d)) Z X y b -> moments (sq (wts d)) Z X y b' -> b' = b.
  Proof.
    intros L1 L2 M1 M2. destruct Hinv as ((_ & _ & _ & HL & _) & _). pose proof (only (gr X) (gc X) (sq (wts d)) (elt X false) (fun r => nth r y 0) (elt Z false) (elt H false) HL) as O. cbv beta zeta in O.
    apply list_ext_nth; [lia|]. intros i Hi. rewrite (O (fun j => nth j b' 0) M2 i ltac:(lia)). symmetry. apply (O (fun j => nth j b 0) M1 i). lia.
  Qed.
  (** without weights: the errors are orthogonal to the instruments; no other parameters have that; the covariance is s^2 (Z'X)^-1 Z'Z (X'Z)^-1, s^2 the sum of squared errors divided by the degrees of freedom *)
  Theorem C77_estimate : wts d = None -> (gc X < gr X)%nat -> exists beta C s2 obs pred res, estimate_iv linv hh d (Some inst) s = Ok (beta, Is (Some C), Is (Some s2), Is (obs, pred, res)) /\
    length beta = gc X /\ moments (fun _ => 1) Z X y beta /\ (forall b, length b = gc X -> moments (fun _ => 1) Z X y b -> b = beta) /\
    s2 = wsse None X y beta / (INR (gr X) - INR (gc X)) /\ wf_grid C /\ gr C = gc X /\ gc C = gc X /\
    (forall i j, (i < gc X)%nat -> (j < gc X)%nat -> elt C false i j = s2 * sum_to (gc X) (fun a => sum_to (gc X) (fun b => elt H false i a * cross (fun _ => 1) Z Z a b * elt H false j b))) /\
    obs = y /\ length pred = gr X /\ length res = gr X /\ forall i, (i < gr X)%nat -> nth i pred 0 = fitted X beta i /\ nth i res 0 = fitted X beta i - nth i y 0.
  Proof.
    intros Hw Hn. destruct iv_ok as (beta & fw & C & Lb & Mo & Lf & Nf & E & Q); [rewrite Hw; discriminate|]. cbv zeta in E, Q. rewrite (proj2 (Nat.ltb_ge _ _)) in E, Q by lia. assert (Hd : INR (gr X - gc X) <> 0) by (apply not_0_INR; lia). unfold cdiv in E, Q. destruct (Req_EM_T (INR (gr X - gc X)) 0); [contradiction|].
    destruct (Q _ eq_refl) as (WC & C1 & C2 & C3). eexists beta, C, _, _, _, _. split; [exact E|]. split; [auto|]. pose proof iv_only as O. rewrite Hw in *. split; [exact Mo|]. split; [intros b L M; apply O; auto|]. split; [rewrite minus_INR by lia; reflexivity|]. split; [auto|]. split; [auto|]. split; [auto|]. split.
    { intros i j Hi Hj. rewrite C3 by auto. rewrite sum_to_scal. apply sum_to_ext. intros a Ha. rewrite Rmult_assoc. f_equal. rewrite sum_to_scal. apply sum_to_ext. intros b Hb. ring. }
    pose proof Hr as (_ & _ & _ & Ly & _). split; [auto|]. split; [rewrite !zip_with_length; lia|]. split; [rewrite !zip_with_length; lia|]. intros i Hi. rewrite !(nth_zip _ _ _ 0 0) by (rewrite ?zip_with_length; lia). rewrite Nf by auto. split; ring.
  Qed.
  (** data that are exactly linear give the coefficients back *)
  Theorem C77_exact b : (forall w, wts d = Some w -> destroy s = false) -> length b = gc X -> (forall i, (i < gr X)%nat -> nth i y 0 = fitted X b i) -> exists c s2 p, estimate_iv linv hh d (Some inst) s = Ok (b, c, s2, p).
  Proof.
    intros Hd Lb Hb. destruct (iv_ok Hd) as (beta & fw & C & L & Mo & _ & _ & E & _). cbv zeta in E. assert (b = beta) as ->. { apply iv_only; auto. intros j Hj. rewrite (sum_to_ext _ _ (fun _ => 0)); [apply sum_to_zero|]. intros r Hrr. rewrite Hb by auto. ring. } eauto.
  Qed.
  (** with weights: it is the root of the weight that multiplies *)
  Theorem C77_weights : destroy s = false -> exists beta c s2 p, estimate_iv linv hh d (Some inst) s = Ok (beta, c, s2, p) /\ length beta = gc X /\ moments (fun r => R_sqrt.sqrt (weight (wts d) r)) Z X y beta.
  Proof.
    intros Hd. destruct (iv_ok ltac:(auto)) as (beta & fw & C & L & Mo & _ & _ & E & _). cbv zeta in E. eexists beta, _, _, _. split; [exact E|]. split; [auto|]. intros j Hj. etransitivity; [|exact (Mo j Hj)]. apply sum_to_ext. intros r _. unfold sq, weight. destruct (wts d); [auto|]. rewrite sqrt_1. auto.
  Qed.
End C77.

(** ** where the code differs *)
(** documented: without instruments, least squares.  In fact NULL is read. *)
Theorem C77_refuted_no_instruments linv hh d s : estimate_iv linv hh d None s = UB.
Proof. reflexivity. Qed.
(** a column that is its own instrument: with weights the estimate is not that of least squares (13/5 in the example) *)
Definition weighted_reg : page R := Pg (Some [1; 3]) (Some ones2) (Some [1; 4]) None name_alloc None.
Definition own_inst : instruments := Inst (Some [0%nat]) (Some ones2) [].
Lemma weighted_reg_ok : regression weighted_reg [1; 3] ones2.
Proof. split; [auto|]. split; [auto|]. split; [split; [auto|repeat constructor]|]. split; [auto|]. intros v [= <-]. split; [auto|]. intros x [<-|[<-|[]]]; lra. Qed.
Theorem C77_refuted_weights hh : exists beta c s2 p e, estimate_iv linv1 hh weighted_reg (Some own_inst) lm_default = Ok (beta, c, s2, p) /\ estimate_ols linv1 hh weighted_reg lm_default = Ok e /\ nth 0 beta 0 <> nth 0 (e_beta e) 0.
Proof.
  pose proof weighted_reg_ok as Hr. assert (S4 : R_sqrt.sqrt 4 = 2) by (replace 4 with (2 * 2) by lra; apply sqrt_square; lra).
  assert (I1 : inverts linv1 (gc ones2) (gram (wts weighted_reg) ones2) (Gr 1 1 [[/ gram (wts weighted_reg) ones2 0 0]])) by (apply linv1_inverts; unfold gram, sum_to, elt, cell; cbn; lra).
  assert (I2 : inverts linv1 (gc ones2) (cross (sq (wts weighted_reg)) ones2 ones2) (Gr 1 1 [[/ cross (sq (wts weighted_reg)) ones2 ones2 0 0]])) by (apply linv1_inverts; unfold cross, sum_to, elt, cell; cbn; rewrite S4, sqrt_1; lra).
  assert (Hs : informative lm_default) by (left; auto).
  destruct (C75_least_squares linv1 hh _ _ _ lm_default Hr _ I1 Hs) as (e & E & _ & N & _).
  destruct (C77_weights linv1 hh weighted_reg [1; 3] ones2 lm_default own_inst ones2 _ Hr eq_refl eq_refl (proj1 (proj2 (proj2 Hr))) eq_refl eq_refl I2 eq_refl) as (beta & c & s2 & p & E2 & _ & M).
  exists beta, c, s2, p, e. split; [auto|]. split; [auto|]. specialize (N 0%nat ltac:(cbn; lia)). specialize (M 0%nat ltac:(cbn; lia)). unfold fitted, sum_to, elt, cell in N, M. cbn in N, M. rewrite S4, sqrt_1 in M. intros D. rewrite D in M. lra.
Qed.
Example C77_nonvacuous hh : exists beta c s2 p, estimate_iv linv1 hh (constant_reg None) (Some own_inst) lm_default = Ok (beta, c, s2, p) /\ nth 0 beta 0 = 2.
Proof.
  pose proof (constant_reg_ok None ltac:(auto)) as Hr.
  assert (I2 : inverts linv1 (gc ones2) (cross (sq (wts (constant_reg None))) ones2 ones2) (Gr 1 1 [[/ cross (sq (wts (constant_reg None))) ones2 ones2 0 0]])) by (apply linv1_inverts; unfold cross, sum_to, elt, cell; cbn; lra).
  destruct (C77_estimate linv1 hh (constant_reg None) [1; 3] ones2 lm_default own_inst ones2 _ Hr eq_refl eq_refl (proj1 (proj2 (proj2 Hr))) eq_refl eq_refl I2 eq_refl ltac:(cbn; lia)) as (beta & c & s2 & o & p & r & E & _ & M & _).
  eexists beta, _, _, _. split; [exact E|]. specialize (M 0%nat ltac:(cbn; lia)). unfold fitted, sum_to, elt, cell in M. cbn in M. lra.
Qed.
Print Assumptions C77_estimate.
