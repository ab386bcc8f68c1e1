(** C19: packing a data set into a vector and back. *)
From Verif Require Import DataModel RmProofs NamesProps DataProps PackModel.
Local Open Scope string_scope.
Local Open Scope list_scope.
Local Open Scope nat_scope.

(** what one page contributes: its vector, the rows of its matrix, its weights *)
Definition from_opt {A} (o : option (list A)) : list A := match o with Some v => v | None => [] end.
Definition page_values {E} (p : page E) : list E :=
  from_opt (vect p) ++ match mat p with Some m => concat (ga m) | None => [] end ++ from_opt (wts p).
(** the pages that take part *)
Definition used_pages {E} (use_info : bool) (d : list (page E)) : list (page E) :=
  List.filter (fun p => use_info || negb (is_info p)) d.
(** every part present has elements (GSL has no empty vectors or matrices), and there is a part *)
Definition full {E} (p : page E) : Prop :=
  (forall v, vect p = Some v -> v <> []) /\ (forall m, mat p = Some m -> wf_grid m /\ 0 < gr m /\ 0 < gc m) /\
  (forall v, wts p = Some v -> v <> []) /\ (vect p <> None \/ mat p <> None \/ wts p <> None).

Section PackP.
Context {E : Type}.
Implicit Types p q : page E.

Lemma write_at (dn rest v : list E) : v <> [] -> length v <= length rest ->
  write (dn ++ rest) (length dn) v = Ok (dn ++ v ++ drop (length v) rest).
Proof.
  intros Hv Hl. unfold write. destruct v as [|x v]; [congruence|].
  rewrite app_length. replace ((0 <? length (x :: v)) && (length dn + length (x :: v) <=? length dn + length rest)) with true
    by (cbn in *; lia).
  f_equal. rewrite take_app. f_equal. f_equal.
  rewrite drop_app_ge by lia. f_equal. lia.
Qed.

Lemma write_rows_at (rows : list (list E)) : forall (dn rest : list E),
  Forall (fun r => r <> []) rows -> length (concat rows) <= length rest ->
  write_rows (dn ++ rest) (length dn) rows =
  Ok (dn ++ concat rows ++ drop (length (concat rows)) rest, length dn + length (concat rows)).
Proof.
  induction rows as [|r rows IH]; intros dn rest HF Hl; cbn.
  - rewrite drop_0, Nat.add_0_r. auto.
  - inversion HF; subst. cbn in Hl. rewrite app_length in Hl.
    rewrite write_at by (auto; lia). cbn.
    rewrite app_assoc. rewrite <- app_length. rewrite IH by (auto; rewrite drop_length; lia).
    rewrite !app_length, <- !app_assoc, drop_drop. f_equal. f_equal. lia.
Qed.

Lemma concat_len (m : grid E) : wf_grid m -> length (concat (ga m)) = gr m * gc m.
Proof.
  intros [H1 H2]. rewrite <- H1. clear H1. induction (ga m) as [|r l IH]; cbn; auto.
  inversion H2; subst. rewrite app_length, IH by auto. lia.
Qed.
Lemma full_len p : full p -> length (page_values p) = vsz p + msz1 p * msz2 p + wsz p.
Proof.
  intros (_ & Hm & _). unfold page_values, vsz, msz1, msz2, wsz. rewrite !app_length.
  destruct (mat p) as [m|] eqn:Em; [rewrite (concat_len m) by (apply Hm; auto)|];
  destruct (vect p), (wts p); cbn; lia.
Qed.
Lemma full_pos p : full p -> 0 < length (page_values p).
Proof.
  intros (Hv & Hm & Hw & Hx). unfold page_values. rewrite !app_length.
  destruct Hx as [Hx|[Hx|Hx]].
  - destruct (vect p) as [[|]|] eqn:Ev; cbn; try lia; [destruct (Hv []); auto|congruence].
  - destruct (mat p) as [m|] eqn:Em; [|congruence]. destruct (Hm m eq_refl) as (? & ? & ?). rewrite (concat_len m) by auto. nia.
  - destruct (wts p) as [[|]|] eqn:Ev; cbn; try lia; [destruct (Hw []); auto|congruence].
Qed.

Lemma pack_page_ok (out : list E) p : full p -> length (page_values p) <= length out ->
  pack_page out p = Ok (page_values p ++ drop (length (page_values p)) out, length (page_values p)).
Proof.
  intros HF Hl. pose proof (full_len p HF) as HL. destruct HF as (Hv & Hm & Hw & _). unfold pack_page.
  assert (H1 : (match vect p with Some v => do o <- write out 0 v; Ok (o, length v) | None => Ok (out, 0) end)
     = Ok (from_opt (vect p) ++ drop (length (from_opt (vect p))) out, length (from_opt (vect p)))).
  { destruct (vect p) as [v|] eqn:Ev; cbn; auto.
    unfold page_values in Hl. rewrite Ev in Hl. cbn in Hl. rewrite app_length in Hl.
    change out with ([] ++ out) at 1. change 0 with (@length E []). rewrite write_at by (auto; lia). reflexivity. }
  rewrite H1; cbn. clear H1.
  set (A := from_opt (vect p)) in *.
  set (B := match mat p with Some m => concat (ga m) | None => [] end).
  set (C := from_opt (wts p)).
  assert (HABC : length A + length B + length C <= length out).
  { unfold page_values in Hl. rewrite !app_length in Hl. fold A B C in Hl. lia. }
  assert (H2 : (match mat p with Some m => write_rows (A ++ drop (length A) out) (length A) (ga m)
                | None => Ok (A ++ drop (length A) out, length A) end)
     = Ok ((A ++ B) ++ drop (length (A ++ B)) out, length (A ++ B))).
  { unfold B in *. destruct (mat p) as [m|] eqn:Em.
    - destruct (Hm m eq_refl) as ([W1 W2] & P1 & P2).
      rewrite write_rows_at.
      + rewrite app_length, drop_drop, <- app_assoc. reflexivity.
      + eapply List.Forall_impl; [|exact W2]. cbn. intros r Hr ->. cbn in Hr. lia.
      + rewrite drop_length. lia.
    - rewrite app_nil_r. auto. }
  rewrite H2; cbn. clear H2.
  unfold page_values. fold A B C.
  unfold C in *. destruct (wts p) as [w|] eqn:Ew; cbn.
  - cbn in HABC. rewrite write_at; [|auto|rewrite drop_length, app_length; lia]. cbn.
    rewrite drop_drop. f_equal. f_equal; [|rewrite !app_length; lia].
    rewrite !app_length, <- !app_assoc. f_equal. f_equal. f_equal. f_equal. lia.
  - rewrite app_nil_r. auto.
Qed.

Lemma used_skip (more : list (page E)) : used_pages false (skip_info more) = used_pages false more.
Proof.
  induction more as [|p more IH]; cbn; auto. destruct (is_info p) eqn:Ei; cbn; auto. rewrite Ei. auto.
Qed.
Lemma skip_head more p rest : skip_info more = p :: rest -> is_info p = false.
Proof. induction more as [|q more IH]; cbn; [congruence|]. destruct (is_info q) eqn:Eq; auto. intros [= -> ->]; auto. Qed.
Lemma skip_suffix (more : list (page E)) : exists pre, more = pre ++ skip_info more /\ Forall (fun p => is_info p = true) pre.
Proof.
  induction more as [|p more IH]; cbn. { exists []; auto. }
  destruct (is_info p) eqn:Ei.
  - destruct IH as (pre & He & HF). exists (p :: pre). split; [cbn; f_equal; exact He|auto].
  - exists []; auto.
Qed.
Lemma sizecount_used (b : bool) (d : list (page E)) : Forall full (used_pages b d) ->
  sizecount true b d = length (concat (map page_values (used_pages b d))).
Proof.
  induction d as [|p d IH]; [auto|].
  change (used_pages b (p::d)) with (if b || negb (is_info p) then p :: used_pages b d else used_pages b d).
  cbn [sizecount]. destruct b; cbn [orb negb andb].
  - intros H. inversion H; subst. cbn [map concat]. rewrite app_length, IH, full_len by auto. lia.
  - destruct (is_info p) eqn:Ei; cbn [orb negb andb]; auto. intros H. inversion H; subst.
    cbn [map concat]. rewrite app_length, IH, full_len by auto. lia.
Qed.
Lemma used_all (d : list (page E)) : used_pages true d = d.
Proof. unfold used_pages. induction d; cbn; [auto|]. f_equal. exact IHd. Qed.

(** the setting says whether info pages take part; only 'y' and 'n' *)
Definition info_char (b : bool) : ascii := if b then "y" else "n".

Lemma pack_into_ok b : forall k d (out : list E), length d < k ->
  Forall full (used_pages b d) -> (match d with p :: _ => b = true \/ is_info p = false | [] => False end) ->
  length out = sizecount true b d ->
  pack_into k out d "y" (info_char b) = Ok (Some (concat (map page_values (used_pages b d)))).
Proof.
  induction k as [|k IH]; intros d out Hk HF Hh Hl; [lia|].
  destruct d as [|p more]; [tauto|]. cbn [pack_into].
  assert (Hyi : yes (info_char b) = b) by (destruct b; reflexivity).
  rewrite Hyi. change (yes "y") with true. cbn match.
  assert (Hu : used_pages b (p :: more) = p :: used_pages b more).
  { cbn. destruct Hh as [-> | ->]; cbn; auto. destruct b; auto. }
  pose proof (sizecount_used b (p :: more) HF) as HS. rewrite Hu in HS, HF |- *.
  inversion HF as [|? ? Hp Hm]; subst. cbn [map concat] in HS. rewrite app_length in HS.
  pose proof (full_pos p Hp) as Hpos.
  rewrite Hl, Nat.eqb_refl. cbn [negb]. replace (sizecount true b (p :: more) =? 0) with false by lia.
  rewrite pack_page_ok by (auto; lia). cbn [rbind].
  set (n := length (page_values p)) in *.
  assert (Hout : length (page_values p ++ drop n out) = length out) by (rewrite app_length, drop_length; fold n; lia).
  assert (Hrest : exists rest, (if (info_char b =? "n")%char then skip_info more else more) = rest /\
     used_pages b rest = used_pages b more /\ length rest <= length more /\
     (match rest with q :: _ => b = true \/ is_info q = false | [] => True end)).
  { destruct b; cbn.
    - eexists; split; [reflexivity|]. split; auto. split; auto. destruct more; auto.
    - eexists; split; [reflexivity|]. split; [apply used_skip|]. split.
      + destruct (skip_suffix more) as (pre & Hpre & _). rewrite Hpre at 2. rewrite app_length. lia.
      + destruct (skip_info more) eqn:Es; auto. right. eapply skip_head; eauto. }
  destruct Hrest as (rest & -> & Hur & Hlr & Hhr).
  destruct rest as [|q rest].
  - cbn in Hur. rewrite <- Hur in *. cbn [map concat length] in HS. cbn [map concat]. rewrite app_nil_r. f_equal. f_equal.
    rewrite drop_ge by lia. apply app_nil_r.
  - assert (HFr : Forall full (used_pages b (q :: rest))) by (rewrite Hur; auto).
    pose proof (sizecount_used b (q :: rest) HFr) as HSr. rewrite Hur in HSr.
    assert (Hqp : 0 < length (concat (map page_values (used_pages b more)))).
    { rewrite <- Hur. cbn. assert (b || negb (is_info q) = true) as -> by (destruct Hhr as [-> | ->]; auto; destruct b; auto).
      cbn. rewrite app_length. cbn in HFr. assert (b || negb (is_info q) = true) as Hb by (destruct Hhr as [-> | ->]; auto; destruct b; auto).
      rewrite Hb in HFr. inversion HFr; subst. pose proof (full_pos q H1). lia. }
    replace (length (page_values p ++ drop n out) - n =? 0) with false by lia.
    rewrite drop_app_alt by auto. rewrite take_app_alt by auto.
    rewrite IH; [|cbn in Hk, Hlr |- *; lia|auto|auto|rewrite drop_length; lia].
    rewrite Hur. reflexivity.
Qed.
End PackP.

Lemma C19_pack_aux E (g : E) (b : bool) (p : page E) more : Forall full (used_pages b (p :: more)) -> b || negb (is_info p) = true ->
  forall out, (forall o, out = Some o -> length o = length (concat (map page_values (used_pages b (p :: more))))) ->
  data_pack g (p :: more) out "y" (info_char b) = Ok (Some (concat (map page_values (used_pages b (p :: more))))).
Proof.
  intros HF Hb out Ho. unfold data_pack.
  assert (Hh : b = true \/ is_info p = false) by (destruct b, (is_info p); auto; discriminate).
  pose proof (sizecount_used b _ HF) as HS.
  destruct out as [o|].
  - apply pack_into_ok; auto. rewrite (Ho o eq_refl). auto.
  - change (yes "y") with true. assert (yes (info_char b) = b) as -> by (destruct b; auto).
    assert (0 < sizecount true b (p :: more)).
    { rewrite HS. cbn in *. rewrite Hb in *. cbn. rewrite app_length. inversion HF; subst. pose proof (full_pos p). lia. }
    replace (sizecount true b (p :: more) =? 0) with false by lia.
    apply pack_into_ok; auto. apply replicate_length.
Qed.

(** C19: the packed vector lists vector, matrix rows and weights of each page taking part, in page order, in a
    new vector or in one of the right size. *)
Theorem C19_pack_lists_all : forall E (g : E) (b : bool) (p : page E) more,
  Forall full (used_pages b (p :: more)) -> b || negb (is_info p) = true ->
  forall out, (forall o, out = Some o -> length o = length (concat (map page_values (used_pages b (p :: more))))) ->
  data_pack g (p :: more) out "y" (info_char b) = Ok (Some (concat (map page_values (used_pages b (p :: more))))).
Proof. exact C19_pack_aux. Qed.
Print Assumptions C19_pack_lists_all.

Lemma C19_first_aux E (g : E) (u : ascii) (p : page E) more : full p -> yes u || negb (is_info p) = true ->
  data_pack g (p :: more) None "n" u = Ok (Some (page_values p)).
Proof.
  intros HF Hb. unfold data_pack. change (yes "n") with false.
  assert (HS : sizecount false (yes u) (p :: more) = length (page_values p)).
  { cbn [sizecount]. rewrite full_len by auto. destruct (yes u), (is_info p); cbn in *; try discriminate; lia. }
  pose proof (full_pos p HF). rewrite HS. replace (length (page_values p) =? 0) with false by lia.
  cbn [pack_into]. change (yes "n") with false. rewrite HS, replicate_length, Nat.eqb_refl. cbn [negb].
  replace (length (page_values p) =? 0) with false by lia.
  rewrite pack_page_ok; [|auto|rewrite replicate_length; lia]. cbn [rbind].
  rewrite drop_ge by (rewrite replicate_length; lia). rewrite app_nil_r. auto.
Qed.
(** C19: with more_pages='n' only the first page is packed. *)
Theorem C19_pack_first_page : forall E (g : E) (u : ascii) (p : page E) more,
  full p -> yes u || negb (is_info p) = true -> data_pack g (p :: more) None "n" u = Ok (Some (page_values p)).
Proof. exact C19_first_aux. Qed.
Print Assumptions C19_pack_first_page.

Lemma C19_size_aux E (g : E) (b : bool) (p : page E) more (o : list E) : Forall full (used_pages b (p :: more)) ->
  length o <> length (concat (map page_values (used_pages b (p :: more)))) ->
  data_pack g (p :: more) (Some o) "y" (info_char b) = Ok None.
Proof.
  intros HF Hl. unfold data_pack. cbn [pack_into]. change (yes "y") with true.
  assert (yes (info_char b) = b) as -> by (destruct b; auto). rewrite sizecount_used by auto.
  replace (length o =? _) with false by lia. auto.
Qed.
(** C19: a vector of the wrong size is refused (NULL). *)
Theorem C19_pack_wrong_size : forall E (g : E) (b : bool) (p : page E) more (o : list E),
  Forall full (used_pages b (p :: more)) -> length o <> length (concat (map page_values (used_pages b (p :: more)))) ->
  data_pack g (p :: more) (Some o) "y" (info_char b) = Ok None.
Proof. exact C19_size_aux. Qed.
Print Assumptions C19_pack_wrong_size.

(** ---------- the way back ---------- *)

Definition same_shape {E} (p q : page E) : Prop :=
  option_map length (vect q) = option_map length (vect p) /\ option_map length (wts q) = option_map length (wts p) /\
  option_map gr (mat q) = option_map gr (mat p) /\ option_map gc (mat q) = option_map gc (mat p).
(** [q] with the numbers of [p] *)
Definition with_numbers {E} (p q : page E) : page E := Pg (vect p) (mat p) (wts p) (txt q) (nms q) (err q).
Definition restored {E} (b : bool) (pq : page E * page E) : page E :=
  let '(p, q) := pq in if b || negb (is_info p) then with_numbers p q else q.

Section UnpackP.
Context {E : Type}.
Implicit Types p q : page E.

Lemma read_at (A v R : list E) : v <> [] -> read (A ++ v ++ R) (length A) (length v) = Ok v.
Proof.
  intros Hv. unfold read, subvec. destruct v as [|x v]; [congruence|].
  rewrite !app_length. replace ((0 <? length (x :: v)) && (_ <=? _)) with true by (cbn; lia).
  rewrite drop_app, take_app. auto.
Qed.
Lemma read_rows_at (n : nat) : 0 < n -> forall (rows : list (list E)) (A R : list E),
  Forall (fun r => length r = n) rows -> read_rows (A ++ concat rows ++ R) (length A) n (length rows) = Ok rows.
Proof.
  intros Hn rows. induction rows as [|r rows IH]; intros A R HF; cbn; auto.
  inversion HF; subst. rewrite <- app_assoc, read_at by (destruct r; cbn in *; [lia|congruence]). cbn.
  rewrite app_assoc. rewrite <- app_length. rewrite IH by auto. auto.
Qed.
Lemma unpack_page_ok p q (R : list E) : full p -> same_shape p q ->
  unpack_page (page_values p ++ R) q = Ok (with_numbers p q, length (page_values p)).
Proof.
  destruct p as [v m w t n e], q as [v' m' w' t' n' e']. unfold same_shape, full; cbn.
  intros (Hv & Hm & Hw & _) (Sv & Sw & Sr & Sc). unfold unpack_page, page_values, with_numbers; cbn.
  rewrite !app_length.
  set (A := from_opt v). set (B := match m with Some m => concat (ga m) | None => [] end). set (C := from_opt w).
  assert (H1 : (match v' with Some x => do s <- read ((A ++ B ++ C) ++ R) 0 (length x);
            Ok (set_vec (Pg v' m' w' t' n' e') (Some s), length x) | None => Ok (Pg v' m' w' t' n' e', 0) end)
          = Ok (Pg v m' w' t' n' e', length A)).
  { destruct v as [v|], v' as [v'|]; cbn in Sv; try discriminate; cbn; auto.
    injection Sv as Sv. rewrite Sv. pose proof (read_at [] A ((B ++ C) ++ R) (Hv _ eq_refl)) as H.
    cbn in H. unfold A in *. cbn in *. rewrite <- app_assoc. rewrite H. cbn. auto. }
  rewrite H1; cbn. clear H1.
  assert (H2 : (match m' with Some m0 => do rs <- read_rows ((A ++ B ++ C) ++ R) (length A) (gc m0) (gr m0);
        Ok (set_mat (Pg v m' w' t' n' e') (Some (Gr (gr m0) (gc m0) rs)), length A + gr m0 * gc m0)
      | None => Ok (Pg v m' w' t' n' e', length A) end) = Ok (Pg v m w' t' n' e', length A + length B)).
  { unfold B. destruct m as [m|], m' as [m'|]; cbn in Sr, Sc; try discriminate; cbn; [|rewrite Nat.add_0_r; auto].
    injection Sr as Sr. injection Sc as Sc. rewrite Sr, Sc. destruct (Hm _ eq_refl) as (Wm & P1 & P2).
    rewrite concat_len by auto. destruct Wm as [W1 W2]. rewrite <- !app_assoc. rewrite <- W1 at 1.
    rewrite read_rows_at by auto. cbn. unfold set_mat; cbn. destruct m; auto.
  }
  rewrite H2; cbn. clear H2.
  unfold C. destruct w as [w|], w' as [w'|]; cbn in Sw; try discriminate; cbn.
  - injection Sw as Sw. rewrite Sw. replace ((A ++ B ++ w) ++ R) with ((A ++ B) ++ w ++ R) by (rewrite <- !app_assoc; auto).
    rewrite <- app_length. rewrite read_at by auto. cbn. unfold set_wts; cbn. f_equal. f_equal. rewrite app_length. lia.
  - f_equal. f_equal. lia.
Qed.

Lemma zip_restored_skip : forall (pre pre' : list (page E)), length pre = length pre' -> Forall (fun p => is_info p = true) pre ->
  map (restored false) (zip pre pre') = pre'.
Proof.
  induction pre as [|p pre IH]; intros [|q pre'] Hl HF; cbn in *; try lia; auto.
  inversion HF as [|? ? Hi HF']; subst. rewrite Hi. cbn. f_equal. auto.
Qed.

Lemma skip_info_corr : forall (d e : list (page E)), Forall2 (fun p q => is_info q = is_info p) d e ->
  length (skip_info e) = length (skip_info d).
Proof. induction 1 as [|p q d e Hpq H IH]; cbn; auto. rewrite Hpq. destruct (is_info p); cbn; auto. f_equal. symmetry. eapply Forall2_length; eauto. Qed.

Definition matched (b : bool) p q : Prop := is_info q = is_info p /\ (b || negb (is_info p) = true -> same_shape p q).

Lemma unpack_n_gen : forall k p q (d e : list (page E)), length (p :: d) < k ->
  full p -> same_shape p q -> Forall full (used_pages false d) -> Forall2 (matched false) d e ->
  data_unpack k (page_values p ++ concat (map page_values (used_pages false d))) (q :: e) "n"
  = Ok (with_numbers p q :: map (restored false) (zip d e)).
Proof.
  induction k as [|k IH]; intros p q d e Hk Hp Hs HF' H2; [cbn in Hk; lia|].
  cbn [data_unpack]. rewrite unpack_page_ok by auto. cbn [rbind].
  set (vs := concat (map page_values (used_pages false d))). rewrite app_length.
  destruct (skip_suffix d) as (pre & Hd & Hpre).
  assert (Hcorr : Forall2 (fun p q => is_info q = is_info p) d e) by (eapply Forall2_impl; [exact H2|]; intros ? ? []; auto).
  pose proof (skip_info_corr d e Hcorr) as Hlen.
  assert (Hrest : skip_info d = [] -> map (restored false) (zip d e) = e).
  { intros Es. rewrite Es, app_nil_r in Hd. rewrite <- Hd in Hpre. apply zip_restored_skip; auto. eapply Forall2_length; eauto. }
  assert (Hvs : skip_info d <> [] -> 0 < length vs).
  { intros Es. unfold vs. rewrite <- used_skip. destruct (skip_info d) as [|a l] eqn:El; [congruence|].
    pose proof (skip_head _ _ _ El) as Ha. cbn. rewrite Ha. cbn. rewrite app_length.
    assert (Hf : Forall full (used_pages false (a :: l))) by (rewrite <- El, used_skip; auto).
    cbn in Hf. rewrite Ha in Hf. cbn in Hf. inversion Hf; subst. pose proof (full_pos a). lia. }
  assert (Hvs0 : skip_info d = [] -> vs = []).
  { intros Es. unfold vs. rewrite <- used_skip, Es. auto. }
  destruct (decide (skip_info d = [])) as [Es|Es].
  { rewrite (Hvs0 Es), Nat.add_0_r, Nat.eqb_refl. cbn. rewrite Hrest; auto. }
  specialize (Hvs Es). clear Hrest Hvs0.
  replace (length (page_values p) =? length (page_values p) + length vs) with false by lia.
  destruct e as [|q' e'] eqn:Ee. { inversion H2; subst. cbn in Es. congruence. }
  rewrite <- Ee in *. cbn [negb andb].
  replace (length (page_values p) + length vs - length (page_values p)) with (length vs) by lia.
  pose proof (read_at (page_values p) vs [] ltac:(intros ->; cbn in Hvs; lia)) as Hr. rewrite app_nil_r in Hr. rewrite Hr. cbn [rbind].
  change (("n" =? "n")%char) with true. cbn match.
  (* split e like d *)
  assert (Hsplit : exists pre', e = pre' ++ skip_info e /\ length pre' = length pre).
  { destruct (skip_suffix e) as (pre' & He & _). exists pre'. split; auto.
    assert (length d = length e) by (eapply Forall2_length; eauto).
    assert (length d = length pre + length (skip_info d)) by (rewrite Hd at 1; apply app_length).
    assert (length e = length pre' + length (skip_info e)) by (rewrite He at 1; apply app_length). lia. }
  destruct Hsplit as (pre' & He & Hlp).
  destruct (skip_info e) as [|a l] eqn:El. { destruct (skip_info d); [congruence|cbn in Hlen; lia]. }
  rewrite <- El in *.
  assert (H2s : Forall2 (matched false) (skip_info d) (skip_info e)).
  { rewrite Hd, He in H2. apply Forall2_app_inv in H2; [|auto]. tauto. }
  unfold vs. rewrite <- used_skip. rewrite El.
  destruct (skip_info d) as [|a0 l0] eqn:El0; [congruence|].
  pose proof (skip_head _ _ _ El0) as Ha0. pose proof (skip_head _ _ _ El) as Ha.
  assert (Hf : Forall full (used_pages false (a0 :: l0))) by (rewrite <- El0, used_skip; auto).
  assert (Hu : used_pages false (a0 :: l0) = a0 :: used_pages false l0) by (cbn; rewrite Ha0; auto).
  rewrite Hu in *. apply Forall_cons_iff in Hf as [Hfa Hfl]. cbn [map concat].
  rewrite El in H2s. assert (matched false a0 a /\ Forall2 (matched false) l0 l) as [[_ Hsa] H2l] by (inversion H2s; auto).
  rewrite IH.
  - cbn [rbind]. f_equal. f_equal.
    assert (length e = length pre' + length (skip_info e)) as Hle by (rewrite He at 1; apply app_length).
    rewrite El in Hle. rewrite Hle, Nat.add_sub. rewrite He at 1. rewrite take_app.
    assert (zip d e = zip pre pre' ++ zip (skip_info d) (skip_info e)) as ->.
    { rewrite <- zip_with_app by auto. rewrite El0. rewrite <- Hd, <- He. auto. }
    rewrite map_app, (zip_restored_skip pre pre') by (first [exact Hpre | lia | auto]). rewrite El0, El. cbn. rewrite Ha0. auto.
  - assert (length d = length pre + length (skip_info d)) by (rewrite Hd at 1; rewrite El0; apply app_length).
    rewrite El0 in *. cbn in *. lia.
  - auto.
  - apply Hsa. rewrite Ha0. auto.
  - auto.
  - auto.
Qed.
End UnpackP.

Lemma C19_roundtrip_aux E (g : E) (b : bool) (p q : page E) more more' :
  Forall full (used_pages b (p :: more)) -> b || negb (is_info p) = true ->
  Forall2 (matched b) (p :: more) (q :: more') ->
  (b = true -> Forall (fun r => is_info r = false) (drop 2 (p :: more))) ->
  exists v, data_pack g (p :: more) None "y" (info_char b) = Ok (Some v) /\
    unpack v (q :: more') (info_char b) = Ok (map (restored b) (zip (p :: more) (q :: more'))).
Proof.
  intros HF Hb H2 Hlate. eexists; split.
  { apply C19_pack_aux; auto. discriminate. }
  assert (Hlen : length more = length more') by (apply Forall2_length in H2; cbn in H2; lia).
  assert (Hu : used_pages b (p :: more) = p :: used_pages b more) by (unfold used_pages; cbn; rewrite Hb; auto).
  rewrite Hu in *. apply Forall_cons_iff in HF as [Hp HF].
  assert (matched b p q /\ Forall2 (matched b) more more') as [[_ Hs] H2m] by (inversion H2; auto).
  unfold unpack. destruct b.
  2:{ cbn [info_char map concat]. rewrite unpack_n_gen; auto; [|cbn; lia]. cbn in *. rewrite Hb. auto. }
  specialize (Hlate eq_refl). cbn [info_char map concat data_unpack]. rewrite unpack_page_ok by auto. cbn [rbind].
  rewrite app_length. cbn [zip zip_with map restored orb].
  destruct H2m as [|p2 q2 more more' [_ Hs2] H2m].
  { cbn. rewrite Nat.add_0_r, Nat.eqb_refl. auto. }
  cbn in Hlate, Hlen. rewrite used_all in *. apply Forall_cons_iff in HF as [Hp2 HF].
  cbn [map concat]. pose proof (full_pos p2 Hp2). rewrite app_length.
  replace (length (page_values p) =? _) with false by lia. cbn [negb andb].
  set (vs := page_values p2 ++ concat (map page_values more)).
  replace (length (page_values p) + (length (page_values p2) + length (concat (map page_values more))) - length (page_values p))
    with (length vs) by (unfold vs; rewrite app_length; lia).
  pose proof (read_at (page_values p) vs []) as Hr. rewrite app_nil_r in Hr.
  rewrite Hr by (intros Hz; apply (f_equal length) in Hz; unfold vs in Hz; rewrite app_length in Hz; cbn in Hz; lia).
  cbn [rbind]. change (("y" =? "n")%char) with false. cbn match.
  assert (Hun : used_pages false more = more).
  { clear - Hlate. unfold used_pages. induction more as [|a l IH]; cbn; auto. inversion Hlate; subst. rewrite H1. cbn. f_equal; auto. }
  unfold vs. rewrite <- Hun at 1. rewrite unpack_n_gen; auto; cbn.
  - f_equal. f_equal. f_equal. clear - Hlate. revert more' Hlate. induction more as [|a l IH]; intros [|a' l'] HH; cbn; auto.
    inversion HH; subst. rewrite H1. cbn. f_equal. auto.
  - lia.
  - rewrite Hun; auto.
  - eapply Forall2_impl; [exact H2m|]. intros ? ? [Ha Hb']. split; auto.
Qed.
(** C19: packing a data set and unpacking the vector into a data set of the same shape gives back every number
    of every page taking part and touches nothing else.  Missing: with use_info_pages='y' an info page at the
    third position or later (refuted below). *)
Theorem C19_roundtrip : forall E (g : E) (b : bool) (p q : page E) more more',
  Forall full (used_pages b (p :: more)) -> b || negb (is_info p) = true ->
  Forall2 (matched b) (p :: more) (q :: more') ->
  (b = true -> Forall (fun r => is_info r = false) (drop 2 (p :: more))) ->
  exists v, data_pack g (p :: more) None "y" (info_char b) = Ok (Some v) /\
    unpack v (q :: more') (info_char b) = Ok (map (restored b) (zip (p :: more) (q :: more'))).
Proof. exact C19_roundtrip_aux. Qed.
Print Assumptions C19_roundtrip.

Definition vec_page (t : string) (v : list nat) : page nat := Pg (Some v) None None None (add1 name_alloc t "h") None.
Definition ex_mixed (v : list nat) : page nat :=
  Pg (Some v) (Some (Gr 1 2 [[7; 8]])) (Some [9]) None (add1 name_alloc "data" "h") None.

Lemma full_vec_page t v : v <> [] -> full (vec_page t v).
Proof. intros H. unfold full; cbn. repeat split; try congruence. left; congruence. Qed.
Lemma full_ex_mixed v : v <> [] -> full (ex_mixed v).
Proof.
  intros H. unfold full; cbn. split; [congruence|]. split; [|split; [congruence|left; congruence]].
  intros m [= <-]. unfold wf_grid; cbn. repeat split; auto.
Qed.
Example C19_nonvacuous :
  Forall full (used_pages false [ex_mixed [1]; vec_page "<Info>" [2]; vec_page "b" [3; 4]]) /\
  data_pack 0 [ex_mixed [1]; vec_page "<Info>" [2]; vec_page "b" [3; 4]] None "y" "n" = Ok (Some [1; 7; 8; 9; 3; 4]) /\
  exists e, unpack [1; 7; 8; 9; 3; 4] [ex_mixed [0]; vec_page "<Info>" [5]; vec_page "b" [0; 0]] "n" = Ok e /\
    map vect e = [Some [1]; Some [5]; Some [3; 4]].
Proof.
  split.
  - cbn. constructor; [apply full_ex_mixed; congruence|]. constructor; [apply full_vec_page; congruence|constructor].
  - split; [vm_compute; reflexivity|]. eexists; split; [vm_compute; reflexivity|]. vm_compute. reflexivity.
Qed.

(** C19: with use_info_pages='y' on both ways, a third page that is an info page is not restored although the
    packed vector holds its values. *)
Theorem C19_info_page_lost_refuted : exists (d e : list (page nat)),
  Forall full d /\ Forall2 (matched true) d e /\
  data_pack 0 d None "y" "y" = Ok (Some [1; 2; 3; 4]) /\
  exists r, unpack [1; 2; 3; 4] e "y" = Ok r /\ map vect r = [Some [1]; Some [2]; Some [0]; Some [3]].
Proof.
  exists [vec_page "a" [1]; vec_page "b" [2]; vec_page "<c>" [3]; vec_page "d" [4]].
  exists [vec_page "a" [0]; vec_page "b" [0]; vec_page "<c>" [0]; vec_page "d" [0]].
  split; [repeat (constructor; [apply full_vec_page; congruence|]); first [constructor|apply full_vec_page; congruence]|].
  split; [repeat constructor|]. split; [vm_compute; reflexivity|].
  eexists; split; [vm_compute; reflexivity|]. reflexivity.
Qed.
Print Assumptions C19_info_page_lost_refuted.

(** C19: a later page without numbers (say text only) makes packing run off the vector's end. *)
Theorem C19_text_page_refuted : exists p q : page nat, full p /\ page_values q = [] /\ is_info q = false /\
  data_pack 0 [p; q] None "y" "n" = UB.
Proof.
  exists (vec_page "a" [1]), (Pg None None None (Some (Gr 1 1 [["x"]])) (add1 name_alloc "t" "h") None).
  split; [apply full_vec_page; congruence|]. repeat split.
Qed.
Print Assumptions C19_text_page_refuted.

(** C19: if the first page is itself an info page its numbers are written but not counted: the write runs off
    the vector's end. *)
Theorem C19_info_first_refuted : exists p q : page nat, full p /\ full q /\ data_pack 0 [p; q] None "y" "n" = UB.
Proof.
  exists (vec_page "<a>" [1; 2; 3]), (vec_page "b" [1]).
  split; [apply full_vec_page; congruence|].
  split; [apply full_vec_page; congruence|]. reflexivity.
Qed.
Print Assumptions C19_info_first_refuted.

Lemma bracketed_aux (s : string) : bracketed s = true <-> exists mid, s = ("<" ++ mid ++ ">")%string.
Proof.
  assert (forall a b : string, list_ascii_of_string (a ++ b)%string = list_ascii_of_string a ++ list_ascii_of_string b) as HA.
  { induction a as [|c a IH]; intros b; [reflexivity|].
    change (c :: list_ascii_of_string (a ++ b)%string = c :: (list_ascii_of_string a ++ list_ascii_of_string b)). rewrite IH. reflexivity. }
  unfold bracketed. split.
  - intros H. destruct (list_ascii_of_string s) as [|c [|c2 l]] eqn:E; try discriminate.
    apply andb_prop in H as [H1 H2]. apply Ascii.eqb_eq in H1, H2. subst c.
    exists (string_of_list_ascii (List.removelast (c2 :: l))). rewrite <- (string_of_list_ascii_of_string s), E.
    pose proof (app_removelast_last "x"%char (l := c2 :: l) ltac:(discriminate)) as HR.
    change (List.last ("<"%char :: c2 :: l) "x"%char) with (List.last (c2 :: l) "x"%char) in H2. rewrite H2 in HR.
    rewrite HR at 1. generalize (List.removelast (c2 :: l)). intros r. cbn. f_equal.
    induction r as [|x r IH]; cbn; auto. rewrite IH. reflexivity.
  - intros [mid ->]. rewrite !HA. cbn. destruct (list_ascii_of_string mid ++ [">"%char]) as [|c l] eqn:E.
    + destruct (list_ascii_of_string mid); discriminate.
    + cbn [Ascii.eqb Bool.eqb andb]. change (List.last ("<"%char :: c :: l) "x"%char) with (List.last (c :: l) "x"%char).
      rewrite <- E, List.last_last. reflexivity.
Qed.
(** C19: the pages left out of a pack are exactly those whose title is in angle brackets. *)
Theorem C19_info_pages : forall E (p : page E),
  is_info p = true <-> exists mid, title (nms p) = Some ("<" ++ mid ++ ">")%string.
Proof.
  intros E p. unfold is_info. destruct (title (nms p)) as [s|].
  - rewrite bracketed_aux. split; intros [mid H]; exists mid; congruence.
  - split; [discriminate|]. intros [mid H]. discriminate.
Qed.
Print Assumptions C19_info_pages.
