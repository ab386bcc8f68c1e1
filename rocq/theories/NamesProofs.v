(** Lemmas about the names model. *)
From Verif Require Export NamesModel.

(** ---- small specification vocabulary ---- *)

(** [i] is the first position of [l] whose string satisfies [P]. *)
Definition first_at (P : string -> bool) (l : list string) (i : nat) : Prop :=
  (exists s, l !! i = Some s /\ P s = true) /\
  (forall j s, j < i -> l !! j = Some s -> P s = false).

(** no element of [l] satisfies [P] *)
Definition nowhere (P : string -> bool) (l : list string) : Prop :=
  forall j s, l !! j = Some s -> P s = false.

(** the list a type letter designates when searching *)
Definition searched (n : names) (t : ascii) : list string := fst (list_of n t).

(** hash array readable over the whole list (or NULL) *)
Definition hreadable (l : list string) (h : harray) : Prop :=
  h = [] \/ forall i, i < length l -> exists z, h !! i = Some (Some z).
(** hash array in agreement with the list *)
Definition hfresh (l : list string) (h : harray) : Prop := h = map (fun s => Some (name_hash s)) l.

Definition readable (n : names) : Prop :=
  hreadable (rown n) (rowh n) /\ hreadable (coln n) (colh n) /\ hreadable (txtn n) (txth n).
Definition hashes_ok (n : names) : Prop :=
  hfresh (rown n) (rowh n) /\ hfresh (coln n) (colh n) /\ hfresh (txtn n) (txth n).

(** ---- ci_eq ---- *)
Lemma ci_eq_refl s : ci_eq s s = true.
Proof. unfold ci_eq. apply String.eqb_refl. Qed.
Lemma ci_eq_sym a b : ci_eq a b = ci_eq b a.
Proof. unfold ci_eq. apply String.eqb_sym. Qed.
Lemma ci_eq_trans a b c : ci_eq a b = true -> ci_eq b c = true -> ci_eq a c = true.
Proof. unfold ci_eq. rewrite !String.eqb_eq. congruence. Qed.

(** ---- loops ---- *)
Lemma find_plain_shift name i l :
  find_plain name (S i) l = option_map S (find_plain name i l).
Proof. revert i; induction l as [|s l IH]; intros i; simpl; auto. destruct (ci_eq name s); auto. Qed.

Lemma find_plain_spec name l :
  match find_plain name 0 l with
  | Some i => first_at (ci_eq name) l i
  | None => nowhere (ci_eq name) l
  end.
Proof.
  induction l as [|s l IH]; simpl.
  - intros j s H. rewrite lookup_nil in H. discriminate.
  - destruct (ci_eq name s) eqn:E.
    + split; [exists s; auto | intros; lia].
    + rewrite find_plain_shift. destruct (find_plain name 0 l) as [i|]; simpl.
      * destruct IH as [(s' & Hl & Hs') Hbefore]. split; [exists s'; auto|].
        intros [|j] s0 Hj H0; simpl in *; [congruence|]. eapply Hbefore; [|eauto]. lia.
      * intros [|j] s0 H0; simpl in *; [congruence|]. eapply IH; eauto.
Qed.

Lemma find_hashed_shift name hs i l h :
  find_hashed name hs (S i) l h =
  match find_hashed name hs i l h with Ok o => Ok (option_map S o) | UB => UB | Fuel => Fuel end.
Proof.
  revert i h; induction l as [|s l IH]; intros i [|[z|] h]; simpl; auto.
  destruct ((hs =? z)%Z && ci_eq name s); auto.
Qed.

Lemma find_hashed_readable name hs l h :
  (forall i, i < length l -> exists z, h !! i = Some (Some z)) ->
  exists o, find_hashed name hs 0 l h = Ok o /\
    match o with
    | Some i => exists s, l !! i = Some s /\ ci_eq name s = true /\ h !! i = Some (Some hs) /\
                forall j s', j < i -> l !! j = Some s' -> h !! j = Some (Some hs) -> ci_eq name s' = false
    | None => forall j s', l !! j = Some s' -> h !! j = Some (Some hs) -> ci_eq name s' = false
    end.
Proof.
  revert h; induction l as [|s l IH]; intros h H; simpl.
  - eexists; split; eauto. intros j s' Hj. rewrite lookup_nil in Hj; discriminate.
  - destruct (H 0) as [z Hz]; [simpl; lia|]. destruct h as [|[z'|] h]; simpl in Hz; try discriminate.
    inversion Hz; subst z'; clear Hz.
    destruct ((hs =? z)%Z && ci_eq name s) eqn:E.
    + apply andb_true_iff in E as [E1 E2]. apply Z.eqb_eq in E1; subst z.
      eexists; split; eauto. simpl. exists s; repeat split; auto. intros; lia.
    + rewrite find_hashed_shift.
      destruct (IH h) as (o & -> & Ho).
      { intros i Hi. destruct (H (S i)) as [z' Hz']; [simpl; lia|]. eauto. }
      eexists; split; eauto. destruct o as [i|]; simpl.
      * destruct Ho as (s' & Ha & Hb' & Hc & Hb). exists s'; repeat split; auto.
        intros [|j] s0 Hj Hl Hh; simpl in *.
        -- inversion Hl; subst s0. inversion Hh; subst z. rewrite Z.eqb_refl in E. auto.
        -- eapply Hb; eauto; lia.
      * intros [|j] s0 Hl Hh; simpl in *.
        -- inversion Hl; subst s0. inversion Hh; subst z. rewrite Z.eqb_refl in E. auto.
        -- eapply Ho; eauto.
Qed.

Lemma list_of_readable n t : readable n -> hreadable (fst (list_of n t)) (snd (list_of n t)).
Proof. intros (H1 & H2 & H3). unfold list_of. destruct (is_r t), (is_t t); simpl; auto. Qed.
Lemma list_of_fresh n t : hashes_ok n -> hfresh (fst (list_of n t)) (snd (list_of n t)).
Proof. intros (H1 & H2 & H3). unfold list_of. destruct (is_r t), (is_t t); simpl; auto. Qed.

Lemma fresh_h_readable l h : hfresh l h -> hreadable l h.
Proof.
  unfold hfresh; intros ->. right. intros i Hi. apply lookup_lt_is_Some in Hi as [s Hs].
  rewrite lookup_map, Hs. simpl. eauto.
Qed.
Lemma fresh_readable n : hashes_ok n -> readable n.
Proof. intros (?&?&?); repeat split; apply fresh_h_readable; auto. Qed.

Lemma name_find_spec n name t :
  readable n ->
  exists z, name_find n name t = Ok z /\
    ((exists i s, z = Z.of_nat i /\ searched n t !! i = Some s /\ ci_eq name s = true) \/
     (z = (-1)%Z /\ nowhere (ci_eq name) (searched n t) /\ is_c t = true /\
        exists v, vecn n = Some v /\ ci_eq name v = true) \/
     (z = (-2)%Z /\ nowhere (ci_eq name) (searched n t) /\
        (is_c t = true -> forall v, vecn n = Some v -> ci_eq name v = false))).
Proof.
  intros Hr. pose proof (list_of_readable n t Hr) as H. unfold name_find, searched.
  destruct (list_of n t) as [l h]; simpl in *.
  assert (exists o, match h with [] => Ok None | _ => find_hashed name (name_hash name) 0 l h end = Ok o /\
           match o with Some i => exists s, l !! i = Some s /\ ci_eq name s = true | None => True end) as (o & -> & Ho).
  { destruct h as [|c h]; [eexists; split; eauto; simpl; auto|].
    destruct H as [H|H]; [discriminate|].
    destruct (find_hashed_readable name (name_hash name) l (c :: h) H) as (o & Ho & Hs).
    exists o; split; auto. destruct o; auto. destruct Hs as (s & ? & ? & _). eauto. }
  simpl. destruct o as [i|].
  - eexists; split; eauto. destruct Ho as (s & ? & ?). left; eauto.
  - pose proof (find_plain_spec name l) as Hp. destruct (find_plain name 0 l) as [i|].
    + eexists; split; eauto. destruct Hp as [(s & ? & ?) _]. left; eauto.
    + destruct (vecn n) as [v|] eqn:Ev.
      * destruct (is_c t) eqn:Et, (ci_eq name v) eqn:Ec; simpl; (eexists; split; [reflexivity|]).
        -- right; left. repeat split; auto. eauto.
        -- right; right. repeat split; auto. intros _ v' Hv'. congruence.
        -- right; right. repeat split; auto. discriminate.
        -- right; right. repeat split; auto. discriminate.
      * eexists; split; eauto. right; right. repeat split; auto. discriminate.
Qed.

(** exact-case preference when hashes are hashes_ok *)
Lemma name_find_exact n name t :
  hashes_ok n -> name ∈ searched n t ->
  exists i, name_find n name t = Ok (Z.of_nat i) /\
    first_at (fun s => ci_eq name s && (name_hash name =? name_hash s)%Z) (searched n t) i.
Proof.
  intros Hf Hin. pose proof (list_of_fresh n t Hf) as H. unfold name_find, searched in *.
  destruct (list_of n t) as [l h]; simpl in *. unfold hfresh in H.
  apply elem_of_list_lookup in Hin as [k Hk].
  assert (forall i, i < length l -> exists z, h !! i = Some (Some z)) as Hr.
  { intros i Hi. apply lookup_lt_is_Some in Hi as [s Hs]. subst h. rewrite lookup_map, Hs; simpl; eauto. }
  destruct (find_hashed_readable name (name_hash name) l h Hr) as (o & Ho & Hs).
  destruct h as [|c h'] eqn:Eh.
  { destruct l; simpl in H; [rewrite lookup_nil in Hk; discriminate|discriminate]. }
  rewrite Ho. simpl. destruct o as [i|].
  - exists i; split; auto. destruct Hs as (s & Hs & Hc & Hh & Hb). split.
    + exists s. split; auto. rewrite H, lookup_map, Hs in Hh. simpl in Hh. inversion Hh.
      rewrite Hc, Z.eqb_refl. reflexivity.
    + intros j s' Hj Hs'. destruct (ci_eq name s') eqn:E1; auto. simpl.
      apply Z.eqb_neq. intros E2. rewrite (Hb j s' Hj Hs') in E1; [discriminate|].
      rewrite H, lookup_map, Hs'. simpl. congruence.
  - exfalso. specialize (Hs k name Hk). rewrite ci_eq_refl in Hs.
    assert (true = false) by (apply Hs; rewrite H, lookup_map, Hk; reflexivity). discriminate.
Qed.

(** ---- the hash separates case variants of short names ---- *)
Fixpoint poly (s : string) : Z :=   (* sum of schar * 33^(position from the end) *)
  match s with
  | EmptyString => 0
  | String c s' => schar c * 33 ^ Z.of_nat (String.length s') + poly s'
  end%Z.

Lemma hash_from_poly h s :
  (0 <= h < 2 ^ 64)%Z ->
  hash_from h s = ((h * 33 ^ Z.of_nat (String.length s) + poly s) mod 2 ^ 64)%Z.
Proof.
  revert h; induction s as [|c s IH]; intros h Hh.
  - cbn [hash_from poly String.length]. replace (h * 33 ^ Z.of_nat 0 + 0)%Z with h by (simpl; lia).
    rewrite Z.mod_small; auto.
  - cbn [hash_from poly String.length].
    rewrite IH by (apply Z.mod_pos_bound; lia).
    rewrite Nat2Z.inj_succ, Z.pow_succ_r by lia.
    rewrite Z.add_mod by lia. rewrite Z.mul_mod_idemp_l by lia. rewrite <- Z.add_mod by lia.
    f_equal. ring.
Qed.

Lemma lower_schar c c' : lower c = lower c' ->
  c = c' \/ (schar c - schar c' = 32)%Z \/ (schar c - schar c' = -32)%Z.
Proof.
  intros H. apply (f_equal nat_of_ascii) in H. unfold lower in H. unfold schar.
  pose proof (nat_ascii_bounded c) as Bc. pose proof (nat_ascii_bounded c') as Bc'.
  assert (nat_of_ascii c = nat_of_ascii c' -> c = c') as Hinj.
  { intros E. rewrite <- (ascii_nat_embedding c), <- (ascii_nat_embedding c'), E. reflexivity. }
  set (n := nat_of_ascii c) in *. set (n' := nat_of_ascii c') in *.
  destruct ((65 <=? n) && (n <=? 90)) eqn:E, ((65 <=? n') && (n' <=? 90)) eqn:E';
    rewrite ?nat_ascii_embedding in H by lia; fold n n' in H;
    destruct (Z.of_nat n <? 128)%Z eqn:F, (Z.of_nat n' <? 128)%Z eqn:F'; try lia.
  all: try (left; apply Hinj; lia); try (right; lia).
Qed.

Lemma lower_s_poly s s' : lower_s s = lower_s s' ->
  String.length s = String.length s' /\
  (Z.abs (poly s - poly s') < 33 ^ Z.of_nat (String.length s))%Z /\
  (poly s = poly s' -> s = s').
Proof.
  revert s'; induction s as [|c s IH]; intros [|c' s'] H; simpl in H; try discriminate.
  - simpl. repeat split; auto.
  - inversion H as [[Hc Hs]]. destruct (IH _ Hs) as (Hlen & Habs & Hinj).
    cbn [String.length poly]. rewrite <- Hlen.
    assert (0 < 33 ^ Z.of_nat (String.length s))%Z as Hpos by (apply Z.pow_pos_nonneg; lia).
    rewrite Nat2Z.inj_succ, Z.pow_succ_r by lia.
    set (P := (33 ^ Z.of_nat (String.length s))%Z) in *.
    assert (schar c = schar c' -> c = c') as Hsc.
    { destruct (lower_schar _ _ Hc) as [|[]]; auto; lia. }
    destruct (lower_schar _ _ Hc) as [->|[E|E]].
    + repeat split; auto; [|intros Heq; f_equal; apply Hinj]; nia.
    + assert (schar c = schar c' + 32)%Z as -> by lia.
      repeat split; auto; [nia | intros Heq; exfalso; nia].
    + assert (schar c = schar c' - 32)%Z as -> by lia.
      repeat split; auto; [nia | intros Heq; exfalso; nia].
Qed.

Lemma ci_hash_inj s s' :
  String.length s <= 12 -> ci_eq s s' = true -> name_hash s = name_hash s' -> s = s'.
Proof.
  intros Hl Hc Hh. unfold ci_eq in Hc. apply String.eqb_eq in Hc.
  destruct (lower_s_poly _ _ Hc) as (Hlen & Habs & Hinj).
  unfold name_hash in Hh. rewrite !hash_from_poly in Hh by lia. rewrite <- Hlen in Hh.
  apply Hinj.
  assert (33 ^ Z.of_nat (String.length s) <= 33 ^ 12)%Z as Hb by (apply Z.pow_le_mono_r; lia).
  set (B := (5381 * 33 ^ Z.of_nat (String.length s))%Z) in *.
  assert (exists k, poly s - poly s' = k * 2 ^ 64)%Z as [k Hk].
  { exists ((B + poly s) / 2 ^ 64 - (B + poly s') / 2 ^ 64)%Z.
    pose proof (Z.div_mod (B + poly s) (2 ^ 64)). pose proof (Z.div_mod (B + poly s') (2 ^ 64)). lia. }
  assert (33 ^ 12 < 2 ^ 64)%Z by (vm_compute; auto).
  assert (k = 0)%Z by nia. lia.
Qed.

Lemma name_find_exact_short n name t :
  hashes_ok n -> String.length name <= 12 -> name ∈ searched n t ->
  exists i, name_find n name t = Ok (Z.of_nat i) /\ first_at (String.eqb name) (searched n t) i.
Proof.
  intros Hf Hl Hin. destruct (name_find_exact n name t Hf Hin) as (i & Hi & (s & Hs & Hp) & Hb).
  exists i; split; auto. apply andb_true_iff in Hp as [H1 H2]. apply Z.eqb_eq in H2.
  split.
  - exists s; split; auto. apply String.eqb_eq. apply ci_hash_inj; auto.
  - intros j s' Hj Hs'. specialize (Hb j s' Hj Hs'). apply andb_false_iff in Hb.
    apply String.eqb_neq. intros <-. rewrite ci_eq_refl, Z.eqb_refl in Hb. destruct Hb; discriminate.
Qed.

(** ---- add / stack / copy ---- *)
Lemma hrealloc_fresh l : hrealloc (map (fun s => Some (name_hash s)) l) (S (length l)) =
  map (fun s => Some (name_hash s)) l ++ [None].
Proof.
  unfold hrealloc. rewrite take_ge by (rewrite map_length; lia). rewrite map_length.
  replace (S (length l) - length l) with 1 by lia. reflexivity.
Qed.
Lemma add_to_fresh l h s : hfresh l h -> add_to l h s = (l ++ [s], map (fun s => Some (name_hash s)) (l ++ [s])).
Proof.
  unfold hfresh, add_to; intros ->. rewrite hrealloc_fresh. f_equal.
  rewrite map_app; simpl. rewrite Nat.sub_0_r.
  replace (length l) with (length (map (fun s => Some (name_hash s)) l) + 0) by (rewrite map_length; lia).
  rewrite insert_app_r. reflexivity.
Qed.

Lemma fresh_alloc : hashes_ok name_alloc.
Proof. repeat split. Qed.

Lemma name_add_fresh n o t : hashes_ok n -> hashes_ok (fst (name_add n o t)).
Proof.
  intros (Hr & Hc & Ht). destruct o as [s|]; unfold name_add; [|repeat split; auto].
  destruct (t =? "h")%char; [repeat split; auto|].
  destruct (t =? "v")%char; [repeat split; auto|].
  destruct (t =? "r")%char; [rewrite (add_to_fresh _ _ _ Hr); repeat split; auto|].
  destruct (t =? "t")%char; [rewrite (add_to_fresh _ _ _ Ht); repeat split; auto|].
  rewrite (add_to_fresh _ _ _ Hc); repeat split; auto.
Qed.

Lemma hreadable_add l h s : hreadable l h -> h <> [] \/ l = [] -> hreadable (l ++ [s]) (snd (add_to l h s)).
Proof.
  intros Hr Hn. right. intros i Hi. rewrite app_length in Hi; simpl in Hi.
  unfold add_to; simpl. unfold hrealloc.
  destruct (decide (i = length l)) as [->|Hne].
  - rewrite Nat.sub_0_r. rewrite list_lookup_insert; [eauto|].
    rewrite app_length, take_length, replicate_length. lia.
  - rewrite Nat.sub_0_r, list_lookup_insert_ne by lia.
    destruct Hr as [->|Hr].
    + destruct Hn as [Hn|Hn]; [congruence|]. subst l. simpl in *; lia.
    + destruct (Hr i) as [z Hz]; [lia|]. exists z. rewrite lookup_app_l.
      * rewrite lookup_take by lia; auto.
      * rewrite take_length. apply lookup_lt_Some in Hz. lia.
Qed.

Lemma add_all_app n l1 l2 t : add_all n (l1 ++ l2) t = add_all (add_all n l1 t) l2 t.
Proof. unfold add_all. apply fold_left_app. Qed.

Lemma add_all_fresh n l t : hashes_ok n -> hashes_ok (add_all n l t).
Proof. revert n; induction l as [|s l IH]; intros n H; simpl; auto. apply IH. apply name_add_fresh; auto. Qed.

Lemma add_all_row n l : let o := add_all n l "r" in
  rown o = rown n ++ l /\ coln o = coln n /\ txtn o = txtn n /\ title o = title n /\ vecn o = vecn n
  /\ colh o = colh n /\ txth o = txth n.
Proof.
  revert n; induction l as [|s l IH]; intros n; cbn [add_all fold_left]; simpl.
  - rewrite app_nil_r; repeat split; auto.
  - destruct (IH (add1 n s "r")) as (H1 & H2 & H3 & H4 & H5 & H6 & H7). unfold add_all in *.
    rewrite H1, H2, H3, H4, H5, H6, H7. unfold add1; simpl. rewrite <- app_assoc. repeat split; auto.
Qed.
Lemma add_all_col n l : let o := add_all n l "c" in
  coln o = coln n ++ l /\ rown o = rown n /\ txtn o = txtn n /\ title o = title n /\ vecn o = vecn n
  /\ rowh o = rowh n /\ txth o = txth n.
Proof.
  revert n; induction l as [|s l IH]; intros n; cbn [add_all fold_left]; simpl.
  - rewrite app_nil_r; repeat split; auto.
  - destruct (IH (add1 n s "c")) as (H1 & H2 & H3 & H4 & H5 & H6 & H7). unfold add_all in *.
    rewrite H1, H2, H3, H4, H5, H6, H7. unfold add1; simpl. rewrite <- app_assoc. repeat split; auto.
Qed.
Lemma add_all_txt n l : let o := add_all n l "t" in
  txtn o = txtn n ++ l /\ rown o = rown n /\ coln o = coln n /\ title o = title n /\ vecn o = vecn n
  /\ rowh o = rowh n /\ colh o = colh n.
Proof.
  revert n; induction l as [|s l IH]; intros n; cbn [add_all fold_left]; simpl.
  - rewrite app_nil_r; repeat split; auto.
  - destruct (IH (add1 n s "t")) as (H1 & H2 & H3 & H4 & H5 & H6 & H7). unfold add_all in *.
    rewrite H1, H2, H3, H4, H5, H6, H7. unfold add1; simpl. rewrite <- app_assoc. repeat split; auto.
Qed.

Lemma name_copy_spec n :
  vecn (name_copy n) = vecn n /\ rown (name_copy n) = rown n /\ coln (name_copy n) = coln n /\
  txtn (name_copy n) = txtn n /\ (forall s, title n = Some s -> title (name_copy n) = Some s) /\ hashes_ok (name_copy n).
Proof.
  unfold name_copy. cbv zeta.
  set (o1 := name_stack name_alloc n "v" "v").
  assert (hashes_ok o1 /\ vecn o1 = vecn n /\ rown o1 = [] /\ coln o1 = [] /\ txtn o1 = []) as (F1 & V1 & R1 & C1 & T1).
  { unfold o1, name_stack; simpl. destruct (vecn n); simpl; repeat split; auto. }
  change (name_stack o1 n "c" "c") with (add_all o1 (coln n) "c").
  pose proof (add_all_col o1 (coln n)) as (C2 & R2 & T2 & _ & V2 & _).
  assert (hashes_ok (add_all o1 (coln n) "c")) as F2 by (apply add_all_fresh; auto).
  set (o2 := add_all o1 (coln n) "c") in *.
  change (name_stack o2 n "r" "r") with (add_all o2 (rown n) "r").
  pose proof (add_all_row o2 (rown n)) as (R3 & C3 & T3 & _ & V3 & _).
  assert (hashes_ok (add_all o2 (rown n) "r")) as F3 by (apply add_all_fresh; auto).
  set (o3 := add_all o2 (rown n) "r") in *.
  change (name_stack o3 n "t" "t") with (add_all o3 (txtn n) "t").
  pose proof (add_all_txt o3 (txtn n)) as (T4 & R4 & C4 & _ & V4 & _).
  assert (hashes_ok (add_all o3 (txtn n) "t")) as F4 by (apply add_all_fresh; auto).
  set (o4 := add_all o3 (txtn n) "t") in *. cbn [vecn rown coln txtn title].
  repeat split; try (destruct F4 as (?&?&?); assumption).
  - rewrite V4, V3, V2, V1. reflexivity.
  - rewrite R4, R3, R2, R1. reflexivity.
  - rewrite C4, C3, C2, C1. reflexivity.
  - rewrite T4, T3, T2, T1. reflexivity.
  - intros s ->. reflexivity.
Qed.
