(** C01, C02: name lookup and name lists. *)
From Verif Require Import NamesProofs.

(** A name set a user can build with apop_name_alloc, apop_name_add, apop_name_stack, apop_name_copy. *)
Inductive built : names -> Prop :=
| built_alloc : built name_alloc
| built_add n s t : built n -> built (fst (name_add n s t))
| built_stack n m t1 t2 : built n -> built m -> built (name_stack n m t1 t2)
| built_copy n : built n -> built (name_copy n).

Lemma built_fresh n : built n -> hashes_ok n.
Proof.
  induction 1 as [|n s t _ IH|n m t1 t2 _ IH1 _ IH2|n _ IH].
  - apply fresh_alloc.
  - apply name_add_fresh; auto.
  - unfold name_stack. destruct (t2 =? "v")%char; [apply name_add_fresh; auto|].
    destruct (t2 =? "r")%char; [apply add_all_fresh; auto|].
    destruct (t2 =? "t")%char; [apply add_all_fresh; auto|].
    destruct (t2 =? "c")%char; [apply add_all_fresh; auto|]. auto.
  - apply name_copy_spec.
Qed.

(** The list of names a type letter asks for: r/R rows, t/T text columns, anything else columns. *)
Definition asked (n : names) (t : ascii) : list string :=
  if (t =? "r")%char || (t =? "R")%char then rown n
  else if (t =? "t")%char || (t =? "T")%char then txtn n else coln n.
Definition asks_columns (t : ascii) : Prop := t = "c"%char \/ t = "C"%char.

Lemma asked_searched n t : searched n t = asked n t.
Proof. unfold searched, asked, list_of, is_r, is_t. destruct (_ || _); [reflexivity|]. destruct (_ || _); reflexivity. Qed.
Lemma asks_is_c t : is_c t = true <-> asks_columns t.
Proof. unfold is_c, asks_columns. rewrite orb_true_iff, !Ascii.eqb_eq. tauto. Qed.

Lemma C01_find_aux n name t : built n ->
  exists z, name_find n name t = Ok z /\
    ((0 <= z)%Z -> exists s, asked n t !! Z.to_nat z = Some s /\ ci_eq name s = true) /\
    (z = (-1)%Z <-> (asks_columns t /\ (forall s, s ∈ asked n t -> ci_eq name s = false) /\
                     exists v, vecn n = Some v /\ ci_eq name v = true)) /\
    (z = (-2)%Z <-> ((forall s, s ∈ asked n t -> ci_eq name s = false) /\
                     (asks_columns t -> forall v, vecn n = Some v -> ci_eq name v = false))) /\
    (-2 <= z)%Z.
Proof.
  intros Hb. destruct (name_find_spec n name t (fresh_readable _ (built_fresh _ Hb))) as (z & Hz & Hcase).
  exists z; split; auto. rewrite asked_searched in Hcase.
  assert (nowhere (ci_eq name) (asked n t) <-> forall s, s ∈ asked n t -> ci_eq name s = false) as Hn.
  { unfold nowhere. split.
    - intros H s Hs. apply elem_of_list_lookup in Hs as [j Hj]. eauto.
    - intros H j s Hj. apply H. eapply elem_of_list_lookup_2; eauto. }
  destruct Hcase as [(i & s & -> & Hi & Hc)|[(-> & Hnw & Ht & v & Hv & Hvc)|(-> & Hnw & Hv)]].
  - split; [|split; [|split; [|lia]]].
    + intros _. rewrite Nat2Z.id. eauto.
    + split; [lia|]. intros (_ & H & _). rewrite (H s) in Hc; [discriminate|]. eapply elem_of_list_lookup_2; eauto.
    + split; [lia|]. intros (H & _). rewrite (H s) in Hc; [discriminate|]. eapply elem_of_list_lookup_2; eauto.
  - pose proof (proj1 Hn Hnw) as Hnw'. apply asks_is_c in Ht.
    split; [lia|split; [|split; [|lia]]].
    + split; auto. intros _. eauto.
    + split; [lia|]. intros (_ & H). rewrite (H Ht v Hv) in Hvc. discriminate.
  - pose proof (proj1 Hn Hnw) as Hnw'. split; [lia|split; [|split; [|lia]]].
    + split; [lia|]. intros (Ht & _ & v & Hv' & Hvc). rewrite Hv in Hvc; [discriminate| |auto]. apply asks_is_c; auto.
    + split; auto. intros _. split; auto. intros Ht. apply asks_is_c in Ht. auto.
Qed.

(** C01: apop_name_find always returns; a result >= 0 is the position of a case-insensitive match; -1 exactly
    when a column is asked for, none matches and the vector's name does; -2 exactly when nothing matches. *)
Theorem C01_name_find_sound_complete : forall n name t, built n ->
  exists z, name_find n name t = Ok z /\
    ((0 <= z)%Z -> exists s, asked n t !! Z.to_nat z = Some s /\ ci_eq name s = true) /\
    (z = (-1)%Z <-> (asks_columns t /\ (forall s, s ∈ asked n t -> ci_eq name s = false) /\
                     exists v, vecn n = Some v /\ ci_eq name v = true)) /\
    (z = (-2)%Z <-> ((forall s, s ∈ asked n t -> ci_eq name s = false) /\
                     (asks_columns t -> forall v, vecn n = Some v -> ci_eq name v = false))) /\
    (-2 <= z)%Z.
Proof. exact C01_find_aux. Qed.
Print Assumptions C01_name_find_sound_complete.

Lemma C01_exact_aux n name t : built n -> String.length name <= 12 -> name ∈ asked n t ->
  exists i, name_find n name t = Ok (Z.of_nat i) /\ asked n t !! i = Some name /\
            forall j, j < i -> asked n t !! j <> Some name.
Proof.
  intros Hb Hl Hin. rewrite <- asked_searched in *.
  destruct (name_find_exact_short n name t (built_fresh _ Hb) Hl Hin) as (i & Hi & (s & Hs & He) & Hbef).
  exists i. apply String.eqb_eq in He. subst s. split; auto. split; auto.
  intros j Hj Hn. specialize (Hbef j name Hj Hn). rewrite String.eqb_refl in Hbef. discriminate.
Qed.
(** C01: the first exact (case-sensitive) match is preferred, for names of at most 12 characters. *)
Theorem C01_exact_match_preferred : forall n name t, built n ->
  String.length name <= 12 -> name ∈ asked n t ->
  exists i, name_find n name t = Ok (Z.of_nat i) /\ asked n t !! i = Some name /\
            forall j, j < i -> asked n t !! j <> Some name.
Proof. exact C01_exact_aux. Qed.
Print Assumptions C01_exact_match_preferred.

(** For long names the hash does not tell case variants apart: a 256-letter Thue-Morse name and its case
    complement have the same hash, and the wrong one is returned. *)
Fixpoint thue_morse (k : nat) (b : bool) : string :=
  match k with
  | 0 => if b then "a" else "A"
  | S k' => thue_morse k' b ++ thue_morse k' (negb b)
  end%string.
Theorem C01_exact_match_refuted : exists n name, built n /\ name ∈ asked n "c" /\
  exists i, name_find n name "c" = Ok (Z.of_nat i) /\ asked n "c" !! i <> Some name.
Proof.
  exists (add1 (add1 name_alloc (thue_morse 8 true) "c") (thue_morse 8 false) "c"), (thue_morse 8 false).
  split; [repeat constructor|]. split.
  - unfold asked. cbn -[thue_morse]. right; left.
  - exists 0. split; [vm_compute; reflexivity|]. vm_compute. congruence.
Qed.
Print Assumptions C01_exact_match_refuted.

Example C01_nonvacuous :
  let n := add1 (add1 (add1 (add1 name_alloc "Wt" "v") "Ab" "c") "ab" "c") "z" "r" in
  built n /\ name_find n "ab" "c" = Ok 1%Z /\ name_find n "AB" "c" = Ok 0%Z /\
  name_find n "wT" "c" = Ok (-1)%Z /\ name_find n "wT" "r" = Ok (-2)%Z.
Proof. intros n. split; [repeat apply built_add; constructor|vm_compute; auto]. Qed.

(** C02.  The lists of a name set, for stating what changes and what does not. *)
Definition shows (n : names) (ti v : option string) (r c t : list string) : Prop :=
  title n = ti /\ vecn n = v /\ rown n = r /\ coln n = c /\ txtn n = t.

Lemma C02_add_aux n s :
  (shows (fst (name_add n (Some s) "h")) (Some s) (vecn n) (rown n) (coln n) (txtn n) /\
   snd (name_add n (Some s) "h") = 1%Z) /\
  (shows (fst (name_add n (Some s) "v")) (title n) (Some s) (rown n) (coln n) (txtn n) /\
   snd (name_add n (Some s) "v") = 1%Z) /\
  (shows (fst (name_add n (Some s) "r")) (title n) (vecn n) (rown n ++ [s]) (coln n) (txtn n) /\
   snd (name_add n (Some s) "r") = Z.of_nat (length (rown n) + 1)) /\
  (shows (fst (name_add n (Some s) "t")) (title n) (vecn n) (rown n) (coln n) (txtn n ++ [s]) /\
   snd (name_add n (Some s) "t") = Z.of_nat (length (txtn n) + 1)) /\
  (forall ty, ty ∉ ["h"; "v"; "r"; "t"]%char ->
   shows (fst (name_add n (Some s) ty)) (title n) (vecn n) (rown n) (coln n ++ [s]) (txtn n) /\
   snd (name_add n (Some s) ty) = Z.of_nat (length (coln n) + 1)) /\
  (forall ty, name_add n None ty = (n, (-1)%Z)).
Proof.
  unfold shows.
  repeat (split; [cbn; rewrite ?app_length; cbn; repeat split; auto; f_equal; lia|]).
  split; [|reflexivity].
  intros ty Hty. unfold name_add.
  destruct (ty =? "h")%char eqn:E1; [apply Ascii.eqb_eq in E1; subst; exfalso; apply Hty; repeat constructor|].
  destruct (ty =? "v")%char eqn:E2; [apply Ascii.eqb_eq in E2; subst; exfalso; apply Hty; repeat constructor|].
  destruct (ty =? "r")%char eqn:E3; [apply Ascii.eqb_eq in E3; subst; exfalso; apply Hty; repeat constructor|].
  destruct (ty =? "t")%char eqn:E4; [apply Ascii.eqb_eq in E4; subst; exfalso; apply Hty; repeat constructor|].
  cbn. rewrite app_length. cbn. repeat split; auto.
Qed.
(** C02: apop_name_add appends to the requested list (or sets title/vector name), touches nothing else and
    returns the new count. *)
Theorem C02_name_add : forall n s,
  (shows (fst (name_add n (Some s) "h")) (Some s) (vecn n) (rown n) (coln n) (txtn n) /\
   snd (name_add n (Some s) "h") = 1%Z) /\
  (shows (fst (name_add n (Some s) "v")) (title n) (Some s) (rown n) (coln n) (txtn n) /\
   snd (name_add n (Some s) "v") = 1%Z) /\
  (shows (fst (name_add n (Some s) "r")) (title n) (vecn n) (rown n ++ [s]) (coln n) (txtn n) /\
   snd (name_add n (Some s) "r") = Z.of_nat (length (rown n) + 1)) /\
  (shows (fst (name_add n (Some s) "t")) (title n) (vecn n) (rown n) (coln n) (txtn n ++ [s]) /\
   snd (name_add n (Some s) "t") = Z.of_nat (length (txtn n) + 1)) /\
  (forall ty, ty ∉ ["h"; "v"; "r"; "t"]%char ->
   shows (fst (name_add n (Some s) ty)) (title n) (vecn n) (rown n) (coln n ++ [s]) (txtn n) /\
   snd (name_add n (Some s) ty) = Z.of_nat (length (coln n) + 1)) /\
  (forall ty, name_add n None ty = (n, (-1)%Z)).
Proof. exact C02_add_aux. Qed.
Print Assumptions C02_name_add.

(** the list of [nadd] that the letter [typeadd] of apop_name_stack designates *)
Definition stacked_list (nadd : names) (ta : ascii) : list string :=
  if (ta =? "r")%char then rown nadd else if (ta =? "t")%char then txtn nadd
  else if (ta =? "c")%char then coln nadd else [].
Lemma C02_stack_aux n nadd ta : ta ∈ ["r"; "c"; "t"]%char ->
  shows (name_stack n nadd "r" ta) (title n) (vecn n) (rown n ++ stacked_list nadd ta) (coln n) (txtn n) /\
  shows (name_stack n nadd "c" ta) (title n) (vecn n) (rown n) (coln n ++ stacked_list nadd ta) (txtn n) /\
  shows (name_stack n nadd "t" ta) (title n) (vecn n) (rown n) (coln n) (txtn n ++ stacked_list nadd ta).
Proof.
  intros H.
  assert (forall t1, name_stack n nadd t1 ta = add_all n (stacked_list nadd ta) t1) as E.
  { intros t1. rewrite !elem_of_cons, elem_of_nil in H. destruct H as [->|[->|[->|[]]]]; reflexivity. }
  rewrite !E. unfold shows.
  destruct (add_all_row n (stacked_list nadd ta)) as (?&?&?&?&?&?&?).
  destruct (add_all_col n (stacked_list nadd ta)) as (?&?&?&?&?&?&?).
  destruct (add_all_txt n (stacked_list nadd ta)) as (?&?&?&?&?&?&?).
  repeat split; auto.
Qed.
(** C02: apop_name_stack appends the designated list of the source, in order, and touches nothing else (the
    source may be the destination: take [nadd := n]). *)
Theorem C02_name_stack : forall n nadd ta, ta ∈ ["r"; "c"; "t"]%char ->
  shows (name_stack n nadd "r" ta) (title n) (vecn n) (rown n ++ stacked_list nadd ta) (coln n) (txtn n) /\
  shows (name_stack n nadd "c" ta) (title n) (vecn n) (rown n) (coln n ++ stacked_list nadd ta) (txtn n) /\
  shows (name_stack n nadd "t" ta) (title n) (vecn n) (rown n) (coln n) (txtn n ++ stacked_list nadd ta).
Proof. exact C02_stack_aux. Qed.
Print Assumptions C02_name_stack.

Lemma C02_stack_v_aux n nadd t1 :
  shows (name_stack n nadd t1 "v") (title n) (match vecn nadd with Some v => Some v | None => vecn n end)
        (rown n) (coln n) (txtn n).
Proof. unfold shows, name_stack. cbn. destruct (vecn nadd); repeat split. Qed.
Theorem C02_name_stack_vector : forall n nadd t1,
  shows (name_stack n nadd t1 "v") (title n) (match vecn nadd with Some v => Some v | None => vecn n end)
        (rown n) (coln n) (txtn n).
Proof. exact C02_stack_v_aux. Qed.
Print Assumptions C02_name_stack_vector.

Lemma C02_copy_aux n s : title n = Some s ->
  shows (name_copy n) (Some s) (vecn n) (rown n) (coln n) (txtn n).
Proof. intros H. destruct (name_copy_spec n) as (?&?&?&?&Ht&_). unfold shows. repeat split; auto. Qed.
(** C02: apop_name_copy duplicates everything; a NULL title is not preserved (C02_copy_title_refuted). *)
Theorem C02_name_copy : forall n s, title n = Some s ->
  shows (name_copy n) (Some s) (vecn n) (rown n) (coln n) (txtn n).
Proof. exact C02_copy_aux. Qed.
Print Assumptions C02_name_copy.
Theorem C02_copy_title_refuted : exists n, built n /\ title n = None /\ title (name_copy n) = Some "(null)"%string.
Proof. exists name_alloc. repeat split. constructor. Qed.
Print Assumptions C02_copy_title_refuted.

Example C02_nonvacuous :
  let n := add1 (add1 (add1 name_alloc "T" "h") "r0" "r") "c0" "c" in
  shows (name_stack n n "r" "c") (Some "T"%string) None ["r0"%string; "c0"%string] ["c0"%string] [] /\
  shows (name_copy n) (Some "T"%string) None ["r0"%string] ["c0"%string] [].
Proof. repeat split. Qed.
