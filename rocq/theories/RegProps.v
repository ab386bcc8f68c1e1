(** C25, C26: the registries are maps. *)
From Verif Require Import Base NamesModel RegModel RegProofs.
Local Open Scope string_scope.
Local Open Scope list_scope.
Local Open Scope nat_scope.

(** A set of names that the hash tells apart (and none of which hashes to zero). *)
Definition told_apart (U : list string) : Prop :=
  (forall a b, a ∈ U -> b ∈ U -> name_hash a = name_hash b -> a = b) /\ (forall a, a ∈ U -> name_hash a <> 0%Z).

(** ---- specification of the function tables: a map from (table name, key) to functions ---- *)
Inductive vop (F : Type) := VAdd (t : string) (f : F) (k : Z) | VDrop (t : string) (k : Z).
Arguments VAdd {F}.  Arguments VDrop {F}.
Definition vop_tab {F} (o : vop F) : string := match o with VAdd t _ _ => t | VDrop t _ => t end.
Definition vmap (F : Type) := string -> Z -> option F.
Definition vempty {F} : vmap F := fun _ _ => None.
Definition vset {F} (m : vmap F) t k o : vmap F := fun t' k' => if (String.eqb t' t && Z.eqb k' k)%bool then o else m t' k'.
(** the first registration under a key stays until it is dropped *)
Definition vspec {F} (m : vmap F) (o : vop F) : vmap F :=
  match o with
  | VAdd t f k => vset m t k (Some (match m t k with Some old => old | None => f end))
  | VDrop t k => vset m t k None
  end.
(** the code's run; the unspecified values met along the way (one per operation) are arbitrary *)
Definition vstep {F} (null : F) (s : vstate F) (oj : vop F * (Z * F)) : vstate F :=
  match fst oj with VAdd t f k => vadd null (snd oj) s t f k | VDrop t k => snd (vdrop (snd oj) s t k) end.
Definition vrun {F} (null : F) (ops : list (vop F * (Z * F))) : vstate F := fold_left (vstep null) ops None.

Lemma C25_sim {F} (null : F) U : told_apart U -> forall ops s (m : vmap F),
  sok s -> (forall t k, t ∈ U -> slook s (name_hash t) k = m t k) -> Forall (fun oj => vop_tab (fst oj) ∈ U) ops ->
  sok (fold_left (vstep null) ops s) /\
  forall t k, t ∈ U -> slook (fold_left (vstep null) ops s) (name_hash t) k = fold_left vspec (map fst ops) m t k.
Proof.
  intros [Hinj Hnz]. induction ops as [|[o j] ops IH]; intros s m Hs HR HU; [auto|]. inversion HU as [|? ? Ho HU']; subst. cbn [fold_left map fst].
  cbn [fst] in Ho. apply IH; auto; clear IH.
  - destruct o as [t f k|t k]; cbn in *; [apply vadd_spec; auto|apply (vdrop_spec j s t k); auto].
  - intros t' k' Ht'. destruct o as [t f k|t k]; cbn [vstep fst snd vop_tab vspec] in *.
    + destruct (vadd_spec null j s t f k Hs (Hnz t Ho)) as [_ H]. rewrite H by auto. unfold vset.
      assert ((name_hash t' =? name_hash t)%Z = (t' =? t)%string) as ->.
      { destruct (String.eqb_spec t' t) as [->|N]; [apply Z.eqb_refl|]. apply Z.eqb_neq. auto. }
      rewrite HR by auto. destruct (String.eqb_spec t' t) as [->|]; cbn; [|auto]. destruct (Z.eqb_spec k' k) as [->|]; [|auto].
      destruct (m t k); auto.
    + destruct (vdrop_spec j s t k Hs (Hnz t Ho)) as (_ & _ & _ & H). rewrite H by auto. unfold vset.
      assert ((name_hash t' =? name_hash t)%Z = (t' =? t)%string) as ->.
      { destruct (String.eqb_spec t' t) as [->|N]; [apply Z.eqb_refl|]. apply Z.eqb_neq. auto. }
      rewrite HR by auto. auto.
Qed.
Lemma C25_aux {F} (null : F) U ops : told_apart U -> Forall (fun oj => vop_tab (fst oj) ∈ U) ops -> forall t k, t ∈ U ->
  let m := fold_left vspec (map fst ops) vempty in
  vget null (vrun null ops) t k = match m t k with Some f => f | None => null end /\
  (forall junk, fst (fst (vdrop junk (vrun null ops) t k)) = match m t k with Some _ => 0 | None => 1 end).
Proof.
  intros HU Hops t k Ht m. destruct (C25_sim null U HU ops None vempty I (fun _ _ _ => eq_refl) Hops) as [Hs HR].
  specialize (HR t k Ht). pose proof (proj2 HU t Ht) as Hnz. unfold vrun. split.
  - rewrite vget_spec by auto. rewrite HR. unfold m. destruct (fold_left vspec (map fst ops) vempty t k); auto.
  - intros junk. destruct (vdrop_spec junk _ t k Hs Hnz) as (_ & H1 & H2 & _). rewrite HR in H1. fold m in H1.
    destruct (m t k); [apply H1; discriminate|]. destruct H2 as [H2|H2]; auto. apply H1 in H2. congruence.
Qed.
(** C25: whatever the history of registrations and removals, and whatever the memory read by mistake contains, a
    lookup gives the function registered and not since dropped, or NULL; and a removal reports whether there was
    one. *)
Theorem C25_registry_is_a_map : forall F (null : F) U ops, told_apart U -> Forall (fun oj => vop_tab (fst oj) ∈ U) ops -> forall t k, t ∈ U ->
  let m := fold_left vspec (map fst ops) vempty in
  vget null (vrun null ops) t k = match m t k with Some f => f | None => null end /\
  (forall junk, fst (fst (vdrop junk (vrun null ops) t k)) = match m t k with Some _ => 0 | None => 1 end).
Proof. exact @C25_aux. Qed.
Print Assumptions C25_registry_is_a_map.

Definition table_names : list string :=
  ["apop_update"; "apop_score"; "apop_predict"; "apop_parameter_model"; "apop_model_print"; "apop_entropy"].
Lemma inj_nodup U : NoDup (map name_hash U) -> forall a b, a ∈ U -> b ∈ U -> name_hash a = name_hash b -> a = b.
Proof.
  induction U as [|x U IH]; intros Hn a b Ha Hb E; [inversion Ha|]. cbn in Hn. inversion Hn; subst.
  apply elem_of_cons in Ha as [-> | Ha]; apply elem_of_cons in Hb as [-> | Hb]; auto.
  - destruct H1. apply elem_of_list_fmap. exists b. auto.
  - destruct H1. apply elem_of_list_fmap. exists a. auto.
Qed.
(** The tables of the library are told apart. *)
Theorem C25_library_tables_told_apart : told_apart table_names.
Proof.
  split.
  - apply inj_nodup. apply (bool_decide_eq_true_1 (NoDup (map name_hash table_names))). vm_compute. reflexivity.
  - intros a Ha. assert (Forall (fun a => name_hash a <> 0%Z) table_names) as HF.
    { repeat (constructor; [vm_compute; discriminate|]). constructor. }
    exact (proj1 (List.Forall_forall _ _) HF a (proj1 (elem_of_list_In _ _) Ha)).
Qed.
Print Assumptions C25_library_tables_told_apart.
Example C25_nonvacuous :
  vget 0 (vrun 0 [(VAdd "apop_score" 5 77%Z, (0%Z, 9)); (VAdd "apop_score" 6 77%Z, (0%Z, 9)); (VAdd "apop_update" 7 77%Z, (0%Z, 9));
                  (VAdd "apop_score" 8 78%Z, (0%Z, 9)); (VDrop "apop_update" 77%Z, (0%Z, 9))]) "apop_score" 77%Z = 5 /\
  vget 0 (vrun 0 [(VAdd "apop_update" 7 77%Z, (0%Z, 9)); (VDrop "apop_update" 77%Z, (0%Z, 9))]) "apop_update" 77%Z = 0.
Proof. vm_compute. auto. Qed.
(** C25: a second registration under the same key is ignored without notice. *)
Theorem C25_second_add_ignored : forall F (null : F) U ops t f g k junk, told_apart U -> Forall (fun oj => vop_tab (fst oj) ∈ U) ops -> t ∈ U ->
  fold_left vspec (map fst ops) vempty t k = Some f -> vget null (vrun null (ops ++ [(VAdd t g k, junk)])) t k = f.
Proof.
  intros F null U ops t f g k junk HU Hops Ht Hf.
  destruct (C25_aux null U (ops ++ [(VAdd t g k, junk)]) HU) with (t := t) (k := k) as [H _]; auto.
  { apply Forall_app. auto. }
  rewrite H, map_app, fold_left_app. cbn. rewrite Hf. unfold vset. rewrite String.eqb_refl, Z.eqb_refl. auto.
Qed.
Print Assumptions C25_second_add_ignored.
(** C25: a removal right after a registration reads one element past the end of the table's array. *)
Theorem C25_drop_reads_outside_refuted : forall F (null : F) junk0 junk t f k,
  snd (fst (vdrop junk (vadd null junk0 None t f k) t k)) = true.
Proof.
  intros F null junk0 junk t f k. unfold vadd, vdrop. cbn [default from_option find_tab tab_at lookup list_lookup no_tab vhash take app].
  cbn. destruct (Z.eqb_spec (name_hash t) 0) as [E|E]; cbn.
  - rewrite Z.eqb_refl. cbn. auto.
  - rewrite Z.eqb_refl. cbn. rewrite Z.eqb_refl. cbn. auto.
Qed.
Print Assumptions C25_drop_reads_outside_refuted.
(** C25: two tables whose names have the same hash are one table. *)
Theorem C25_hash_collision_refuted : name_hash "Ab" = name_hash "BA" /\
  vget 0 (vrun 0 [(VAdd "Ab" 5 77%Z, (0%Z, 9))]) "BA" 77%Z = 5.
Proof. vm_compute. auto. Qed.
Print Assumptions C25_hash_collision_refuted.

(** ---- settings groups: specification, a map from group names to (copy function, group) ---- *)
Inductive sop (G : Type) := SAdd (t : string) (cp : option (G -> G)) (g : G) | SRm (t : string).
Arguments SAdd {G}.  Arguments SRm {G}.
Definition sop_name {G} (o : sop G) : string := match o with SAdd t _ _ => t | SRm t => t end.
Definition smap (G : Type) := string -> option (option (G -> G) * G).
Definition sput {G} (m : smap G) t o : smap G := fun t' => if String.eqb t' t then o else m t'.
(** state and log of freed groups *)
Definition sspec {G} (ml : smap G * list G) (o : sop G) : smap G * list G :=
  let freed t := match fst ml t with Some (_, g) => [g] | None => [] end in
  match o with
  | SAdd t cp g => (sput (fst ml) t (Some (cp, g)), snd ml ++ freed t)
  | SRm t => (sput (fst ml) t None, snd ml ++ freed t)
  end.
Definition sstep {G} (null : G) (s : settings G) (o : sop G) : res (settings G * list G) :=
  match o with SAdd t cp g => group_alloc null s t cp g | SRm t => remove_group s t end.
Fixpoint srun {G} (null : G) (ops : list (sop G)) (s : settings G) (log : list G) : res (settings G * list G) :=
  match ops with
  | [] => Ok (s, log)
  | o :: ops' => do r <- sstep null s o; srun null ops' (fst r) (log ++ snd r)
  end.
Definition usable (U : list string) : Prop :=
  (forall a b, a ∈ U -> b ∈ U -> name_hash a = name_hash b -> a = b) /\ (forall a, a ∈ U -> a <> "").

Definition represents {G} (U : list string) (lv : list (sentry G)) (m : smap G) : Prop :=
  NoDup (map shash lv) /\
  (forall t, t ∈ U -> option_map (fun e => (scopy e, sgroup e)) (elook (name_hash t) lv) = m t) /\
  Forall (fun e => exists t, t ∈ U /\ sname e = substring 0 100 t /\ shash e = name_hash t) lv.

Lemma represents_add {G} U lv (m : smap G) t cp (g : G) : usable U -> t ∈ U -> represents U lv m ->
  represents U (others (name_hash t) lv ++ [Se (substring 0 100 t) (name_hash t) g cp]) (sput m t (Some (cp, g))).
Proof.
  intros [Hinj _] Ht (Hn & HR & HF). destruct (others_hash (name_hash t) lv Hn) as [H1 H2]. split; [|split].
  - rewrite map_app. apply NoDup_app. split; [auto|]. split; [|apply NoDup_singleton].
    intros x Hx Hx'. apply elem_of_list_singleton in Hx'. cbn in Hx'. subst. auto.
  - intros t' Ht'. rewrite elook_app, elook_others_spec. cbn. unfold sput. destruct (String.eqb_spec t' t) as [->|N].
    + rewrite Z.eqb_refl. auto.
    + destruct (Z.eqb_spec (name_hash t') (name_hash t)) as [E|E]; [destruct N; auto|]. rewrite <- HR by auto.
      destruct (elook (name_hash t') lv); auto.
  - apply Forall_app. split; [|constructor; [exists t; auto|auto]]. unfold others. clear -HF.
    induction HF; cbn; auto. destruct (negb _); auto.
Qed.
Lemma represents_rm {G} U lv (m : smap G) t : usable U -> t ∈ U -> represents U lv m ->
  represents U (others (name_hash t) lv) (sput m t None).
Proof.
  intros [Hinj _] Ht (Hn & HR & HF). destruct (others_hash (name_hash t) lv Hn) as [H1 H2]. split; [auto|split].
  - intros t' Ht'. rewrite elook_others_spec. unfold sput. destruct (String.eqb_spec t' t) as [->|N].
    + rewrite Z.eqb_refl. auto.
    + destruct (Z.eqb_spec (name_hash t') (name_hash t)) as [E|E]; [destruct N; auto|]. auto.
  - unfold others. clear -HF. induction HF; cbn; auto. destruct (negb _); auto.
Qed.
Lemma C26_sim {G} (null : G) U : usable U -> forall ops s lv m log,
  shows_entries s lv -> represents U lv m -> Forall (fun o => sop_name o ∈ U) ops ->
  exists s' lv', srun null ops s log = Ok (s', snd (fold_left sspec ops (m, log))) /\ shows_entries s' lv' /\
    represents U lv' (fst (fold_left sspec ops (m, log))).
Proof.
  intros HU. induction ops as [|o ops IH]; intros s lv m log Hs HR Hops; [cbn; eauto|].
  inversion Hops as [|? ? Ho Hops']; subst. cbn [srun fold_left].
  assert (Hfree : forall t, t ∈ U -> those (name_hash t) lv = match m t with Some (_, g) => [g] | None => [] end).
  { intros t Ht. destruct HR as (Hn & HR & _). rewrite those_spec by auto. rewrite <- (HR t Ht). destruct (elook _ lv); auto. }
  destruct o as [t cp g|t]; cbn [sop_name sstep sspec fst snd] in *.
  - destruct (alloc_spec null s lv t cp g Hs (proj2 HU t Ho)) as (s1 & -> & H1). cbn [rbind fst snd]. rewrite Hfree by auto.
    destruct (IH s1 _ _ (log ++ match m t with Some (_, g) => [g] | None => [] end) H1 (represents_add U lv m t cp g HU Ho HR) Hops')
      as (s2 & lv2 & -> & H2 & H3). exists s2, lv2. auto.
  - destruct (remove_spec s lv t Hs) as (s1 & -> & H1). cbn [rbind fst snd]. rewrite Hfree by auto.
    destruct (IH s1 _ _ (log ++ match m t with Some (_, g) => [g] | None => [] end) H1 (represents_rm U lv m t HU Ho HR) Hops')
      as (s2 & lv2 & -> & H2 & H3). exists s2, lv2. auto.
Qed.
Definition noset {G} : smap G := fun _ => None.
Lemma C26_start {G} U : represents U (@nil (sentry G)) noset.
Proof. split; [constructor|]. split; [auto|constructor]. Qed.
Lemma C26_aux {G} (null : G) U ops : usable U -> Forall (fun o => sop_name o ∈ U) ops ->
  let m := fold_left sspec ops (noset, []) in
  exists s, srun null ops None [] = Ok (s, snd m) /\ forall t, t ∈ U -> get_grp s t = Ok (option_map snd (fst m t)).
Proof.
  intros HU Hops m. destruct (C26_sim null U HU ops None [] noset [] eq_refl (C26_start U) Hops) as (s & lv & Hr & Hs & (Hn & HR & _)).
  exists s. split; [exact Hr|]. intros t Ht. unfold get_grp. rewrite (get_entry_spec s lv) by auto. cbn [rbind]. unfold m.
  rewrite <- (HR t Ht). destruct (elook _ lv); auto.
Qed.
(** C26: after any history of additions and removals, the group found under a name is the last one added and not
    removed; replaced and removed groups, and no others, have been freed, once each. *)
Theorem C26_settings_are_a_map : forall G (null : G) U ops, usable U -> Forall (fun o => sop_name o ∈ U) ops ->
  let m := fold_left sspec ops (noset, []) in
  exists s, srun null ops None [] = Ok (s, snd m) /\ forall t, t ∈ U -> get_grp s t = Ok (option_map snd (fst m t)).
Proof. exact @C26_aux. Qed.
Print Assumptions C26_settings_are_a_map.

Lemma C26_copy_aux {G} (null : G) U ops s log : usable U -> Forall (fun o => sop_name o ∈ U) ops ->
  (forall t, t ∈ U -> String.length t <= 100) -> srun null ops None [] = Ok (s, log) ->
  exists s', model_copy_settings null s = Ok (s', false) /\
    forall t, t ∈ U -> get_grp s' t = Ok (match fst (fold_left sspec ops (noset, [])) t with
                                         | Some (Some cp, g) => Some (cp g) | Some (None, g) => Some g | None => None end).
Proof.
  intros HU Hops Hlen Hrun. destruct (C26_sim null U HU ops None [] noset [] eq_refl (C26_start U) Hops) as (s1 & lv & Hr & Hs & (Hn & HR & HF)).
  rewrite Hrun in Hr. injection Hr as <- Hlog.
  assert (exists s', model_copy_settings null s = Ok (s', false) /\ shows_entries s' (map copied lv)) as (s' & E & Hs').
  { destruct s as [a|]; cbn in Hs.
    - destruct Hs as (z & rest & -> & Hz & Hnm). cbn [model_copy_settings].
      assert (Forall plain lv) as Hp.
      { apply List.Forall_forall. intros e He. destruct (proj1 (List.Forall_forall _ _) HF e He) as (t & Ht & E1 & E2).
        split; [exact (proj1 (List.Forall_forall _ _) Hnm e He)|]. rewrite (substring_all t 100 (Hlen t Ht)) in E1. rewrite E1, E2. auto. }
      apply (copy_all_spec null (Some (lv ++ z :: rest)) lv ltac:(exists z, rest; auto) Hn Hp lv [] z rest None eq_refl Hz ltac:(discriminate) eq_refl).
    - subst lv. exists None. cbn. auto. }
  exists s'. split; [auto|]. intros t Ht. unfold get_grp. rewrite (get_entry_spec s' (map copied lv)) by auto. cbn [rbind].
  rewrite elook_copied, <- (HR t Ht). destruct (elook (name_hash t) lv) as [e|]; auto. cbn. destruct (scopy e); auto.
Qed.
(** C26: copying a model copies each of its groups, by the group's copy function, and adds no other. *)
Theorem C26_model_copy : forall G (null : G) U ops s log, usable U -> Forall (fun o => sop_name o ∈ U) ops ->
  (forall t, t ∈ U -> String.length t <= 100) -> srun null ops None [] = Ok (s, log) ->
  exists s', model_copy_settings null s = Ok (s', false) /\
    forall t, t ∈ U -> get_grp s' t = Ok (match fst (fold_left sspec ops (noset, [])) t with
                                         | Some (Some cp, g) => Some (cp g) | Some (None, g) => Some g | None => None end).
Proof. exact @C26_copy_aux. Qed.
Print Assumptions C26_model_copy.

Definition group_names : list string :=
  ["apop_mle"; "apop_mcmc"; "apop_lm"; "apop_pm"; "apop_pmf"; "apop_kernel_density"; "apop_loess"; "apop_cdf"; "apop_arms"; "apop_mixture";
   "apop_cross"; "apop_dconstrain"; "apop_parts_wanted"; "apop_fix_params"; "apop_coordinate_transform"].
Theorem C26_library_groups_usable : usable group_names.
Proof.
  split.
  - apply inj_nodup. apply (bool_decide_eq_true_1 (NoDup (map name_hash group_names))). vm_compute. reflexivity.
  - intros a Ha. assert (Forall (fun a => a <> "") group_names) as HF by (repeat (constructor; [discriminate|]); constructor).
    exact (proj1 (List.Forall_forall _ _) HF a (proj1 (elem_of_list_In _ _) Ha)).
Qed.
Print Assumptions C26_library_groups_usable.
Definition run_view {G} (r : res (settings G * list G)) : settings G := match r with Ok (s, _) => s | _ => None end.
Definition ex_set : settings nat :=
  run_view (srun 0 [SAdd "apop_mle" None 1; SAdd "apop_lm" (Some S) 2; SAdd "apop_mle" None 3; SRm "apop_pm"] None []).
Example C26_nonvacuous :
  get_grp ex_set "apop_mle" = Ok (Some 3) /\ get_grp ex_set "apop_lm" = Ok (Some 2) /\ get_grp ex_set "apop_pm" = Ok None /\
  (do r <- srun 0 [SAdd "apop_mle" None 1; SAdd "apop_lm" (Some S) 2; SAdd "apop_mle" None 3; SRm "apop_pm"] None []; Ok (snd r)) = Ok [1] /\
  (do r <- model_copy_settings 0 ex_set; get_grp (fst r) "apop_lm") = Ok (Some 3).
Proof. repeat split; vm_compute; reflexivity. Qed.
(** C26: two names with the same hash name the same group. *)
Theorem C26_hash_collision_refuted : name_hash "Ab" = name_hash "BA" /\
  (do r <- srun 0 [SAdd "Ab" None 1] None []; get_grp (fst r) "BA") = Ok (Some 1).
Proof. split; vm_compute; reflexivity. Qed.
Print Assumptions C26_hash_collision_refuted.
(** C26: a group whose name has more than 100 characters is not copied with the model: error 's'. *)
Definition name101 : string := String.concat "" (repeat "a" 101).
Definition long_set : settings nat := run_view (srun 0 [SAdd name101 None 1] None []).
Theorem C26_long_name_copy_refuted : get_grp long_set name101 = Ok (Some 1) /\
  (do r <- model_copy_settings 0 long_set; do g <- get_grp (fst r) name101; Ok (snd r, g)) = Ok (true, None).
Proof. split; vm_compute; reflexivity. Qed.
Print Assumptions C26_long_name_copy_refuted.
