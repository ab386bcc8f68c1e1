(** C12, C13, C16 (matrix), C17, C18: element access, named elements, transposition, pages, views. *)
From Verif Require Import StackProofs DataProps NamesProps NamesProofs DataModel.
Local Open Scope string_scope.
Local Open Scope list_scope.
Local Open Scope nat_scope.

(** ---------- C12 ---------- *)

(** Where (row, col) lives: a vector entry, a matrix cell, or nowhere. *)
Inductive place := InVec (i : nat) | InMat (i j : nat) | Nowhere.
Global Instance place_dec : EqDecision place.
Proof. solve_decision. Defined.
Definition where_is {E} (p : page E) (row col : Z) : place :=
  match vect p, mat p with
  | Some v, Some m =>
      if (col =? -1)%Z then if (0 <=? row)%Z && (row <? Z.of_nat (length v))%Z then InVec (Z.to_nat row) else Nowhere
      else if (0 <=? row)%Z && (row <? Z.of_nat (gr m))%Z && (0 <=? col)%Z && (col <? Z.of_nat (gc m))%Z
           then InMat (Z.to_nat row) (Z.to_nat col) else Nowhere
  | Some v, None =>
      if (-1 <=? col)%Z && (col <=? 0)%Z && (0 <=? row)%Z && (row <? Z.of_nat (length v))%Z then InVec (Z.to_nat row) else Nowhere
  | None, Some m =>
      if (0 <=? row)%Z && (row <? Z.of_nat (gr m))%Z && (0 <=? col)%Z && (col <? Z.of_nat (gc m))%Z
      then InMat (Z.to_nat row) (Z.to_nat col) else Nowhere
  | None, None => Nowhere
  end.
(** the content of a place *)
Definition content {E} (p : page E) (l : place) : option E :=
  match l with
  | InVec i => match vect p with Some v => v !! i | None => None end
  | InMat i j => match mat p with Some m => cell m i j | None => None end
  | Nowhere => None
  end.
(** everything but the content: shapes, weights, text, names, error *)
Definition frame {E} (p q : page E) : Prop :=
  option_map length (vect q) = option_map length (vect p) /\
  option_map gr (mat q) = option_map gr (mat p) /\ option_map gc (mat q) = option_map gc (mat p) /\
  (forall m, mat q = Some m -> wf_grid m) /\ wts q = wts p /\ txt q = txt p /\ nms q = nms p /\ err q = err p.

Lemma get_at_place {E} (p : page E) row col : (forall m, mat p = Some m -> wf_grid m) ->
  match where_is p row col with
  | Nowhere => get_at p row col = GotNaN \/ get_at p row col = GotRange
  | l => exists x, content p l = Some x /\ get_at p row col = Got x
  end.
Proof.
  intros Hw. unfold where_is, get_at, uses_vector, content.
  destruct (vect p) as [v|] eqn:Ev, (mat p) as [m|] eqn:Em; cbn [andb orb].
  - rewrite andb_false_r. rewrite orb_false_r. destruct (col =? -1)%Z eqn:Ec.
    + destruct ((0 <=? row)%Z && (row <? Z.of_nat (length v))%Z) eqn:Er.
      * replace (row <? 0)%Z with false by lia. destruct (v !! Z.to_nat row) eqn:El; [eauto|].
        apply lookup_ge_None in El. lia.
      * right. destruct (row <? 0)%Z eqn:E0; auto. rewrite (proj2 (lookup_ge_None v _)) by lia. auto.
    + destruct (_ && _) eqn:Er.
      * replace ((row <? 0)%Z || (col <? 0)%Z) with false by lia.
        destruct (cell_is_Some m (Z.to_nat row) (Z.to_nat col) (Hw m eq_refl)) as [x Hx]; [lia|lia|]. rewrite Hx. eauto.
      * right. destruct ((row <? 0)%Z || (col <? 0)%Z) eqn:E0; auto.
        destruct (cell m (Z.to_nat row) (Z.to_nat col)) eqn:Ec2; auto.
        apply cell_Some_lt in Ec2; auto. lia.
  - rewrite !andb_true_r. destruct ((col =? -1)%Z || (col =? 0)%Z) eqn:Ec.
    + destruct (_ && _) eqn:Er.
      * replace (row <? 0)%Z with false by lia. destruct (v !! Z.to_nat row) eqn:El; [eauto|].
        apply lookup_ge_None in El. lia.
      * right. destruct (row <? 0)%Z eqn:E0; auto. rewrite (proj2 (lookup_ge_None v _)) by lia. auto.
    + replace (_ && _) with false by lia. auto.
  - rewrite !andb_false_r, orb_false_r. destruct (col =? -1)%Z eqn:Ec.
    + replace (_ && _) with false by lia. auto.
    + destruct (_ && _) eqn:Er.
      * replace ((row <? 0)%Z || (col <? 0)%Z) with false by lia.
        destruct (cell_is_Some m (Z.to_nat row) (Z.to_nat col) (Hw m eq_refl)) as [x Hx]; [lia|lia|]. rewrite Hx. eauto.
      * right. destruct ((row <? 0)%Z || (col <? 0)%Z) eqn:E0; auto.
        destruct (cell m (Z.to_nat row) (Z.to_nat col)) eqn:Ec2; auto.
        apply cell_Some_lt in Ec2; auto. lia.
  - destruct (_ || _); auto.
Qed.

Lemma gset_cell {E} (m : grid E) i j x i' j' : wf_grid m -> i < gr m -> j < gc m ->
  cell (gset m i j x) i' j' = if (i' =? i) && (j' =? j) then Some x else cell m i' j'.
Proof.
  intros [Hl Hf] Hi Hj. unfold cell, gset; cbn. destruct (decide (i' = i)) as [->|Hn].
  - rewrite list_lookup_alter. destruct (ga m !! i) as [r|] eqn:Er.
    2:{ apply lookup_ge_None in Er. lia. }
    cbn. rewrite Forall_lookup in Hf. pose proof (Hf _ _ Er). rewrite Nat.eqb_refl. cbn.
    destruct (decide (j' = j)) as [->|Hj'].
    + rewrite Nat.eqb_refl. apply list_lookup_insert. lia.
    + rewrite list_lookup_insert_ne by auto. replace (j' =? j) with false by lia. auto.
  - rewrite list_lookup_alter_ne by auto. replace (i' =? i) with false by lia. auto.
Qed.
Lemma gset_wf {E} (m : grid E) i j x : wf_grid m -> wf_grid (gset m i j x).
Proof.
  intros [Hl Hf]. split; cbn; [rewrite alter_length; auto|]. apply Forall_alter; auto.
  intros r _ Hr. rewrite insert_length. auto.
Qed.

Lemma set_at_place {E} (p : page E) row col x : (forall m, mat p = Some m -> wf_grid m) ->
  match where_is p row col with
  | Nowhere => fst (set_at p row col x) = p
  | l => snd (set_at p row col x) = 0%Z /\ frame p (fst (set_at p row col x)) /\
         forall l', content (fst (set_at p row col x)) l' =
            if bool_decide (l' = l) then Some x else content p l'
  end.
Proof.
  intros Hw. unfold where_is, set_at, uses_vector.
  assert (forall i l', InVec i <> l' -> bool_decide (l' = InVec i) = false) as Hb by (intros; apply bool_decide_false; congruence).
  assert (forall i j l', InMat i j <> l' -> bool_decide (l' = InMat i j) = false) as Hb2 by (intros; apply bool_decide_false; congruence).
  assert (forall v, vect p = Some v -> (0 <=? row)%Z && (row <? Z.of_nat (length v))%Z = true ->
    frame p (set_vec p (Some (<[Z.to_nat row := x]> v))) /\
    forall l', content (set_vec p (Some (<[Z.to_nat row := x]> v))) l' =
       if bool_decide (l' = InVec (Z.to_nat row)) then Some x else content p l') as HV.
  { intros v Ev Hr. split.
    - unfold frame; cbn. rewrite Ev, insert_length. auto 12.
    - intros [i|i j|]; cbn; [|rewrite Hb by discriminate; auto|rewrite Hb by discriminate; auto].
      rewrite Ev. destruct (decide (i = Z.to_nat row)) as [->|Hn].
      + rewrite bool_decide_true by auto. apply list_lookup_insert. lia.
      + rewrite Hb by congruence. apply list_lookup_insert_ne. auto. }
  assert (forall m, mat p = Some m -> (0 <=? row)%Z && (row <? Z.of_nat (gr m))%Z && (0 <=? col)%Z && (col <? Z.of_nat (gc m))%Z = true ->
    frame p (set_mat p (Some (gset m (Z.to_nat row) (Z.to_nat col) x))) /\
    forall l', content (set_mat p (Some (gset m (Z.to_nat row) (Z.to_nat col) x))) l' =
       if bool_decide (l' = InMat (Z.to_nat row) (Z.to_nat col)) then Some x else content p l') as HM.
  { intros m Em Hr. pose proof (Hw m Em). split.
    - unfold frame; cbn. rewrite Em. split; auto. split; auto. split; auto. split; [|auto]. intros ? [= <-]. apply gset_wf; auto.
    - intros [i|i j|]; cbn; [rewrite Hb2 by discriminate; auto| |rewrite Hb2 by discriminate; auto].
      rewrite Em, gset_cell by (auto; lia).
      destruct ((i =? Z.to_nat row) && (j =? Z.to_nat col)) eqn:Eb.
      + rewrite bool_decide_true; auto. f_equal; lia.
      + rewrite Hb2; auto. intros [= <- <-]. lia. }
  destruct (vect p) as [v|] eqn:Ev, (mat p) as [m|] eqn:Em; cbn [andb orb].
  - rewrite andb_false_r, orb_false_r. destruct (col =? -1)%Z eqn:Ec.
    + destruct ((0 <=? row)%Z && _) eqn:Er; cbn; auto.
    + destruct ((0 <=? row)%Z && _ && _ && _) eqn:Er; cbn; auto.
  - rewrite !andb_true_r. destruct ((col =? -1)%Z || (col =? 0)%Z) eqn:Ec.
    + replace ((-1 <=? col)%Z && (col <=? 0)%Z) with true by lia. cbn [andb].
      destruct ((0 <=? row)%Z && _) eqn:Er; cbn; auto.
    + replace ((-1 <=? col)%Z && (col <=? 0)%Z) with false by lia. reflexivity.
  - rewrite !andb_false_r, orb_false_r. destruct (col =? -1)%Z eqn:Ec.
    + replace (_ && _) with false by lia. auto.
    + destruct ((0 <=? row)%Z && _ && _ && _) eqn:Er; cbn; auto.
  - destruct (_ || _); auto.
Qed.

Lemma C12_set_get_aux E (p : page E) row col x :
  (forall m, mat p = Some m -> wf_grid m) -> where_is p row col <> Nowhere ->
  exists q, data_set p (Num row) (Num col) x = Ok (q, 0%Z) /\ frame p q /\
    data_get q (Num row) (Num col) = Ok (Got x) /\
    forall r c, where_is p r c <> where_is p row col -> data_get q (Num r) (Num c) = data_get p (Num r) (Num c).
Proof.
  intros Hw Hn. pose proof (set_at_place p row col x Hw) as Hs. cbn.
  destruct (set_at p row col x) as [q z] eqn:Eq. cbn [fst snd] in Hs.
  assert (z = 0%Z /\ frame p q /\ forall l', content q l' = if bool_decide (l' = where_is p row col) then Some x else content p l') as (-> & HF & HC).
  { destruct (where_is p row col); [tauto|tauto|congruence]. }
  exists q. split; auto. split; auto.
  assert (forall r c, where_is q r c = where_is p r c) as Hwh.
  { intros r c. destruct HF as (H1 & H2 & H3 & _). unfold where_is.
    destruct (vect p) as [v|], (vect q) as [v'|]; try discriminate; destruct (mat p) as [m|], (mat q) as [m'|]; try discriminate; cbn in *;
    try (injection H1 as ->); try (injection H2 as ->); try (injection H3 as ->); auto. }
  assert (forall m, mat q = Some m -> wf_grid m) as Hwq by (destruct HF as (_&_&_&H&_); auto).
  split.
  - pose proof (get_at_place q row col Hwq) as Hg. rewrite Hwh in Hg. specialize (HC (where_is p row col)). rewrite bool_decide_true in HC by auto.
    destruct (where_is p row col); try congruence; destruct Hg as (y & Hy & ->); congruence.
  - intros r c Hne. pose proof (get_at_place q r c Hwq) as Hg. pose proof (get_at_place p r c Hw) as Hg'. rewrite Hwh in Hg.
    specialize (HC (where_is p r c)). rewrite bool_decide_false in HC by auto.
    destruct (where_is p r c) eqn:Ew.
    + destruct Hg as (y & Hy & ->), Hg' as (y' & Hy' & ->). congruence.
    + destruct Hg as (y & Hy & ->), Hg' as (y' & Hy' & ->). congruence.
    + (* nowhere: same decision on both pages *)
      f_equal. unfold get_at, uses_vector. destruct HF as (H1 & H2 & H3 & _). unfold where_is in Ew.
      clear Hwh Hg Hg' HC Hs Eq Hne Hn.
      destruct (vect p) as [v|], (vect q) as [v'|]; try discriminate; destruct (mat p) as [m|], (mat q) as [m'|]; try discriminate; cbn in *; auto;
      try (injection H1 as H1); try (injection H2 as H2); try (injection H3 as H3);
      rewrite ?andb_false_r, ?andb_true_r, ?orb_false_r.
      * destruct (c =? -1)%Z eqn:Ec; [|].
        -- destruct (_ && _) eqn:Er in Ew; [discriminate|]. destruct (r <? 0)%Z eqn:E0; auto.
           rewrite (proj2 (lookup_ge_None v _)), (proj2 (lookup_ge_None v' _)) by lia. auto.
        -- destruct (_ && _) eqn:Er in Ew; [discriminate|]. destruct (_ || _) eqn:E0; auto.
           destruct (cell m' _ _) eqn:C1; [apply cell_Some_lt in C1; auto; lia|].
           destruct (cell m _ _) eqn:C2; [apply cell_Some_lt in C2; auto; lia|]. auto.
      * destruct (_ && _) eqn:Er in Ew; [discriminate|]. destruct (_ || _) eqn:E1; auto. destruct (r <? 0)%Z eqn:E0; auto.
        rewrite (proj2 (lookup_ge_None v _)), (proj2 (lookup_ge_None v' _)) by lia. auto.
      * destruct (_ && _) eqn:Er in Ew; [discriminate|]. destruct (c =? -1)%Z eqn:E1; auto. destruct (_ || _) eqn:E0; auto.
           destruct (cell m' _ _) eqn:C1; [apply cell_Some_lt in C1; auto; lia|].
           destruct (cell m _ _) eqn:C2; [apply cell_Some_lt in C2; auto; lia|]. auto.
Qed.
(** C12: setting a valid position returns 0, makes a get there return the value, and changes nothing else: no other
    position, shape, weight, text or name.  (Column -1, or 0 without a matrix, is the vector: [where_is].) *)
Theorem C12_set_then_get : forall E (p : page E) row col x,
  (forall m, mat p = Some m -> wf_grid m) -> where_is p row col <> Nowhere ->
  exists q, data_set p (Num row) (Num col) x = Ok (q, 0%Z) /\ frame p q /\
    data_get q (Num row) (Num col) = Ok (Got x) /\
    forall r c, where_is p r c <> where_is p row col -> data_get q (Num r) (Num c) = data_get p (Num r) (Num c).
Proof. exact C12_set_get_aux. Qed.
Print Assumptions C12_set_then_get.

(** C12: a get at a valid position returns what is stored there; elsewhere it returns no value. *)
Lemma C12_get_aux E (p : page E) row col : (forall m, mat p = Some m -> wf_grid m) ->
  (forall x, data_get p (Num row) (Num col) = Ok (Got x) <-> content p (where_is p row col) = Some x).
Proof.
  intros Hw x. cbn. pose proof (get_at_place p row col Hw) as H. destruct (where_is p row col).
  - destruct H as (y & -> & ->). split; congruence.
  - destruct H as (y & -> & ->). split; congruence.
  - cbn. destruct H as [-> | ->]; split; congruence.
Qed.
Theorem C12_get_reads_place : forall E (p : page E) row col, (forall m, mat p = Some m -> wf_grid m) ->
  (forall x, data_get p (Num row) (Num col) = Ok (Got x) <-> content p (where_is p row col) = Some x).
Proof. exact C12_get_aux. Qed.
Print Assumptions C12_get_reads_place.

(** C12: names are resolved by lookup; an unknown name changes nothing, set returns -1 and get NaN. *)
Lemma C12_names_aux E (p : page E) (r c : idx) x :
  (exists rn s, r = Name s /\ name_find (nms p) s "r" = Ok rn /\ rn = (-2)%Z) \/
  (exists cn s, r = Num 0 /\ c = Name s /\ name_find (nms p) s "c" = Ok cn /\ cn = (-2)%Z) ->
  data_set p r c x = Ok (p, (-1)%Z) /\ data_get p r c = Ok GotNaN.
Proof.
  intros [(rn & s & -> & H & ->)|(cn & s & -> & -> & H & ->)]; unfold data_set, data_get, resolve; rewrite H; cbn; auto.
Qed.
Theorem C12_unknown_name : forall E (p : page E) (r c : idx) x,
  (exists rn s, r = Name s /\ name_find (nms p) s "r" = Ok rn /\ rn = (-2)%Z) \/
  (exists cn s, r = Num 0 /\ c = Name s /\ name_find (nms p) s "c" = Ok cn /\ cn = (-2)%Z) ->
  data_set p r c x = Ok (p, (-1)%Z) /\ data_get p r c = Ok GotNaN.
Proof. exact C12_names_aux. Qed.
Print Assumptions C12_unknown_name.
Theorem C12_by_name : forall E (p : page E) s c x rn, name_find (nms p) s "r" = Ok rn -> rn <> (-2)%Z ->
  data_set p (Name s) c x = data_set p (Num rn) c x /\ data_get p (Name s) c = data_get p (Num rn) c.
Proof.
  intros E p s c x rn H Hn. unfold data_set, data_get. cbn [resolve]. rewrite H. cbn [rbind].
  replace (rn =? -2)%Z with false by lia. auto.
Qed.
Print Assumptions C12_by_name.

(** C12: an out-of-bounds set changes nothing ... *)
Theorem C12_out_of_bounds_set_unchanged : forall E (p : page E) row col x, (forall m, mat p = Some m -> wf_grid m) ->
  where_is p row col = Nowhere -> exists z, data_set p (Num row) (Num col) x = Ok (p, z).
Proof.
  intros E p row col x Hw Hn. pose proof (set_at_place p row col x Hw) as H. rewrite Hn in H. cbn.
  destruct (set_at p row col x) as [q z]. cbn in H. subst. eauto.
Qed.
Print Assumptions C12_out_of_bounds_set_unchanged.
(** ... but returns 0, not the documented -1, whenever the part exists. *)
Theorem C12_out_of_bounds_code_refuted : forall E (v : list E) n row x, (Z.of_nat (length v) <= row)%Z ->
  data_set (Pg (Some v) None None None n None) (Num row) (Num (-1)) x = Ok (Pg (Some v) None None None n None, 0%Z).
Proof.
  intros E v n row x H. unfold data_set, set_at. cbn [resolve rbind uses_vector vect Z.eqb]. cbn.
  replace ((0 <=? row)%Z && (row <? Z.of_nat (length v))%Z) with false by lia. auto.
Qed.
Print Assumptions C12_out_of_bounds_code_refuted.
(** ... and an out-of-bounds get does not return the documented NaN. *)
Theorem C12_out_of_bounds_get_refuted : forall E (v : list E) n row, (Z.of_nat (length v) <= row)%Z ->
  data_get (Pg (Some v) None None None n None) (Num row) (Num (-1)) = Ok GotRange.
Proof.
  intros E v n row H. unfold data_get, get_at. cbn [resolve rbind uses_vector vect Z.eqb]. cbn.
  replace (row <? 0)%Z with false by lia. rewrite (proj2 (lookup_ge_None v _)) by lia. auto.
Qed.
Print Assumptions C12_out_of_bounds_get_refuted.
Example C12_nonvacuous : where_is ex_page 1 0 = InMat 1 0 /\ where_is ex_page 1 (-1) = InVec 1 /\
  exists q, data_set ex_page (Num 1) (Num 0) 77 = Ok (q, 0%Z) /\ mat q = Some (Gr 2 1 [[3]; [77]]) /\ vect q = vect ex_page.
Proof. split; auto. split; auto. eexists; split; [reflexivity|]. auto. Qed.

(** ---------- C13 ---------- *)

Definition add_pairs {E} (g : E) (p : page E) (l : list (string * E)) : page E :=
  fold_left (fun acc '(s, x) => add_named_elmt g acc s x) l p.
(** the set's row names and vector are exactly the pairs *)
Definition is_list {E} (p : page E) (l : list (string * E)) : Prop :=
  rown (nms p) = map fst l /\ match l with [] => vect p = None | _ => vect p = Some (map snd l) end /\
  mat p = None /\ hashes_ok (nms p).

Lemma add_one {E} (g : E) p l s x : is_list p l -> is_list (add_named_elmt g p s x) (l ++ [(s, x)]).
Proof.
  intros (H1 & H2 & H3 & H4). unfold add_named_elmt. cbv zeta.
  assert (rown (add1 (nms p) s "r") = map fst (l ++ [(s, x)])) as Hr.
  { rewrite map_app. cbn. rewrite H1. auto. }
  unfold is_list. cbn [nms set_nms set_vec vect mat]. rewrite Hr.
  split; auto. split; [|split; auto].
  - rewrite map_length, app_length. cbn [length]. replace (length l + 1 - 1) with (length l) by lia.
    assert ((if length (match vect p with Some v => v | None => [g] end) <? length l + 1
      then vec_realloc g (match vect p with Some v => v | None => [g] end) (length l + 1)
      else match vect p with Some v => v | None => [g] end) = map snd l ++ [g]) as Hv.
    { destruct l as [|y l]; [rewrite H2; cbn; auto|]. rewrite H2. rewrite map_length.
      replace (length (y :: l) <? length (y :: l) + 1) with true by lia. unfold vec_realloc.
      rewrite take_ge by (rewrite map_length; lia). rewrite map_length.
      replace (length (y :: l) + 1 - length (y :: l)) with 1 by lia. auto. }
    rewrite Hv. destruct (l ++ [(s, x)]) eqn:El; [destruct l; discriminate|]. rewrite <- El. f_equal.
    rewrite map_app. cbn. rewrite <- (map_length snd l). rewrite insert_app_r_alt by lia. rewrite Nat.sub_diag. auto.
  - apply (add_all_fresh (nms p) [s] "r"). auto.
Qed.
Lemma add_pairs_list {E} (g : E) l : forall p l0, is_list p l0 -> is_list (add_pairs g p l) (l0 ++ l).
Proof.
  induction l as [|[s x] l IH]; intros p l0 H; cbn; [rewrite app_nil_r; auto|].
  replace (l0 ++ (s, x) :: l) with ((l0 ++ [(s, x)]) ++ l) by (rewrite <- app_assoc; auto).
  apply IH. apply add_one. auto.
Qed.
Lemma blank_list E : is_list (@blank E) [].
Proof. split; [reflexivity|]. split; [reflexivity|]. split; [reflexivity|]. repeat split. Qed.

(** C13: after any sequence of additions to a blank set it holds exactly these pairs, in order. *)
Theorem C13_holds_pairs : forall E (g : E) l, is_list (add_pairs g (@blank E) l) l.
Proof. intros E g l. apply (add_pairs_list g l (@blank E) []). apply blank_list. Qed.
Print Assumptions C13_holds_pairs.

Definition kv_names {E} (l : list (string * E)) : names := add_all name_alloc (map fst l) "r".
Lemma add_pairs_names {E} (g : E) l p : nms (add_pairs g p l) = add_all (nms p) (map fst l) "r".
Proof. revert p; induction l as [|[s x] l IH]; intros p; cbn; auto. unfold add_pairs in *. rewrite IH. auto. Qed.
Lemma built_add_all n l : built n -> built (add_all n l "r").
Proof. revert n; induction l as [|s l IH]; intros n H; cbn; auto. apply IH. apply (built_add n (Some s) "r"). auto. Qed.

Lemma C13_get_aux E (g : E) (l : list (string * E)) key :
  (exists i s x, l !! i = Some (s, x) /\ ci_eq key s = true /\
     data_get (add_pairs g (@blank E) l) (Name key) (Num 0) = Ok (Got x) /\
     (String.length key <= 12 -> key ∈ map fst l -> s = key /\ forall j y, j < i -> l !! j <> Some (key, y))) \/
  ((forall s x, (s, x) ∈ l -> ci_eq key s = false) /\
     data_get (add_pairs g (@blank E) l) (Name key) (Num 0) = Ok GotNaN).
Proof.
  pose proof (add_pairs_list g l (@blank E) [] (blank_list E)) as (H1 & H2 & H3 & H4). cbn [app] in *.
  pose proof (add_pairs_names g l (@blank E)) as Hn.
  set (p := add_pairs g blank l) in *.
  destruct (name_find_spec (nms p) key "r" (fresh_readable _ H4)) as (z & Hz & Hcase).
  assert (searched (nms p) "r" = map fst l) as Hs by exact H1. rewrite Hs in Hcase.
  unfold data_get. cbn [resolve]. rewrite Hz. cbn [rbind].
  destruct Hcase as [(i & s & -> & Hi & Hc)|[(_ & _ & Hx & _)|(-> & Hnw & _)]]; [|discriminate|].
  - left. rewrite lookup_map in Hi. destruct (l !! i) as [[s' x]|] eqn:Ei; [|discriminate]. injection Hi as Hi; cbn in Hi; subst s'.
    exists i, s, x. split; auto. split; auto. split.
    + replace (Z.of_nat i =? -2)%Z with false by lia. cbn. unfold get_at, uses_vector. rewrite H3.
      destruct l as [|y l']; [rewrite lookup_nil in Ei; discriminate|]. rewrite H2. cbn [Z.eqb orb andb].
      replace (Z.of_nat i <? 0)%Z with false by lia. rewrite Nat2Z.id, lookup_map, Ei. auto.
    + intros Hlen Hin. destruct (C01_exact_aux (nms p) key "r") as (k & Hk & Hk2 & Hk3); auto.
      { rewrite Hn. apply built_add_all. constructor. }
      { change (asked (nms p) "r") with (rown (nms p)). rewrite H1. auto. }
      change (asked (nms p) "r") with (rown (nms p)) in *. rewrite H1 in *.
      assert (k = i) as -> by (rewrite Hz in Hk; injection Hk; lia).
      rewrite lookup_map, Ei in Hk2. cbn in Hk2. split; [congruence|]. intros j y Hj Hjy.
      apply (Hk3 j Hj). rewrite lookup_map, Hjy. auto.
  - right. split; auto. intros s x Hin. apply elem_of_list_lookup in Hin as [j Hj]. apply (Hnw j).
    rewrite lookup_map, Hj. auto.
Qed.
(** C13: looking a key up returns the value of a case-insensitively matching key, the first exactly matching one
    when there is one (keys of at most 12 characters: longer ones may collide in the hash, see C01), NaN when none
    matches. *)
Theorem C13_get_by_key : forall E (g : E) (l : list (string * E)) key,
  (exists i s x, l !! i = Some (s, x) /\ ci_eq key s = true /\
     data_get (add_pairs g (@blank E) l) (Name key) (Num 0) = Ok (Got x) /\
     (String.length key <= 12 -> key ∈ map fst l -> s = key /\ forall j y, j < i -> l !! j <> Some (key, y))) \/
  ((forall s x, (s, x) ∈ l -> ci_eq key s = false) /\
     data_get (add_pairs g (@blank E) l) (Name key) (Num 0) = Ok GotNaN).
Proof. exact C13_get_aux. Qed.
Print Assumptions C13_get_by_key.
Example C13_nonvacuous : let p := add_pairs 0 blank [("height", 165); ("weight", 60)] in
  vect p = Some [165; 60] /\ data_get p (Name "weight") (Num 0) = Ok (Got 60).
Proof. vm_compute. auto. Qed.

(** ---------- C16, matrix ---------- *)
Lemma gtranspose_row {A} (m : grid A) (rows : list (list A)) j c : Forall (fun r => length r = c) rows -> j < c ->
  length (omap (fun r : list A => r !! j) rows) = length rows /\
  forall i, omap (fun r : list A => r !! j) rows !! i = match rows !! i with Some r => r !! j | None => None end.
Proof.
  intros HF Hj. induction HF as [|r rows Hr HF [IH1 IH2]]; cbn; [split; auto; intros i; rewrite !lookup_nil; auto|].
  assert (is_Some (r !! j)) as [x Hx] by (apply lookup_lt_is_Some; lia). rewrite Hx. cbn. split; [lia|].
  intros [|i]; simpl; auto.
Qed.
Lemma gtranspose_spec {A} (m : grid A) : wf_grid m -> wf_grid (gtranspose m) /\ forall i j, cell (gtranspose m) j i = cell m i j.
Proof.
  intros Hw. pose proof Hw as [Hl Hf]. split.
  - split; cbn; [rewrite map_length, seq_length; auto|]. apply Forall_map, Forall_lookup. intros k j Hk.
    apply lookup_seq in Hk as [-> Hk]. cbn. destruct (gtranspose_row m (ga m) k (gc m) Hf Hk) as [H _]. lia.
  - intros i j. unfold cell, gtranspose; cbn. rewrite lookup_map. destruct (decide (j < gc m)) as [Hj|Hj].
    + rewrite lookup_seq_lt by lia. cbn. destruct (gtranspose_row m (ga m) j (gc m) Hf Hj) as [_ H]. apply H.
    + rewrite lookup_seq_ge by lia. cbn. destruct (ga m !! i) as [r|] eqn:Er; auto.
      rewrite Forall_lookup in Hf. pose proof (Hf _ _ Er). rewrite (proj2 (lookup_ge_None r j)) by lia. auto.
Qed.
(** [q]'s grid is the transpose of [p]'s *)
Definition is_transpose {A} (a b : option (grid A)) : Prop :=
  match a, b with
  | Some m, Some m' => wf_grid m' /\ gr m' = gc m /\ gc m' = gr m /\ forall i j, cell m' j i = cell m i j
  | None, None => True | _, _ => False end.
Lemma is_transpose_gt {A} (m : grid A) : wf_grid m -> is_transpose (Some m) (Some (gtranspose m)).
Proof. intros Hw. destruct (gtranspose_spec m Hw). cbn. auto. Qed.

Lemma C16_data_aux E (p : page E) inplace :
  sane p -> mat p <> None -> (inplace = false -> forall t, txt p = Some t -> no_pct t = true) ->
  exists q, data_transpose p true inplace = Ok q /\ is_transpose (mat p) (mat q) /\ is_transpose (txt p) (txt q) /\
    (txt p = None -> rown (nms q) = coln (nms p) /\ coln (nms q) = rown (nms p)) /\
    (coln (nms p) <> [] -> rown (nms p) <> [] -> rown (nms q) = coln (nms p) /\ coln (nms q) = rown (nms p)).
Proof.
  intros [Hm Ht] Hmn Hpct. unfold data_transpose. destruct (mat p) as [m|] eqn:Em; [|congruence]. cbn [andb]. cbv zeta.
  assert (has_text p = match txt p with Some _ => true | None => false end) as Hh.
  { unfold has_text, tsz1, tsz2. destruct (txt p) as [t|] eqn:Et; auto. destruct (Ht t eq_refl) as (_ & ? & ?). lia. }
  rewrite Hh. set (n2 := name_stack (name_stack name_alloc (nms p) "r" "c") (nms p) "c" "r").
  assert (rown n2 = coln (nms p) /\ coln n2 = rown (nms p)) as [Hn1 Hn2].
  { unfold n2. change (name_stack ?o (nms p) "c" "r") with (add_all o (rown (nms p)) "c").
    change (name_stack ?o (nms p) "r" "c") with (add_all o (coln (nms p)) "r").
    destruct (add_all_col (add_all name_alloc (coln (nms p)) "r") (rown (nms p))) as (A1 & A2 & _).
    destruct (add_all_row name_alloc (coln (nms p))) as (B1 & B2 & _). rewrite A1, A2, B1, B2. auto. }
  destruct (txt p) as [t|] eqn:Et.
  - destruct (Ht t eq_refl) as (Hwt & _). destruct inplace; cbn [andb].
    + eexists; split; [reflexivity|]. cbn [nms set_nms set_mat set_txt names_swap coln].
      destruct (negb (length (txtn (nms p)) =? 0) && (length (rown (nms p)) =? 0)) eqn:Eb; cbn [option_map set_nms set_txt mat txt nms].
      * split; [apply is_transpose_gt; auto|]. split; [apply is_transpose_gt; auto|]. split; [discriminate|].
        intros _ Hr. destruct (rown (nms p)); [congruence|]. cbn in Eb. rewrite andb_false_r in Eb. discriminate.
      * split; [apply is_transpose_gt; auto|]. split; [apply is_transpose_gt; auto|]. split; [discriminate|]. cbn. auto.
    + rewrite (Hpct eq_refl t eq_refl). eexists; split; [reflexivity|].
      destruct (negb (length (txtn (nms p)) =? 0) && (length (coln (nms p)) =? 0)) eqn:Eb; cbn [option_map set_nms set_mat set_txt mat txt nms blank].
      * split; [apply is_transpose_gt; auto|]. split; [apply is_transpose_gt; auto|]. split; [discriminate|].
        intros Hr. destruct (coln (nms p)); [congruence|]. cbn in Eb. rewrite andb_false_r in Eb. discriminate.
      * split; [apply is_transpose_gt; auto|]. split; [apply is_transpose_gt; auto|]. split; [discriminate|]. auto.
  - cbn [andb]. destruct inplace.
    + eexists; split; [reflexivity|]. cbn [set_nms set_mat mat txt nms names_swap rown coln option_map]. rewrite Et.
      split; [apply is_transpose_gt; auto|]. cbn. auto.
    + eexists; split; [reflexivity|]. cbn [set_nms set_mat mat txt nms blank].
      split; [apply is_transpose_gt; auto|]. cbn [txt blank]. split; [exact I|]. auto.
Qed.
(** C16: transposing a data set (in place or not) makes cell (j,i) of matrix and text the input's cell (i,j) and
    exchanges row and column names.  Guards: a matrix is present; out of place, no '%' in the text (refuted
    below); with text, both name lists nonempty (else text names are added to the row names). *)
Theorem C16_data_transpose : forall E (p : page E) inplace,
  sane p -> mat p <> None -> (inplace = false -> forall t, txt p = Some t -> no_pct t = true) ->
  exists q, data_transpose p true inplace = Ok q /\ is_transpose (mat p) (mat q) /\ is_transpose (txt p) (txt q) /\
    (txt p = None -> rown (nms q) = coln (nms p) /\ coln (nms q) = rown (nms p)) /\
    (coln (nms p) <> [] -> rown (nms p) <> [] -> rown (nms q) = coln (nms p) /\ coln (nms q) = rown (nms p)).
Proof. exact C16_data_aux. Qed.
Print Assumptions C16_data_transpose.

Lemma transpose_unique {A} (a b c : option (grid A)) : (forall m, a = Some m -> wf_grid m) ->
  is_transpose a b -> is_transpose b c -> c = a.
Proof.
  destruct a as [m|], b as [m'|], c as [m''|]; cbn; try tauto. intros Hw (W1 & R1 & C1 & H1) (W2 & R2 & C2 & H2). f_equal.
  apply grid_eq; auto; congruence.
Qed.
Lemma no_pct_transpose (t t' : grid string) : is_transpose (Some t) (Some t') -> no_pct t = true -> no_pct t' = true.
Proof.
  intros (W & _ & _ & HC) H. unfold no_pct in *. apply negb_true_iff. apply negb_true_iff in H.
  apply not_true_iff_false. rewrite existsb_exists. intros (r & Hr & He). apply existsb_exists in He as (s & Hs & Hp).
  apply elem_of_list_In, elem_of_list_lookup in Hr as [j Hj], Hs as [i Hi].
  assert (cell t' j i = Some s) as Hc by (unfold cell; rewrite Hj; auto). rewrite HC in Hc. unfold cell in Hc.
  destruct (ga t !! i) as [r'|] eqn:Er; [|discriminate].
  apply not_true_iff_false in H. apply H. apply existsb_exists. exists r'. split.
  - apply elem_of_list_In. eapply elem_of_list_lookup_2; eauto.
  - apply existsb_exists. exists s. split; auto. apply elem_of_list_In. eapply elem_of_list_lookup_2; eauto.
Qed.
Lemma C16_twice_aux E (p : page E) inplace : sane p ->
  (forall m, mat p = Some m -> 0 < gr m /\ 0 < gc m) -> mat p <> None ->
  (inplace = false -> forall t, txt p = Some t -> no_pct t = true) ->
  exists q r, data_transpose p true inplace = Ok q /\ data_transpose q true inplace = Ok r /\ mat r = mat p /\ txt r = txt p.
Proof.
  intros Hs Hd Hm Hp. destruct (C16_data_aux E p inplace Hs Hm Hp) as (q & Eq & M1 & T1 & _).
  destruct (C16_data_aux E q inplace) as (r & Er & M2 & T2 & _).
  - destruct Hs as [Hs1 Hs2]. split.
    + intros m' Hm'. rewrite Hm' in M1. destruct (mat p); cbn in M1; tauto.
    + intros t' Ht'. rewrite Ht' in T1. destruct (txt p) as [t|]; cbn in T1; [|tauto]. destruct (Hs2 t eq_refl) as (_ & ? & ?).
      destruct T1 as (? & ? & ? & _). split; [auto|lia].
  - intros Hq. rewrite Hq in M1. destruct (mat p); cbn in M1; [tauto|congruence].
  - intros Hi t' Ht'. rewrite Ht' in T1. destruct (txt p) as [t|] eqn:Et; [|cbn in T1; tauto].
    eapply no_pct_transpose; eauto.
  - exists q, r. split; auto. split; auto. destruct Hs as [Hs1 Hs2]. split.
    + eapply transpose_unique; eauto.
    + eapply transpose_unique; eauto. intros t Ht. apply Hs2; auto.
Qed.
(** C16: transposing twice restores matrix and text. *)
Theorem C16_transpose_twice : forall E (p : page E) inplace, sane p ->
  (forall m, mat p = Some m -> 0 < gr m /\ 0 < gc m) -> mat p <> None ->
  (inplace = false -> forall t, txt p = Some t -> no_pct t = true) ->
  exists q r, data_transpose p true inplace = Ok q /\ data_transpose q true inplace = Ok r /\ mat r = mat p /\ txt r = txt p.
Proof. exact C16_twice_aux. Qed.
Print Assumptions C16_transpose_twice.
(** C16: a text cell with a percent sign is used as a format string by the out-of-place transposition. *)
Theorem C16_percent_refuted : exists p : page nat, sane p /\ mat p <> None /\ data_transpose p true false = UB.
Proof.
  exists (Pg None (Some (Gr 1 1 [[1]])) None (Some (Gr 1 1 [["100%s"]])) name_alloc None).
  split; [split; cbn; intros ? [= <-]; unfold wf_grid; cbn; repeat split; auto; repeat constructor|]. split; [discriminate|reflexivity].
Qed.
Print Assumptions C16_percent_refuted.
(** C16: the vector is dropped by an out-of-place transposition, kept (untransposed) in place. *)
Example C16_data_nonvacuous : sane ex_page /\ exists q, data_transpose ex_page true false = Ok q /\
  mat q = Some (Gr 1 2 [[3; 4]]) /\ txt q = Some (Gr 1 2 [["a"; "b"]]) /\ rown (nms q) = ["c0"] /\ coln (nms q) = ["r0"; "r1"].
Proof.
  split; [split; cbn; intros ? [= <-]; unfold wf_grid; cbn; repeat split; auto; repeat constructor|].
  eexists; split; [vm_compute; reflexivity|]. vm_compute. auto.
Qed.

(** ---------- C17 ---------- *)
Definition has_title {E} (exact : bool) (want : string) (p : page E) : Prop :=
  exists t, title (nms p) = Some t /\ (if exact then t = want else ci_eq t want = true).
Lemma title_ok_iff {E} exact want (p : page E) : title_ok exact want p = true <-> has_title exact want p.
Proof.
  unfold title_ok, has_title. destruct (title (nms p)) as [t|].
  - destruct exact; [rewrite String.eqb_eq|]; split; intros H; eauto; destruct H as (? & [= <-] & ?); auto.
  - split; [discriminate|intros (? & ? & _); discriminate].
Qed.
Lemma C17_get_aux E (d : adata E) exact want : acyclic d = true ->
  exists o, get_page d (title_ok exact want) = Ok o /\
    match o with
    | Some k => (exists p, pages d !! k = Some p /\ has_title exact want p) /\
                forall j p, j < k -> pages d !! j = Some p -> ~ has_title exact want p
    | None => forall p, p ∈ pages d -> ~ has_title exact want p
    end.
Proof.
  induction d as [p|p|p r IH]; cbn; intros Ha; [|discriminate|].
  - eexists; split; [reflexivity|]. destruct (title_ok exact want p) eqn:Et.
    + split; [exists p; split; auto; apply title_ok_iff; auto|]. intros; lia.
    + intros q Hq. apply elem_of_list_singleton in Hq as ->. rewrite <- title_ok_iff. congruence.
  - destruct (title_ok exact want p) eqn:Et.
    + eexists; split; [reflexivity|]. split; [exists p; split; auto; apply title_ok_iff; auto|]. intros; lia.
    + destruct (IH Ha) as (o & -> & Ho). cbn. eexists; split; [reflexivity|]. destruct o as [k|]; cbn.
      * destruct Ho as [Hk Hj]. split; auto. intros [|j] q Hlt Hq; simpl in Hq.
        -- injection Hq as <-. rewrite <- title_ok_iff. congruence.
        -- apply (Hj j); auto; lia.
      * intros q Hq. apply elem_of_cons in Hq as [->|Hq]; auto. rewrite <- title_ok_iff. congruence.
Qed.
(** C17: apop_data_get_page finds the first page with the title (case-insensitively or exactly), NULL if none. *)
Theorem C17_get_page : forall E (d : adata E) exact want, acyclic d = true ->
  exists o, get_page d (title_ok exact want) = Ok o /\
    match o with
    | Some k => (exists p, pages d !! k = Some p /\ has_title exact want p) /\
                forall j p, j < k -> pages d !! j = Some p -> ~ has_title exact want p
    | None => forall p, p ∈ pages d -> ~ has_title exact want p
    end.
Proof. exact C17_get_aux. Qed.
Print Assumptions C17_get_page.

Lemma append_spec {E} (d e : adata E) : acyclic d = true ->
  exists r, append d e = Ok r /\ pages r = pages d ++ pages e /\ acyclic r = acyclic e.
Proof.
  induction d as [p|p|p r IH]; cbn; intros Ha; [eexists; split; [reflexivity|]; auto|discriminate|].
  destruct (IH Ha) as (r' & -> & Hr & Hc). cbn. eexists; split; [reflexivity|]. cbn. rewrite Hr. auto.
Qed.
Lemma pages_set_head {E} (d : adata E) q : pages (set_head d q) = q :: tail (pages d).
Proof. destruct d; auto. Qed.
Lemma pages_head {E} (d : adata E) : pages d = head d :: tail (pages d).
Proof. destruct d; auto. Qed.
Lemma C17_add_aux E (d new : adata E) (t : string) : acyclic d = true ->
  exists r, add_page d new (Some t) = Ok r /\
    pages r = pages d ++ set_title (head new) t :: tail (pages new) /\
    title (nms (set_title (head new) t)) = Some t /\ vect (set_title (head new) t) = vect (head new) /\
    mat (set_title (head new) t) = mat (head new) /\ txt (set_title (head new) t) = txt (head new).
Proof.
  intros Ha. unfold add_page. destruct (append_spec d (set_head new (set_title (head new) t)) Ha) as (r & -> & Hr & _).
  exists r. rewrite pages_set_head in Hr. split; [reflexivity|]. split; [exact Hr|]. repeat split.
Qed.
(** C17: apop_data_add_page appends the new page(s) after all existing ones, under the title. *)
Theorem C17_add_page : forall E (d new : adata E) (t : string), acyclic d = true ->
  exists r, add_page d new (Some t) = Ok r /\
    pages r = pages d ++ set_title (head new) t :: tail (pages new) /\
    title (nms (set_title (head new) t)) = Some t /\ vect (set_title (head new) t) = vect (head new) /\
    mat (set_title (head new) t) = mat (head new) /\ txt (set_title (head new) t) = txt (head new).
Proof. exact C17_add_aux. Qed.
Print Assumptions C17_add_page.

(** the first page but the head with the title *)
Fixpoint take_out {E} (want : string) (l : list (page E)) : list (page E) * option (page E) :=
  match l with
  | [] => ([], None)
  | p :: l' => match title (nms p) with
               | Some t => if ci_eq t want then (l', Some p) else (p :: fst (take_out want l'), snd (take_out want l'))
               | None => (p :: fst (take_out want l'), snd (take_out want l'))
               end
  end.
Lemma take_out_spec {E} want (l : list (page E)) :
  match snd (take_out want l) with
  | Some q => exists a b, l = a ++ q :: b /\ fst (take_out want l) = a ++ b /\ has_title false want q /\
                (forall p, p ∈ a -> ~ has_title false want p)
  | None => fst (take_out want l) = l /\ forall p, p ∈ l -> ~ has_title false want p
  end.
Proof.
  assert (forall p t, title (nms p) = Some t -> ci_eq t want = false -> ~ @has_title E false want p) as Hneg.
  { intros p t Ht Hc (t' & Ht' & Hc'). congruence. }
  assert (forall p, title (nms p) = None -> ~ @has_title E false want p) as Hneg2.
  { intros p Ht (t' & Ht' & Hc'). congruence. }
  induction l as [|p l IH]; cbn; [split; auto; intros ? H; inversion H|].
  destruct (title (nms p)) as [t|] eqn:Et; [destruct (ci_eq t want) eqn:Ec|]; cbn [fst snd].
  - exists [], l. repeat split; auto; [exists t; auto|]. intros q Hq. inversion Hq.
  - destruct (snd (take_out want l)) as [q|].
    + destruct IH as (a & b & -> & IH2 & IH3 & IH4). exists (p :: a), b. rewrite IH2. repeat split; auto.
      intros q' Hq. apply elem_of_cons in Hq as [->|Hq]; eauto.
    + destruct IH as [IH1 IH2]. rewrite IH1. split; auto. intros q Hq. apply elem_of_cons in Hq as [->|Hq]; eauto.
  - destruct (snd (take_out want l)) as [q|].
    + destruct IH as (a & b & -> & IH2 & IH3 & IH4). exists (p :: a), b. rewrite IH2. repeat split; auto.
      intros q' Hq. apply elem_of_cons in Hq as [->|Hq]; eauto.
    + destruct IH as [IH1 IH2]. rewrite IH1. split; auto. intros q Hq. apply elem_of_cons in Hq as [->|Hq]; eauto.
Qed.
Lemma rm_page_spec {E} (d : adata E) want : acyclic d = true ->
  Forall (fun p => title (nms p) <> None) (tail (pages d)) ->
  exists r, rm_page d want = Ok (r, snd (take_out want (tail (pages d)))) /\ acyclic r = true /\
    pages r = head d :: fst (take_out want (tail (pages d))).
Proof.
  induction d as [p|p|p r IH]; cbn; intros Ha HF; [eauto|discriminate|].
  rewrite (pages_head r) in *. cbn [take_out].
  inversion HF as [|? ? Hh HF']; subst.
  destruct (title (nms (head r))) as [t|] eqn:Et; [|congruence].
  destruct (ci_eq t want) eqn:Ec.
  - destruct r as [q|q|q r']; cbn in *; [|discriminate|]; eexists; (split; [reflexivity|]); auto.
  - destruct (IH Ha HF') as (r' & -> & Hc & Hp). cbn. eexists; split; [reflexivity|]. cbn. split; auto. rewrite Hp. auto.
Qed.
Lemma C17_rm_aux E (d : adata E) want : acyclic d = true ->
  Forall (fun p => title (nms p) <> None) (tail (pages d)) ->
  exists r o, rm_page d want = Ok (r, o) /\ acyclic r = true /\
    match o with
    | Some q => exists a b, tail (pages d) = a ++ q :: b /\ pages r = head d :: a ++ b /\ has_title false want q /\
                  (forall p, p ∈ a -> ~ has_title false want p)
    | None => pages r = pages d /\ forall p, p ∈ tail (pages d) -> ~ has_title false want p
    end.
Proof.
  intros Ha HF. destruct (rm_page_spec d want Ha HF) as (r & Er & Hc & Hp).
  exists r, (snd (take_out want (tail (pages d)))). split; auto. split; auto.
  pose proof (take_out_spec want (tail (pages d))) as H. destruct (snd (take_out want (tail (pages d)))) as [q|].
  - destruct H as (a & b & H1 & H2 & H3 & H4). exists a, b. rewrite Hp, H2. auto.
  - destruct H as [H1 H2]. rewrite Hp, H1, <- pages_head. auto.
Qed.
(** C17: apop_data_rm_page takes out the first page after the head with the (case-insensitive) title and leaves all
    others in order.  Guard: these pages have titles (a NULL title is dereferenced: refuted below). *)
Theorem C17_rm_page : forall E (d : adata E) want, acyclic d = true ->
  Forall (fun p => title (nms p) <> None) (tail (pages d)) ->
  exists r o, rm_page d want = Ok (r, o) /\ acyclic r = true /\
    match o with
    | Some q => exists a b, tail (pages d) = a ++ q :: b /\ pages r = head d :: a ++ b /\ has_title false want q /\
                  (forall p, p ∈ a -> ~ has_title false want p)
    | None => pages r = pages d /\ forall p, p ∈ tail (pages d) -> ~ has_title false want p
    end.
Proof. exact C17_rm_aux. Qed.
Print Assumptions C17_rm_page.
Theorem C17_untitled_page_refuted : forall E (p : page E) want, rm_page (Cons p (Last (@blank E))) want = UB.
Proof. reflexivity. Qed.
Print Assumptions C17_untitled_page_refuted.
(** C17: adding a page and removing it by its title restores the chain, when no earlier page has that title. *)
Lemma C17_add_rm_aux E (d : adata E) (new : page E) (t : string) : acyclic d = true ->
  Forall (fun p => exists s, title (nms p) = Some s /\ ci_eq s t = false) (tail (pages d)) ->
  exists r r', add_page d (Last new) (Some t) = Ok r /\ rm_page r t = Ok (r', Some (set_title new t)) /\ pages r' = pages d.
Proof.
  intros Ha HF. destruct (C17_add_aux E d (Last new) t Ha) as (r & Er & Hp & Ht & _). cbn in Hp, Ht.
  assert (acyclic r = true) as Hac.
  { unfold add_page in Er. destruct (append_spec d (set_head (Last new) (set_title new t)) Ha) as (r2 & E2 & _ & Hc). cbn in *. rewrite E2 in Er. injection Er as <-. auto. }
  assert (tail (pages r) = tail (pages d) ++ [set_title new t]) as Htl by (rewrite Hp, (pages_head d); auto).
  destruct (rm_page_spec r t) as (r' & Er' & _ & Hr'); auto.
  { rewrite Htl. apply Forall_app. split; [|constructor; [discriminate|constructor]].
    eapply List.Forall_impl; [|exact HF]. intros p (s & -> & _). discriminate. }
  assert (take_out t (tail (pages r)) = (tail (pages d), Some (set_title new t))) as Hto.
  { rewrite Htl. clear -HF. induction HF as [|p l (s & Hs & Hc) HF IH]; cbn [take_out app].
    - cbn. rewrite ci_eq_refl. auto.
    - rewrite Hs, Hc, IH. auto. }
  rewrite Hto in *. cbn [fst snd] in *. exists r, r'. split; auto. split; auto. rewrite Hr'.
  assert (head r = head d) as ->. { pose proof (pages_head r) as H. rewrite Hp, (pages_head d) in H. injection H; auto. }
  rewrite <- pages_head. auto.
Qed.
Theorem C17_add_then_remove : forall E (d : adata E) (new : page E) (t : string), acyclic d = true ->
  Forall (fun p => exists s, title (nms p) = Some s /\ ci_eq s t = false) (tail (pages d)) ->
  exists r r', add_page d (Last new) (Some t) = Ok r /\ rm_page r t = Ok (r', Some (set_title new t)) /\ pages r' = pages d.
Proof. exact C17_add_rm_aux. Qed.
Print Assumptions C17_add_then_remove.
Example C17_nonvacuous : let d := Cons (set_title ex_page "one") (Last (set_title ex_page "two")) in
  get_page d (title_ok false "TWO") = Ok (Some 1) /\ exists r, rm_page d "TWO" = Ok (r, Some (set_title ex_page "two")).
Proof. cbv zeta. split; [reflexivity|]. eexists. reflexivity. Qed.

(** ---------- C18 ---------- *)
(** every part of [p] present reaches row start+len *)
Definition reaches {E} (p : page E) (k : nat) : Prop :=
  (forall v, vect p = Some v -> k <= length v) /\ (forall v, wts p = Some v -> k <= length v) /\
  (forall m, mat p = Some m -> k <= gr m) /\ (forall t, txt p = Some t -> k <= gr t).
Definition window {A} (start len : nat) (l : list A) : list A := take len (drop start l).
Definition window_rows {A} (start len : nat) (m : grid A) : grid A := Gr len (gc m) (window start len (ga m)).

Lemma view_mat_rows {A} (m : grid A) start len : wf_grid m -> start + len <= gr m ->
  view_mat (Some m) start 0 len (gc m) = Some (window_rows start len m).
Proof.
  intros [Hl Hf] H. unfold view_mat. replace (_ || _) with false by lia. unfold window_rows, window. do 2 f_equal.
  rewrite <- (map_id (take len (drop start (ga m)))) at 2. apply map_ext_in. intros r Hr. rewrite drop_0, take_ge; auto.
  rewrite List.Forall_forall in Hf. rewrite (Hf r); auto.
  rewrite <- (take_drop start (ga m)). apply in_app_iff. right. rewrite <- (take_drop len (drop start (ga m))). apply in_app_iff; auto.
Qed.
Lemma C18_rows_aux E (p : page E) start len : sane p -> reaches p (start + len) ->
  let q := view_rows p start len in
  vect q = option_map (window start len) (vect p) /\ wts q = option_map (window start len) (wts p) /\
  mat q = option_map (window_rows start len) (mat p) /\ txt q = option_map (window_rows start len) (txt p) /\
  coln (nms q) = coln (nms p) /\ txtn (nms q) = txtn (nms p) /\ title (nms q) = title (nms p) /\ vecn (nms q) = vecn (nms p) /\
  (len = 1 -> rown (nms q) = window start 1 (rown (nms p))).
Proof.
  intros [Hm _] (R1 & R2 & R3 & R4). cbn. unfold view_vec, view_rows. cbn.
  split. { destruct (vect p) as [v|]; auto. cbn. specialize (R1 v eq_refl). replace (length v <? start + len) with false by lia. auto. }
  split. { destruct (wts p) as [v|]; auto. cbn. specialize (R2 v eq_refl). replace (length v <? start + len) with false by lia. auto. }
  split. { destruct (mat p) as [m|]; auto. cbn [option_map]. rewrite view_mat_rows; auto. }
  split. { destruct (txt p) as [t|]; auto. cbn. specialize (R4 t eq_refl). replace (start + len <=? gr t) with true by lia. auto. }
  do 4 (split; [auto|]).
  intros _. unfold window. destruct (decide (start < length (rown (nms p)))) as [Hlt|Hge].
  - f_equal. destruct (_ - start) eqn:?; lia.
  - rewrite drop_ge by lia. rewrite !take_nil. auto.
Qed.
(** C18: Apop_rs(d, start, len) shows exactly these rows of every part, with column names; Apop_r (len 1) also
    shows the row's name.  Missing: the row names of longer views (refuted below), and views past the end. *)
Theorem C18_row_views : forall E (p : page E) start len, sane p -> reaches p (start + len) ->
  let q := view_rows p start len in
  vect q = option_map (window start len) (vect p) /\ wts q = option_map (window start len) (wts p) /\
  mat q = option_map (window_rows start len) (mat p) /\ txt q = option_map (window_rows start len) (txt p) /\
  coln (nms q) = coln (nms p) /\ txtn (nms q) = txtn (nms p) /\ title (nms q) = title (nms p) /\ vecn (nms q) = vecn (nms p) /\
  (len = 1 -> rown (nms q) = window start 1 (rown (nms p))).
Proof. exact C18_rows_aux. Qed.
Print Assumptions C18_row_views.
(** C18: a view of two or more rows never shows more than one row name. *)
Theorem C18_row_names_refuted : forall E (p : page E) start len, length (rown (nms (view_rows p start len))) <= 1.
Proof. intros E p start len. unfold view_rows. cbn [nms rown]. rewrite take_length. lia. Qed.
Print Assumptions C18_row_names_refuted.

Lemma C18_cols_aux E (p : page E) m start len : mat p = Some m -> wf_grid m -> 0 < len -> start + len <= gc m ->
  exists q, view_cols p start len = Some q /\
    mat q = Some (Gr (gr m) len (map (window start len) (ga m))) /\ wts q = wts p /\ vect q = None /\
    rown (nms q) = rown (nms p) /\ coln (nms q) = window start len (coln (nms p)).
Proof.
  intros Hm [Hl Hf] H0 H. unfold view_cols. rewrite Hm. replace (gc m <=? start + len - 1) with false by lia.
  eexists; split; [reflexivity|]. cbn. replace ((gr m <? gr m) || (gc m <? start + len)) with false by lia.
  rewrite drop_0, take_ge by lia. repeat split; auto.
  unfold window. destruct (decide (length (coln (nms p)) - start < len)) as [Hlt|Hge].
  - rewrite Nat.min_r by lia. rewrite !take_ge by (rewrite drop_length; lia). auto.
  - rewrite Nat.min_l by lia. auto.
Qed.
(** C18: Apop_cs(d, start, len), a nonempty range inside the matrix, shows exactly these columns and their names,
    with all row names and weights. *)
Theorem C18_column_views : forall E (p : page E) m start len, mat p = Some m -> wf_grid m -> 0 < len -> start + len <= gc m ->
  exists q, view_cols p start len = Some q /\
    mat q = Some (Gr (gr m) len (map (window start len) (ga m))) /\ wts q = wts p /\ vect q = None /\
    rown (nms q) = rown (nms p) /\ coln (nms q) = window start len (coln (nms p)).
Proof. exact C18_cols_aux. Qed.
Print Assumptions C18_column_views.
Theorem C18_column_view_past_end : forall E (p : page E) m start len, mat p = Some m -> gc m < start + len ->
  view_cols p start len = None.
Proof. intros E p m start len Hm H. unfold view_cols. rewrite Hm. replace (gc m <=? start + len - 1) with true by lia. auto. Qed.
Print Assumptions C18_column_view_past_end.
Example C18_nonvacuous : sane ex_page /\ reaches ex_page (1 + 1) /\
  vect (view_rows ex_page 1 1) = Some [2] /\ rown (nms (view_rows ex_page 1 1)) = ["r1"].
Proof.
  split; [split; cbn; intros ? [= <-]; unfold wf_grid; cbn; repeat split; auto; repeat constructor|].
  split; [unfold reaches; cbn; repeat split; intros ? [= <-]; cbn; lia|]. auto.
Qed.
