(** C72: data sets to tables, and back. *)
From Coq Require Import Reals.
From Verif Require Import StatsModel DataModel DbModel DbSpec DbProofs QueryProps MixedProps.
Local Open Scope list_scope.
Local Open Scope nat_scope.

Section C72.
  Context (nan_string : option string) (name_column : option string) (show_n : nat -> string).
  Notation use_row := (use_row name_column).
  Notation table_columns := (table_columns name_column show_n).
  Notation row_fields := (row_fields nan_string).
  Notation data_to_db := (data_to_db nan_string name_column show_n).
  (** a data set of [n] rows: every part it has has [n]; there are [n] row names, not empty, or none; the name column has a name *)
  Definition rows_of (n : nat) (p : page num) : Prop :=
    n <> 0 /\ maxsize p = n /\ (forall v, vect p = Some v -> length v = n) /\ (forall m, mat p = Some m -> wf_grid m /\ gr m = n) /\ (forall t, txt p = Some t -> wf_grid t /\ gr t = n) /\ (forall w, wts p = Some w -> length w = n) /\
    (rown (nms p) = [] \/ length (rown (nms p)) = n /\ Forall (fun s => s <> EmptyString) (rown (nms p)) /\ (exists s, name_column = Some s /\ s <> EmptyString) /\ (vect p <> None \/ mat p <> None)).
  (** the value stored for a text: NULL for an empty one and for the NaN string *)
  Inductive stored_text : string -> dbv -> Prop :=
    | st_empty : stored_text EmptyString DNull
    | st_nan n s : nan_string = Some n -> ci_eq n s = true -> stored_text s DNull
    | st_text s : s <> EmptyString -> (forall n, nan_string = Some n -> ci_eq n s = false) -> stored_text s (DText s).
  Inductive stored_num : num -> dbv -> Prop := sn_nan : stored_num None DNull | sn_num x : stored_num (Some x) (DNum x).
  (** row [i] of the table: its name, vector element, matrix elements, texts and weight, as far as there are such *)
  Definition row_of (p : page num) (i : nat) (l : list dbv) : Prop :=
    exists l1 l2 l3 l4 l5, l = l1 ++ l2 ++ l3 ++ l4 ++ l5 /\
      Forall2 (fun s d => d = DText s) (match rown (nms p) !! i with Some s => [s] | None => [] end) l1 /\
      Forall2 stored_num (match vect p with Some v => match v !! i with Some x => [x] | None => [] end | None => [] end) l2 /\
      Forall2 stored_num (match mat p with Some m => default [] (ga m !! i) | None => [] end) l3 /\
      Forall2 stored_text (match txt p with Some t => default [] (ga t !! i) | None => [] end) l4 /\
      Forall2 stored_num (match wts p with Some w => match w !! i with Some x => [x] | None => [] end | None => [] end) l5.
  Definition text_value (s : string) : dbv := if skip_text nan_string s then DNull else DText s.
  Lemma text_value_stored s : stored_text s (text_value s).
  Proof.
    unfold text_value, skip_text. destruct (Nat.eqb_spec (String.length s) 0) as [E|E].
    - destruct s; [|discriminate]. apply st_empty.
    - assert (s <> EmptyString) by (intros ->; apply E; auto). cbn [orb]. destruct nan_string as [n|] eqn:En; [|apply st_text; auto; rewrite En; discriminate]. destruct (ci_eq n s) eqn:Ec; [eapply st_nan; eauto|]. apply st_text; auto. rewrite En. intros ? [= <-]. auto.
  Qed.
  Lemma num_stored x : stored_num x (of_num x).
  Proof. destruct x; constructor. Qed.
  Definition row_values (p : page num) (i : nat) : list dbv :=
    (match rown (nms p) !! i with Some s => [DText s] | None => [] end) ++
    (match vect p with Some v => match v !! i with Some x => [of_num x] | None => [] end | None => [] end) ++
    (match mat p with Some m => map of_num (default [] (ga m !! i)) | None => [] end) ++
    (match txt p with Some t => map text_value (default [] (ga t !! i)) | None => [] end) ++
    (match wts p with Some w => match w !! i with Some x => [of_num x] | None => [] end | None => [] end).
  Lemma row_values_of p i : row_of p i (row_values p i).
  Proof.
    unfold row_of, row_values. do 5 eexists. split; [reflexivity|]. split; [destruct (rown (nms p) !! i); repeat constructor|]. split; [destruct (vect p) as [v|]; [destruct (v !! i)|]; repeat constructor; apply num_stored|].
    split; [destruct (mat p) as [m|]; [|constructor]; apply Forall2_fmap_r, Forall_Forall2_diag, Forall_true; intros; apply num_stored|].
    split; [destruct (txt p) as [m|]; [|constructor]; apply Forall2_fmap_r, Forall_Forall2_diag, Forall_true; intros; apply text_value_stored|].
    destruct (wts p) as [v|]; [destruct (v !! i)|]; repeat constructor; apply num_stored.
  Qed.
  (** binding a row *)
  Lemma bind_all_values (l : list (option dbv)) vs : Forall2 (fun o d => o = Some d \/ o = None /\ d = DNull) l vs -> forall pre, bind_all (pre ++ replicate (length vs) DNull) (S (length pre)) l = Some (pre ++ vs).
  Proof.
    induction 1 as [|o d l vs Hod Hl IH]; intros pre; cbn [bind_all length replicate]; auto.
    assert (E : pre ++ d :: vs = (pre ++ [d]) ++ vs) by (rewrite <- app_assoc; auto).
    assert (E0 : forall d, pre ++ d :: replicate (length vs) DNull = (pre ++ [d]) ++ replicate (length vs) DNull) by (intros; rewrite <- app_assoc; auto).
    assert (Hlen : forall d : dbv, S (S (length pre)) = S (length (pre ++ [d]))) by (intros; rewrite app_length; cbn; lia).
    destruct Hod as [->|[-> ->]].
    - unfold bind. cbn [Nat.leb]. rewrite app_length. cbn [length]. rewrite replicate_length. change (1 <=? S (length pre)) with (0 <? S (length pre)). destruct (Nat.ltb_spec 0 (S (length pre))); [|lia]. destruct (Nat.leb_spec (S (length pre)) (length pre + S (length vs))); [|lia]. cbn [andb].
      replace (S (length pre) - 1) with (length pre + 0) by lia. rewrite insert_app_r. cbn. rewrite E0, (Hlen d), E. apply IH.
    - rewrite E0, (Hlen DNull), E. apply IH.
  Qed.
  Lemma fields_values p i n : rows_of n p -> i < n -> Forall2 (fun o d => o = Some d \/ o = None /\ d = DNull) (row_fields p i) (row_values p i).
  Proof.
    intros (Hn0 & Hn & Hv & Hm & Ht & Hw & Hr) Hi. unfold DbModel.row_fields, row_values. apply Forall2_app; [|apply Forall2_app; [|apply Forall2_app; [|apply Forall2_app]]].
    - destruct (rown (nms p) !! i) as [s|] eqn:E; [|constructor]. destruct (Nat.eqb_spec (String.length s) 0) as [E0|E0]; [|repeat constructor; auto].
      destruct Hr as [Hr|(_ & Hr & _)]; [rewrite Hr in E; discriminate|]. rewrite Forall_lookup in Hr. apply Hr in E. destruct s; [contradiction|discriminate].
    - destruct (vect p) as [v|]; [destruct (v !! i)|]; repeat constructor; auto.
    - destruct (mat p) as [m|]; [|constructor]. destruct (ga m !! i) as [l|]; [|constructor]. cbn. apply Forall2_fmap, Forall_Forall2_diag, Forall_true. auto.
    - destruct (txt p) as [m|]; [|constructor]. destruct (ga m !! i) as [l|]; [|constructor]. cbn. apply Forall2_fmap, Forall_Forall2_diag, Forall_true. intros s. unfold text_value. destruct (skip_text nan_string s); auto.
    - destruct (wts p) as [v|]; [destruct (v !! i)|]; repeat constructor; auto.
  Qed.
  Lemma rowct_sizes n p : rows_of n p -> rown (nms p) <> [] -> length (rown (nms p)) = n.
  Proof. intros (_ & _ & _ & _ & _ & _ & Hr) H. destruct Hr as [Hr|(Hr & _)]; auto. contradiction. Qed.
  Lemma part_lengths n p i : rows_of n p -> i < n ->
    length (match rown (nms p) !! i with Some s => [DText s] | None => [] end) = (if rowct p =? 0 then 0 else 1) /\
    length (match vect p with Some v => match v !! i with Some x => [of_num x] | None => [] end | None => [] end) = (match vect p with Some _ => 1 | None => 0 end) /\
    length (match mat p with Some m => map of_num (default [] (ga m !! i)) | None => [] end) = msz2 p /\
    length (match txt p with Some m => map text_value (default [] (ga m !! i)) | None => [] end) = tsz2 p /\
    length (match wts p with Some v => match v !! i with Some x => [of_num x] | None => [] end | None => [] end) = (match wts p with Some _ => 1 | None => 0 end).
  Proof.
    intros H Hi. pose proof H as (Hn0 & Hn & Hv & Hm & Ht & Hw & Hr). unfold rowct, msz2, tsz2.
    assert (E1 : length (match rown (nms p) !! i with Some s => [DText s] | None => [] end) = if length (rown (nms p)) =? 0 then 0 else 1).
    { destruct (Nat.eqb_spec (length (rown (nms p))) 0) as [E|E]; [apply length_zero_iff_nil in E; rewrite E; auto|]. destruct (lookup_lt_is_Some_2 (rown (nms p)) i) as [s Hs]; [rewrite (rowct_sizes n p H); auto; intros E'; rewrite E' in E; auto|]. rewrite Hs. auto. }
    assert (E2 : length (match vect p with Some v => match v !! i with Some x => [of_num x] | None => [] end | None => [] end) = match vect p with Some _ => 1 | None => 0 end).
    { destruct (vect p) as [v|]; auto. destruct (lookup_lt_is_Some_2 v i) as [x Hx]; [rewrite (Hv v); auto|]. rewrite Hx. auto. }
    assert (E5 : length (match wts p with Some v => match v !! i with Some x => [of_num x] | None => [] end | None => [] end) = match wts p with Some _ => 1 | None => 0 end).
    { destruct (wts p) as [v|]; auto. destruct (lookup_lt_is_Some_2 v i) as [x Hx]; [rewrite (Hw v); auto|]. rewrite Hx. auto. }
    assert (E3 : length (match mat p with Some m => map of_num (default [] (ga m !! i)) | None => [] end) = match mat p with Some m => gc m | None => 0 end).
    { destruct (mat p) as [m|]; auto. destruct (Hm m eq_refl) as [[Hl Hf] Hg]. destruct (lookup_lt_is_Some_2 (ga m) i) as [x Hx]; [lia|]. rewrite Hx. cbn. rewrite map_length. rewrite Forall_lookup in Hf. eauto. }
    assert (E4 : length (match txt p with Some m => map text_value (default [] (ga m !! i)) | None => [] end) = match txt p with Some m => gc m | None => 0 end).
    { destruct (txt p) as [m|]; auto. destruct (Ht m eq_refl) as [[Hl Hf] Hg]. destruct (lookup_lt_is_Some_2 (ga m) i) as [x Hx]; [lia|]. rewrite Hx. cbn. rewrite map_length. rewrite Forall_lookup in Hf. eauto. }
    auto.
  Qed.
  Lemma row_values_length n p i : rows_of n p -> i < n -> length (row_values p i) = col_ct p.
  Proof. intros H Hi. destruct (part_lengths n p i H Hi) as (E1 & E2 & E3 & E4 & E5). unfold row_values, col_ct. rewrite !app_length, E1, E2, E3, E4, E5. lia. Qed.
  Lemma insert_rows_eq N p : rows_of N p -> forall n i acc, i + n <= N -> insert_rows nan_string p n i acc = (acc ++ map (row_values p) (seq i n), true).
  Proof.
    intros H n. induction n as [|n IH]; intros i acc Hi; cbn [insert_rows seq map]; [rewrite app_nil_r; auto|].
    pose proof (bind_all_values _ _ (fields_values p i N H ltac:(lia)) []) as Hb. cbn [app length] in Hb. rewrite (row_values_length N p i) in Hb by (auto; lia). rewrite Hb. rewrite IH by lia. rewrite <- app_assoc. auto.
  Qed.
  Lemma use_row_eq n p : rows_of n p -> use_row p = negb (rowct p =? 0).
  Proof.
    intros (Hn0 & Hn & Hv & Hm & Ht & Hw & Hr). unfold DbModel.use_row, rowct. destruct Hr as [Hr|(Hl & _ & (s & Hs & Hs') & Hp)].
    - rewrite Hr. cbn [length Nat.eqb negb]. apply andb_false_iff. right. apply orb_false_iff. split.
      + destruct (mat p) as [m|]; auto. destruct (Hm m eq_refl) as [_ ->]. destruct n; auto. contradiction.
      + destruct (vect p) as [v|]; auto. rewrite (Hv v eq_refl). destruct n; auto. contradiction.
    - rewrite Hl, Hs. destruct (Nat.eqb_spec n 0); [contradiction|]. cbn [negb]. apply andb_true_iff. split; [destruct s; [contradiction|reflexivity]|]. apply orb_true_iff.
      destruct Hp as [Hp|Hp]; [right; destruct (vect p) as [v|]; [rewrite (Hv v eq_refl); apply Nat.eqb_refl|contradiction]|left; destruct (mat p) as [m|]; [destruct (Hm m eq_refl) as [_ ->]; apply Nat.eqb_refl|contradiction]].
  Qed.
  Lemma name_col_some n p : rows_of n p -> rowct p <> 0 -> exists s, name_column = Some s.
  Proof. intros (_ & _ & _ & _ & _ & _ & [Hr|(_ & _ & (s & Hs & _) & _)]) H; eauto. unfold rowct in H. rewrite Hr in H. exfalso. apply H. auto. Qed.
  Lemma columns_length n p : rows_of n p -> length (table_columns p) = col_ct p.
  Proof.
    intros H. unfold DbModel.table_columns, col_ct. rewrite (use_row_eq n p H). rewrite !app_length, !map_length, !seq_length.
    assert (E : length (if negb (rowct p =? 0) then match name_column with Some s => [s] | None => [] end else []) = if rowct p =? 0 then 0 else 1).
    { destruct (Nat.eqb_spec (rowct p) 0) as [|E]; auto. destruct (name_col_some n p H E) as [s ->]. auto. }
    rewrite E. destruct (vect p), (wts p); cbn; lia.
  Qed.
  Lemma col_ct_pos n p : rows_of n p -> 0 < msz2 p \/ vect p <> None \/ 0 < tsz2 p -> col_ct p <> 0.
  Proof. intros _ H. unfold col_ct. destruct (vect p); destruct H as [H|[H|H]]; try lia. contradiction. Qed.
  (** C72: a data set of [n] rows makes a table with one row for each, NaN and missing texts as NULL *)
  Theorem C72_create : forall n p, rows_of n p -> 0 < msz2 p \/ vect p <> None \/ 0 < tsz2 p ->
    exists t, data_to_db None p = (Some t, true) /\ length (tdata_ t) = n /\ (forall i l, tdata_ t !! i = Some l -> row_of p i l /\ length l = length (tcols t)) /\
      tcols t = (match rown (nms p) with [] => [] | _ => match name_column with Some s => [s] | None => [] end end) ++
        (match vect p with Some _ => [default "vector"%string (vecn (nms p))] | None => [] end) ++
        map (fun i => default ("c" ++ show_n i)%string (coln (nms p) !! i)) (seq 0 (msz2 p)) ++ map (fun i => default ("tc" ++ show_n i)%string (txtn (nms p) !! i)) (seq 0 (tsz2 p)) ++ (match wts p with Some _ => ["weights"%string] | None => [] end).
  Proof.
    intros n p H Hc. pose proof (col_ct_pos n p H Hc) as Hct. pose proof (columns_length n p H) as Hl. unfold DbModel.data_to_db. destruct (Nat.eqb_spec (col_ct p) 0); [contradiction|].
    destruct (table_columns p) as [|c cs] eqn:Et; [cbn in Hl; lia|]. cbn [tcols tdata_]. rewrite Hl, Nat.eqb_refl. assert (Hmx : maxsize p = n) by apply H. rewrite Hmx, (insert_rows_eq n p H) by lia. cbn [app].
    eexists. split; [reflexivity|]. cbn [tdata_ tcols]. rewrite map_length, seq_length. split; auto. split.
    - intros i l Hil. rewrite list_lookup_fmap in Hil. destruct (seq 0 n !! i) as [k|] eqn:Ek; [|discriminate]. apply lookup_seq in Ek. destruct Ek as [-> Hi]. injection Hil as <-. cbn. split; [apply row_values_of|]. rewrite (row_values_length n p i H Hi). auto.
    - rewrite <- Et. unfold DbModel.table_columns. rewrite (use_row_eq n p H). unfold rowct. destruct (rown (nms p)); reflexivity.
  Qed.
  (** C72: an existing table with as many columns keeps its columns and rows, and the new rows come after them *)
  Theorem C72_append : forall n p t, rows_of n p -> 0 < msz2 p \/ vect p <> None \/ 0 < tsz2 p -> col_ct p = length (tcols t) ->
    exists new, data_to_db (Some t) p = (Some (Tb (tcols t) (tdata_ t ++ new)), true) /\ length new = n /\ (forall i l, new !! i = Some l -> row_of p i l).
  Proof.
    intros n p t H Hc E. pose proof (col_ct_pos n p H Hc) as Hct. unfold DbModel.data_to_db. destruct (Nat.eqb_spec (col_ct p) 0); [contradiction|]. rewrite E, Nat.eqb_refl.
    assert (Hmx : maxsize p = n) by apply H. rewrite Hmx, (insert_rows_eq n p H) by lia. eexists. split; [reflexivity|]. rewrite map_length, seq_length. split; auto.
    intros i l Hil. rewrite list_lookup_fmap in Hil. destruct (seq 0 n !! i) as [k|] eqn:Ek; [|discriminate]. apply lookup_seq in Ek. destruct Ek as [-> Hi]. injection Hil as <-. cbn. apply row_values_of.
  Qed.
  (** C72: with another number of columns it is left as it is, and -1 is returned *)
  Theorem C72_mismatch : forall p t, col_ct p <> length (tcols t) -> data_to_db (Some t) p = (Some t, false).
  Proof. intros p t H. unfold DbModel.data_to_db. destruct (col_ct p =? 0); auto. destruct (Nat.eqb_spec (col_ct p) (length (tcols t))); [contradiction|auto]. Qed.

  (** back again *)
  Context (g : num) (atof : string -> num) (show : R -> string).
  (** the letters for the columns of the table *)
  Definition letters (p : page num) : string :=
    string_of_list_ascii ((if rowct p =? 0 then [] else ["n"%char]) ++ (match vect p with Some _ => ["v"%char] | None => [] end) ++ replicate (msz2 p) "m"%char ++ replicate (tsz2 p) "t"%char ++ (match wts p with Some _ => ["w"%char] | None => [] end)).
  (** what a number becomes by way of its text; what a text becomes *)
  Definition again (x : num) : num := match x with Some r => atof (show r) | None => None end.
  Definition again_text (s : string) : string := if skip_text nan_string s then "NaN"%string else s.
  Lemma picks_app {A} k ks1 ks2 (l1 l2 : list A) : length ks1 = length l1 -> picks k (ks1 ++ ks2) (l1 ++ l2) = picks k ks1 l1 ++ picks k ks2 l2.
  Proof. revert l1. induction ks1 as [|x ks1 IH]; intros [|a l1] H; try discriminate; auto. cbn. injection H as H. rewrite IH by auto. destruct (kind_eqb k x); auto. Qed.
  Lemma picks_replicate {A} k k' n (l : list A) : length l = n -> picks k (replicate n k') l = if kind_eqb k k' then l else [].
  Proof. intros <-. induction l as [|a l IH]; cbn; [destruct (kind_eqb k k'); auto|]. rewrite IH. destruct (kind_eqb k k'); auto. Qed.
  Lemma map_seq_list {A B} (F : nat -> B) (h : A -> B) (l : list A) n : length l = n -> (forall i x, l !! i = Some x -> F i = h x) -> map F (seq 0 n) = map h l.
  Proof.
    intros Hl H. apply list_eq. intros i. rewrite !list_lookup_fmap. destruct (l !! i) as [x|] eqn:E.
    - pose proof (lookup_lt_Some _ _ _ E) as Hi. assert (Es : seq 0 n !! i = Some i) by (apply lookup_seq; split; lia). rewrite Es. cbn. rewrite (H i x E). auto.
    - apply lookup_ge_None in E. rewrite (lookup_ge_None_2 (seq 0 n)) by (rewrite seq_length; lia). auto.
  Qed.
  Lemma map_replicate {A B} (f : A -> B) n x : map f (replicate n x) = replicate n (f x).
  Proof. induction n; cbn; congruence. Qed.
  Definition kinds_of (p : page num) : list kind :=
    (if rowct p =? 0 then [] else [KName]) ++ (match vect p with Some _ => [KVec] | None => [] end) ++ replicate (msz2 p) KMat ++ replicate (tsz2 p) KText ++ (match wts p with Some _ => [KWeight] | None => [] end).
  Lemma kinds_letters p : map kind_of (list_ascii_of_string (letters p)) = kinds_of p.
  Proof.
    unfold letters, kinds_of. rewrite list_ascii_of_string_of_list_ascii, !map_app, !map_replicate. destruct (rowct p =? 0), (vect p), (wts p); reflexivity.
  Qed.
  Notation out := (fun v => match v with DNull => None | DNum x => Some (show x) | DText s => Some s end).
  Lemma picks_parts {A} n p k (l1 l2 l3 l4 l5 : list A) : rows_of n p ->
    length l1 = (if rowct p =? 0 then 0 else 1) -> length l2 = (match vect p with Some _ => 1 | None => 0 end) -> length l3 = msz2 p -> length l4 = tsz2 p -> length l5 = (match wts p with Some _ => 1 | None => 0 end) ->
    picks k (kinds_of p) (l1 ++ l2 ++ l3 ++ l4 ++ l5) = match k with KName => l1 | KVec => l2 | KMat => l3 | KText => l4 | KWeight => l5 | KOther => [] end.
  Proof.
    intros _ H1 H2 H3 H4 H5. unfold kinds_of. rewrite !picks_app.
    2:{ rewrite replicate_length; auto. } 2:{ rewrite replicate_length; auto. } 2:{ destruct (vect p); auto. } 2:{ destruct (rowct p =? 0); auto. }
    rewrite !picks_replicate by auto.
    destruct (rowct p =? 0), (vect p), (wts p); destruct l1 as [|a1 [|]]; try discriminate; destruct l2 as [|a2 [|]]; try discriminate; destruct l5 as [|a5 [|]]; try discriminate; destruct k; cbn; rewrite ?app_nil_r; auto.
  Qed.
  Lemma count_kinds p k : count_kind k (kinds_of p) = match k with KName => if rowct p =? 0 then 0 else 1 | KVec => match vect p with Some _ => 1 | None => 0 end | KMat => msz2 p | KText => tsz2 p | KWeight => match wts p with Some _ => 1 | None => 0 end | KOther => 0 end.
  Proof.
    unfold kinds_of, count_kind. rewrite !List.filter_app, !app_length.
    assert (E : forall n k', length (List.filter (kind_eqb k) (replicate n k')) = if kind_eqb k k' then n else 0). { intros n k'. induction n; cbn; [destruct (kind_eqb k k'); auto|]. destruct (kind_eqb k k') eqn:Q; cbn; rewrite IHn; auto. }
    rewrite !E. destruct (rowct p =? 0), (vect p), (wts p), k; cbn; lia.
  Qed.
  (** C72: what apop_query_to_mixed_data reads from the whole table just written: all parts again, each number as SQLite's text for it is read, missing texts as NaN *)
  Theorem C72_round_trip : forall n p t, rows_of n p -> (forall m, mat p = Some m -> gc m <> 0) -> (forall x, txt p = Some x -> gc x <> 0) -> data_to_db None p = (Some t, true) ->
    exists q, query_to_mixed g atof (letters p) (select_all show t) = Ok (Some q) /\
      vect q = option_map (map again) (vect p) /\ wts q = option_map (map again) (wts p) /\
      mat q = option_map (fun m => Gr (gr m) (gc m) (map (map again) (ga m))) (mat p) /\ txt q = option_map (fun x => Gr (gr x) (gc x) (map (map again_text) (ga x))) (txt p) /\
      rown (nms q) = rown (nms p) /\ coln (nms q) = map (fun i => default ("c" ++ show_n i)%string (coln (nms p) !! i)) (seq 0 (msz2 p)) /\
      txtn (nms q) = map (fun i => default ("tc" ++ show_n i)%string (txtn (nms p) !! i)) (seq 0 (tsz2 p)) /\ err q = None.
  Proof.
    intros n p t H Hgm Hgt Hdb. pose proof H as (Hn0 & Hn & Hv & Hm & Ht & Hw & Hr).
    unfold DbModel.data_to_db in Hdb. destruct (Nat.eqb_spec (col_ct p) 0) as [|Hct]; [discriminate|]. pose proof (columns_length n p H) as Hl.
    destruct (table_columns p) as [|c cs] eqn:Et; [cbn in Hl; lia|]. cbn [tcols tdata_] in Hdb. rewrite Hl, Nat.eqb_refl, Hn, (insert_rows_eq n p H) in Hdb by lia. injection Hdb as <-. rewrite <- Et in *. clear Et c cs. cbn [app].
    set (rows := map (map out) (map (row_values p) (seq 0 n))).
    assert (Hks : length (kinds_of p) = col_ct p). { unfold kinds_of, col_ct. rewrite !app_length, !replicate_length. destruct (rowct p =? 0), (vect p), (wts p); cbn; lia. }
    destruct (C71_mixed g atof (letters p) (select_all show (Tb (table_columns p) (map (row_values p) (seq 0 n))))) as (q & Hq & Q1 & Q2 & Q3 & Q4 & Q5 & Q6 & Q7 & Q8 & Q9 & Q10); rewrite ?kinds_letters.
    - unfold kinds_of. rewrite !in_app_iff. intros Hin. destruct (rowct p =? 0), (vect p), (wts p); cbn in Hin; decompose [or] Hin; try discriminate; try contradiction; match goal with H : In _ (replicate _ _) |- _ => apply elem_of_list_In, elem_of_replicate in H; destruct H; discriminate end.
    - cbn [select_all acols tcols]. congruence.
    - unfold full_rows. cbn [select_all acols arows tcols tdata_]. fold rows. apply List.Forall_forall. intros r Hin. unfold rows in Hin. rewrite map_map in Hin. apply in_map_iff in Hin. destruct Hin as (i & <- & Hi). apply in_seq in Hi. rewrite map_length, (row_values_length n p i H) by lia. auto.
    - cbn [select_all arows tdata_]. destruct n; [contradiction|discriminate].
    - reflexivity.
    - rewrite kinds_letters in *. cbn [select_all acols arows tcols tdata_] in *. fold rows in Q1, Q2, Q3, Q4, Q5. exists q. split; [exact Hq|].
      assert (HP : forall i k, i < n -> picks k (kinds_of p) (map out (row_values p i)) = map out (match k with
          | KName => match rown (nms p) !! i with Some s => [DText s] | None => [] end
          | KVec => match vect p with Some v => match v !! i with Some x => [of_num x] | None => [] end | None => [] end
          | KMat => match mat p with Some m => map of_num (default [] (ga m !! i)) | None => [] end
          | KText => match txt p with Some t => map (text_value) (default [] (ga t !! i)) | None => [] end
          | KWeight => match wts p with Some w => match w !! i with Some x => [of_num x] | None => [] end | None => [] end
          | KOther => [] end)).
      { intros i k Hi. unfold row_values. rewrite !map_app. destruct (part_lengths n p i H Hi) as (E1 & E2 & E3 & E4 & E5). rewrite (picks_parts n p k) by (auto; rewrite map_length; auto). destruct k; reflexivity. }
      assert (HO : forall x, mixed_value atof (out (of_num x)) = again x) by (intros [x|]; reflexivity).
      assert (HT : forall s, or_nan (out (text_value s)) = again_text s) by (intros s; unfold text_value, again_text; destruct (skip_text nan_string s); reflexivity).
      split; [|split; [|split; [|split; [|split; [|split; [|split; [|exact Q10]]]]]]].
      + rewrite Q1, count_kinds. destruct (vect p) as [v|] eqn:Ev; [|reflexivity]. cbn [Nat.eqb option_map]. f_equal. unfold rows. rewrite !map_map. apply map_seq_list; [auto|]. intros i x Hx. rewrite HP by (rewrite <- (Hv v eq_refl); eapply lookup_lt_Some; eauto). rewrite Hx. cbn. apply HO.
      + rewrite Q2, count_kinds. destruct (wts p) as [v|] eqn:Ev; [|reflexivity]. cbn [Nat.eqb option_map]. f_equal. unfold rows. rewrite !map_map. apply map_seq_list; [auto|]. intros i x Hx. rewrite HP by (rewrite <- (Hw v eq_refl); eapply lookup_lt_Some; eauto). rewrite Hx. cbn. apply HO.
      + rewrite Q3, count_kinds. unfold msz2. destruct (mat p) as [m|] eqn:Ev; [|reflexivity]. destruct (Nat.eqb_spec (gc m) 0) as [E|_]; [exfalso; eapply Hgm; eauto|]. cbn [option_map]. destruct (Hm m eq_refl) as [[Hl1 _] Hg]. f_equal. f_equal; [unfold rows; rewrite !map_length, seq_length; auto|]. unfold rows. rewrite !map_map. apply map_seq_list; [congruence|]. intros i x Hx. rewrite HP by (rewrite <- Hg, <- Hl1; eapply lookup_lt_Some; eauto). rewrite Hx. cbn. rewrite !map_map. apply map_ext. auto.
      + rewrite Q4, count_kinds. unfold tsz2. destruct (txt p) as [m|] eqn:Ev; [|reflexivity]. destruct (Nat.eqb_spec (gc m) 0) as [E|_]; [exfalso; eapply Hgt; eauto|]. cbn [option_map]. destruct (Ht m eq_refl) as [[Hl1 _] Hg]. f_equal. f_equal; [unfold rows; rewrite !map_length, seq_length; auto|]. unfold rows. rewrite !map_map. apply map_seq_list; [congruence|]. intros i x Hx. rewrite HP by (rewrite <- Hg, <- Hl1; eapply lookup_lt_Some; eauto). rewrite Hx. cbn. rewrite !map_map. apply map_ext. auto.
      + rewrite Q5. unfold rows. rewrite !map_map. destruct (rown (nms p)) as [|s0 l0] eqn:Er.
        * erewrite map_ext_in; [|intros i Hi; apply in_seq in Hi; rewrite HP by lia; rewrite lookup_nil; reflexivity]. clear. cbn. induction (seq 0 n); cbn; auto.
        * rewrite <- Er in *. assert (Hrl : length (rown (nms p)) = n) by (apply rowct_sizes; auto; rewrite Er; discriminate). rewrite (map_seq_list _ (fun s => [s]) (rown (nms p)) n Hrl).
          -- clear. induction (rown (nms p)); cbn; congruence.
          -- intros i s Hs. rewrite HP by (rewrite <- Hrl; eapply lookup_lt_Some; eauto). rewrite Hs. reflexivity.
      + rewrite Q6. unfold DbModel.table_columns. rewrite (use_row_eq n p H). rewrite (picks_parts n p KMat); auto; try (rewrite map_length, seq_length; auto); [destruct (Nat.eqb_spec (rowct p) 0) as [|E]; auto; destruct (name_col_some n p H E) as [s ->]; auto| |]; destruct (vect p), (wts p); auto.
      + rewrite Q7. unfold DbModel.table_columns. rewrite (use_row_eq n p H). rewrite (picks_parts n p KText); auto; try (rewrite map_length, seq_length; auto); [destruct (Nat.eqb_spec (rowct p) 0) as [|E]; auto; destruct (name_col_some n p H E) as [s ->]; auto| |]; destruct (vect p), (wts p); auto.
  Qed.
  (** C72: so nothing changes where SQLite's text of every number is read as that number and no text is missing *)
  Theorem C72_same : forall n p t, rows_of n p -> (forall m, mat p = Some m -> gc m <> 0) -> (forall x, txt p = Some x -> gc x <> 0) -> data_to_db None p = (Some t, true) ->
    (forall r, atof (show r) = Some r) -> (forall x l s, txt p = Some x -> In l (ga x) -> In s l -> stored_text s (DText s)) ->
    exists q, query_to_mixed g atof (letters p) (select_all show t) = Ok (Some q) /\ vect q = vect p /\ mat q = mat p /\ txt q = txt p /\ wts q = wts p /\ rown (nms q) = rown (nms p).
  Proof.
    intros n p t H Hgm Hgt Hdb Hs Hx. destruct (C72_round_trip n p t H Hgm Hgt Hdb) as (q & Hq & Q1 & Q2 & Q3 & Q4 & Q5 & _). exists q. split; [exact Hq|]. rewrite Q1, Q2, Q3, Q4, Q5.
    assert (Ha : forall x, again x = x) by (intros [x|]; cbn; auto). assert (Hl : forall l, map again l = l) by (intros l; rewrite <- (map_id l) at 2; apply map_ext; auto).
    split; [destruct (vect p); cbn; rewrite ?Hl; auto|]. split; [destruct (mat p) as [[r c l]|]; cbn; auto; do 2 f_equal; rewrite <- (map_id l) at 2; apply map_ext; auto|]. split; [|split; [destruct (wts p); cbn; rewrite ?Hl; auto|auto]].
    destruct (txt p) as [[r c l]|]; cbn; auto. do 2 f_equal. rewrite <- (map_id l) at 2. apply map_ext_in. intros l' Hl'. rewrite <- (map_id l') at 2. apply map_ext_in. intros s Hs'. pose proof (Hx _ _ _ eq_refl Hl' Hs') as Hst. unfold again_text, skip_text.
    inversion Hst as [| |? H1 H2 E]; subst. destruct s as [|a s]; [contradiction|]. cbn [String.length Nat.eqb orb]. destruct nan_string as [n0|]; auto. rewrite (H2 n0 eq_refl). auto.
  Qed.
  (** C72: a matrix, with or without row names, read by apop_query_to_data *)
  Theorem C72_matrix : forall n p m t, rows_of n p -> mat p = Some m -> gc m <> 0 -> vect p = None -> txt p = None -> wts p = None -> data_to_db None p = (Some t, true) ->
    (rowct p = 0 -> name_column_at name_column (tcols t) None) -> (forall r x, reads atof nan_string (Some (show r)) x -> x = Some r) ->
    exists q, query_to_data g atof nan_string name_column (select_all show t) = Ok (Some q) /\ mat q = Some m /\ rown (nms q) = rown (nms p) /\
      coln (nms q) = map (fun i => default ("c" ++ show_n i)%string (coln (nms p) !! i)) (seq 0 (gc m)) /\ err q = None.
  Proof.
    intros n p m t H Em Hg Ev Ex Ew Hdb Hnc Hs. pose proof H as (Hn0 & Hn & Hv & Hm & Ht & Hw & Hr). destruct (Hm m Em) as [Wm Hgr].
    unfold DbModel.data_to_db in Hdb. destruct (Nat.eqb_spec (col_ct p) 0) as [|Hct]; [discriminate|]. pose proof (columns_length n p H) as Hl.
    destruct (table_columns p) as [|c cs] eqn:Et; [cbn in Hl; lia|]. cbn [tcols tdata_] in Hdb. rewrite Hl, Nat.eqb_refl, Hn, (insert_rows_eq n p H) in Hdb by lia. injection Hdb as <-. rewrite <- Et in *. clear Et c cs. cbn [app tcols] in *.
    set (names := map (fun i => default ("c" ++ show_n i)%string (coln (nms p) !! i)) (seq 0 (gc m))).
    assert (Hcols : table_columns p = (if rowct p =? 0 then [] else [default EmptyString name_column]) ++ names).
    { unfold DbModel.table_columns. rewrite (use_row_eq n p H), Ev, Ew. unfold tsz2, msz2. rewrite Ex, Em. cbn [seq map app]. rewrite app_nil_r. f_equal. destruct (Nat.eqb_spec (rowct p) 0) as [|E]; auto. destruct (name_col_some n p H E) as [s ->]. auto. }
    set (nc := if rowct p =? 0 then None else Some 0).
    assert (Hnc' : name_column_at name_column (table_columns p) nc).
    { unfold nc. destruct (Nat.eqb_spec (rowct p) 0) as [E|E]; [auto|]. rewrite Hcols. destruct (name_col_some n p H E) as [s Hs']. rewrite Hs'. cbn. split; [exists s; split; auto; exists s; split; auto; unfold ci_eq; apply String.eqb_refl|]. intros j c Hj. lia. }
    assert (Hrow : forall i, i < n -> without nc (map out (row_values p i)) = map out (map of_num (default [] (ga m !! i)))).
    { intros i Hi. destruct (part_lengths n p i H Hi) as (E1 & _). unfold row_values. rewrite Ev, Ex, Ew, Em. cbn [app]. rewrite app_nil_r, map_app. unfold nc. destruct (Nat.eqb_spec (rowct p) 0); destruct (rown (nms p) !! i); try discriminate; reflexivity. }
    assert (Hwc : without nc (table_columns p) = names). { rewrite Hcols. unfold nc. destruct (rowct p =? 0); reflexivity. }
    destruct (C70_data g atof nan_string name_column (select_all show (Tb (table_columns p) (map (row_values p) (seq 0 n)))) nc) as (q & m' & Hq & Hm' & M1 & M2 & M3 & M4 & M5 & M6); cbn [select_all acols arows afail tcols tdata_]; auto.
    - unfold full_rows. cbn [acols arows select_all tcols tdata_]. apply List.Forall_forall. intros r Hin. rewrite map_map in Hin. apply in_map_iff in Hin. destruct Hin as (i & <- & Hi). apply in_seq in Hi. rewrite map_length, (row_values_length n p i H) by lia. auto.
    - destruct n; [contradiction|discriminate].
    - rewrite Hwc. unfold names. rewrite map_length, seq_length. auto.
    - exists q. split; [exact Hq|]. rewrite Hm', M4, M5. cbn [select_all acols arows tcols tdata_] in *. decompose [and] M6. split; [|split; [|split; auto]].
      + f_equal. destruct m' as [r' c' l'], m as [r c l]. cbn [gr gc ga] in *. rewrite Hwc in M2. unfold names in M2. rewrite map_length, seq_length in M2. rewrite !map_length, seq_length in M1. f_equal; auto; [lia|].
        apply list_eq. intros i. destruct (decide (i < n)) as [Hi|Hi].
        * assert (Hsi : map (map out) (map (row_values p) (seq 0 n)) !! i = Some (map out (row_values p i))). { rewrite !list_lookup_fmap. replace (seq 0 n !! i) with (Some i) by (symmetry; apply lookup_seq; split; lia). auto. }
          destruct (Forall2_lookup_l _ _ _ _ _ M3 Hsi) as (y & Hy & HF). rewrite Hy. rewrite Hrow in HF by auto. destruct Wm as [Wl _]. cbn in Wl. destruct (lookup_lt_is_Some_2 l i) as [x Hx]; [lia|]. cbn [ga] in HF. rewrite Hx in *. cbn in HF. f_equal. clear - HF Hs.
          revert y HF. induction x as [|a x IH]; intros y HF; inversion HF as [|? b ? y' Hab HF']; subst; auto. f_equal; [|apply IH; auto]. destruct a as [r|]; cbn in Hab; [apply Hs in Hab; auto|]. inversion Hab. auto.
        * pose proof (Forall2_length _ _ _ M3) as HL. rewrite !map_length, seq_length in HL. destruct Wm as [Wl _]. cbn in Wl. rewrite !lookup_ge_None_2 by lia. auto.
      + unfold nc. destruct (Nat.eqb_spec (rowct p) 0) as [E|E]; [cbn; unfold rowct in E; apply length_zero_iff_nil in E; auto|].
        assert (Hrl : length (rown (nms p)) = n) by (apply rowct_sizes; auto; intros E'; unfold rowct in E; rewrite E' in E; auto). cbn [names_in]. rewrite map_map. clear - Hrl.
        assert (Q : forall (k : nat) l, omap (fun r : list (option string) => match r !! 0 with Some (Some s) => Some s | _ => None end) (map (fun x => map out (row_values p x)) (seq k (length l))) = l \/ ~ (forall i s, l !! i = Some s -> rown (nms p) !! (k + i) = Some s)).
        { intros k l. revert k. induction l as [|s l IH]; intros k; [left; auto|]. destruct (IH (S k)) as [IH'|IH'].
          - cbn [length seq map omap list_omap]. destruct (decide (rown (nms p) !! k = Some s)) as [E|E]; [left|right; intros Hf; apply E; specialize (Hf 0 s eq_refl); rewrite Nat.add_0_r in Hf; auto].
            unfold row_values at 1. rewrite E. cbn. f_equal. exact IH'.
          - right. intros Hf. apply IH'. intros i0 x Hx. specialize (Hf (S i0) x Hx). rewrite Nat.add_succ_r in Hf. auto. }
        destruct (Q 0 (rown (nms p))) as [E|E]; [rewrite Hrl in E; exact E|]. exfalso. apply E. auto.
  Qed.
End C72.
Print Assumptions C72_create.
Print Assumptions C72_append.
Print Assumptions C72_mismatch.
Print Assumptions C72_round_trip.
Print Assumptions C72_same.
Print Assumptions C72_matrix.
(** a data set with every part; the numbers shown by an injective numbering is left open: [show] is constant here, so only the shapes matter *)
Definition db_page : page num :=
  Pg (Some [Some 1%R; None]) (Some (Gr 2 2 [[Some 3%R; Some 4%R]; [None; Some 5%R]])) (Some [Some 1%R; Some 2%R]) (Some (Gr 2 1 [["cook"]; [""]]%string))
     (add1 (add1 (add1 name_alloc "ann" "r") "bob" "r") "height" "c") None.
Lemma db_page_rows : rows_of (Some "row_names"%string) 2 db_page.
Proof.
  split; [lia|]. split; [reflexivity|]. split; [intros v [= <-]; reflexivity|]. split; [intros m [= <-]; split; [split; [reflexivity|repeat constructor]|reflexivity]|].
  split; [intros m [= <-]; split; [split; [reflexivity|repeat constructor]|reflexivity]|]. split; [intros v [= <-]; reflexivity|].
  right. split; [reflexivity|]. split; [repeat constructor; discriminate|]. split; [exists "row_names"%string; split; auto; discriminate|left; discriminate].
Qed.
Definition ex_show (n : nat) : string := if (n =? 1)%nat then "1"%string else "0"%string.
Example C72_nonvacuous : exists t q, data_to_db (Some "NaN"%string) (Some "row_names"%string) ex_show None db_page = (Some t, true) /\
  tcols t = ["row_names"; "vector"; "height"; "c1"; "tc0"; "weights"]%string /\
  tdata_ t = [[DText "ann"; DNum 1; DNum 3; DNum 4; DText "cook"; DNum 1]; [DText "bob"; DNull; DNull; DNum 5; DNull; DNum 2]] /\
  letters db_page = "nvmmtw"%string /\ query_to_mixed (Some 7%R) (fun _ => Some 9%R) (letters db_page) (select_all (fun _ => "9"%string) t) = Ok (Some q) /\
  vect q = Some [Some 9%R; None] /\ txt q = Some (Gr 2 1 [["cook"]; ["NaN"]]%string).
Proof.
  set (t := Tb ["row_names"; "vector"; "height"; "c1"; "tc0"; "weights"]%string [[DText "ann"; DNum 1; DNum 3; DNum 4; DText "cook"; DNum 1]; [DText "bob"; DNull; DNull; DNum 5; DNull; DNum 2]]).
  assert (Ht : data_to_db (Some "NaN"%string) (Some "row_names"%string) ex_show None db_page = (Some t, true)) by reflexivity.
  destruct (C72_round_trip (Some "NaN"%string) (Some "row_names"%string) ex_show (Some 7%R) (fun _ => Some 9%R) (fun _ => "9"%string) 2 db_page t db_page_rows) as (q & Hq & Q1 & Q2 & Q3 & Q4 & _); auto; try (intros ? [= <-]; cbn; lia).
  exists t, q. repeat split; auto.
Qed.
(** Deviation: a row name that is empty moves the row's values one field to the right: the last one does not fit, and the insertion ends with -1. *)
Theorem C72_empty_name_refuted : data_to_db None (Some "row_names"%string) (fun _ => "0"%string) None (Pg (Some [Some 1%R; Some 2%R]) None None None (add1 (add1 name_alloc "a" "r") "" "r") None) =
  (Some (Tb ["row_names"; "vector"]%string [[DText "a"; DNum 1]]), false).
Proof. reflexivity. Qed.
(** Deviation: row names that the table does not get (fewer names than rows, or no apop_opts.db_name_column) are counted all the same: an empty table is made, and -1 returned. *)
Theorem C72_row_names_refuted : data_to_db None None (fun _ => "0"%string) None (Pg (Some [Some 1%R; Some 2%R]) None None None (add1 (add1 name_alloc "a" "r") "b" "r") None) = (Some (Tb ["vector"%string] []), false) /\
  data_to_db None (Some "row_names"%string) (fun _ => "0"%string) None (Pg (Some [Some 1%R; Some 2%R]) None None None (add1 name_alloc "a" "r") None) = (Some (Tb ["vector"%string] []), false).
Proof. split; reflexivity. Qed.
(** Deviation: text only, with row names, fails in the same way. *)
Theorem C72_text_names_refuted : data_to_db None (Some "row_names"%string) (fun _ => "0"%string) None (Pg None None None (Some (Gr 1 1 [["x"%string]])) (add1 name_alloc "a" "r") None) = (Some (Tb ["tc0"%string] []), false).
Proof. reflexivity. Qed.
Print Assumptions C72_empty_name_refuted.
Print Assumptions C72_row_names_refuted.
Print Assumptions C72_text_names_refuted.
