(** Lemmas on queries. *)
From Coq Require Import Reals.
From Verif Require Import DataModel DbModel DbSpec.
Local Open Scope list_scope.
Local Open Scope nat_scope.

Section queries.
  Context (g : num) (atof : string -> num) (nan_string : option string) (name_column : option string).
  Notation find_column := (find_column name_column).
  Notation table_value := (table_value atof nan_string).
  Lemma find_at i cols : name_column_at name_column cols (match find_column i cols with Some k => Some (k - i) | None => None end) /\ match find_column i cols with Some k => i <= k | None => True end.
  Proof using name_column. clear g atof nan_string.
    revert i. induction cols as [|c r IH]; intros i; cbn [DbModel.find_column].
    - split; auto. intros j c. rewrite lookup_nil. discriminate.
    - destruct (match name_column with Some n => ci_eq c n | None => false end) eqn:E.
      + split; auto. replace (i - i) with 0 by lia. split; [|intros j c' Hj; lia]. exists c. split; auto. destruct name_column as [n|]; [|discriminate]. exists n. auto.
      + assert (Hc : ~ exists n, name_column = Some n /\ ci_eq c n = true). { intros (n & Hn & H). rewrite Hn, H in E. discriminate. }
        destruct (IH (S i)) as [H Hle]. destruct (find_column (S i) r) as [k|].
        * split; [|lia]. destruct H as [(c' & Hk & Hm) Hb]. replace (k - i) with (S (k - S i)) by lia. split; [exists c'; auto|]. intros [|j] c'' Hj; [intros [= <-]; auto|]. cbn. intros Hj'. eapply Hb; [|exact Hj']. lia.
        * split; auto. intros [|j] c' Hj; [injection Hj as <-; auto|]. eapply H. exact Hj.
  Qed.
  Lemma name_column_unique cols nc nc' : name_column_at name_column cols nc -> name_column_at name_column cols nc' -> nc = nc'.
  Proof using name_column. clear g atof nan_string.
    unfold name_column_at. destruct nc as [k|], nc' as [k'|]; auto.
    - intros [(c & Hk & Hi) Hb] [(c' & Hk' & Hi') Hb']. f_equal. destruct (Nat.lt_trichotomy k k') as [H|[H|H]]; auto; exfalso; [eapply Hb'; eauto|eapply Hb; eauto].
    - intros [(c & Hk & Hi) _] H. exfalso. eapply H; eauto.
    - intros H [(c & Hk & Hi) _]. exfalso. eapply H; eauto.
  Qed.
  Lemma find_is cols nc : name_column_at name_column cols nc -> find_column 0 cols = nc.
  Proof using name_column. clear g atof nan_string.
    intros H. destruct (find_at 0 cols) as [H0 _]. rewrite (name_column_unique _ _ _ H H0). destruct (find_column 0 cols); auto. f_equal. lia.
  Qed.
  Lemma nc_lt cols k : name_column_at name_column cols (Some k) -> k < length cols.
  Proof using name_column. clear g atof nan_string. intros [(c & H & _) _]. eapply lookup_lt_Some; eauto. Qed.
  (** the elements from position [j] on, without that of the name column *)
  Fixpoint keep_from {A} (nc : option nat) (j : nat) (l : list A) : list A :=
    match l with [] => [] | x :: r => if is_col nc j then keep_from nc (S j) r else x :: keep_from nc (S j) r end.
  Lemma keep_after {A} k j (l : list A) : k < j -> keep_from (Some k) j l = l.
  Proof. revert j. induction l as [|x l IH]; intros j H; cbn; auto. destruct (Nat.eqb_spec j k); [lia|]. rewrite IH by lia. auto. Qed.
  Lemma keep_from_at {A} k j (l : list A) : j <= k -> keep_from (Some k) j l = take (k - j) l ++ drop (S (k - j)) l.
  Proof.
    revert j. induction l as [|x l IH]; intros j H; cbn [keep_from is_col]; [rewrite take_nil, drop_nil; auto|]. destruct (Nat.eqb_spec j k) as [->|Hn].
    - rewrite Nat.sub_diag, keep_after by lia. auto.
    - rewrite IH by lia. replace (k - j) with (S (k - S j)) by lia. cbn. auto.
  Qed.
  Lemma keep_none {A} j (l : list A) : keep_from None j l = l.
  Proof. revert j. induction l as [|x l IH]; intros j; cbn; auto. rewrite IH. auto. Qed.
  Lemma keep_without {A} nc (l : list A) : keep_from nc 0 l = without nc l.
  Proof. destruct nc as [k|]; [|apply keep_none]. rewrite keep_from_at by lia. rewrite Nat.sub_0_r. auto. Qed.
  Lemma without_length {A B} nc (l : list A) (l' : list B) : length l = length l' -> length (without nc l) = length (without nc l').
  Proof. destruct nc as [k|]; cbn [without]; auto. intros H. rewrite !app_length, !take_length, !drop_length, H. auto. Qed.
  Definition name_here (nc : option nat) (j : nat) (l : list (option string)) : option string :=
    match nc with Some k => if k <? j then None else match l !! (k - j) with Some v => v | None => None end | None => None end.
  Definition passed (nc : option nat) (j : nat) : nat := match nc with Some k => if k <? j then 1 else 0 | None => 0 end.
  Definition add_name (n : names) (s : option string) : names := match s with Some s => add1 n s "r" | None => n end.
  Lemma add_name_eq n s : fst (name_add n s "r") = add_name n s.
  Proof. destruct s; reflexivity. Qed.
  Lemma passed_next nc j : is_col nc j = false -> passed nc (S j) = passed nc j.
  Proof. destruct nc as [k|]; cbn; auto. intros H%Nat.eqb_neq. destruct (Nat.ltb_spec k (S j)), (Nat.ltb_spec k j); lia. Qed.
  Lemma name_next nc j v r : is_col nc j = false -> name_here nc (S j) r = name_here nc j (v :: r).
  Proof.
    destruct nc as [k|]; cbn; auto. intros H%Nat.eqb_neq. destruct (Nat.ltb_spec k (S j)), (Nat.ltb_spec k j); try lia; auto. replace (k - j) with (S (k - S j)) by lia. auto.
  Qed.
  Lemma table_row_eq nc row vals : forall j sh p m l,
    mat p = Some m -> ga m !! row = Some l -> row < gr m -> length l = gc m -> sh = passed nc j -> sh <= j -> j - sh + length (keep_from nc j vals) = gc m ->
    table_row atof nan_string nc row j sh vals p =
      Ok (set_nms (set_mat p (Some (Gr (gr m) (gc m) (<[row := take (j - sh) l ++ map table_value (keep_from nc j vals)]> (ga m))))) (add_name (nms p) (name_here nc j vals))).
  Proof.
    induction vals as [|v r IH]; intros j sh p m l Hm Hl Hr Hlen Hsh Hj Hw; cbn [table_row keep_from].
    - cbn [keep_from length map] in *. rewrite app_nil_r, take_ge by lia. rewrite list_insert_id by auto. destruct m, p. cbn in *. subst. f_equal. unfold set_nms, set_mat. cbn. f_equal. destruct nc as [k|]; cbn; auto. rewrite lookup_nil. destruct (k <? j); auto.
    - cbn [keep_from] in Hw. destruct (is_col nc j) eqn:E.
      + destruct nc as [k|]; [|discriminate]. cbn in E. apply Nat.eqb_eq in E. subst j. assert (Hs0 : passed (Some k) k = 0) by (cbn; rewrite Nat.ltb_irrefl; auto). rewrite Hs0 in Hsh. subst sh.
        rewrite add_name_eq. assert (Hs1 : passed (Some k) (S k) = 1) by (cbn; destruct (Nat.ltb_spec k (S k)); lia).
        rewrite (IH (S k) 1 _ m l); cbn [mat set_nms nms]; auto; try lia. replace (S k - 1) with (k - 0) by lia.
        f_equal. destruct p. unfold set_nms, set_mat. cbn. f_equal. destruct (Nat.ltb_spec k (S k)); [|lia]. rewrite Nat.ltb_irrefl, Nat.sub_diag. auto.
      + rewrite Hm. destruct (Nat.ltb_spec row (gr m)); [|lia]. cbn [length] in Hw. destruct (Nat.ltb_spec (j - sh) (gc m)); [|lia]. cbn [andb].
        assert (Hlt : row < length (ga m)) by (eapply lookup_lt_Some; eauto).
        assert (Ha : ga (gset m row (j - sh) (table_value v)) = <[row := <[j - sh := table_value v]> l]> (ga m)). { unfold gset. cbn. apply list_eq. intros i. destruct (decide (i = row)) as [->|Hn]; [rewrite list_lookup_alter, Hl, list_lookup_insert by auto; auto|]. rewrite list_lookup_alter_ne, list_lookup_insert_ne by auto. auto. }
        rewrite (IH (S j) sh _ (gset m row (j - sh) (table_value v)) (<[j - sh := table_value v]> l)); cbn [mat set_mat nms gr gc gset]; auto.
        * f_equal. destruct p. unfold set_nms, set_mat. cbn. f_equal; [|apply (f_equal (add_name nms)); apply name_next; auto].
          do 2 f_equal. unfold gset in Ha. cbn [ga] in Ha. rewrite Ha, list_insert_insert. f_equal. cbn [map]. replace (S j - sh) with (S (j - sh)) by lia.
          rewrite (take_S_r _ (j - sh) (table_value v)); [rewrite take_insert by lia; rewrite <- app_assoc; auto|]. rewrite list_lookup_insert by lia. auto.
        * rewrite Ha. apply list_lookup_insert. auto.
        * rewrite insert_length. auto.
        * rewrite passed_next; auto.
        * lia.
  Qed.
  Lemma table_rows_eq nc w rows : forall done p,
    done <> [] -> mat p = Some (Gr (length done) w done) -> Forall (fun r => length r = w) done -> Forall (fun r => length (without nc r) = w) rows ->
    table_rows g atof nan_string nc (length done) rows p =
      Ok (set_nms (set_mat p (Some (Gr (length done + length rows) w (done ++ map (fun r => map table_value (without nc r)) rows)))) (fold_left add_name (map (name_here nc 0) rows) (nms p))).
  Proof.
    induction rows as [|v r IH]; intros done p Hd Hm Hf Hr; cbn [table_rows].
    - cbn [map fold_left length]. rewrite app_nil_r, Nat.add_0_r. f_equal. destruct p. cbn in *. subst. auto.
    - inversion Hr; subst. destruct (Nat.eqb_spec (length done) 0) as [E|_]; [destruct done; [contradiction|discriminate]|].
      unfold more_row. rewrite Hm. cbn [gr gc ga]. rewrite take_ge by lia. replace (S (length done) - length done) with 1 by lia. cbn [replicate]. set (w := length (without nc v)) in *.
      erewrite (table_row_eq nc (length done) v 0 0 _ (Gr (S (length done)) w (done ++ [replicate w g])) (replicate w g)); cbn [mat set_mat gr gc ga]; auto.
      + cbn [rbind nms set_mat set_nms Nat.sub take app vect wts txt err]. rewrite keep_without.
        replace (<[length done := map table_value (without nc v)]> (done ++ [replicate w g])) with (done ++ [map table_value (without nc v)]).
        2:{ replace (length done) with (length done + 0) by lia. rewrite insert_app_r. auto. }
        replace (S (length done)) with (length (done ++ [map table_value (without nc v)])) by (rewrite app_length; cbn; lia).
        rewrite IH; cbn [mat set_nms nms set_mat vect wts txt err]; auto.
        * f_equal. unfold set_nms, set_mat. cbn. f_equal. do 2 f_equal; [rewrite app_length; cbn; lia|]. rewrite <- app_assoc. auto.
        * destruct done; discriminate.
        * apply Forall_app. split; auto. constructor; [rewrite map_length; auto|constructor].
      + rewrite lookup_app_r by lia. rewrite Nat.sub_diag. auto.
      + rewrite replicate_length. auto.
      + destruct nc; auto.
      + rewrite keep_without. auto.
  Qed.
  Lemma table_rows_names k rows : forall row p, mat p = None -> k = 0 -> Forall (fun r : list (option string) => length r = 1) rows ->
    table_rows g atof nan_string (Some k) row rows p = Ok (set_nms p (fold_left add_name (map (name_here (Some k) 0) rows) (nms p))).
  Proof.
    intros row p Hm -> Hf. revert row p Hm. induction rows as [|v r IH]; intros row p Hm; cbn [table_rows map fold_left]; [destruct p; auto|]. inversion Hf; subst. destruct v as [|v [|? ?]]; try discriminate.
    replace (if row =? 0 then p else more_row g p row) with p by (unfold more_row; rewrite Hm; destruct (row =? 0); auto). cbn [table_row is_col Nat.eqb rbind]. rewrite add_name_eq, IH by auto. auto.
  Qed.
  Lemma fold_names l : forall n, let n' := fold_left add_name l n in
    rown n' = rown n ++ omap (fun x => x) l /\ coln n' = coln n /\ txtn n' = txtn n /\ vecn n' = vecn n /\ title n' = title n.
  Proof.
    induction l as [|s l IH]; intros n; cbn [fold_left]; cbv zeta; [rewrite app_nil_r; auto|]. destruct (IH (add_name n s)) as (H1 & H2 & H3 & H4 & H5). rewrite H1, H2, H3, H4, H5. destruct s; cbn; auto. rewrite <- app_assoc. auto.
  Qed.
  Lemma table_names_eq nc j cols : forall n, let n' := table_names nc j cols n in
    coln n' = coln n ++ keep_from nc j cols /\ rown n' = rown n /\ txtn n' = txtn n /\ vecn n' = vecn n /\ title n' = title n.
  Proof.
    revert j. induction cols as [|c r IH]; intros j n; cbn [table_names keep_from]; cbv zeta; [rewrite app_nil_r; auto|].
    destruct (IH (S j) (if is_col nc j then n else add1 n c "c")) as (H1 & H2 & H3 & H4 & H5). rewrite H1, H2, H3, H4, H5. destruct (is_col nc j); auto. cbn. rewrite <- app_assoc. auto.
  Qed.
  Lemma names_in_here nc rows : omap (fun x => x) (map (name_here nc 0) rows) = names_in nc rows.
  Proof.
    destruct nc as [k|]; cbn [names_in]; [|induction rows; cbn; auto]. induction rows as [|r rows IH]; cbn; auto. rewrite IH, Nat.sub_0_r. destruct (r !! k) as [[s|]|]; auto.
  Qed.
  Lemma reads_value c : reads atof nan_string c (table_value c).
  Proof.
    destruct c as [s|]; [|apply reads_null]. unfold DbModel.table_value. destruct (String.eqb_spec s "NULL"); [subst; apply reads_NULL|]. unfold is_nan_string. destruct nan_string as [n0|] eqn:En.
    - destruct (ci_eq n0 s) eqn:E; cbn [orb]; [eapply reads_nan; eauto|apply reads_number; auto]. intros n1 [= <-]. auto.
    - cbn [orb]. apply reads_number; auto. discriminate.
  Qed.
  Lemma reads_fun c x : reads atof nan_string c x -> x = table_value c.
  Proof.
    intros H. destruct H as [| |n s Hn Hs|s Hs Hn]; auto; unfold DbModel.table_value, is_nan_string.
    - rewrite Hn, Hs, orb_true_r. auto.
    - destruct (String.eqb_spec s "NULL"); [contradiction|]. destruct nan_string as [n0|]; [rewrite (Hn n0 eq_refl)|]; auto.
  Qed.
End queries.
