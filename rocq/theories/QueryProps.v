(** C70: query results (apop_query_to_data, _vector, _float, _text). *)
From Coq Require Import Reals.
From Verif Require Import StatsModel DataModel DbModel DbSpec DbProofs.
Local Open Scope list_scope.
Local Open Scope nat_scope.

Section C70.
  Context (g : num) (atof : string -> num) (nan_string : option string) (name_column : option string).
  Notation qdata := (query_to_data g atof nan_string name_column).

  Lemma qdata_eq a nc : name_column_at name_column (acols a) nc -> full_rows a -> arows a <> [] -> acols a <> [] ->
    exists p, qdata a = Ok (Some (set_err p (if afail a then Some "q"%char else None))) /\ err p = None /\
      vect p = None /\ wts p = None /\ txt p = None /\ vecn (nms p) = None /\ title (nms p) = None /\ txtn (nms p) = [] /\
      coln (nms p) = without nc (acols a) /\ rown (nms p) = names_in nc (arows a) /\
      mat p = if length (without nc (acols a)) =? 0 then None else Some (Gr (length (arows a)) (length (without nc (acols a))) (map (fun r => map (table_value atof nan_string) (without nc r)) (arows a))).
  Proof.
    intros Hnc Hf Hr Hc. unfold query_to_data. rewrite (find_is _ _ _ Hnc). destruct a as [cols rows fail]. cbn [acols arows afail] in *. unfold full_rows in Hf. cbn in Hf.
    assert (Hw : length cols - match nc with Some _ => 1 | None => 0 end = length (without nc cols)).
    { destruct nc as [k|]; cbn [without]; [|lia]. apply nc_lt in Hnc. rewrite app_length, take_length, drop_length. lia. }
    rewrite Hw. destruct rows as [|v0 rows]; [contradiction|]. inversion Hf as [|? ? Hv Hf']; subst.
    destruct (table_names_eq nc 0 cols name_alloc) as (N1 & N2 & N3 & N4 & N5). cbv zeta in *. cbn [name_alloc coln rown txtn vecn title app] in *. rewrite keep_without in N1.
    set (n0 := table_names nc 0 cols name_alloc) in *. clearbody n0.
    destruct (Nat.eqb_spec (length (without nc cols)) 0) as [E|E].
    - destruct nc as [k|]; [|destruct cols; [contradiction|discriminate]]. pose proof (nc_lt _ _ _ Hnc) as Hk. cbn [without] in E. rewrite app_length, take_length, drop_length in E. assert (k = 0) by lia. subst k. assert (E1 : length cols = 1) by lia.
      rewrite table_rows_names; auto; [|rewrite <- E1; auto]. cbn [rbind].
      set (p := set_nms blank n0). destruct (fold_names (map (name_here (Some 0) 0) (v0 :: rows)) n0) as (F1 & F2 & F3 & F4 & F5). cbv zeta in *.
      exists (set_nms p (fold_left add_name (map (name_here (Some 0) 0) (v0 :: rows)) (nms p))). cbn [p set_nms nms blank vect wts txt mat err].
      rewrite F1, F2, F3, F4, F5, names_in_here, N2. repeat split; auto. destruct fail; auto.
    - assert (E2 : data_alloc_filled g 1 (length (without nc cols)) 0 = Pg None (Some (Gr 1 (length (without nc cols)) [replicate (length (without nc cols)) g])) None None name_alloc None).
      { unfold data_alloc_filled, alloc_shape. cbn [Z.eqb]. destruct (Nat.eqb_spec (length (without nc cols)) 0); [lia|]. cbn [Nat.eqb]. destruct (Z.ltb_spec 0 (Z.of_nat (length (without nc cols)))); [|lia]. change (0 <? 1) with true. cbn [andb]. rewrite Nat2Z.id. auto. }
      rewrite E2. cbn [table_rows Nat.eqb]. set (w := length (without nc cols)) in *.
      erewrite (table_row_eq atof nan_string nc 0 v0 0 0 _ (Gr 1 w [replicate w g]) (replicate w g)); cbn [mat set_nms gr gc ga]; auto; try lia.
      2:{ rewrite replicate_length. auto. }
      2:{ destruct nc; auto. }
      2:{ rewrite keep_without. cbn. apply without_length. auto. }
      cbn [rbind]. rewrite keep_without. cbn [Nat.sub take app list_insert insert].
      match goal with |- context [table_rows g atof nan_string nc 1 rows ?P] => pose proof (table_rows_eq g atof nan_string nc w rows [map (table_value atof nan_string) (without nc v0)] P) as HT end. cbn [length] in HT. cbn [length]. rewrite HT; clear HT.
      2:{ discriminate. } 2:{ reflexivity. }
      2:{ constructor; [|constructor]. rewrite map_length. apply without_length. auto. }
      2:{ eapply List.Forall_impl; [|exact Hf']. intros r Hr'. apply without_length. auto. }
      cbn [rbind set_nms set_mat nms vect wts txt err]. eexists (Pg None _ None None _ None). cbn [vect mat wts txt nms err]. split; [destruct fail; reflexivity|]. cbn [vect mat wts txt nms err].
      match goal with |- context [fold_left add_name ?l ?n] => destruct (fold_names l n) as (F1 & F2 & F3 & F4 & F5) end. cbv zeta in *. rewrite F1, F2, F3, F4, F5. rewrite names_in_here.
      replace (add_name n0 (name_here nc 0 v0)) with (fold_left add_name (map (name_here nc 0) [v0]) n0) by reflexivity. destruct (fold_names (map (name_here nc 0) [v0]) n0) as (G1 & G2 & G3 & G4 & G5). cbv zeta in *. rewrite G1, G2, G3, G4, G5, names_in_here, N2. repeat split; auto.
      destruct nc as [k|]; cbn; auto. destruct (v0 !! k) as [[s|]|]; auto.
  Qed.
  (** C70: a query with rows gives a data set with a matrix: each element read from the query's, NULL and the NaN string as NaN; the columns' names are the columns' names; the column named by
      apop_opts.db_name_column is not in the matrix, and its elements are the row names *)
  Theorem C70_data : forall a nc, name_column_at name_column (acols a) nc -> full_rows a -> arows a <> [] -> length (without nc (acols a)) <> 0 -> afail a = false ->
    exists p m, qdata a = Ok (Some p) /\ mat p = Some m /\
      gr m = length (arows a) /\ gc m = length (without nc (acols a)) /\ Forall2 (fun r l => Forall2 (reads atof nan_string) (without nc r) l) (arows a) (ga m) /\
      coln (nms p) = without nc (acols a) /\ rown (nms p) = names_in nc (arows a) /\
      vect p = None /\ wts p = None /\ txt p = None /\ vecn (nms p) = None /\ title (nms p) = None /\ txtn (nms p) = [] /\ err p = None.
  Proof.
    intros a nc Hnc Hf Hr Hw Ha. destruct (qdata_eq a nc Hnc Hf Hr) as (p & Hp & He & H1 & H2 & H3 & H4 & H5 & H6 & H7 & H8 & H9).
    { intros E. rewrite E in Hw. destruct nc; cbn in Hw; rewrite ?take_nil, ?drop_nil in Hw; apply Hw; auto. }
    rewrite Ha in Hp. replace (set_err p None) with p in Hp by (destruct p; cbn in He; subst; auto). destruct (Nat.eqb_spec (length (without nc (acols a))) 0); [contradiction|].
    exists p. eexists. split; [exact Hp|]. split; [exact H9|]. cbn [gr gc ga]. repeat split; auto. apply Forall2_fmap_r, Forall_Forall2_diag, Forall_true. intros r. apply Forall2_fmap_r, Forall_Forall2_diag, Forall_true. intros c. apply reads_value.
  Qed.
  (** C70: no rows: NULL; an error: a data set whose error is 'q' (never NULL) *)
  Theorem C70_empty : forall a, arows a = [] -> afail a = false -> qdata a = Ok None.
  Proof. intros a H1 H2. unfold query_to_data. rewrite H1, H2. auto. Qed.
  Theorem C70_fail : forall a, full_rows a -> acols a <> [] -> afail a = true -> exists p, qdata a = Ok (Some p) /\ err p = Some "q"%char.
  Proof.
    intros a Hf Hc Ha. destruct (arows a) as [|v r] eqn:E; [unfold query_to_data; rewrite E, Ha; cbn; eauto|].
    destruct (qdata_eq a _ (proj1 (find_at name_column 0 (acols a))) Hf) as (p & Hp & _); [rewrite E; discriminate|auto|]. rewrite Hp, Ha. eauto.
  Qed.
  (** C70: only the name column: a data set with row names and no matrix *)
  Theorem C70_names_only : forall a c, acols a = [c] -> name_column_at name_column [c] (Some 0) -> full_rows a -> arows a <> [] -> afail a = false ->
    exists p, qdata a = Ok (Some p) /\ mat p = None /\ rown (nms p) = names_in (Some 0) (arows a).
  Proof.
    intros a c Hc Hn Hf Hr Ha. rewrite <- Hc in Hn. destruct (qdata_eq a _ Hn Hf Hr) as (p & Hp & H); [rewrite Hc; discriminate|]. exists (set_err p None). rewrite Ha in Hp. cbn [mat nms set_err]. decompose [and] H. repeat split; auto.
    rewrite Hc in *. cbn in *. auto.
  Qed.
  (** C70: apop_query_to_vector: the first column of the matrix; NULL if there are no rows *)
  Theorem C70_vector : forall a nc, name_column_at name_column (acols a) nc -> full_rows a -> arows a <> [] -> length (without nc (acols a)) <> 0 -> afail a = false ->
    exists v, query_to_vector g atof nan_string name_column a = Ok (Some v) /\
      Forall2 (fun r x => exists c, without nc r !! 0 = Some c /\ reads atof nan_string c x) (arows a) v.
  Proof.
    intros a nc Hnc Hf Hr Hw Ha. destruct (C70_data a nc Hnc Hf Hr Hw Ha) as (p & m & Hp & Hm & H1 & H2 & H3 & _). unfold query_to_vector. rewrite Hp. cbn [rbind]. rewrite Hm. destruct (Nat.ltb_spec 0 (gc m)); [|lia].
    eexists. split; [reflexivity|]. unfold colv. clear - H3 Hf Hw.
    assert (Hl : Forall (fun r : list (option string) => length (without nc r) <> 0) (arows a)). { eapply List.Forall_impl; [|exact Hf]. intros r Hr. rewrite (without_length _ _ _ Hr). auto. }
    clear Hf Hw. induction H3 as [|r l rs ls Hrl _ IH]; cbn; [constructor|]. inversion Hl; subst. inversion Hrl as [E1 E2|c x r' l' Hcx Hrest E1 E2]; subst; [exfalso; match goal with H : _ <> 0 |- _ => apply H; rewrite <- E1; auto end|]. cbn. constructor; [exists c; rewrite <- E1; auto|apply IH; auto].
  Qed.
  Theorem C70_vector_empty : forall a, arows a = [] -> afail a = false -> query_to_vector g atof nan_string name_column a = Ok None.
  Proof. intros a H1 H2. unfold query_to_vector. rewrite C70_empty; auto. Qed.
  (** C70: apop_query_to_float: the first element; NaN without rows or after an error *)
  Theorem C70_float : forall a nc, name_column_at name_column (acols a) nc -> full_rows a -> length (without nc (acols a)) <> 0 ->
    exists x, query_to_float g atof nan_string name_column a = Ok x /\
      ((afail a = true \/ arows a = []) /\ x = None \/ afail a = false /\ exists r rs c, arows a = r :: rs /\ without nc r !! 0 = Some c /\ reads atof nan_string c x).
  Proof.
    intros a nc Hnc Hf Hw. unfold query_to_float. destruct (afail a) eqn:Ha.
    - destruct (C70_fail a Hf) as (p & Hp & He); auto. { intros E. rewrite E in Hw. destruct nc; cbn in Hw; rewrite ?take_nil, ?drop_nil in Hw; apply Hw; auto. } rewrite Hp. cbn [rbind]. rewrite He. eauto 7.
    - destruct (arows a) as [|r rs] eqn:E; [rewrite C70_empty by auto; cbn; eauto 7|].
      destruct (C70_data a nc Hnc Hf) as (p & m & Hp & Hm & H1 & H2 & H3 & H4); auto; [rewrite E; discriminate|]. decompose [and] H4. rewrite Hp. cbn [rbind]. replace (err p) with (@None ascii) by auto.
      unfold get_at, uses_vector. cbn [Z.eqb andb orb]. rewrite Hm. cbn [andb Z.ltb orb Z.compare]. rewrite E in H3. inversion H3 as [|? l ? ls Hl _ E1 E2]; subst. unfold cell. rewrite <- E2. cbn.
      assert (Hlr : length (without nc r) <> 0). { rewrite (without_length nc r (acols a)); auto. unfold full_rows in Hf. rewrite E in Hf. inversion Hf. auto. }
      inversion Hl as [E4 E5|c x r' l' Hcx Hrest E4 E5]; subst; [exfalso; apply Hlr; rewrite <- E4; auto|]. cbn. exists x. split; auto. right. split; auto. exists r, rs, c. rewrite <- E4. auto.
  Qed.
End C70.
Section C70_t.
  Context (nan_string : option string) (name_column : option string).
  (** C70: apop_query_to_text: the texts as they are, NULL as the NaN string; names as for data *)
  Lemma chars_row_eq nc add row cols : forall vals j sh p t l,
    txt p = Some t -> ga t !! row = Some l -> row < gr t -> length l = gc t -> sh = passed nc j -> sh <= j -> length cols = length vals -> j - sh + length (keep_from nc j vals) = gc t ->
    Forall (fun v => has_pct (default (default "(null)" nan_string) v) = false) (keep_from nc j vals) ->
    exists n, chars_row nan_string nc add row j sh cols vals p =
      Ok (set_nms (set_txt p (Some (Gr (gr t) (gc t) (<[row := take (j - sh) l ++ map (default (default "(null)" nan_string)) (keep_from nc j vals)]> (ga t))))) n) /\
      rown n = rown (nms p) ++ omap (fun x => x) [name_here nc j vals] /\ coln n = coln (nms p) /\ txtn n = txtn (nms p) ++ (if add then keep_from nc j cols else []) /\ vecn n = vecn (nms p) /\ title n = title (nms p).
  Proof.
    induction cols as [|c cols IH]; intros vals j sh p t l Hm Hl Hr Hlen Hsh Hj Hc Hw Hp; destruct vals as [|v r]; try discriminate; cbn [chars_row keep_from].
    - exists (nms p). cbn [keep_from length map] in *. rewrite app_nil_r, take_ge by lia. rewrite list_insert_id by auto. split; [destruct t, p; cbn in *; subst; auto|]. assert (E : name_here nc j [] = None) by (destruct nc as [k|]; cbn; auto; rewrite lookup_nil; destruct (k <? j); auto). rewrite E. cbn. rewrite app_nil_r. destruct add; rewrite app_nil_r; auto.
    - cbn [keep_from] in Hw, Hp. injection Hc as Hc. destruct (is_col nc j) eqn:E.
      + destruct nc as [k|]; [|discriminate]. cbn in E. apply Nat.eqb_eq in E. subst j. assert (Hs0 : passed (Some k) k = 0) by (cbn; rewrite Nat.ltb_irrefl; auto). rewrite Hs0 in Hsh. subst sh.
        rewrite add_name_eq. assert (Hs1 : passed (Some k) (S k) = 1) by (cbn; destruct (Nat.ltb_spec k (S k)); lia).
        destruct (IH r (S k) 1 (set_nms p (add_name (nms p) v)) t l) as (n & Hn & N1 & N2 & N3 & N4 & N5); cbn [txt set_nms nms]; auto; try lia. rewrite Hn. exists n. replace (S k - 1) with (k - 0) by lia. split; [destruct p; auto|].
        rewrite N1, N2, N3, N4, N5. cbn [nms set_nms]. assert (E1 : name_here (Some k) (S k) r = None) by (cbn; destruct (Nat.ltb_spec k (S k)); auto; lia). assert (E2 : name_here (Some k) k (v :: r) = v) by (cbn; rewrite Nat.ltb_irrefl, Nat.sub_diag; auto).
        rewrite E1, E2. cbn. rewrite app_nil_r. destruct v; cbn; rewrite ?app_nil_r; auto.
      + cbn [length] in Hw. inversion Hp as [|? ? Hpv Hpr]; subst.
        assert (Hlt : row < length (ga t)) by (eapply lookup_lt_Some; eauto). set (d := default (default "(null)" nan_string)) in *.
        assert (Ha : ga (gset t row (j - passed nc j) (d v)) = <[row := <[j - passed nc j := d v]> l]> (ga t)). { unfold gset. cbn. apply list_eq. intros i. destruct (decide (i = row)) as [->|Hn]; [rewrite list_lookup_alter, Hl, list_lookup_insert by auto; auto|]. rewrite list_lookup_alter_ne, list_lookup_insert_ne by auto. auto. }
        assert (Ht : match (match v with Some s => Some s | None => nan_string end) with Some s => text_set p row (j - passed nc j) s | None => text_set p row (j - passed nc j) "(null)" end = Ok (set_txt p (Some (gset t row (j - passed nc j) (d v))))).
        { assert (Hset : forall s, has_pct s = false -> text_set p row (j - passed nc j) s = Ok (set_txt p (Some (gset t row (j - passed nc j) s)))).
          { intros s Hs. unfold text_set. rewrite Hs, Hm. destruct (Nat.ltb_spec row (gr t)); [|lia]. destruct (Nat.ltb_spec (j - passed nc j) (gc t)); [|lia]. auto. }
          destruct v as [s|]; [apply Hset; auto|]. unfold d in *. clear IH. destruct nan_string; exact (Hset _ Hpv). }
        rewrite Ht. cbn [rbind].
        set (q := if add then _ else _).
        destruct (IH r (S j) (passed nc j) q (gset t row (j - passed nc j) (d v)) (<[j - passed nc j := d v]> l)) as (n & Hn & N1 & N2 & N3 & N4 & N5); auto.
        * unfold q. destruct add; auto.
        * rewrite Ha. apply list_lookup_insert. auto.
        * rewrite insert_length. auto.
        * rewrite passed_next; auto.
        * cbn [gset gc]. lia.
        * rewrite Hn. exists n. split.
          -- f_equal. unfold q. destruct p as [pv pm pw pt pn pe], add; unfold set_nms, set_txt; cbn [vect mat wts txt nms err gset gr gc]; f_equal; do 2 f_equal; rewrite Ha, list_insert_insert; f_equal; cbn [map]; replace (S j - passed nc j) with (S (j - passed nc j)) by lia; (rewrite (take_S_r _ (j - passed nc j) (d v)); [rewrite take_insert by lia; rewrite <- app_assoc; auto|]; rewrite list_lookup_insert by lia; auto).
          -- rewrite N1, N2, N3, N4, N5. rewrite (name_next nc j v r) by auto. unfold q. destruct add; cbn; repeat split; auto. rewrite <- app_assoc. auto.
  Qed.
  Notation qtext := (query_to_text nan_string name_column).
  Lemma chars_rows_eq cols nc w rows : forall p done,
    w <> 0 -> txt p = (if length done =? 0 then None else Some (Gr (length done) w done)) -> Forall (fun r => length r = w) done -> w = length (without nc cols) -> length cols - match nc with Some _ => 1 | None => 0 end = w ->
    Forall (fun r => length r = length cols) rows -> Forall (fun r => Forall (fun v => has_pct (default (default "(null)" nan_string) v) = false) (without nc r)) rows -> (done = [] /\ txtn (nms p) = [] \/ done <> [] /\ txtn (nms p) = without nc cols) ->
    exists q, chars_rows nan_string cols nc rows p = Ok q /\
      txt q = (if length done + length rows =? 0 then None else Some (Gr (length done + length rows) w (done ++ map (fun r => map (default (default "(null)" nan_string)) (without nc r)) rows))) /\
      vect q = vect p /\ mat q = mat p /\ wts q = wts p /\ err q = err p /\ rown (nms q) = rown (nms p) ++ names_in nc rows /\ coln (nms q) = coln (nms p) /\ txtn (nms q) = (if length done + length rows =? 0 then [] else without nc cols) /\ vecn (nms q) = vecn (nms p) /\ title (nms q) = title (nms p).
  Proof.
    induction rows as [|v r IH]; intros p done Hw Ht Hd Hwc Hwc' Hf Hp Hn; cbn [chars_rows].
    - exists p. rewrite Nat.add_0_r, app_nil_r. replace (names_in nc []) with (@nil string) by (destruct nc; auto). rewrite app_nil_r. repeat split; auto. destruct Hn as [[-> ->]|[Hd' ->]]; auto. destruct done; [contradiction|auto].
    - inversion Hf as [|? ? Hv Hf']; subst. inversion Hp as [|? ? Hpv Hp']; subst. set (w := length (without nc cols)) in *.
      assert (Hsz : tsz1 p = length done). { unfold tsz1. rewrite Ht. destruct (Nat.eqb_spec (length done) 0); cbn; auto. }
      rewrite Hsz, Hwc'.
      assert (Hre : text_resize (txt p) (S (length done)) w = Ok (Some (Gr (S (length done)) w (done ++ [replicate w EmptyString])))).
      { unfold text_resize. cbn [Nat.eqb andb]. rewrite Ht. destruct (Nat.eqb_spec w 0); [lia|]. cbn [andb orb negb]. destruct (Nat.eqb_spec (length done) 0) as [E|E].
        - destruct done; [|discriminate]. reflexivity.
        - cbn [gr gc ga]. destruct (Nat.ltb_spec w w); [lia|]. rewrite andb_false_r. do 3 f_equal. rewrite take_ge by lia. replace (S (length done) - length done) with 1 by lia. cbn [replicate]. f_equal. clear - Hd. induction Hd as [|x l Hx _ IH]; cbn; auto. rewrite IH. f_equal. rewrite Hx, Nat.sub_diag. cbn. rewrite app_nil_r, take_ge by lia. auto. }
      rewrite Hre. cbn [rbind].
      destruct (chars_row_eq nc (length (txtn (nms p)) =? 0) (length done) cols v 0 0 (set_txt p (Some (Gr (S (length done)) w (done ++ [replicate w EmptyString])))) (Gr (S (length done)) w (done ++ [replicate w EmptyString])) (replicate w EmptyString)) as (n & En & N1 & N2 & N3 & N4 & N5); auto.
      + cbn [ga]. rewrite lookup_app_r by lia. rewrite Nat.sub_diag. auto.
      + cbn [gc]. rewrite replicate_length. auto.
      + destruct nc; auto.
      + cbn [gc]. rewrite keep_without. cbn. unfold w. apply without_length. auto.
      + rewrite keep_without. auto.
      + rewrite En. cbn [rbind]. clear En. cbn [set_txt set_nms gr gc ga nms vect mat wts err Nat.sub take app] in *. rewrite keep_without in *. set (f := default (default "(null)" nan_string)) in *.
        replace (<[length done := map f (without nc v)]> (done ++ [replicate w EmptyString])) with (done ++ [map f (without nc v)]).
        2:{ replace (length done) with (length done + 0) by lia. rewrite insert_app_r. auto. }
        destruct (IH (set_nms (set_txt p (Some (Gr (S (length done)) w (done ++ [map f (without nc v)])))) n) (done ++ [map f (without nc v)])) as (q & Hq & Q1 & Q2 & Q3 & Q4 & Q5 & Q6 & Q7 & Q8 & Q9 & Q10); auto.
        * cbn [txt set_nms set_txt]. rewrite app_length. cbn [length]. destruct (Nat.eqb_spec (length done + 1) 0); [lia|]. repeat f_equal. lia.
        * apply Forall_app. split; auto. constructor; [|constructor]. rewrite map_length. unfold w. apply without_length. auto.
        * right. split; [destruct done; discriminate|]. cbn [nms set_nms]. rewrite N3. destruct Hn as [[_ ->]|[Hd' ->]]; [cbn; apply keep_without|]. fold w. destruct (Nat.eqb_spec w 0); [contradiction|]. rewrite app_nil_r. auto.
        * exists q. split; [exact Hq|]. rewrite Q1, Q2, Q3, Q4, Q5, Q6, Q7, Q8, Q9, Q10. cbn [set_nms set_txt vect mat wts err nms]. rewrite N1, N2, N4, N5. rewrite !app_length. cbn [length map]. rewrite <- !app_assoc. cbn [app].
          replace (length done + S (length r)) with (length done + 1 + length r) by lia. destruct (Nat.eqb_spec (length done + 1 + length r) 0); [lia|]. repeat split; auto.
          rewrite <- (names_in_here nc (v :: r)), <- (names_in_here nc r). cbn [map omap list_omap]. destruct (name_here nc 0 v); auto.
  Qed.
  Theorem C70_text : forall a nc nan, nan_string = Some nan -> name_column_at name_column (acols a) nc -> full_rows a -> arows a <> [] -> length (without nc (acols a)) <> 0 -> afail a = false ->
    Forall (fun r => Forall (fun v => has_pct (default nan v) = false) (without nc r)) (arows a) ->
    exists p, qtext a = Ok (Some p) /\ txt p = Some (Gr (length (arows a)) (length (without nc (acols a))) (map (fun r => map (default nan) (without nc r)) (arows a))) /\
      txtn (nms p) = without nc (acols a) /\ rown (nms p) = names_in nc (arows a) /\
      vect p = None /\ mat p = None /\ wts p = None /\ vecn (nms p) = None /\ title (nms p) = None /\ coln (nms p) = [] /\ err p = None.
  Proof.
    intros a nc nan Hnan Hnc Hf Hr Hw Ha Hp. unfold query_to_text. rewrite (find_is _ _ _ Hnc).
    destruct (chars_rows_eq (acols a) nc (length (without nc (acols a))) (arows a) blank []) as (q & Hq & Q1 & Q2 & Q3 & Q4 & Q5 & Q6 & Q7 & Q8 & Q9 & Q10); auto.
    - destruct nc as [k|]; cbn [without]; [|lia]. apply nc_lt in Hnc. rewrite app_length, take_length, drop_length. lia.
    - rewrite Hnan. exact Hp.
    - rewrite Hq, Ha. cbn [rbind]. cbn [length Nat.add app] in *. destruct (Nat.eqb_spec (length (arows a)) 0) as [E|E]; [destruct (arows a); [contradiction|discriminate]|].
      unfold tsz1. rewrite Q1. cbn [gr]. destruct (Nat.eqb_spec (length (arows a)) 0); [lia|]. exists q. rewrite Q1, Hnan. repeat split; auto.
  Qed.
  Theorem C70_text_empty : forall a, arows a = [] -> afail a = false -> qtext a = Ok None.
  Proof. intros a H1 H2. unfold query_to_text. rewrite H1, H2. auto. Qed.
End C70_t.
Print Assumptions C70_data.
Print Assumptions C70_empty.
Print Assumptions C70_fail.
Print Assumptions C70_names_only.
Print Assumptions C70_vector.
Print Assumptions C70_vector_empty.
Print Assumptions C70_float.
Print Assumptions C70_text.
Print Assumptions C70_text_empty.
Definition q_atof (s : string) : num := if String.eqb s "1" then Some 1%R else if String.eqb s "2" then Some 2%R else Some 0%R.
Definition q_answer : answer := An ["x"; "Row_names"; "y"]%string [[Some "1"; Some "p"; None]; [Some "nan"; Some "q"; Some "2"]; [Some "NULL"; Some "r"; Some "word"]]%string false.
Lemma q_names : name_column_at (Some "row_names"%string) (acols q_answer) (Some 1).
Proof. split; [exists "Row_names"%string; split; auto; exists "row_names"%string; auto|]. intros [|j] c Hj; [|lia]. intros [= <-] (n & [= <-] & H). discriminate. Qed.
Lemma q_full : full_rows q_answer.
Proof. repeat constructor. Qed.
Example C70_nonvacuous : exists p m, query_to_data (Some 7%R) q_atof (Some "NaN"%string) (Some "row_names"%string) q_answer = Ok (Some p) /\ mat p = Some m /\
  ga m = [[Some 1%R; None]; [None; Some 2%R]; [None; Some 0%R]] /\ rown (nms p) = ["p"; "q"; "r"]%string /\ coln (nms p) = ["x"; "y"]%string.
Proof.
  destruct (C70_data (Some 7%R) q_atof (Some "NaN"%string) (Some "row_names"%string) q_answer _ q_names q_full) as (p & m & Hp & Hm & H1 & H2 & H3 & H4 & H5 & _); try (cbn; discriminate); auto.
  exists p, m. repeat split; auto. revert Hp Hm. vm_compute. intros [= <-] [= <-]. auto.
Qed.
Example C70_text_nonvacuous : exists p, query_to_text (Some "NaN"%string) (Some "row_names"%string) q_answer = Ok (Some p) /\
  txt p = Some (Gr 3 2 [["1"; "NaN"]; ["nan"; "2"]; ["NULL"; "word"]]%string) /\ rown (nms p) = ["p"; "q"; "r"]%string /\ txtn (nms p) = ["x"; "y"]%string.
Proof.
  destruct (C70_text (Some "NaN"%string) (Some "row_names"%string) q_answer _ "NaN"%string eq_refl q_names q_full) as (p & Hp & H1 & H2 & H3 & _); try (cbn; discriminate); auto; [repeat constructor|].
  exists p. repeat split; auto.
Qed.
(** Deviation: a NULL in the name column gives its row no name; the names after it move up. *)
Theorem C70_null_name_refuted : exists p, query_to_data (Some 7%R) q_atof (Some "NaN"%string) (Some "row_names"%string) (An ["row_names"; "x"]%string [[None; Some "1"]; [Some "b"; Some "2"]]%string false) = Ok (Some p) /\
  rown (nms p) = ["b"%string].
Proof. eexists. split; [vm_compute; reflexivity|]. reflexivity. Qed.
(** Deviation: apop_query_to_vector crashes after a query that failed, and with only the name column (NULL is documented). *)
Theorem C70_vector_refuted : query_to_vector (Some 7%R) q_atof (Some "NaN"%string) (Some "row_names"%string) (An [] [] true) = UB /\
  query_to_vector (Some 7%R) q_atof (Some "NaN"%string) (Some "row_names"%string) (An ["row_names"]%string [[Some "a"]]%string false) = UB.
Proof. split; reflexivity. Qed.
(** Deviation: apop_query_to_text uses the texts of the database as formats. *)
Theorem C70_text_refuted : query_to_text (Some "NaN"%string) None (An ["x"]%string [[Some "100%"]]%string false) = UB.
Proof. reflexivity. Qed.
(** Deviation: a query for only the name column as text gives NULL, though it has rows. *)
Theorem C70_text_names_refuted : query_to_text (Some "NaN"%string) (Some "row_names"%string) (An ["row_names"]%string [[Some "a"]; [Some "b"]]%string false) = Ok None.
Proof. reflexivity. Qed.
Print Assumptions C70_null_name_refuted.
Print Assumptions C70_vector_refuted.
Print Assumptions C70_text_refuted.
Print Assumptions C70_text_names_refuted.
