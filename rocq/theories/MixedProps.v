(** C71: apop_query_to_mixed_data. *)
From Coq Require Import Reals.
From Verif Require Import StatsModel DataModel DbModel DbSpec DbProofs.
Local Open Scope list_scope.
Local Open Scope nat_scope.

Lemma picks_count {A} k ks (l : list A) : length l = length ks -> length (picks k ks l) = count_kind k ks.
Proof. unfold count_kind. revert l. induction ks as [|x ks IH]; intros [|a l] H; try discriminate; auto. injection H as H. cbn. destruct (kind_eqb k x); cbn; rewrite IH; auto. Qed.
Lemma put_one {A} mc (x : A) P c l : mc < length l -> take (S mc) (<[mc := x]> l) ++ P ++ drop (S mc + c) (<[mc := x]> l) = take mc l ++ (x :: P) ++ drop (mc + S c) l.
Proof.
  intros H. rewrite (take_S_r _ mc x) by (rewrite list_lookup_insert; auto). rewrite take_insert by lia. rewrite drop_insert_gt by lia. rewrite <- app_assoc. cbn. repeat f_equal. lia.
Qed.
Notation last := stdpp.list.last.
Lemma count_cons k x ks : count_kind k (x :: ks) = (if kind_eqb k x then 1 else 0) + count_kind k ks.
Proof. unfold count_kind. cbn. destruct (kind_eqb k x); auto. Qed.
Section C71.
  Context (g : num) (atof : string -> num).
  Notation mv := (mixed_value atof).
  Notation vec_to := (vec_to g).
  Lemma vec_to_length w n : length (vec_to w n) = n.
  Proof. unfold DbModel.vec_to. rewrite app_length, take_length, replicate_length. lia. Qed.
  Lemma vec_to_same w n : length w = n -> vec_to w n = w.
  Proof. intros <-. unfold DbModel.vec_to. rewrite take_ge, Nat.sub_diag by lia. cbn. apply app_nil_r. Qed.
  Lemma last_cons_some {A} (a : A) l : last (a :: l) = Some (default a (last l)).
  Proof. rewrite last_cons. destruct (last l); auto. Qed.
  Definition or_last {A} (d : option A) (l : list A) : option A := match last l with Some x => Some x | None => d end.
  Lemma or_last_cons {A} d (x : A) l : or_last (Some x) l = or_last d (x :: l).
  Proof. unfold or_last. rewrite last_cons. destruct (last l); auto. Qed.
  Definition vec_after (row : nat) (l : list (option string)) (v : option (list num)) : option (list num) :=
    match last l with Some c => option_map (fun w => <[row := mv c]> (vec_to w (S row))) v | None => v end.
  Lemma vec_after_cons row c l w : vec_after row l (Some (<[row := mv c]> (vec_to w (S row)))) = vec_after row (c :: l) (Some w).
  Proof.
    unfold vec_after. rewrite last_cons. destruct (last l) as [c'|]; auto. cbn. f_equal. rewrite vec_to_same by (rewrite insert_length; apply vec_to_length). apply list_insert_insert.
  Qed.
  Definition grid_after {A} (row c : nat) (old new : list A) (m : grid A) : grid A := Gr (gr m) (gc m) (<[row := take c old ++ new ++ drop (c + length new) old]> (ga m)).
  Lemma grid_after_nil {A} row c (old : list A) m : ga m !! row = Some old -> grid_after row c old [] m = m.
  Proof. intros H. unfold grid_after. cbn. rewrite Nat.add_0_r, take_drop, list_insert_id by auto. destruct m; auto. Qed.
  Lemma mixed_row_eq addn row rest ks : forall cols vals mc tc x lm lt,
    length cols = length ks -> length vals = length ks ->
    match mat (xpage x) with Some m => ga m !! row = Some lm /\ row < gr m /\ length lm = gc m /\ mc + count_kind KMat ks <= gc m | None => count_kind KMat ks = 0 end ->
    match xtext x with Some t => t !! row = Some lt /\ tc + count_kind KText ks <= length lt | None => count_kind KText ks = 0 end ->
    (vect (xpage x) = None -> count_kind KVec ks = 0) -> (wts (xpage x) = None -> count_kind KWeight ks = 0) ->
    exists y, mixed_row g atof addn row (map Some ks ++ rest) cols vals mc tc x = Ok y /\
      vect (xpage y) = vec_after row (picks KVec ks vals) (vect (xpage x)) /\ wts (xpage y) = vec_after row (picks KWeight ks vals) (wts (xpage x)) /\
      mat (xpage y) = option_map (grid_after row mc lm (map mv (picks KMat ks vals))) (mat (xpage x)) /\
      xtext y = option_map (fun t => <[row := take tc lt ++ map (fun v => Some (or_nan v)) (picks KText ks vals) ++ drop (tc + count_kind KText ks) lt]> t) (xtext x) /\
      txt (xpage y) = txt (xpage x) /\ err (xpage y) = err (xpage x) /\
      rown (nms (xpage y)) = rown (nms (xpage x)) ++ map or_nan (picks KName ks vals) /\
      coln (nms (xpage y)) = coln (nms (xpage x)) ++ (if addn then picks KMat ks cols else []) /\
      txtn (nms (xpage y)) = txtn (nms (xpage x)) ++ (if addn then picks KText ks cols else []) /\
      vecn (nms (xpage y)) = (if addn then or_last (vecn (nms (xpage x))) (picks KVec ks cols) else vecn (nms (xpage x))) /\
      title (nms (xpage y)) = (if addn then or_last (title (nms (xpage x))) (picks KName ks cols) else title (nms (xpage x))).
  Proof.
    induction ks as [|k ks IH]; intros cols vals mc tc x lm lt Hc Hv Hm Ht Hvec Hw; destruct cols as [|c cols], vals as [|v vals]; try discriminate.
    - exists x. cbn [mixed_row map picks app vec_after last or_last]. split; [destruct rest; reflexivity|]. cbn [map app]. repeat split; auto.
      + destruct (mat (xpage x)) as [m|]; auto. cbn [option_map]. rewrite grid_after_nil; auto. apply Hm.
      + destruct (xtext x) as [t|]; auto. cbn [option_map]. change (count_kind KText []) with 0. cbn [map app]. rewrite Nat.add_0_r, take_drop, list_insert_id; auto. apply Ht.
      + rewrite app_nil_r. auto.
      + destruct addn; rewrite app_nil_r; auto.
      + destruct addn; rewrite app_nil_r; auto.
      + destruct addn; auto.
      + destruct addn; auto.
    - injection Hc as Hc. injection Hv as Hv. cbn [map app mixed_row].
      rewrite !count_cons in *. destruct k; cbn [picks kind_eqb Nat.add] in *.
      (* the tail, started from the page [X] *)
      + match goal with |- context [mixed_row g atof addn row _ cols vals mc tc ?X] => destruct (IH cols vals mc tc X lm lt) as (y & Hy & Y1 & Y2 & Y3 & Y4 & Y5 & Y6 & Y7 & Y8 & Y9 & Y10 & Y11) end; auto; try (cbn [xpage xtext]; destruct addn; auto; fail).
        exists y. split; [exact Hy|]. rewrite Y1, Y2, Y3, Y4, Y5, Y6, Y7, Y8, Y9, Y10, Y11. clear.
        destruct addn; cbn [xpage xtext nms set_nms vect mat wts txt err]; repeat split; auto; try (cbn; rewrite <- app_assoc; reflexivity). cbn. apply or_last_cons.
      + destruct (vect (xpage x)) as [w|] eqn:Ev; [|exfalso; assert (S (count_kind KVec ks) = 0) by auto; lia].
        assert (Es : fst (set_at (set_vec (xpage x) (Some (vec_to w (S row)))) (Z.of_nat row) (-1) (mv v)) = set_vec (xpage x) (Some (<[row := mv v]> (vec_to w (S row))))).
        { unfold set_at, uses_vector. cbn [Z.eqb orb vect set_vec]. rewrite vec_to_length. destruct (Z.leb_spec 0 (Z.of_nat row)); [|lia]. destruct (Z.ltb_spec (Z.of_nat row) (Z.of_nat (S row))); [|lia]. cbn [andb fst]. rewrite Nat2Z.id. auto. }
        rewrite Es. match goal with |- context [mixed_row g atof addn row _ cols vals mc tc ?X] => destruct (IH cols vals mc tc X lm lt) as (y & Hy & Y1 & Y2 & Y3 & Y4 & Y5 & Y6 & Y7 & Y8 & Y9 & Y10 & Y11) end; auto; try (cbn [xpage xtext]; destruct addn; auto; fail).
        { destruct addn; cbn; discriminate. }
        exists y. split; [exact Hy|]. rewrite Y1, Y2, Y3, Y4, Y5, Y6, Y7, Y8, Y9, Y10, Y11. clear.
        destruct addn; cbn [xpage xtext nms set_nms set_vec vect mat wts txt err]; (split; [apply vec_after_cons|]); repeat split; auto. cbn. apply or_last_cons.
      + destruct (mat (xpage x)) as [m|] eqn:Em; [|lia]. destruct Hm as (Hm1 & Hm2 & Hm3 & Hm4).
        assert (Hlt : row < length (ga m)) by (eapply lookup_lt_Some; eauto).
        assert (Es : fst (set_at (xpage x) (Z.of_nat row) (Z.of_nat mc) (mv v)) = set_mat (xpage x) (Some (gset m row mc (mv v)))).
        { unfold set_at, uses_vector. rewrite Em. cbn [andb]. rewrite andb_false_r. cbn [andb]. rewrite orb_false_r. destruct (Z.eqb_spec (Z.of_nat mc) (-1)); [lia|].
          destruct (Z.leb_spec 0 (Z.of_nat row)); [|lia]. destruct (Z.ltb_spec (Z.of_nat row) (Z.of_nat (gr m))); [|lia]. destruct (Z.leb_spec 0 (Z.of_nat mc)); [|lia]. destruct (Z.ltb_spec (Z.of_nat mc) (Z.of_nat (gc m))); [|lia]. cbn [andb fst]. rewrite !Nat2Z.id. auto. }
        assert (Ha : ga (gset m row mc (mv v)) = <[row := <[mc := mv v]> lm]> (ga m)). { unfold gset. cbn. apply list_eq. intros i. destruct (decide (i = row)) as [->|Hn]; [rewrite list_lookup_alter, Hm1, list_lookup_insert by auto; auto|]. rewrite list_lookup_alter_ne, list_lookup_insert_ne by auto. auto. }
        rewrite Es. match goal with |- context [mixed_row g atof addn row _ cols vals (S mc) tc ?X] => destruct (IH cols vals (S mc) tc X (<[mc := mv v]> lm) lt) as (y & Hy & Y1 & Y2 & Y3 & Y4 & Y5 & Y6 & Y7 & Y8 & Y9 & Y10 & Y11) end; auto; try (cbn [xpage xtext]; destruct addn; auto; fail).
        { destruct addn; cbn [xpage set_nms set_mat mat nms]; rewrite Ha; cbn [gset gr gc]; rewrite list_lookup_insert, insert_length by auto; repeat split; auto; lia. }
        exists y. split; [exact Hy|]. rewrite Y1, Y2, Y3, Y4, Y5, Y6, Y7, Y8, Y9, Y10, Y11.
        assert (Hg : grid_after row (S mc) (<[mc:=mv v]> lm) (map mv (picks KMat ks vals)) (gset m row mc (mv v)) = grid_after row mc lm (map mv (v :: picks KMat ks vals)) m).
        { unfold grid_after. rewrite Ha. cbn [gset gr gc map length]. f_equal. rewrite list_insert_insert. f_equal. apply put_one. lia. }
        cbn [option_map]. rewrite <- Hg. clear.
        destruct addn; cbn [xpage xtext nms set_nms set_mat vect mat wts txt err option_map]; repeat split; auto. cbn. rewrite <- app_assoc. auto.
      + destruct (xtext x) as [t|] eqn:Et; [|lia]. destruct Ht as (Ht1 & Ht2). rewrite Ht1. destruct (Nat.ltb_spec tc (length lt)); [|lia].
        assert (Hlt : row < length t) by (eapply lookup_lt_Some; eauto).
        match goal with |- context [mixed_row g atof addn row _ cols vals mc (S tc) ?X] => destruct (IH cols vals mc (S tc) X lm (<[tc := Some (or_nan v)]> lt)) as (y & Hy & Y1 & Y2 & Y3 & Y4 & Y5 & Y6 & Y7 & Y8 & Y9 & Y10 & Y11) end; auto; try (cbn [xpage xtext]; destruct addn; auto; fail).
        { cbn [xtext]. rewrite list_lookup_insert, insert_length by auto. split; auto. lia. }
        exists y. split; [exact Hy|]. rewrite Y1, Y2, Y3, Y4, Y5, Y6, Y7, Y8, Y9, Y10, Y11. cbn [xtext option_map map].
        rewrite list_insert_insert, put_one by auto. clear.
        destruct addn; cbn [xpage xtext nms set_nms set_mat vect mat wts txt err option_map]; repeat split; auto. cbn. rewrite <- app_assoc. auto.
      + destruct (wts (xpage x)) as [w|] eqn:Ew; [|exfalso; assert (S (count_kind KWeight ks) = 0) by auto; lia].
        match goal with |- context [mixed_row g atof addn row _ cols vals mc tc ?X] => destruct (IH cols vals mc tc X lm lt) as (y & Hy & Y1 & Y2 & Y3 & Y4 & Y5 & Y6 & Y7 & Y8 & Y9 & Y10 & Y11) end; auto; try discriminate.
        exists y. split; [exact Hy|]. rewrite Y1, Y2, Y3, Y4, Y5, Y6, Y7, Y8, Y9, Y10, Y11. clear. cbn [xpage set_wts wts vect mat txt err nms xtext]. rewrite vec_after_cons. repeat split; auto.
      + destruct (IH cols vals mc tc x lm lt) as (y & Hy & Y); auto.
  Qed.

  Notation rowval k ks r := (mv (default None (last (picks k ks r)))).
  (** after the rows [done] *)
  Definition vec_ok (k : kind) (ks : list kind) (done : list (list (option string))) (v : option (list num)) : Prop :=
    match v with
    | None => count_kind k ks = 0
    | Some w => count_kind k ks <> 0 /\ length done <= length w /\ (done <> [] -> length w = length done) /\ take (length done) w = map (fun r => rowval k ks r) done end.
  Definition mat_ok (ks : list kind) (done : list (list (option string))) (o : option (grid num)) : Prop :=
    match o with
    | None => count_kind KMat ks = 0
    | Some m => count_kind KMat ks <> 0 /\ gc m = count_kind KMat ks /\ gr m = Nat.max 1 (length done) /\ length (ga m) = gr m /\ take (length done) (ga m) = map (fun r => map mv (picks KMat ks r)) done /\ Forall (fun r => length r = gc m) (ga m) end.
  Definition text_ok (ks : list kind) (done : list (list (option string))) (o : option (list (list (option string)))) : Prop :=
    match o with None => count_kind KText ks = 0 | Some t => count_kind KText ks <> 0 /\ t = map (fun r => map (fun v => Some (or_nan v)) (picks KText ks r)) done end.
  Definition names_ok (ks : list kind) (cols : list string) (done : list (list (option string))) (n : names) : Prop :=
    rown n = concat (map (fun r => map or_nan (picks KName ks r)) done) /\
    match done with
    | [] => coln n = [] /\ txtn n = [] /\ vecn n = None /\ title n = None
    | _ => coln n = picks KMat ks cols /\ txtn n = picks KText ks cols /\ vecn n = last (picks KVec ks cols) /\ title n = last (picks KName ks cols) end.
  Definition state (ks : list kind) (cols : list string) (done : list (list (option string))) (x : mixed) : Prop :=
    vec_ok KVec ks done (vect (xpage x)) /\ vec_ok KWeight ks done (wts (xpage x)) /\ mat_ok ks done (mat (xpage x)) /\ text_ok ks done (xtext x) /\ names_ok ks cols done (nms (xpage x)) /\ txt (xpage x) = None /\ err (xpage x) = None.
  Lemma start_state ks cols : state ks cols [] (mixed_start g ks).
  Proof.
    unfold mixed_start, state. set (cv := count_kind KVec ks). set (cm := count_kind KMat ks). set (cw := count_kind KWeight ks). set (ct := count_kind KText ks). cbn [xpage xtext].
    assert (Hv : forall v, (v = if cv =? 0 then None else Some (replicate cv g)) -> vec_ok KVec ks [] v). { intros v ->. unfold vec_ok. fold cv. destruct (Nat.eqb_spec cv 0); auto. repeat split; auto. cbn; lia. intros H. contradiction. }
    assert (Hw : forall w, (w = if cw =? 0 then None else Some [g]) -> vec_ok KWeight ks [] w). { intros v ->. unfold vec_ok. fold cw. destruct (Nat.eqb_spec cw 0); auto. repeat split; auto. cbn; lia. intros H. contradiction. }
    assert (Hm : forall m, (m = if cm =? 0 then None else Some (Gr 1 cm [replicate cm g])) -> mat_ok ks [] m). { intros m ->. unfold mat_ok. fold cm. destruct (Nat.eqb_spec cm 0); auto. cbn [gr gc ga]. repeat split; auto. constructor; [apply replicate_length|constructor]. }
    assert (Ht : text_ok ks [] (if ct =? 0 then None else Some [])). { unfold text_ok. fold ct. destruct (Nat.eqb_spec ct 0); auto. }
    split; [|split; [|split; [|split; [exact Ht|]]]].
    - apply Hv. destruct (Nat.eqb_spec cw 0), (Nat.eqb_spec cm 0); unfold data_alloc_filled, alloc_shape; cbn [Z.eqb Nat.eqb]; (destruct (Z.eqb_spec (Z.of_nat cm) 0); try lia); destruct (Nat.eqb_spec cv 0); auto.
    - apply Hw. destruct (Nat.eqb_spec cw 0), (Nat.eqb_spec cm 0); unfold data_alloc_filled, alloc_shape; cbn [Z.eqb Nat.eqb]; (destruct (Z.eqb_spec (Z.of_nat cm) 0); try lia); auto.
    - apply Hm. destruct (Nat.eqb_spec cw 0), (Nat.eqb_spec cm 0); unfold data_alloc_filled, alloc_shape; cbn [Z.eqb Nat.eqb]; (destruct (Z.eqb_spec (Z.of_nat cm) 0); try lia); cbn [set_wts mat]; auto; (destruct (Z.ltb_spec 0 (Z.of_nat cm)); [|lia]); change (0 <? 1) with true; cbn [andb]; rewrite Nat2Z.id; auto.
    - destruct (Nat.eqb_spec cw 0), (Nat.eqb_spec cm 0); unfold data_alloc_filled, alloc_shape; cbn [Z.eqb Nat.eqb]; (destruct (Z.eqb_spec (Z.of_nat cm) 0); try lia); cbn; unfold names_ok; cbn; auto 10.
  Qed.
  Lemma insert_next w n a : n <= length w -> <[n := a]> (vec_to w (S n)) = take n w ++ [a].
  Proof.
    intros H. unfold DbModel.vec_to. destruct (decide (length w = n)) as [E|E].
    - rewrite take_ge by lia. replace (S n - length w) with 1 by lia. rewrite (take_ge w n) by lia. replace n with (length w + 0) by lia. rewrite insert_app_r. auto.
    - replace (S n - length w) with 0 by lia. cbn. rewrite app_nil_r. destruct (lookup_lt_is_Some_2 w n) as [b Hb]; [lia|]. rewrite (take_S_r _ _ _ Hb). replace n with (length (take n w) + 0) at 1 by (rewrite take_length; lia). rewrite insert_app_r. auto.
  Qed.
  Lemma map_snoc {A B} (f : A -> B) l x : map f (l ++ [x]) = map f l ++ [f x].
  Proof. rewrite map_app. auto. Qed.
  Lemma last_some {A} (l : list A) : length l <> 0 -> exists a, last l = Some a.
  Proof. intros H. destruct (last l) eqn:E; eauto. apply last_None in E. subst. exfalso. apply H. auto. Qed.
  Lemma vec_step k ks done v r : length r = length ks -> vec_ok k ks done v -> vec_ok k ks (done ++ [r]) (vec_after (length done) (picks k ks r) v).
  Proof.
    intros Hr H. unfold vec_after. pose proof (picks_count k ks r Hr) as Hc. destruct v as [w|]; cbn [vec_ok option_map] in *.
    - destruct H as (H1 & H2 & H3 & H4). destruct (last_some (picks k ks r)) as [c E]; [lia|]. rewrite E. cbn [vec_ok]. rewrite insert_next, app_length by auto. cbn [length]. rewrite app_length, take_length. cbn [length]. split; auto. split; [lia|]. split; [lia|].
      rewrite take_ge by (rewrite app_length, take_length; cbn; lia). rewrite map_snoc, H4, E. auto.
    - destruct (last (picks k ks r)); auto.
  Qed.
  Lemma step_state ks cols done x r : length cols = length ks -> length r = length ks -> state ks cols done x ->
    let p := match mat (xpage x) with Some m => if count_kind KMat ks =? 0 then xpage x else set_mat (xpage x) (Some (mat_to g m (S (length done)))) | None => xpage x end in
    let t := match xtext x with Some t => Some (t ++ [replicate (count_kind KText ks) None]) | None => None end in
    exists y, mixed_row g atof (no_names (nms p)) (length done) (map Some ks ++ [None]) cols r 0 0 (Mx p t) = Ok y /\ state ks cols (done ++ [r]) y.
  Proof.
    intros Hc Hr (Sv & Sw & Sm & St & Sn & Sx & Se) p t.
    assert (Hn : nms p = nms (xpage x)) by (unfold p; destruct (mat (xpage x)); auto; destruct (count_kind KMat ks =? 0); auto).
    assert (Hv : vect p = vect (xpage x)) by (unfold p; destruct (mat (xpage x)); auto; destruct (count_kind KMat ks =? 0); auto).
    assert (Hw : wts p = wts (xpage x)) by (unfold p; destruct (mat (xpage x)); auto; destruct (count_kind KMat ks =? 0); auto).
    assert (Hx : txt p = None) by (unfold p; destruct (mat (xpage x)); auto; destruct (count_kind KMat ks =? 0); auto).
    assert (He : err p = None) by (unfold p; destruct (mat (xpage x)); auto; destruct (count_kind KMat ks =? 0); auto).
    set (n := length done) in *.
    assert (Hm : exists lm, match mat p with Some m => ga m !! n = Some lm /\ n < gr m /\ length lm = gc m /\ 0 + count_kind KMat ks <= gc m | None => count_kind KMat ks = 0 end /\
       mat_ok ks (done ++ [r]) (option_map (grid_after n 0 lm (map mv (picks KMat ks r))) (mat p))).
    { unfold p. destruct (mat (xpage x)) as [m|] eqn:Em; cbn [mat_ok] in Sm; [|rewrite Em; exists []; split; auto].
      destruct Sm as (S1 & S2 & S3 & S4 & S5 & S6). destruct (Nat.eqb_spec (count_kind KMat ks) 0); [contradiction|]. cbn [mat set_mat].
      assert (Hl : exists lm, ga (mat_to g m (S n)) !! n = Some lm /\ length lm = gc m).
      { unfold mat_to. cbn [ga]. fold n in S3. destruct done as [|d0 dr] eqn:Ed.
        - cbn in n. subst n. cbn in S3. rewrite S3 in *. destruct (ga m) as [|l0 [|]]; try discriminate. cbn. exists l0. split; auto. inversion S6; auto.
        - rewrite <- Ed in *. clear Ed. assert (gr m = n) by (unfold n in *; cbn in *; lia). exists (replicate (gc m) g). rewrite take_ge by lia. rewrite lookup_app_r by lia. replace (n - length (ga m)) with 0 by lia. replace (S n - gr m) with 1 by lia. cbn. rewrite replicate_length. auto. }
      destruct Hl as (lm & Hl1 & Hl2). exists lm. split; [cbn [mat_to gr gc]; repeat split; auto; lia|].
      assert (Hlen : length (map mv (picks KMat ks r)) = gc m) by (rewrite map_length, picks_count; auto). fold n in S3.
      assert (Htk : take n (ga (mat_to g m (S n))) = take n (ga m)). { unfold mat_to. cbn [ga]. rewrite take_app_le by (rewrite take_length; lia). rewrite take_take. f_equal. lia. }
      assert (Hgl : length (ga (mat_to g m (S n))) = S n). { unfold mat_to. cbn [ga]. rewrite app_length, take_length, replicate_length. lia. }
      assert (Hga : <[n := map mv (picks KMat ks r)]> (ga (mat_to g m (S n))) = map (fun r => map mv (picks KMat ks r)) (done ++ [r])).
      { rewrite map_snoc, <- S5. fold n. rewrite <- Htk. rewrite <- (take_drop n (ga (mat_to g m (S n)))) at 1. replace n with (length (take n (ga (mat_to g m (S n)))) + 0) at 1 by (rewrite take_length; lia). rewrite insert_app_r. f_equal.
        pose proof (drop_length (ga (mat_to g m (S n))) n) as Hd. rewrite Hgl in Hd. replace (S n - n) with 1 in Hd by lia. destruct (drop n (ga (mat_to g m (S n)))) as [|b [|]]; try discriminate. reflexivity. }
      assert (Hgrid : grid_after n 0 lm (map mv (picks KMat ks r)) (mat_to g m (S n)) = Gr (S n) (gc m) (map (fun r => map mv (picks KMat ks r)) (done ++ [r]))).
      { unfold grid_after. f_equal. rewrite <- Hga. f_equal. cbn [take app Nat.add]. rewrite drop_ge by lia. apply app_nil_r. }
      cbn [option_map mat_ok]. rewrite Hgrid. cbn [gr gc ga]. rewrite map_length, app_length. cbn [length]. fold n. split; auto. split; auto. split; [lia|]. split; [lia|]. split; [rewrite take_ge by (rewrite map_length, app_length; fold n; cbn; lia); auto|].
      apply List.Forall_forall. intros l Hl. apply in_map_iff in Hl. destruct Hl as (r' & <- & Hin). rewrite map_length.
      apply in_app_iff in Hin. destruct Hin as [Hin|[<-|[]]]; [|rewrite picks_count; auto].
      assert (Hin' : In (map mv (picks KMat ks r')) (take n (ga m))) by (unfold n; rewrite S5; apply in_map_iff; eauto). rewrite List.Forall_forall in S6. rewrite <- (S6 (map mv (picks KMat ks r'))); [rewrite map_length; auto|].
      rewrite <- (take_drop n (ga m)). apply in_app_iff. auto. }
    destruct Hm as (lm & Hm1 & Hm2).
    set (lt := replicate (count_kind KText ks) (@None string)).
    assert (Ht : match t with Some t => t !! n = Some lt /\ 0 + count_kind KText ks <= length lt | None => count_kind KText ks = 0 end /\ text_ok ks (done ++ [r]) (option_map (fun t => <[n := take 0 lt ++ map (fun v => Some (or_nan v)) (picks KText ks r) ++ drop (0 + count_kind KText ks) lt]> t) t)).
    { unfold t. destruct (xtext x) as [t0|]; cbn [text_ok option_map] in *; [|auto]. destruct St as [S1 ->]. fold lt. assert (En : n = length (map (fun r => map (fun v => Some (or_nan v)) (picks KText ks r)) done)) by (rewrite map_length; auto). split.
      - rewrite lookup_app_r by lia. rewrite En, Nat.sub_diag. split; auto. unfold lt. rewrite replicate_length. auto.
      - split; auto. rewrite map_snoc. replace n with (length (map (fun r => map (fun v => Some (or_nan v)) (picks KText ks r)) done) + 0) by lia. rewrite insert_app_r. cbn. unfold lt. rewrite drop_ge by (rewrite replicate_length; auto). rewrite app_nil_r. auto. }
    destruct Ht as [Ht1 Ht2].
    destruct (mixed_row_eq (no_names (nms p)) n [None] ks cols r 0 0 (Mx p t) lm lt Hc Hr) as (y & Hy & Y1 & Y2 & Y3 & Y4 & Y5 & Y6 & Y7 & Y8 & Y9 & Y10 & Y11); cbn [xpage xtext]; auto.
    - rewrite Hv. intros E. rewrite E in Sv. exact Sv.
    - rewrite Hw. intros E. rewrite E in Sw. exact Sw.
    - exists y. split; [exact Hy|]. clear Hy. unfold state. rewrite Y1, Y2, Y3, Y4, Y5, Y6. cbn [xpage xtext]. rewrite Hv, Hw, Hx, He. split; [apply vec_step; auto|]. split; [apply vec_step; auto|]. split; [exact Hm2|]. split; [exact Ht2|]. split; [|auto].
      unfold names_ok in *. rewrite Y7, Y8, Y9, Y10, Y11. cbn [xpage]. rewrite Hn. destruct Sn as [N1 N2]. split; [rewrite map_snoc, concat_app, N1; cbn; rewrite app_nil_r; auto|].
      destruct (done ++ [r]) eqn:Ed; [destruct done; discriminate|]. clear Ed. destruct done as [|d0 dr].
      + destruct N2 as (E1 & E2 & E3 & E4). unfold no_names. rewrite E1, E2, E3, E4. cbn. unfold or_last. repeat split; auto; [destruct (last (picks KVec ks cols))|destruct (last (picks KName ks cols))]; auto.
      + destruct N2 as (E1 & E2 & E3 & E4). destruct (no_names (nms (xpage x))) eqn:En; rewrite E1, E2, E3, E4; [|rewrite !app_nil_r; auto].
        unfold no_names in En. rewrite E1, E2, E3 in En. apply andb_true_iff in En as [En En3]. apply andb_true_iff in En as [En1 En2]. apply Nat.eqb_eq in En1. apply Nat.eqb_eq in En2. apply length_zero_iff_nil in En1. apply length_zero_iff_nil in En2. rewrite En1, En2. unfold or_last.
        destruct (last (picks KVec ks cols)); [discriminate|]. destruct (last (picks KName ks cols)); auto.
  Qed.
  Lemma requested_all ks : ~ In KOther ks -> requested ks = length ks.
  Proof.
    unfold requested. induction ks as [|k ks IH]; intros H; auto. rewrite !count_cons. cbn [length]. assert (H' : ~ In KOther ks) by (intros Q; apply H; right; auto). specialize (IH H'). destruct k; cbn [kind_eqb]; try lia. exfalso. apply H. left. auto.
  Qed.
  Lemma mixed_rows_eq ks cols rows : length cols = length ks -> requested ks = length ks -> forall done x, Forall (fun r => length r = length ks) rows -> (x = None /\ done = [] /\ rows <> [] \/ exists x0, x = Some x0 /\ state ks cols done x0) ->
    exists y, mixed_rows g atof ks cols (length done) rows x = Ok (Some y, false) /\ state ks cols (done ++ rows) y.
  Proof.
    intros Hc Hq. induction rows as [|r rows IH]; intros done x Hf Hx.
    - destruct Hx as [(_ & _ & H)|(x0 & -> & H)]; [contradiction|]. exists x0. rewrite app_nil_r. auto.
    - inversion Hf; subst. cbn [mixed_rows].
      assert (Hst : state ks cols done (match x with Some x => x | None => mixed_start g ks end)). { destruct Hx as [(-> & -> & _)|(x0 & -> & H)]; auto. apply start_state. }
      set (x1 := match x with Some x => x | None => mixed_start g ks end) in *. clearbody x1. clear Hx.
      destruct (step_state ks cols done x1 r Hc ltac:(auto) Hst) as (y & Hy & Sy). cbv zeta in Hy. rewrite Hy. cbn [rbind]. rewrite Hc, Hq, Nat.eqb_refl.
      destruct (IH (done ++ [r]) (Some y)) as (z & Hz & Sz); auto. { right. eauto. } exists z. rewrite <- app_assoc in Sz. split; auto. rewrite <- Hz. f_equal. rewrite app_length. cbn. lia.
  Qed.
  Lemma all_res_map {A B} (f : A -> res B) (h : A -> B) l : (forall a, In a l -> f a = Ok (h a)) -> all_res (map f l) = Ok (map h l).
  Proof. induction l as [|a l IH]; intros H; cbn; auto. rewrite H by (left; auto). cbn. rewrite IH by (intros; apply H; right; auto). auto. Qed.
  Lemma text_of_eq w (t : list (list string)) : text_of w (Some (map (map Some) t)) = Ok (Some (Gr (length t) w t)).
  Proof.
    cbn [text_of]. rewrite map_map. erewrite (all_res_map _ (fun l => l)).
    - cbn. rewrite map_length, map_id. auto.
    - intros l _. rewrite map_map. erewrite (all_res_map _ (fun s => s)); [rewrite map_id|]; auto.
  Qed.
  Notation kinds types := (map kind_of (list_ascii_of_string types)).
  (** C71: with one letter of n, v, m, t, w for each column, each column goes where its letter says, in order, one row for each row of the query; NULL is NaN as a number and the text NaN as a name or a text.
      The vector, matrix and text columns have the columns' names; the name of the name column is the title.  (Of several v or w the last is kept; several n give as many row names for each row.) *)
  Theorem C71_mixed : forall types a, let ks := kinds types in ~ In KOther ks -> length (acols a) = length ks -> full_rows a -> arows a <> [] -> afail a = false ->
    exists p, query_to_mixed g atof types a = Ok (Some p) /\
      vect p = (if count_kind KVec ks =? 0 then None else Some (map (fun r => rowval KVec ks r) (arows a))) /\
      wts p = (if count_kind KWeight ks =? 0 then None else Some (map (fun r => rowval KWeight ks r) (arows a))) /\
      mat p = (if count_kind KMat ks =? 0 then None else Some (Gr (length (arows a)) (count_kind KMat ks) (map (fun r => map mv (picks KMat ks r)) (arows a)))) /\
      txt p = (if count_kind KText ks =? 0 then None else Some (Gr (length (arows a)) (count_kind KText ks) (map (fun r => map or_nan (picks KText ks r)) (arows a)))) /\
      rown (nms p) = concat (map (fun r => map or_nan (picks KName ks r)) (arows a)) /\
      coln (nms p) = picks KMat ks (acols a) /\ txtn (nms p) = picks KText ks (acols a) /\ vecn (nms p) = last (picks KVec ks (acols a)) /\ title (nms p) = last (picks KName ks (acols a)) /\ err p = None.
  Proof.
    intros types a ks Hk Hc Hf Hr Ha. unfold query_to_mixed. fold ks. destruct (mixed_rows_eq ks (acols a) (arows a) Hc (requested_all _ Hk) [] None) as (y & Hy & Sy); auto.
    { unfold full_rows in Hf. rewrite Hc in Hf. auto. }
    cbn [length app] in *. rewrite Hy. cbn [rbind]. destruct Sy as (Sv & Sw & Sm & St & [N1 N2] & Sx & Se). rewrite Ha.
    assert (Ht : text_of (count_kind KText ks) (xtext y) = Ok (if count_kind KText ks =? 0 then None else Some (Gr (length (arows a)) (count_kind KText ks) (map (fun r => map or_nan (picks KText ks r)) (arows a))))).
    { destruct (xtext y) as [t|]; cbn [text_ok] in St; [|rewrite St; auto]. destruct St as [S1 ->]. destruct (Nat.eqb_spec (count_kind KText ks) 0); [contradiction|].
      replace (map (fun r => map (fun v => Some (or_nan v)) (picks KText ks r)) (arows a)) with (map (map Some) (map (fun r => map or_nan (picks KText ks r)) (arows a))) by (rewrite map_map; apply map_ext; intros; rewrite map_map; auto).
      rewrite text_of_eq, map_length. auto. }
    rewrite Ht. cbn [rbind]. eexists. split; [reflexivity|]. cbn [set_txt vect wts mat txt nms err].
    assert (Hv : forall k v, vec_ok k ks (arows a) v -> v = if count_kind k ks =? 0 then None else Some (map (fun r => rowval k ks r) (arows a))).
    { intros k [w|]; cbn [vec_ok]; [|intros ->; auto]. intros (H1 & H2 & H3 & H4). destruct (Nat.eqb_spec (count_kind k ks) 0); [contradiction|]. rewrite <- H4, take_ge; auto. rewrite H3; auto. }
    split; [apply Hv; auto|]. split; [apply Hv; auto|]. split.
    { destruct (mat (xpage y)) as [m|]; cbn [mat_ok] in Sm; [|rewrite Sm; auto]. destruct Sm as (S1 & S2 & S3 & S4 & S5 & _). destruct (Nat.eqb_spec (count_kind KMat ks) 0); [contradiction|]. f_equal. assert (length (arows a) <> 0) by (destruct (arows a); [contradiction|discriminate]). destruct m as [r c l]. cbn [gr gc ga] in *. f_equal; auto; [lia|]. rewrite <- S5, take_ge; auto. lia. }
    split; auto. split; [auto|]. destruct (arows a) eqn:E; [contradiction|]. destruct N2 as (M1 & M2 & M3 & M4). repeat split; auto.
  Qed.
  Theorem C71_empty : forall types a, arows a = [] -> query_to_mixed g atof types a = Ok (if afail a then Some (set_err blank (Some "q"%char)) else None).
  Proof. intros types a H. unfold query_to_mixed. rewrite H. cbn. destruct (afail a); auto. Qed.
  (** C71: another number of columns than letters: the error is 'd' (letters without t, and not more columns than letters) *)
  Theorem C71_dimension : forall types a r rs, let ks := kinds types in count_kind KText ks = 0 -> length (acols a) <= length ks -> length (acols a) <> requested ks -> full_rows a -> arows a = r :: rs ->
    exists p, query_to_mixed g atof types a = Ok (Some p) /\ err p = Some "d"%char.
  Proof.
    intros types a r rs ks Hk Hle Hne Hf Hr. unfold query_to_mixed. fold ks. rewrite Hr. cbn [mixed_rows].
    assert (Hlr : length r = length (acols a)) by (unfold full_rows in Hf; rewrite Hr in Hf; inversion Hf; auto).
    destruct (start_state ks []) as (Sv & Sw & Sm & St & _). set (x := mixed_start g ks) in *.
    assert (Et : xtext x = None) by (destruct (xtext x); auto; cbn in St; destruct St; contradiction). rewrite Et.
    set (p := match mat (xpage x) with Some m => _ | None => _ end).
    assert (Hsplit : map Some ks ++ [None] = map Some (take (length (acols a)) ks) ++ (map Some (drop (length (acols a)) ks) ++ [None])). { rewrite app_assoc, <- map_app, take_drop. auto. }
    assert (Hcnt : forall k, count_kind k (take (length (acols a)) ks) <= count_kind k ks).
    { intros k. rewrite <- (take_drop (length (acols a)) ks) at 2. unfold count_kind. rewrite List.filter_app, app_length. lia. }
    assert (Hm : exists lm, match mat p with Some m => ga m !! 0 = Some lm /\ 0 < gr m /\ length lm = gc m /\ 0 + count_kind KMat (take (length (acols a)) ks) <= gc m | None => count_kind KMat (take (length (acols a)) ks) = 0 end).
    { unfold p. destruct (mat (xpage x)) as [m|] eqn:Em; cbn [mat_ok] in Sm; [|rewrite Em; exists []; specialize (Hcnt KMat); lia].
      destruct Sm as (S1 & S2 & S3 & S4 & S5 & S6). destruct (Nat.eqb_spec (count_kind KMat ks) 0); [contradiction|]. cbn [mat set_mat mat_to gr gc ga]. cbn in S3. rewrite S3 in *. destruct (ga m) as [|l0 [|]]; try discriminate. exists l0. cbn. inversion S6; subst. rewrite S2. repeat split; auto. lia. }
    destruct Hm as (lm & Hm). rewrite Hsplit.
    destruct (mixed_row_eq (no_names (nms p)) 0 (map Some (drop (length (acols a)) ks) ++ [None]) (take (length (acols a)) ks) (acols a) r 0 0 (Mx p None) lm []) as (y & Hy & Y1 & Y2 & Y3 & Y4 & _); cbn [xpage xtext]; auto.
    - rewrite take_length. lia.
    - rewrite take_length. lia.
    - specialize (Hcnt KText). lia.
    - intros E. replace (vect p) with (vect (xpage x)) in E by (unfold p; destruct (mat (xpage x)); auto; destruct (count_kind KMat ks =? 0); auto). rewrite E in Sv. cbn in Sv. specialize (Hcnt KVec). lia.
    - intros E. replace (wts p) with (wts (xpage x)) in E by (unfold p; destruct (mat (xpage x)); auto; destruct (count_kind KMat ks =? 0); auto). rewrite E in Sw. cbn in Sw. specialize (Hcnt KWeight). lia.
    - rewrite Hy. cbn [rbind]. destruct (Nat.eqb_spec (length (acols a)) (requested ks)); [contradiction|]. cbn [rbind]. rewrite Y4. cbn [xtext option_map text_of rbind]. eauto.
  Qed.
End C71.
Print Assumptions C71_mixed.
Print Assumptions C71_empty.
Print Assumptions C71_dimension.
Definition ex_atof (s : string) : num := if String.eqb s "1" then Some 1%R else if String.eqb s "2" then Some 2%R else Some 0%R.
Definition ex_answer : answer := An ["who"; "x"; "y"; "job"; "z"; "n"]%string [[Some "ann"; Some "1"; Some "2"; None; None; Some "2"]; [None; None; Some "1"; Some "cook"; Some "2"; Some "1"]]%string false.
Example C71_nonvacuous : exists p, query_to_mixed (Some 7%R) ex_atof "nvmtMw" ex_answer = Ok (Some p) /\ vect p = Some [Some 1%R; None] /\ wts p = Some [Some 2%R; Some 1%R] /\
  mat p = Some (Gr 2 2 [[Some 2%R; None]; [Some 1%R; Some 2%R]]) /\ txt p = Some (Gr 2 1 [["NaN"]; ["cook"]]%string) /\ rown (nms p) = ["ann"; "NaN"]%string /\ coln (nms p) = ["y"; "z"]%string /\
  txtn (nms p) = ["job"%string] /\ vecn (nms p) = Some "x"%string /\ title (nms p) = Some "who"%string.
Proof.
  destruct (C71_mixed (Some 7%R) ex_atof "nvmtMw" ex_answer) as (p & Hp & H); cbn; auto; try discriminate.
  - intuition discriminate.
  - repeat constructor.
  - exists p. split; [exact Hp|]. cbn in H. decompose [and] H. repeat split; auto.
Qed.
(** Deviation: columns beyond the letters are not put into the text (the documentation says they are): one more is left out, a second is looked for outside the string of letters. *)
Theorem C71_more_columns_refuted : exists p, query_to_mixed (Some 7%R) ex_atof "m" (An ["x"; "y"]%string [[Some "1"; Some "2"]]%string false) = Ok (Some p) /\ txt p = None /\ err p = Some "d"%char /\
  query_to_mixed (Some 7%R) ex_atof "m" (An ["x"; "y"; "z"]%string [[Some "1"; Some "2"; Some "1"]]%string false) = UB.
Proof. eexists. split; [vm_compute; reflexivity|]. repeat split. Qed.
(** Deviation: with fewer columns than letters, text cells are left as wild pointers. *)
Theorem C71_fewer_columns_refuted : query_to_mixed (Some 7%R) ex_atof "mt" (An ["x"]%string [[Some "1"]]%string false) = UB.
Proof. reflexivity. Qed.
(** Deviation: two n give two names for each row (the warning says that all but the last are ignored). *)
Theorem C71_two_names_refuted : exists p, query_to_mixed (Some 7%R) ex_atof "nnm" (An ["a"; "b"; "x"]%string [[Some "p"; Some "q"; Some "1"]]%string false) = Ok (Some p) /\ rown (nms p) = ["p"; "q"]%string.
Proof. eexists. split; [vm_compute; reflexivity|]. reflexivity. Qed.
Print Assumptions C71_more_columns_refuted.
Print Assumptions C71_fewer_columns_refuted.
Print Assumptions C71_two_names_refuted.
