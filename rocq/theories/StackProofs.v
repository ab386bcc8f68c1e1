(** Lemmas about DataModel.v: stacking and splitting. *)
From Verif Require Export RmProofs.
From Verif Require Import DataModel.

Section StackP.
Context {E : Type}.
Implicit Types p q : page E.

Lemma drop_replicate_all {A} (x : A) n k : n <= k -> drop k (replicate n x) = [].
Proof. intros. rewrite drop_ge; auto. rewrite replicate_length. lia. Qed.

(** text rows below *)
Lemma resize_grow_rows (o : grid string) k : wf_grid o -> 0 < gr o -> 0 < gc o ->
  text_resize (Some o) (gr o + k) (gc o) = Ok (Some (Gr (gr o + k) (gc o) (ga o ++ replicate k (replicate (gc o) EmptyString)))).
Proof.
  intros [Hl Hf] H1 H2. unfold text_resize.
  replace ((gr o + k =? 0) && negb (gc o =? 0) || (gc o =? 0) && negb (gr o + k =? 0)) with false by lia.
  replace (gr o + k =? 0) with false by lia.
  replace ((gr o <? gr o + k) && (gc o <? gc o)) with false by lia.
  rewrite (take_ge (ga o)) by lia. do 4 f_equal.
  - rewrite <- (map_id (ga o)) at 2. apply map_ext_in. intros x Hx.
    rewrite List.Forall_forall in Hf. rewrite (Hf x Hx), Nat.sub_diag. cbn. rewrite app_nil_r.
    rewrite take_ge; auto. rewrite (Hf x Hx). lia.
  - f_equal. lia.
Qed.
Lemma paste_row_0 src dst : length src = length dst -> paste_row 0 src dst = src.
Proof. intros H. unfold paste_row. rewrite drop_ge by lia. cbn. rewrite app_nil_r. auto. Qed.
Lemma zip_paste_blank (rows : list (list string)) c k : Forall (fun r => length r = c) rows -> k = length rows ->
  zip_with (paste_row 0) rows (replicate k (replicate c EmptyString)) = rows.
Proof.
  intros HF ->. induction HF as [|x l Hx HF IH]; cbn; auto. rewrite IH.
  rewrite paste_row_0 by (rewrite replicate_length; auto). auto.
Qed.
Lemma paste_below (o t : grid string) : wf_grid o -> wf_grid t -> gc t = gc o ->
  paste (gr o) 0 t (Gr (gr o + gr t) (gc o) (ga o ++ replicate (gr t) (replicate (gc o) EmptyString)))
  = Gr (gr o + gr t) (gc o) (ga o ++ ga t).
Proof.
  intros [Hl Hf] [Hl' Hf'] Hc. unfold paste. cbn. f_equal.
  rewrite <- Hl at 1 2 3. rewrite take_app, drop_app. f_equal.
  rewrite zip_paste_blank; [|rewrite <- Hc; auto|auto].
  rewrite drop_ge by (rewrite app_length, replicate_length; lia). rewrite app_nil_r. auto.
Qed.
Lemma paste_blank (t : grid string) : wf_grid t ->
  paste 0 0 t (Gr (gr t) (gc t) (replicate (gr t) (replicate (gc t) EmptyString))) = t.
Proof.
  intros [Hl Hf]. unfold paste. cbn. rewrite drop_0. rewrite zip_paste_blank by auto.
  rewrite drop_ge by (rewrite replicate_length; lia). rewrite app_nil_r. destruct t; auto.
Qed.
Lemma resize_none row col : 0 < row -> 0 < col ->
  text_resize None row col = Ok (Some (Gr row col (replicate row (replicate col EmptyString)))).
Proof.
  intros H1 H2. unfold text_resize.
  replace ((row =? 0) && negb (col =? 0) || (col =? 0) && negb (row =? 0)) with false by lia.
  replace (row =? 0) with false by lia. auto.
Qed.
(** text columns to the right *)
Lemma resize_grow_cols (o : grid string) k : wf_grid o -> 0 < gr o -> 0 < gc o ->
  text_resize (Some o) (gr o) (gc o + k) = Ok (Some (Gr (gr o) (gc o + k) (map (fun r => r ++ replicate k EmptyString) (ga o)))).
Proof.
  intros [Hl Hf] H1 H2. unfold text_resize.
  replace ((gr o =? 0) && negb (gc o + k =? 0) || (gc o + k =? 0) && negb (gr o =? 0)) with false by lia.
  replace (gr o =? 0) with false by lia.
  replace ((gr o <? gr o) && (gc o + k <? gc o)) with false by lia.
  rewrite (take_ge (ga o)) by lia. rewrite Nat.sub_diag. cbn [replicate]. rewrite app_nil_r. do 3 f_equal.
  apply map_ext_in. intros x Hx. rewrite List.Forall_forall in Hf. pose proof (Hf x Hx).
  rewrite H, take_ge by (rewrite app_length, replicate_length; lia). f_equal. f_equal. lia.
Qed.
Lemma paste_right (o t : grid string) : wf_grid o -> wf_grid t -> gr t = gr o ->
  paste 0 (gc o) t (Gr (gr o) (gc o + gc t) (map (fun r => r ++ replicate (gc t) EmptyString) (ga o)))
  = Gr (gr o) (gc o + gc t) (zip_with (++) (ga o) (ga t)).
Proof.
  intros [Hl Hf] [Hl' Hf'] Hr. unfold paste. cbn. f_equal. rewrite take_0, drop_0. cbn [app].
  rewrite drop_ge by (rewrite map_length; lia). rewrite app_nil_r.
  destruct o as [ro co a], t as [rt ct b]; cbn in *. rewrite <- Hl, <- Hl' in Hr. clear Hl Hl'.
  revert b Hf' Hr; induction Hf as [|x l Hx HF IH]; intros [|y b] Hf' Hr; cbn in *; try lia; auto.
  inversion Hf'; subst. rewrite IH by (auto; lia). f_equal.
  unfold paste_row. rewrite take_app. rewrite drop_ge by (rewrite app_length, replicate_length; lia).
  rewrite app_nil_r. auto.
Qed.

Lemma pad_row_lists n k : let o := pad_names n k "r" in
  rown o = rown n ++ replicate k EmptyString /\ coln o = coln n /\ txtn o = txtn n /\ title o = title n /\ vecn o = vecn n.
Proof. destruct (add_all_row n (replicate k EmptyString)) as (?&?&?&?&?&?&?). unfold pad_names. auto. Qed.
Lemma pad_col_lists n k : let o := pad_names n k "c" in
  coln o = coln n ++ replicate k EmptyString /\ rown o = rown n /\ txtn o = txtn n /\ title o = title n /\ vecn o = vecn n.
Proof. destruct (add_all_col n (replicate k EmptyString)) as (?&?&?&?&?&?&?). unfold pad_names. auto. Qed.

(** the text of a row stack *)
Definition text_below (a b : option (grid string)) : option (grid string) :=
  match a, b with
  | Some o, Some t => Some (Gr (gr o + gr t) (gc t) (ga o ++ ga t))
  | None, t => t | o, None => o end.
Definition text_right (a b : option (grid string)) : option (grid string) :=
  match a, b with
  | Some o, Some t => Some (Gr (gr t) (gc o + gc t) (zip_with (++) (ga o) (ga t)))
  | None, t => t | o, None => o end.

Definition row_names_stacked (h1 : nat) (l1 l2 : list string) : list string :=
  match l2 with [] => l1 | _ => l1 ++ replicate (h1 - length l1) EmptyString ++ l2 end.

Lemma stack_body_rows inplace (m1 out m2 : page E) :
  wf_page out -> wf_page m2 -> err out = None ->
  (forall a b, txt out = Some a -> txt m2 = Some b -> gc a = gc b) ->
  rown (nms out) = rown (nms m1) ->
  exists r, stack_body true inplace m1 out m2 = Ok r /\
    vect r = vstack (vect out) (vect m2) /\ wts r = vstack (wts out) (wts m2) /\
    mat r = mstack true (mat out) (mat m2) /\ txt r = text_below (txt out) (txt m2) /\
    rown (nms r) = row_names_stacked (Nat.max (vsz m1) (msz1 m1)) (rown (nms out)) (rown (nms m2)) /\
    coln (nms r) = coln (nms out) /\ txtn (nms r) = txtn (nms out) /\ title (nms r) = title (nms out) /\
    vecn (nms r) = vecn (nms out) /\ err r = None.
Proof.
  intros [_ Ho] [_ H2] He Hc Hrn. unfold stack_body. cbv zeta.
  set (out1 := set_wts _ _).
  assert (nms out1 = nms out) as En by reflexivity.
  assert (txt out1 = txt out) as Et by reflexivity.
  assert (err out1 = err out) as Ee by reflexivity.
  assert (forall o : page E, nms o = nms out -> err o = None ->
     let r := (if negb (length (rown (nms m2)) =? 0) then
        set_nms o (name_stack (pad_names (nms o) (Nat.max (vsz m1) (msz1 m1) - length (rown (if inplace then nms o else nms m1))) "r") (nms m2) "r" "r")
        else o) in
     vect r = vect o /\ wts r = wts o /\ mat r = mat o /\ txt r = txt o /\
     rown (nms r) = row_names_stacked (Nat.max (vsz m1) (msz1 m1)) (rown (nms out)) (rown (nms m2)) /\
     coln (nms r) = coln (nms out) /\ txtn (nms r) = txtn (nms out) /\ title (nms r) = title (nms out) /\
     vecn (nms r) = vecn (nms out) /\ err r = None) as Hnames.
  { intros o Hno Heo. assert (length (rown (if inplace then nms o else nms m1)) = length (rown (nms out))) as ->.
    { destruct inplace; congruence. }
    cbv zeta. unfold row_names_stacked. destruct (rown (nms m2)) as [|s l] eqn:El; cbn [length Nat.eqb negb].
    - rewrite Hno. auto 12.
    - cbn [set_nms vect wts mat txt nms err]. rewrite Hno.
      change (name_stack ?a (nms m2) "r" "r") with (add_all a (rown (nms m2)) "r").
      set (k := Nat.max _ _ - _). destruct (pad_row_lists (nms out) k) as (P1 & P2 & P3 & P4 & P5).
      destruct (add_all_row (pad_names (nms out) k "r") (rown (nms m2))) as (A1 & A2 & A3 & A4 & A5 & _).
      rewrite A1, A2, A3, A4, A5, P1, P2, P3, P4, P5, El, <- app_assoc. auto 12. }
  destruct (txt m2) as [t2|] eqn:Et2.
  2:{ eexists; split; [reflexivity|]. destruct (Hnames out1 En ltac:(congruence)) as (A&B&C&D&F1&F2&F3&F4&F5&F6).
      cbn beta in *. rewrite A, B, C, D, F1, F2, F3, F4, F5, F6. repeat split; auto. rewrite Et. destruct (txt out); reflexivity. }
  destruct (H2 t2 eq_refl) as (Hw2 & Hp2 & Hq2). rewrite Et.
  destruct (txt out) as [to|] eqn:Eto.
  - destruct (Ho to eq_refl) as (Hwo & Hpo & Hqo). pose proof (Hc to t2 eq_refl eq_refl) as Hcc.
    replace (negb (gc t2 =? gc to)) with false by lia.
    assert (tsz1 out1 = gr to) as -> by (unfold tsz1; rewrite Et; auto).
    rewrite <- Hcc. rewrite (resize_grow_rows to (gr t2) Hwo Hpo Hqo). cbn [rbind option_map].
    rewrite paste_below by (auto; lia).
    cbn [set_txt err]. rewrite Ee, He.
    eexists; split; [reflexivity|].
    match goal with |- context [if _ then set_nms ?o _ else _] => destruct (Hnames o) as (A&B&C&D&F1&F2&F3&F4&F5&F6); [reflexivity|exact (eq_trans Ee He)|] end.
    cbn beta in *. rewrite A, B, C, D, F1, F2, F3, F4, F5, F6. cbn. rewrite Hcc. repeat split; auto.
  - assert (tsz1 out1 = 0) as -> by (unfold tsz1; rewrite Et; auto).
    rewrite (resize_none (0 + gr t2) (gc t2)) by lia. cbn [rbind option_map Nat.add].
    rewrite paste_blank by auto.
    cbn [set_txt err]. rewrite Ee, He.
    eexists; split; [reflexivity|].
    match goal with |- context [if _ then set_nms ?o _ else _] => destruct (Hnames o) as (A&B&C&D&F1&F2&F3&F4&F5&F6); [reflexivity|exact (eq_trans Ee He)|] end.
    cbn beta in *. rewrite A, B, C, D, F1, F2, F3, F4, F5, F6. cbn. repeat split; auto.
Qed.

Lemma stack_body_cols inplace (m1 out m2 : page E) :
  wf_page out -> wf_page m2 -> err out = None ->
  (vect out = None \/ vect m2 = None) ->
  (forall a b, txt out = Some a -> txt m2 = Some b -> gr a = gr b) ->
  coln (nms out) = coln (nms m1) ->
  exists r, stack_body false inplace m1 out m2 = Ok r /\
    vect r = (match vect out with Some v => Some v | None => vect m2 end) /\ wts r = wts out /\
    mat r = mstack false (mat out) (mat m2) /\ txt r = text_right (txt out) (txt m2) /\
    coln (nms r) = row_names_stacked (msz2 m1) (coln (nms out)) (coln (nms m2)) /\
    rown (nms r) = rown (nms out) /\
    txtn (nms r) = txtn (nms out) ++ (match txt m2 with Some _ => txtn (nms m2) | None => [] end) /\
    title (nms r) = title (nms out) /\ err r = None.
Proof.
  intros [_ Ho] [_ H2] He Hv Hc Hcn. unfold stack_body. cbv zeta.
  assert (exists o1, o1 = (match vect m2, vect out with
      | Some v, Some _ => set_nms (set_mat out (mstack false (mat out) (Some (column v))))
          (match vecn (nms m2) with
           | None => if negb (length (coln (nms m2)) =? 0) then add1 (name_stack (nms (set_mat out (mstack false (mat out) (Some (column v))))) (nms m2) "c" "v") "v" "c" else name_stack (nms (set_mat out (mstack false (mat out) (Some (column v))))) (nms m2) "c" "v"
           | Some _ => name_stack (nms (set_mat out (mstack false (mat out) (Some (column v))))) (nms m2) "c" "v" end)
      | _, _ => out end) /\ o1 = out) as (o1 & Eo1 & Eo1').
  { eexists; split; [reflexivity|]. destruct (vect m2), (vect out); auto. naive_solver. }
  rewrite <- Eo1. clear Eo1. subst o1.
  set (o2 := match vect m2 with Some v => match vect out with None => _ | _ => _ end | None => _ end).
  assert (vect o2 = (match vect out with Some v => Some v | None => vect m2 end) /\ wts o2 = wts out /\
     mat o2 = mat out /\ txt o2 = txt out /\ err o2 = err out /\ rown (nms o2) = rown (nms out) /\
     coln (nms o2) = coln (nms out) /\ txtn (nms o2) = txtn (nms out) /\ title (nms o2) = title (nms out))
    as (V & W & M & T & R & N1 & N2 & N3 & N4).
  { unfold o2. destruct (vect m2) as [v|] eqn:Ev, (vect out) as [w|] eqn:Ew; auto 12.
    destruct (vecn (nms m2)); cbn; auto 12. }
  clearbody o2.
  set (out1 := set_mat o2 _).
  assert (forall o : page E, rown (nms o) = rown (nms out) /\ coln (nms o) = coln (nms out) /\ title (nms o) = title (nms out) -> err o = None ->
     let r := (if negb (length (coln (nms m2)) =? 0) then
        set_nms o (name_stack (pad_names (nms o) (msz2 m1 - length (coln (if inplace then nms o else nms m1))) "c") (nms m2) "c" "c")
        else o) in
     vect r = vect o /\ wts r = wts o /\ mat r = mat o /\ txt r = txt o /\
     coln (nms r) = row_names_stacked (msz2 m1) (coln (nms out)) (coln (nms m2)) /\
     rown (nms r) = rown (nms out) /\ txtn (nms r) = txtn (nms o) /\ title (nms r) = title (nms out) /\
     err r = None) as Hnames.
  { intros o (Hn1 & Hn2 & Hn3) Heo. assert (length (coln (if inplace then nms o else nms m1)) = length (coln (nms out))) as ->.
    { destruct inplace; congruence. }
    cbv zeta. unfold row_names_stacked. destruct (coln (nms m2)) as [|s l] eqn:El; cbn [length Nat.eqb negb].
    - auto 12.
    - cbn [set_nms vect wts mat txt nms err].
      change (name_stack ?a (nms m2) "c" "c") with (add_all a (coln (nms m2)) "c").
      set (k := msz2 m1 - _). destruct (pad_col_lists (nms o) k) as (P1 & P2 & P3 & P4 & P5).
      destruct (add_all_col (pad_names (nms o) k "c") (coln (nms m2))) as (A1 & A2 & A3 & A4 & A5 & _).
      rewrite A1, A2, A3, A4, P1, P2, P3, P4, El, <- app_assoc, Hn1, Hn2, Hn3. auto 12. }
  destruct (txt m2) as [t2|] eqn:Et2.
  2:{ eexists; split; [reflexivity|]. destruct (Hnames out1) as (A&B&C&D&F1&F2&F3&F4&F5); [auto|cbn; congruence|].
      cbn beta in *. rewrite A, B, C, D, F1, F2, F3, F4, F5. cbn. rewrite V, W, M, T, N3, app_nil_r. repeat split; auto.
      destruct (txt out); reflexivity. }
  destruct (H2 t2 eq_refl) as (Hw2 & Hp2 & Hq2).
  assert (txt out1 = txt out) as Et by exact T. rewrite Et.
  assert (forall o : page E, nms o = nms out1 ->
     let n := name_stack (nms o) (nms m2) "t" "t" in
     (rown n = rown (nms out) /\ coln n = coln (nms out) /\ title n = title (nms out)) /\
     txtn n = txtn (nms out) ++ txtn (nms m2)) as HT.
  { intros o ->. cbv zeta. change (name_stack ?a (nms m2) "t" "t") with (add_all a (txtn (nms m2)) "t").
    destruct (add_all_txt (nms out1) (txtn (nms m2))) as (A1 & A2 & A3 & A4 & _).
    rewrite A1, A2, A3, A4. unfold out1; cbn. rewrite N1, N2, N3, N4. auto. }
  destruct (txt out) as [to|] eqn:Eto.
  - destruct (Ho to eq_refl) as (Hwo & Hpo & Hqo). pose proof (Hc to t2 eq_refl eq_refl) as Hcc.
    replace (negb (gr t2 =? gr to)) with false by lia.
    assert (tsz2 out1 = gc to) as -> by (unfold tsz2; rewrite Et; auto).
    rewrite <- Hcc. rewrite (resize_grow_cols to (gc t2) Hwo Hpo Hqo). cbn [rbind option_map].
    rewrite paste_right by (auto; lia).
    assert (err out1 = None) as Ee1 by (unfold out1; cbn; congruence).
    cbn [set_txt err]. rewrite Ee1.
    eexists; split; [reflexivity|].
    match goal with |- context [if _ then set_nms ?o _ else _] => destruct (Hnames o) as (A&B&C&D&F1&F2&F3&F4&F5);
      [apply HT; reflexivity|exact Ee1|] end.
    cbn beta in *. rewrite A, B, C, D, F1, F2, F3, F4, F5. cbn [set_txt set_nms nms vect wts mat txt out1 set_mat].
    rewrite V, W, M. cbn. rewrite Hcc. repeat split; auto.
    destruct (HT out1 eq_refl) as [_ H]. exact H.
  - assert (tsz2 out1 = 0) as -> by (unfold tsz2; rewrite Et; auto).
    rewrite (resize_none (gr t2) (0 + gc t2)) by lia. cbn [rbind option_map Nat.add].
    rewrite paste_blank by auto.
    assert (err out1 = None) as Ee1 by (unfold out1; cbn; congruence).
    cbn [set_txt err]. rewrite Ee1.
    eexists; split; [reflexivity|].
    match goal with |- context [if _ then set_nms ?o _ else _] => destruct (Hnames o) as (A&B&C&D&F1&F2&F3&F4&F5);
      [apply HT; reflexivity|exact Ee1|] end.
    cbn beta in *. rewrite A, B, C, D, F1, F2, F3, F4, F5. cbn [set_txt set_nms nms vect wts mat txt out1 set_mat].
    rewrite V, W, M. cbn. repeat split; auto.
    destruct (HT out1 eq_refl) as [_ H]. exact H.
Qed.

Lemma head_set_head (d : adata E) q : head (set_head d q) = q.
Proof. destruct d; auto. Qed.

Lemma data_stack_reduce g d1 d2 rows inplace (P : page E -> Prop) :
  wf_page (head d1) -> err (head d1) = None ->
  (forall out, good_copy (head d1) out \/ out = head d1 -> wf_page out -> err out = None ->
     exists r, stack_body rows inplace (head d1) out (head d2) = Ok r /\ P r) ->
  exists o, data_stack g (Some d1) (Some d2) (if rows then "r"%char else "c"%char) inplace = Ok (Some o) /\ P (head o).
Proof.
  intros Hw He H. unfold data_stack.
  replace (negb (_ || _)) with false by (destruct rows; reflexivity).
  replace ((if rows then "r"%char else "c"%char) =? "r")%char with rows by (destruct rows; reflexivity).
  destruct inplace.
  - destruct (H (head d1)) as (r & Er & HP); auto. rewrite Er. cbn. eexists; split; [reflexivity|]. rewrite head_set_head. auto.
  - destruct (data_copy_spec g (Last (head d1))) as (c & Ec & Hac & Hl & HF);
      [reflexivity|constructor; [exact Hw|constructor]|constructor; [exact He|constructor]|].
    rewrite Ec. cbn [rbind].
    assert (good_copy (head d1) (head c)) as HG.
    { cbn in HF. destruct c; cbn in *; inversion HF; auto. }
    pose proof HG as ((D1 & D2 & D3 & D4) & _ & _ & HE & _).
    rewrite HE, He.
    destruct (H (head c)) as (r & Er & HP); auto.
    { destruct Hw as [Hw1 Hw2]. split; intros x Hx; [apply Hw1|apply Hw2]; congruence. }
    { congruence. }
    rewrite Er. cbn. eexists; split; [reflexivity|]. rewrite head_set_head. auto.
Qed.
End StackP.
