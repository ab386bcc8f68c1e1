(** C27-C29: reading text files.  The written form of files and its meaning are in ParseSpec. *)
From Verif Require Import Base NamesModel ParseModel ParseSpec ParseProofs.
Local Open Scope list_scope.
Local Open Scope nat_scope.
Local Arguments chr : simpl never.
Local Arguments Ascii.eqb : simpl never.

(** from the specification's characters to the parser's classes *)
Lemma is_delim_in delims c : c <> nul -> In c delims -> is_delim delims c = true.
Proof. intros H H2. unfold is_delim. apply orb_true_iff. right. apply existsb_exists. exists c. split; [auto|]. apply Ascii.eqb_refl. Qed.
Lemma is_delim_out delims c : c <> nul -> ~ In c delims -> is_delim delims c = false.
Proof.
  intros H H2. unfold is_delim. apply orb_false_iff. split; [apply Ascii.eqb_neq; auto|].
  destruct (existsb _ delims) eqn:E; auto. apply existsb_exists in E as (x & Hx & Ex). apply Ascii.eqb_eq in Ex. subst. contradiction.
Qed.
Lemma blank_yes c : blank_char c -> Ascii.eqb c (chr 32) || Ascii.eqb c (chr 13) || Ascii.eqb c (chr 9) || Ascii.eqb c (chr 0) = true.
Proof. intros [-> | [-> | ->]]; reflexivity. Qed.
Lemma blank_no c : ~ blank_char c -> c <> nul -> Ascii.eqb c (chr 32) || Ascii.eqb c (chr 13) || Ascii.eqb c (chr 9) || Ascii.eqb c (chr 0) = false.
Proof.
  intros H H0. rewrite !orb_false_iff. repeat split; apply Ascii.eqb_neq; intros ->; try (apply H; unfold blank_char, chr; tauto). all: apply H0; reflexivity.
Qed.
Lemma blank_not_nul c : blank_char c -> c <> nul.
Proof. intros [-> | [-> | ->]]; discriminate. Qed.
Lemma blank_plain c : blank_char c -> plain c.
Proof. intros [-> | [-> | ->]]; discriminate. Qed.
Section Conv.
Variable delims : list ascii.
Lemma conv_delims : ok_delims delims -> good_delims delims.
Proof.
  intros H. assert (forall c, special c -> ~ In c delims) as HS by (intros c Hs Hi; destruct (H c Hi); auto).
  unfold good_delims, classify. repeat split;
    match goal with |- context [is_delim delims ?c] => rewrite (is_delim_out delims c); [reflexivity|discriminate|apply HS; unfold special; auto 6] end.
Qed.
Lemma conv_ordinary c : ordinary delims c -> plain c /\ classify delims (Some c) = Tr.
Proof.
  intros (H1 & H2 & H3 & H4 & H5). split; [auto|]. unfold classify. rewrite blank_no, is_delim_out by auto.
  assert (forall x, special x -> Ascii.eqb c x = false) as HS by (intros x Hx; apply Ascii.eqb_neq; intros ->; contradiction).
  rewrite (HS nl), (HS quote), (HS backslash), (HS sharp) by (unfold special; auto 6). auto.
Qed.
Lemma conv_soft c : soft_blank delims c -> plain c /\ classify delims (Some c) = Tw.
Proof. intros [H1 H2]. split; [apply blank_plain; auto|]. unfold classify. rewrite blank_yes, is_delim_out; auto. apply blank_not_nul; auto. Qed.
Lemma conv_white c : delim_blank delims c -> white delims c.
Proof. intros [H1 H2]. unfold white, classify. rewrite blank_yes, is_delim_in; auto. apply blank_not_nul; auto. Qed.
Lemma conv_tight c : ok_delims delims -> visible_delim delims c -> plain c /\ classify delims (Some c) = Td.
Proof. intros H [H1 H2]. destruct (H c H1) as (H3 & H4 & H5). split; [auto|]. unfold classify. rewrite blank_no, is_delim_in; auto. Qed.
Lemma conv_pieces f : Forall (ok_piece delims) f -> Forall (good_piece delims) f.
Proof.
  intros HF. refine (List.Forall_impl _ _ HF). intros [c|c|c|l]; cbn [ok_piece good_piece].
  - apply conv_ordinary.
  - apply conv_soft.
  - auto.
  - intros HQ. refine (List.Forall_impl _ _ HQ). intros [c|c]; cbn; auto.
Qed.
Lemma conv_whites ws : Forall (delim_blank delims) ws -> Forall (white delims) ws.
Proof. intros HF. refine (List.Forall_impl _ _ HF). apply conv_white. Qed.
Lemma conv_rest : ok_delims delims -> forall l prev, ok_rest delims prev l -> good_rest delims prev l.
Proof.
  intros HD. induction l as [|[x f] l IH]; intros prev H; [exact I|]. cbn [ok_rest good_rest] in *. destruct H as (H1 & H2 & H3).
  split; [|split; [apply conv_pieces; auto|apply IH; auto]]. destruct x as [c pre|ws].
  - destruct H1 as [Ha Hb]. destruct (conv_tight c HD Ha). repeat split; auto. apply conv_whites; auto.
  - destruct H1 as (Ha & Hb & Hc). repeat split; auto. apply conv_whites; auto.
Qed.
Lemma conv_line L : ok_delims delims -> ok_line delims L -> good_line delims L.
Proof. intros HD (H1 & H2 & H3). repeat split; [apply conv_whites|apply conv_pieces|apply conv_rest]; auto. Qed.
Lemma conv_end e : ok_end e -> good_end e.
Proof. destruct e; auto. Qed.
Definition ok_lines (ls : list (line * ending)) : Prop := Forall (fun x => ok_line delims (fst x) /\ ok_end (snd x)) ls.
Lemma conv_file ls T : ok_delims delims -> ok_lines ls -> ok_line delims T -> good_file delims ls T.
Proof.
  intros HD H1 H2. split; [|apply conv_line; auto]. refine (List.Forall_impl _ _ H1). intros x [Ha Hb]. split; [apply conv_line|apply conv_end]; auto.
Qed.
End Conv.

Lemma C27_line_aux delims fn L e rest b : ok_delims delims -> ok_line delims L -> ok_end e ->
  parse_line delims fn (St (write_line L ++ write_end e ++ rest) b) =
    Ok (values L ++ drop (length (values L)) fn, length (values L), false, St rest b).
Proof. intros HD HL He. apply parse_line_end; [apply conv_delims|apply conv_line|apply conv_end]; auto. Qed.
(** C27: a written line, ended by a newline or a comment and a newline, is read as its fields, into the first cells of the
    column, leaving the other cells alone; the reader stops right after the newline.  Whatever follows in the file. *)
Theorem C27_line : forall delims fn L e rest b, ok_delims delims -> ok_line delims L -> ok_end e ->
  parse_line delims fn (St (write_line L ++ write_end e ++ rest) b) =
    Ok (values L ++ drop (length (values L)) fn, length (values L), false, St rest b).
Proof. exact C27_line_aux. Qed.
Print Assumptions C27_line.
Lemma C27_last_line_aux delims fn L : ok_delims delims -> ok_line delims L ->
  parse_line delims fn (St (write_line L) false) =
    Ok (values L ++ drop (length (values L)) fn, length (values L), true, St [] true).
Proof. intros HD HL. apply parse_line_eof; [apply conv_delims|apply conv_line]; auto. Qed.
(** C27: likewise a last line ended by the end of the file, which is reported. *)
Theorem C27_last_line : forall delims fn L, ok_delims delims -> ok_line delims L ->
  parse_line delims fn (St (write_line L) false) =
    Ok (values L ++ drop (length (values L)) fn, length (values L), true, St [] true).
Proof. exact C27_last_line_aux. Qed.
Print Assumptions C27_last_line.
Lemma C27_total_aux delims fn file : exists cs n eof s', parse_line delims fn (St file false) = Ok (cs, n, eof, s') /\
    n <= length cs /\ drop n cs = drop n fn /\ exists w, file = w ++ bytes s' /\ (w = [] -> eof = true).
Proof.
  destruct (parse_loop_safe delims (S (S (length file))) (Ps fn 0 [] false false 5 false 0) (St file false) (start_inv fn) eq_refl ltac:(cbn; lia))
    as (p & e & s' & E & H1 & H2 & H3 & w & Hw & He).
  exists (cells p), (ct p), e, s'. unfold parse_line. cbn [bytes] in *. rewrite E. cbn [rbind]. split; [auto|]. split; [apply H1|]. split; [exact H3|].
  exists w. auto.
Qed.
(** C27: on any bytes whatsoever and any delimiters, reading a line ends, stays within its buffers, keeps the cells past the
    fields read, and takes at least one byte from the file unless it reports the end. *)
Theorem C27_total : forall delims fn file, exists cs n eof s', parse_line delims fn (St file false) = Ok (cs, n, eof, s') /\
    n <= length cs /\ drop n cs = drop n fn /\ exists w, file = w ++ bytes s' /\ (w = [] -> eof = true).
Proof. exact C27_total_aux. Qed.
Print Assumptions C27_total.

Definition bytes_of (s : string) : list ascii := list_ascii_of_string s.
Definition std_delims : list ascii := [ascii_of_nat 124; ascii_of_nat 44; ascii_of_nat 9].
Definition tab := ascii_of_nat 9.
(** a b,TAB, then a quoted stretch with an escaped quote in it, an escaped sharp, two tabs, an empty field, 7 *)
Definition ex_line : line :=
  Line [] [Solid "a"%char; Soft " "%char; Solid "b"%char; Soft " "%char]
    [(Tight ","%char [tab], [Soft " "%char; Quot [QC "x"%char; QC ","%char; QE dquote; QC "y"%char]; Esc "#"%char]); (Loose [tab; tab], []); (Tight "|"%char [], [Solid "7"%char])].
Lemma ex_ok_delims : ok_delims std_delims.
Proof.
  intros c Hc. repeat destruct Hc as [<-|Hc]; try contradiction; repeat split; try discriminate; intros [H|[H|[H|H]]]; discriminate.
Qed.
Ltac char_tac := unfold ordinary, soft_blank, delim_blank, visible_delim, blank_char, special, plain, std_delims, In; repeat split; try discriminate; auto 8;
  try (intros H; repeat destruct H as [H|H]; (discriminate || contradiction)).
Example C27_nonvacuous : ok_delims std_delims /\ ok_line std_delims ex_line /\ ok_end (Comment (bytes_of "c")) /\
  values ex_line = [bytes_of "a b"; [ "x"%char; ","%char; dquote; "y"%char; "#"%char]; []; bytes_of "7"] /\
  write_line ex_line = bytes_of "a b ," ++ [tab] ++ bytes_of " " ++ [dquote] ++ bytes_of "x,\" ++ [dquote] ++ bytes_of "y" ++ [dquote] ++ bytes_of "\#" ++ [tab; tab] ++ bytes_of "|7".
Proof.
  split; [apply ex_ok_delims|]. split; [|split; [repeat constructor; discriminate|split; reflexivity]].
  unfold ok_line, ex_line. cbn [lpre lfirst lrest ok_rest].
  repeat match goal with |- _ /\ _ => split | |- Forall _ _ => constructor | |- True => exact I end; try reflexivity; try (cbn [ok_piece ok_q]; char_tac).
  repeat constructor; discriminate.
Qed.
(** C27: a comment after the last line, with no newline: the end of the file is not reported, and the next read runs past it. *)
Theorem C27_comment_at_end_refuted :
  parse_line std_delims [] (St (bytes_of "1,2#c") false) = Ok ([bytes_of "1"; bytes_of "2"], 2, false, St [] true) /\
  parse_line std_delims [] (St [] true) = UB.
Proof. split; vm_compute; reflexivity. Qed.
Print Assumptions C27_comment_at_end_refuted.
(** C27: a byte 255 is taken for the end of the file: the rest of the file is not read. *)
Theorem C27_byte_255_refuted :
  parse_line std_delims [] (St (bytes_of "ab" ++ ascii_of_nat 255 :: bytes_of "c") false) = Ok ([bytes_of "ab"], 1, true, St (bytes_of "c") false).
Proof. vm_compute; reflexivity. Qed.
Print Assumptions C27_byte_255_refuted.
(** C27: a quote doubled within quotes, as CSV writers produce, is lost. *)
Theorem C27_doubled_quote_refuted :
  parse_line std_delims [] (St ([dquote] ++ bytes_of "a" ++ [dquote; dquote] ++ bytes_of "b" ++ [dquote; newline]) false) =
    Ok ([bytes_of "ab"], 1, false, St [] false).
Proof. vm_compute; reflexivity. Qed.
Print Assumptions C27_doubled_quote_refuted.
(** C27: a blank delimiter after the last field adds an empty field. *)
Theorem C27_trailing_tab_refuted :
  parse_line std_delims [] (St (bytes_of "1" ++ [tab; newline]) false) = Ok ([bytes_of "1"; []], 2, false, St [] false).
Proof. vm_compute; reflexivity. Qed.
Print Assumptions C27_trailing_tab_refuted.
(** C27: a field that is nothing but a quoted empty string, alone on its line, is no field at all. *)
Theorem C27_quoted_empty_refuted :
  parse_line std_delims [] (St [dquote; dquote; newline] false) = Ok ([], 0, false, St [] false).
Proof. vm_compute; reflexivity. Qed.
Print Assumptions C27_quoted_empty_refuted.

Lemma C28_aux ends fn w (b : bool) rest : Forall (fun c => c <> newline) w -> increasing 0 ends -> length w <= List.last ends 0 ->
  exists fields, parse_fixed_line ends fn (w ++ if b then newline :: rest else []) =
    Ok (fields ++ drop (length fields) fn, length fields, negb b, if b then rest else []) /\
    concat fields = w /\
    forall i f, fields !! i = Some f -> exists e a, ends !! i = Some e /\ (0 :: ends) !! i = Some a /\
      a < length w /\ f = take (e - a) (drop a w).
Proof.
  intros Hw Hi Hl. exists (cut 0 ends w). split; [apply parse_fixed_cut; auto|]. split; [apply cut_concat; auto|].
  intros i f Hf. destruct (cut_lookup ends 0 w i f Hi Hf) as (e & He & H1 & H2 & H3). destruct i as [|j].
  - exists e, 0. repeat split; auto; cbn in H2, H3; lia.
  - cbn [lookup list_lookup] in *. destruct (ends !! j) as [a|] eqn:Ea.
    + exists e, a. cbn [default from_option id] in *. rewrite Nat.sub_0_r in *. repeat split; auto.
    + apply lookup_ge_None in Ea. apply lookup_lt_Some in He. lia.
Qed.
(** C28: with increasing field ends, a line no longer than the last of them is cut into the stretches between consecutive
    ends, as many as there are ends before the line's end, nothing left out and blanks kept. *)
Theorem C28_fixed : forall ends fn w (b : bool) rest, Forall (fun c => c <> newline) w -> increasing 0 ends -> length w <= List.last ends 0 ->
  exists fields, parse_fixed_line ends fn (w ++ if b then newline :: rest else []) =
    Ok (fields ++ drop (length fields) fn, length fields, negb b, if b then rest else []) /\
    concat fields = w /\
    forall i f, fields !! i = Some f -> exists e a, ends !! i = Some e /\ (0 :: ends) !! i = Some a /\
      a < length w /\ f = take (e - a) (drop a w).
Proof. exact C28_aux. Qed.
Print Assumptions C28_fixed.
Example C28_nonvacuous : increasing 0 [2; 5; 9] /\
  parse_fixed_line [2; 5; 9] [] (bytes_of "ab cde" ++ [newline]) = Ok ([bytes_of "ab"; bytes_of " cd"; bytes_of "e"], 3, false, []).
Proof. split; [cbn; lia|vm_compute; reflexivity]. Qed.
(** C28: a longer line makes the reader run past the array of ends, although the code means to allow for a last field
    whose end is not given. *)
Theorem C28_long_line_refuted : parse_fixed_line [2] [] (bytes_of "abc" ++ [newline]) = UB.
Proof. vm_compute; reflexivity. Qed.
Print Assumptions C28_long_line_refuted.

(** C29.  A row of [w] entries, after [h] (0 or 1) row names: each field's number, NaN if blank or not a number. *)
Section C29.
Context {E : Type} (number : list ascii -> option E).
Definition entry (f : list ascii) : tcell E := match f with [] => NaN | _ => match number f with Some x => Num x | None => NaN end end.
Definition fits_row (h w : nat) (v : list (list ascii)) : Prop := v = [] \/ length v = h + w.
Definition row_lines (ls : list (line * ending)) : list (list (list ascii)) := map (fun x => values (fst x)) ls.
Definition nat_of (b : bool) : nat := if b then 1 else 0.
Definition rowname (v : list (list ascii)) : list ascii := match v with x :: _ => x | [] => [] end.
Definition data_set (h : bool) (w : nat) (vs : list (list (list ascii))) : tset E :=
  Ts_ w (map (fun v => map entry (drop (nat_of h) v)) vs) (if h then map rowname vs else []) false.
Lemma extend_data_set h w vs : extend number h (Ts_ w [] [] false) vs = data_set h w (nonblank vs).
Proof. unfold extend, data_set, row_of. cbn [trows tnames twidth app]. f_equal. destruct h; auto. apply map_ext. intros [|x v]; reflexivity. Qed.
Lemma fits_same h w vs : Forall (fits_row (nat_of h) w) vs -> Forall (fits h w) vs.
Proof. auto. Qed.
Lemma cons_nonblank v vs : v <> [] -> nonblank (v :: vs) = v :: nonblank vs.
Proof. destruct v; [congruence|]. intros _. rewrite nonblank_cons. auto. Qed.
Lemma extend_cons h t v vs : v <> [] -> extend number h (extend number h t [v]) vs = extend number h t (v :: vs).
Proof. intros Hv. rewrite extend_app. auto. Qed.

Lemma C29_header_aux delims h bl1 H e1 bl2 D e2 ls T :
  ok_delims delims -> ok_lines delims (bl1 ++ (H, e1) :: bl2 ++ (D, e2) :: ls) -> ok_line delims T ->
  Forall (fun v => v = []) (row_lines bl1) -> Forall (fun v => v = []) (row_lines bl2) -> values H <> [] -> values D <> [] ->
  length (values D) - nat_of h <= length (values H) ->
  Forall (fits_row (nat_of h) (length (values D) - nat_of h)) (values D :: row_lines ls ++ [values T]) ->
  text_to_data number delims h true (file_of (bl1 ++ (H, e1) :: bl2 ++ (D, e2) :: ls) T) =
  Ok (take (length (values D) - nat_of h) (values H), data_set h (length (values D) - nat_of h) (values D :: nonblank (row_lines ls ++ [values T]))).
Proof.
  intros HD HL HT HB1 HB2 HH HDD Hw HF. unfold text_to_data. cbv zeta.
  set (file := file_of _ T).
  assert (forall bl x e rest T0, file_of (bl ++ (x, e) :: rest) T0 =
    concat (map (fun x => write_line (fst x) ++ write_end (snd x)) bl) ++ write_line x ++ write_end e ++ file_of rest T0) as HFO.
  { intros. unfold file_of. rewrite map_app, concat_app. cbn. rewrite <- !app_assoc. auto. }
  assert (length bl1 + length bl2 + length ls < length file) as Hlen.
  { pose proof (file_lines (bl1 ++ (H, e1) :: bl2 ++ (D, e2) :: ls) T) as Hx. fold file in Hx.
    rewrite app_length in Hx. cbn [length] in Hx. rewrite app_length in Hx. cbn [length] in Hx. lia. }
  unfold ok_lines in HL. rewrite List.Forall_app, List.Forall_cons_iff, List.Forall_app, List.Forall_cons_iff in HL.
  destruct HL as (L1 & [L2 L3] & L4 & [L5 L6] & L7). cbn [fst snd] in *.
  assert (forall bl, ok_lines delims bl -> Forall (fun v => v = []) (row_lines bl) ->
    Forall (fun y => good_line delims (fst y) /\ good_end (snd y) /\ values (fst y) = []) bl) as HBL.
  { intros bl Ha Hb. unfold row_lines in Hb. rewrite List.Forall_map in Hb. clear -Ha Hb HD. induction bl as [|y bl IH]; constructor.
    - inversion Ha as [|? ? [? ?] ?]; inversion Hb; subst. repeat split; try apply conv_line; try apply conv_end; auto.
    - inversion Ha; inversion Hb; subst. apply IH; auto. }
  replace (St file false) with (St (concat (map (fun x => write_line (fst x) ++ write_end (snd x)) bl1) ++ write_line H ++ write_end e1 ++ file_of (bl2 ++ (D, e2) :: ls) T) false)
    by (unfold file; rewrite (HFO bl1); auto).
  rewrite (until_some delims (conv_delims delims HD)); [|apply HBL; auto|apply conv_line; auto|apply conv_end; auto|auto|lia]. cbn [rbind].
  rewrite HFO.
  rewrite (until_some delims (conv_delims delims HD)); [|apply HBL; auto|apply conv_line; auto|apply conv_end; auto|auto|lia]. cbn [rbind].
  fold (nat_of h). destruct (Nat.ltb_spec (length (values H)) (length (values D) - nat_of h)) as [Hbad|_]; [lia|].
  inversion HF as [|? ? HF1 HF2]; subst.
  remember (S (length file)) as k eqn:Hk. cbn [data_body]. rewrite bool_decide_true by eauto. cbn [andb]. rewrite values_ct_0.
  destruct (values D) as [|v0 v] eqn:EV; [congruence|]. rewrite <- EV in *.
  pose proof (add_row_fits number h (Ts_ (length (values D) - nat_of h) [] [] false) (values D) [] HDD HF1 eq_refl) as HA.
  rewrite drop_nil, app_nil_r in HA. rewrite HA. set (t1 := extend number h _ [values D]). change (terr t1) with false. cbv iota.
  rewrite (body_some delims (conv_delims delims HD)); auto; [|apply conv_file; auto|lia].
  cbn [rbind]. unfold t1. rewrite extend_cons by auto. rewrite extend_data_set. fold (row_lines ls). rewrite cons_nonblank by auto. auto.
Qed.
(** C29: reading a file with a line of column names: blank lines skipped, one row per line that follows, the last of them
    included even without a newline (if it is not the first), in order, with the names given. *)
Theorem C29_header : forall delims h bl1 H e1 bl2 D e2 ls T,
  ok_delims delims -> ok_lines delims (bl1 ++ (H, e1) :: bl2 ++ (D, e2) :: ls) -> ok_line delims T ->
  Forall (fun v => v = []) (row_lines bl1) -> Forall (fun v => v = []) (row_lines bl2) -> values H <> [] -> values D <> [] ->
  length (values D) - nat_of h <= length (values H) ->
  Forall (fits_row (nat_of h) (length (values D) - nat_of h)) (values D :: row_lines ls ++ [values T]) ->
  text_to_data number delims h true (file_of (bl1 ++ (H, e1) :: bl2 ++ (D, e2) :: ls) T) =
  Ok (take (length (values D) - nat_of h) (values H), data_set h (length (values D) - nat_of h) (values D :: nonblank (row_lines ls ++ [values T]))).
Proof. exact C29_header_aux. Qed.

Lemma C29_no_header_aux delims h ls T v :
  ok_delims delims -> ok_lines delims ls -> ok_line delims T ->
  head (nonblank (row_lines ls ++ [values T])) = Some v ->
  Forall (fits_row (nat_of h) (length v - nat_of h)) (row_lines ls ++ [values T]) ->
  text_to_data number delims h false (file_of ls T) = Ok ([], data_set h (length v - nat_of h) (nonblank (row_lines ls ++ [values T]))).
Proof.
  intros HD HL HT Hv HF. unfold text_to_data. cbv zeta. remember (S (length (file_of ls T))) as k eqn:Hk. cbn [data_body].
  rewrite bool_decide_false by (intros [? ?]; discriminate). cbn [andb]. change (0 =? 0) with true. cbv iota.
  pose proof (file_lines ls T).
  rewrite (body_none delims (conv_delims delims HD) number h ls T [] k v); auto.
  - cbn [rbind]. fold (nat_of h). rewrite extend_data_set. auto.
  - apply conv_file; auto.
  - lia.
  - intros _. destruct v; [|cbn; lia]. exfalso.
    assert ([] ∈ nonblank (row_lines ls ++ [values T])) as Hi by (destruct (nonblank _) as [|x r]; [discriminate|]; injection Hv as ->; left).
    apply elem_of_list_filter in Hi. destruct Hi; congruence.
Qed.
(** C29: without a line of column names, one row per line that has fields, in order, the last included even without a newline. *)
Theorem C29_no_header : forall delims h ls T v,
  ok_delims delims -> ok_lines delims ls -> ok_line delims T ->
  head (nonblank (row_lines ls ++ [values T])) = Some v ->
  Forall (fits_row (nat_of h) (length v - nat_of h)) (row_lines ls ++ [values T]) ->
  text_to_data number delims h false (file_of ls T) = Ok ([], data_set h (length v - nat_of h) (nonblank (row_lines ls ++ [values T]))).
Proof. exact C29_no_header_aux. Qed.
End C29.
Print Assumptions C29_header.
Print Assumptions C29_no_header.

Lemma C29_db_aux delims bl1 H e1 bl2 D e2 ls :
  ok_delims delims -> ok_lines delims (bl1 ++ (H, e1) :: bl2 ++ (D, e2) :: ls) ->
  Forall (fun v => v = []) (row_lines bl1) -> Forall (fun v => v = []) (row_lines bl2) -> values H <> [] -> values D <> [] ->
  text_to_db delims (file_of (bl1 ++ (H, e1) :: bl2 ++ (D, e2) :: ls) no_line) =
  Ok (values H, values D :: nonblank (row_lines ls), length ls + 2).
Proof.
  intros HD HL HB1 HB2 HH HDD. unfold text_to_db. cbv zeta.
  set (file := file_of _ no_line).
  assert (forall bl x e rest T0, file_of (bl ++ (x, e) :: rest) T0 =
    concat (map (fun x => write_line (fst x) ++ write_end (snd x)) bl) ++ write_line x ++ write_end e ++ file_of rest T0) as HFO.
  { intros. unfold file_of. rewrite map_app, concat_app. cbn. rewrite <- !app_assoc. auto. }
  assert (length bl1 + length bl2 + length ls < length file) as Hlen.
  { pose proof (file_lines (bl1 ++ (H, e1) :: bl2 ++ (D, e2) :: ls) no_line) as Hx. fold file in Hx.
    rewrite app_length in Hx. cbn [length] in Hx. rewrite app_length in Hx. cbn [length] in Hx. lia. }
  unfold ok_lines in HL. rewrite List.Forall_app, List.Forall_cons_iff, List.Forall_app, List.Forall_cons_iff in HL.
  destruct HL as (L1 & [L2 L3] & L4 & [L5 L6] & L7). cbn [fst snd] in *.
  assert (forall bl, ok_lines delims bl -> Forall (fun v => v = []) (row_lines bl) ->
    Forall (fun y => good_line delims (fst y) /\ good_end (snd y) /\ values (fst y) = []) bl) as HBL.
  { intros bl Ha Hb. unfold row_lines in Hb. rewrite List.Forall_map in Hb. clear -Ha Hb HD. induction bl as [|y bl IH]; constructor.
    - inversion Ha as [|? ? [? ?] ?]; inversion Hb; subst. repeat split; try apply conv_line; try apply conv_end; auto.
    - inversion Ha; inversion Hb; subst. apply IH; auto. }
  replace (St file false) with (St (concat (map (fun x => write_line (fst x) ++ write_end (snd x)) bl1) ++ write_line H ++ write_end e1 ++ file_of (bl2 ++ (D, e2) :: ls) no_line) false)
    by (unfold file; rewrite (HFO bl1); auto).
  rewrite (until_some delims (conv_delims delims HD)); [|apply HBL; auto|apply conv_line; auto|apply conv_end; auto|auto|lia]. cbn [rbind].
  rewrite HFO.
  rewrite (until_some delims (conv_delims delims HD)); [|apply HBL; auto|apply conv_line; auto|apply conv_end; auto|auto|lia]. cbn [rbind].
  pose proof (db_body_lines delims (conv_delims delims HD) (S (S (length file))) ls (values D) [] 1 []) as HB.
  rewrite drop_nil, app_nil_r in HB. unfold no_line at 1. rewrite HB; auto; [|apply conv_file; auto; repeat split; constructor|lia].
  cbn [rbind fst snd app]. unfold row_lines. do 2 f_equal. lia.
Qed.
(** C29: reading a file into a database table: blank lines skipped, one row inserted per line, in order, if the last
    line ends with a newline.  (The number returned is the count of lines, blank ones included, plus one.) *)
Theorem C29_db : forall delims bl1 H e1 bl2 D e2 ls,
  ok_delims delims -> ok_lines delims (bl1 ++ (H, e1) :: bl2 ++ (D, e2) :: ls) ->
  Forall (fun v => v = []) (row_lines bl1) -> Forall (fun v => v = []) (row_lines bl2) -> values H <> [] -> values D <> [] ->
  text_to_db delims (file_of (bl1 ++ (H, e1) :: bl2 ++ (D, e2) :: ls) no_line) =
  Ok (values H, values D :: nonblank (row_lines ls), length ls + 2).
Proof. exact C29_db_aux. Qed.
Print Assumptions C29_db.

(** for the witnesses: a number is a single digit *)
Definition digit (f : list ascii) : option nat :=
  match f with [c] => let n := nat_of_ascii c in if (48 <=? n) && (n <=? 57) then Some (n - 48) else None | _ => None end.
Definition nlb := [newline].
Example C29_nonvacuous :
  text_to_data digit std_delims true true (bytes_of "a,b" ++ nlb ++ nlb ++ bytes_of "r,1,2" ++ nlb ++ bytes_of "s,x,4") =
    Ok ([bytes_of "a"; bytes_of "b"], Ts_ 2 [[Num 1; Num 2]; [NaN; Num 4]] [bytes_of "r"; bytes_of "s"] false) /\
  text_to_data digit std_delims false false (bytes_of "1,2" ++ nlb ++ bytes_of ",4" ++ nlb) = Ok ([], Ts_ 2 [[Num 1; Num 2]; [NaN; Num 4]] [] false) /\
  text_to_db std_delims (bytes_of "a" ++ nlb ++ bytes_of "1" ++ nlb ++ nlb ++ bytes_of "2" ++ nlb) = Ok ([bytes_of "a"], [[bytes_of "1"]; [bytes_of "2"]], 4).
Proof. repeat split; vm_compute; reflexivity. Qed.
(** C29: with column names and a single line of data that has no newline, the reader runs past the end of the file. *)
Theorem C29_single_unterminated_refuted :
  text_to_data digit std_delims false true (bytes_of "a" ++ nlb ++ bytes_of "1") = UB.
Proof. vm_compute; reflexivity. Qed.
Print Assumptions C29_single_unterminated_refuted.
(** C29: and so it does on an empty file, and on one with column names only. *)
Theorem C29_no_data_refuted :
  text_to_data digit std_delims false false [] = UB /\ text_to_data digit std_delims false true (bytes_of "a" ++ nlb) = UB.
Proof. split; vm_compute; reflexivity. Qed.
Print Assumptions C29_no_data_refuted.
(** C29: the cells missing from a short line are never written. *)
Theorem C29_short_line_refuted :
  text_to_data digit std_delims false false (bytes_of "1,2" ++ nlb ++ bytes_of "3" ++ nlb) = Ok ([], Ts_ 2 [[Num 1; Num 2]; [Num 3; Unwritten]] [] false).
Proof. vm_compute; reflexivity. Qed.
Print Assumptions C29_short_line_refuted.
(** C29: a line that is too long leaves a row of unwritten cells, and reading stops there. *)
Theorem C29_long_line_refuted :
  text_to_data digit std_delims false false (bytes_of "1" ++ nlb ++ bytes_of "2,3" ++ nlb ++ bytes_of "4" ++ nlb) = Ok ([], Ts_ 1 [[Num 1]; [Unwritten]] [] true).
Proof. vm_compute; reflexivity. Qed.
Print Assumptions C29_long_line_refuted.
(** C29: apop_text_to_db loses a last line that has no newline. *)
Theorem C29_db_unterminated_refuted :
  text_to_db std_delims (bytes_of "a" ++ nlb ++ bytes_of "1" ++ nlb ++ bytes_of "2") = Ok ([bytes_of "a"], [[bytes_of "1"]], 2).
Proof. vm_compute; reflexivity. Qed.
Print Assumptions C29_db_unterminated_refuted.
