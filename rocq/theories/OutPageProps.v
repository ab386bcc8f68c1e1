(** C113: where printed sets go, and their pages. *)
From Coq Require Import Reals.
From Verif Require Import Base OutModel OutPageModel ParseSpec ParseProps.
Local Open Scope list_scope.
Local Open Scope nat_scope.

(** what changes, and that nothing else does *)
Definition stream_grows (h : handle) (t : str) (w w' : world) : Prop :=
  (forall k, stream w' k = if decide (k = h) then stream w h ++ t else stream w k) /\
  (forall k, closed w' k = closed w k) /\ (forall s, file w' s = file w s) /\ (forall s, table w' s = table w s).
Definition file_is (s : str) (t : str) (w w' : world) : Prop :=
  (forall k, stream w' k = stream w k) /\ (forall k, closed w' k = closed w k) /\
  (forall s', file w' s' = if decide (s' = s) then t else file w s') /\ (forall s', table w' s' = table w s').
Definition nothing : ascii := ascii_of_nat 0.
(** the settings that send the output to a stream: none at all (the screen), or a pipe *)
Inductive to_pipe : option handle -> ascii -> handle -> bool -> Prop :=
| default_screen : to_pipe None nothing Stdout true
| asked_screen p : to_pipe p "s"%char Stdout true
| given_pipe h : to_pipe (Some h) nothing h false
| asked_pipe h : to_pipe (Some h) "p"%char h false
| asked_stdout : to_pipe None "p"%char Stdout false.
(** a file's name, and nothing or 'f' for the type *)
Definition to_file (pipe : option handle) (type : ascii) : Prop := (pipe = None /\ type = nothing) \/ type = "f"%char.
Definition texts (core : odata -> res str) (pages : list odata) (ts : list str) : Prop := Forall2 (fun d t => core d = Ok t) pages ts.

Section P.
Context (can_open : str -> bool) (core : bool -> odata -> res str) (early : nat -> nat).
Notation print := (data_print can_open core early).
Lemma set_at_spec {A B} `{EqDecision A} (f : A -> B) x y z : set_at f x y z = if decide (z = x) then y else f z.
Proof. reflexivity. Qed.
Lemma pipe_prep pipe type append h scr : to_pipe pipe type h scr ->
  exists ty ap, prep_output can_open None pipe type append = Ok (ty, ap, ToStream h) /\ Ascii.eqb ty "s"%char = scr /\ to_pipe (Some h) ty h scr.
Proof.
  intros H. destruct H; unfold prep_output, out_type; cbn; eexists _, _; repeat split; constructor.
Qed.
Lemma stream_pages : forall pages ts i pipe type append w h scr, pages <> [] -> texts (core scr) pages ts -> to_pipe pipe type h scr -> closed w h = false ->
  exists w', print pages i None pipe type append w = Ok w' /\ stream_grows h (concat ts) w w'.
Proof.
  induction pages as [|d more IH]; intros ts i pipe type append w h scr Hne HF HP Hop; [congruence|]. inversion HF as [|? t ? ts' Hd HF']; subst.
  destruct (pipe_prep pipe type append h scr HP) as (ty & ap & Hp & Hs & HP'). cbn [data_print]. rewrite Hp. cbn [rbind]. rewrite Hs, Hd. cbn [rbind].
  unfold to_stream. rewrite Hop. cbn [rbind]. set (w1 := Wo _ _ _ _).
  destruct more as [|d2 more].
  - inversion HF'; subst. cbn [rbind]. exists w1. split; [auto|]. cbn [concat]. rewrite app_nil_r. split; [|auto]. intros k. reflexivity.
  - destruct (IH ts' (S i) (Some h) ty "a"%char w1 h scr) as (w' & E & G1 & G2 & G3 & G4); [discriminate|auto|auto|exact Hop|]. rewrite E. cbn [rbind].
    exists w'. split; [auto|]. split; [|auto]. intros k. rewrite G1. unfold w1. cbn [stream]. rewrite !set_at_spec. destruct (decide (k = h)); [|auto]. cbn [concat].
    destruct (decide (h = h)); [|congruence]. rewrite app_assoc. auto.
Qed.
Lemma file_prep s pipe type append : to_file pipe type -> can_open s = true ->
  prep_output can_open (Some s) pipe type append = Ok ("f"%char, if Ascii.eqb append nothing then "w"%char else append, ToFile s (Ascii.eqb append "a"%char)).
Proof.
  intros H Ho. unfold prep_output, out_type. destruct H as [[-> ->]| ->]; cbn; rewrite Ho; (change zero with nothing; destruct (Ascii.eqb_spec append nothing) as [->|Hna]; [reflexivity|]); rewrite ?(proj2 (Ascii.eqb_neq append nothing) Hna); reflexivity.
Qed.
Lemma parts n (t : str) : take n t ++ drop n t = t.
Proof. apply take_drop. Qed.
(** appending pages to a file: the parts written at once come in the order of the pages, the rest in the reverse order *)
Lemma append_pages : forall pages ts i pipe type w s, pages <> [] -> texts (core false) pages ts -> to_file pipe type -> can_open s = true ->
  exists w', print pages i (Some s) pipe type "a"%char w = Ok w' /\
    file_is s (file w s ++ concat (imap (fun j t => take (early (i + j)) t) ts) ++ concat (rev (imap (fun j t => drop (early (i + j)) t) ts))) w w'.
Proof.
  induction pages as [|d more IH]; intros ts i pipe type w s Hne HF HP Ho; [congruence|]. inversion HF as [|? t ? ts' Hd HF']; subst.
  cbn [data_print]. rewrite (file_prep s pipe type "a"%char HP Ho). cbn [rbind Ascii.eqb Bool.eqb]. change (Ascii.eqb "f" "s") with false. change (Ascii.eqb "a" "a") with true. cbv iota. rewrite Hd. cbn [rbind]. unfold open_file, put_early, put_late. cbv zeta.
  set (w1 := set_file s (file w s ++ take (early i) t) w).
  assert (file w1 s = file w s ++ take (early i) t) as Hw1 by (unfold w1, set_file; cbn [file]; rewrite set_at_spec; destruct (decide (s = s)); [auto|congruence]).
  cbn [imap]. rewrite Nat.add_0_r. 
  assert (forall (f : nat -> str -> str), imap ((fun j t => f (i + j) t) ∘ S) ts' = imap (fun j t => f (S i + j) t) ts') as Him.
  { intros f. apply imap_ext. intros j x _. cbn. f_equal. lia. }
  rewrite (Him (fun n t => take (early n) t)), (Him (fun n t => drop (early n) t)). cbn [rev concat]. rewrite concat_app. cbn [concat]. rewrite app_nil_r.
  destruct more as [|d2 more].
  - inversion HF'; subst. cbn [rbind imap rev concat app]. eexists. split; [reflexivity|]. split; [auto|]. split; [auto|]. split; [|auto]. intros s'. unfold set_file at 1. cbn [file].
    rewrite set_at_spec, Hw1. destruct (decide (s' = s)) as [->|Hs]; [rewrite app_nil_r, <- app_assoc; auto|]. unfold w1, set_file. cbn [file]. rewrite set_at_spec. destruct (decide (s' = s)); [congruence|auto].
  - destruct (IH ts' (S i) (Some Stdout) "f"%char w1 s) as (w' & E & G1 & G2 & G3 & G4); [discriminate|auto|right; auto|auto|]. rewrite E. cbn [rbind].
    eexists. split; [reflexivity|]. split; [exact G1|]. split; [exact G2|]. split; [|exact G4]. intros s'. unfold set_file. cbn [file]. rewrite set_at_spec, !G3.
    destruct (decide (s = s)); [|congruence]. destruct (decide (s' = s)) as [->|Hs].
    + rewrite Hw1. rewrite <- !app_assoc. auto.
    + unfold w1, set_file. cbn [file]. rewrite set_at_spec. destruct (decide (s' = s)); [congruence|auto].
Qed.
(** writing over: the first page at the start of the file, over the others *)
Lemma write_pages : forall d more t ts i pipe type append w s, core false d = Ok t -> texts (core false) more ts -> to_file pipe type -> append <> "a"%char -> can_open s = true ->
  exists w', print (d :: more) i (Some s) pipe type append w = Ok w' /\
    file_is s (write_at (length (take (early i) t)) (drop (early i) t)
      (take (early i) t ++ concat (imap (fun j t => take (early (S i + j)) t) ts) ++ concat (rev (imap (fun j t => drop (early (S i + j)) t) ts)))) w w'.
Proof.
  intros d more t ts i pipe type append w s Hd HF HP Ha Ho. cbn [data_print]. rewrite (file_prep s pipe type append HP Ho). cbn [rbind].
  change (Ascii.eqb "f" "s") with false. rewrite (proj2 (Ascii.eqb_neq append "a") Ha), Hd. cbn [rbind]. unfold open_file, put_early, put_late. cbv zeta.
  assert (forall f' : str, write_at 0 f' [] = f') as Hw0 by (intros f'; unfold write_at; rewrite drop_nil, app_nil_r; auto).
  set (w0 := set_file s [] w). assert (file w0 s = []) as Hf0 by (unfold w0, set_file; cbn [file]; rewrite set_at_spec; destruct (decide (s = s)); [auto|congruence]).
  rewrite Hf0, Hw0. set (w1 := set_file s (take (early i) t) w0).
  assert (forall s', file w1 s' = if decide (s' = s) then take (early i) t else file w s') as Hw1.
  { intros s'. unfold w1, w0, set_file; cbn [file]. rewrite !set_at_spec. destruct (decide (s' = s)); auto. }
  destruct more as [|d2 more].
  - inversion HF; subst. cbn [rbind imap rev concat app]. rewrite app_nil_r. eexists. split; [reflexivity|]. split; [auto|]. split; [auto|]. split; [|auto]. intros s'. unfold set_file at 1. cbn [file].
    rewrite set_at_spec, !Hw1. destruct (decide (s = s)); [|congruence]. destruct (decide (s' = s)); auto.
  - destruct (append_pages (d2 :: more) ts (S i) (Some Stdout) "f"%char w1 s) as (w' & E & G1 & G2 & G3 & G4); [discriminate|auto|right; auto|auto|]. rewrite E. cbn [rbind].
    eexists. split; [reflexivity|]. split; [exact G1|]. split; [exact G2|]. split; [|exact G4]. intros s'. unfold set_file. cbn [file]. rewrite set_at_spec, !G3, !Hw1.
    destruct (decide (s = s)); [|congruence]. destruct (decide (s' = s)); auto.
Qed.
(** C113: with no file name, the pages of a set go, in order and after what was written before, to the pipe given or else the screen; nothing else changes, and the stream stays open. *)
Theorem C113_stream : forall pages ts i pipe type append w h scr, pages <> [] -> texts (core scr) pages ts -> to_pipe pipe type h scr -> closed w h = false ->
  exists w', print pages i None pipe type append w = Ok w' /\ stream_grows h (concat ts) w w'.
Proof. exact stream_pages. Qed.
(** C113: with a file name, a set of one page is what the file then holds, after the former content if appending, whenever the bytes are written; nothing else changes. *)
Theorem C113_file : forall d t i pipe type append w s, core false d = Ok t -> to_file pipe type -> can_open s = true ->
  exists w', print [d] i (Some s) pipe type append w = Ok w' /\ file_is s ((if Ascii.eqb append "a"%char then file w s else []) ++ t) w w'.
Proof.
  intros d t i pipe type append w s Hd HP Ho. destruct (Ascii.eqb_spec append "a") as [->|Ha].
  - destruct (append_pages [d] [t] i pipe type w s) as (w' & E & HF); [discriminate|constructor; [auto|constructor]|auto|auto|]. exists w'. split; [auto|].
    cbn [imap concat rev app] in HF. rewrite !app_nil_r, Nat.add_0_r, parts in HF. auto.
  - destruct (write_pages d [] t [] i pipe type append w s) as (w' & E & HF); [auto|constructor|auto|auto|auto|]. exists w'. split; [auto|].
    cbn [imap concat rev app] in HF. rewrite app_nil_r in HF. unfold write_at in HF. rewrite firstn_all in HF. rewrite (drop_ge (take (early i) t)) in HF by lia. rewrite app_nil_r, parts in HF. auto.
Qed.
(** C113: the pages of a set are in the file in order if those before the last are written out before the file is opened for the next: then all of them, after the former content if appending. *)
Theorem C113_file_pages : forall pages ts i pipe type append w s, pages <> [] -> texts (core false) pages ts -> to_file pipe type -> can_open s = true ->
  (forall j t, S j < length ts -> ts !! j = Some t -> length t <= early (i + j)) ->
  exists w', print pages i (Some s) pipe type append w = Ok w' /\ file_is s ((if Ascii.eqb append "a"%char then file w s else []) ++ concat ts) w w'.
Proof.
  assert (forall (ts : list str) (i : nat), (forall j t, S j < length ts -> ts !! j = Some t -> length t <= early (i + j)) ->
    concat (imap (fun j t => take (early (i + j)) t) ts) ++ concat (rev (imap (fun j t => drop (early (i + j)) t) ts)) = concat ts) as HC.
  { induction ts as [|t ts IH]; intros i He; [auto|]. cbn [imap]. rewrite Nat.add_0_r.
    assert (forall (f : nat -> str -> str), imap ((fun j t => f (i + j) t) ∘ S) ts = imap (fun j t => f (S i + j) t) ts) as Him.
    { intros f. apply imap_ext. intros j x _. cbn. f_equal. lia. }
    rewrite (Him (fun n t => take (early n) t)), (Him (fun n t => drop (early n) t)). cbn [rev concat]. rewrite concat_app. cbn [concat]. rewrite app_nil_r.
    destruct ts as [|t2 ts].
    - cbn. rewrite !app_nil_r. apply parts.
    - assert (length t <= early i) as Ht by (specialize (He 0 t ltac:(cbn; lia) eq_refl); rewrite Nat.add_0_r in He; auto).
      rewrite (take_ge t), (drop_ge t), app_nil_r by auto. rewrite <- app_assoc. rewrite (IH (S i)); [auto|]. intros j t' Hj Ht'. specialize (He (S j) t' ltac:(cbn in *; lia) Ht').
      replace (S i + j) with (i + S j) by lia. auto. }
  intros pages ts i pipe type append w s Hne HF HP Ho He. destruct (Ascii.eqb_spec append "a") as [->|Ha].
  - destruct (append_pages pages ts i pipe type w s Hne HF HP Ho) as (w' & E & HFi). exists w'. split; [auto|]. rewrite HC in HFi by auto. auto.
  - destruct pages as [|d more]; [congruence|]. inversion HF as [|? t ? ts' Hd HF']; subst.
    destruct (write_pages d more t ts' i pipe type append w s Hd HF' HP Ha Ho) as (w' & E & HFi). exists w'. split; [auto|]. cbn [app concat].
    rewrite HC in HFi.
    + destruct ts' as [|t2 ts'].
      * cbn [concat] in *. rewrite app_nil_r in *. unfold write_at in HFi. rewrite firstn_all, (drop_ge (take (early i) t)), app_nil_r, parts in HFi by lia. auto.
      * assert (length t <= early i) as Ht by (specialize (He 0 t ltac:(cbn; lia) eq_refl); rewrite Nat.add_0_r in He; auto).
        rewrite (take_ge t), (drop_ge t) in HFi by auto. unfold write_at in HFi. cbn [length app] in HFi. rewrite Nat.add_0_r, parts in HFi. auto.
    + intros j t' Hj Ht'. specialize (He (S j) t' ltac:(cbn in *; lia) Ht'). replace (S i + j) with (i + S j) by lia. auto.
Qed.
(** C113: appending never loses what the file held, nor any byte of the pages: the bytes written at once, in order, then the rest of the pages, the last page first. *)
Theorem C113_append_keeps : forall pages ts i pipe type w s, pages <> [] -> texts (core false) pages ts -> to_file pipe type -> can_open s = true ->
  exists w' added, print pages i (Some s) pipe type "a"%char w = Ok w' /\ file_is s (file w s ++ added) w w' /\ Permutation added (concat ts).
Proof.
  intros pages ts i pipe type w s Hne HF HP Ho. destruct (append_pages pages ts i pipe type w s Hne HF HP Ho) as (w' & E & HFi). eexists w', _. split; [exact E|]. split; [exact HFi|].
  clear. revert i. induction ts as [|t ts IH]; intros i; [constructor|]. cbn [imap]. rewrite Nat.add_0_r.
  assert (forall (f : nat -> str -> str), imap ((fun j t => f (i + j) t) ∘ S) ts = imap (fun j t => f (S i + j) t) ts) as Him.
  { intros f. apply imap_ext. intros j x _. cbn. f_equal. lia. }
  rewrite (Him (fun n t => take (early n) t)), (Him (fun n t => drop (early n) t)). cbn [rev concat]. rewrite concat_app. cbn [concat]. rewrite app_nil_r.
  rewrite <- (parts (early i) t) at 3. rewrite <- (IH (S i)).
  set (a := take _ t). set (b := drop _ t). set (x := concat (imap _ ts)). set (y := concat (rev _)). rewrite <- !app_assoc. apply Permutation_app_head. rewrite (app_assoc x y b). apply Permutation_app_comm.
Qed.
(** C113: a table gets the first page: alone, or after what it held if appending. *)
Theorem C113_table : forall d more i pipe append w s,
  exists w', print (d :: more) i (Some s) pipe "d"%char append w = Ok w' /\ (forall k, stream w' k = stream w k) /\ (forall k, closed w' k = closed w k) /\ (forall s', file w' s' = file w s') /\
    forall s', table w' s' = if decide (s' = s) then (if Ascii.eqb append "w"%char || Ascii.eqb append nothing then [] else table w s) ++ [d] else table w s'.
Proof.
  intros d more i pipe append w s. cbn [data_print]. unfold prep_output, out_type. change (Ascii.eqb "d" none_) with false. cbv iota. change (Ascii.eqb "d" "p") with false. change (Ascii.eqb "d" "d") with true. cbn [rbind].
  eexists. split; [reflexivity|]. cbn [stream closed file table]. repeat split; auto. intros s'. rewrite set_at_spec. destruct (decide (s' = s)); [|auto].
  change none_ with nothing. destruct (Ascii.eqb_spec append nothing) as [->|]; [reflexivity|]. rewrite orb_false_r. auto.
Qed.
End P.
Print Assumptions C113_stream.
Print Assumptions C113_file.
Print Assumptions C113_file_pages.
Print Assumptions C113_append_keeps.
Print Assumptions C113_table.

(** two pages of text *)
Definition page_a : odata := Od None None (Some [[bytes_of "first"]]) 1 None None.
Definition page_b : odata := Od None None (Some [[bytes_of "second page"]]) 1 None None.
Definition quiet : world := Wo (fun _ => []) (fun _ => false) (fun _ => bytes_of "old") (fun _ => []).
Definition core0 (scr : bool) (d : odata) : res str := print_core (fun _ => 0%Z) (Some []) [tab] scr d.
Definition lns (l : list string) : list ascii := concat (map (fun s => bytes_of s ++ [newline]) l).
Example C113_nonvacuous : texts (core0 false) [page_a; page_b] [lns ["first"]; lns ["second page"]] /\ to_file None nothing /\ to_pipe None nothing Stdout true /\ closed quiet Stdout = false.
Proof. split; [|split; [left; auto|split; [constructor|reflexivity]]]. constructor; [reflexivity|]. constructor; [reflexivity|constructor]. Qed.
(** C113: as long as a page fits into the stream's buffer, printing a set of two pages to a file writes the first over the second: some of the second page is lost. *)
Theorem C113_refuted_overwritten :
  exists w', data_print (fun _ => true) core0 (fun _ => 0) [page_a; page_b] 0 (Some (bytes_of "f")) None nothing nothing quiet = Ok w' /\
    file w' (bytes_of "f") = lns ["first"; " page"].
Proof. eexists. split; [reflexivity|]. vm_compute. reflexivity. Qed.
Print Assumptions C113_refuted_overwritten.
(** C113: and appending puts the pages in the reverse order. *)
Theorem C113_refuted_reversed :
  exists w', data_print (fun _ => true) core0 (fun _ => 0) [page_a; page_b] 0 (Some (bytes_of "f")) None nothing "a"%char quiet = Ok w' /\
    file w' (bytes_of "f") = bytes_of "old" ++ lns ["second page"; "first"].
Proof. eexists. split; [reflexivity|]. vm_compute. reflexivity. Qed.
Print Assumptions C113_refuted_reversed.
(** C113: the documentation says that appending is the default; the file's content is lost. *)
Theorem C113_refuted_default_append :
  exists w', data_print (fun _ => true) core0 (fun _ => 0) [page_a] 0 (Some (bytes_of "f")) None nothing nothing quiet = Ok w' /\ file w' (bytes_of "f") = lns ["first"].
Proof. eexists. split; [reflexivity|]. vm_compute. reflexivity. Qed.
Print Assumptions C113_refuted_default_append.
(** C113: a file that cannot be opened is not noticed. *)
Theorem C113_refuted_cannot_open : forall core early pages i pipe w,
  data_print (fun _ => false) core early pages i (Some (bytes_of "f")) pipe "f"%char nothing w = UB.
Proof. intros core early [|d more]; reflexivity. Qed.
Print Assumptions C113_refuted_cannot_open.
(** C113: given a name along with a pipe to be used, the user's pipe is closed; and twice, if there are two pages. *)
Theorem C113_refuted_pipe_closed :
  (exists w', data_print (fun _ => true) core0 (fun _ => 0) [page_a] 0 (Some (bytes_of "f")) (Some (Pipe 1)) "p"%char nothing quiet = Ok w' /\ closed w' (Pipe 1) = true) /\
  data_print (fun _ => true) core0 (fun _ => 0) [page_a; page_b] 0 (Some (bytes_of "f")) (Some (Pipe 1)) "p"%char nothing quiet = UB.
Proof. split; [|reflexivity]. eexists. split; [reflexivity|]. reflexivity. Qed.
Print Assumptions C113_refuted_pipe_closed.
(** C113: a table does not get the further pages. *)
Theorem C113_refuted_table_pages :
  exists w', data_print (fun _ => true) core0 (fun _ => 0) [page_a; page_b] 0 (Some (bytes_of "t")) None "d"%char nothing quiet = Ok w' /\ table w' (bytes_of "t") = [page_a].
Proof. eexists. split; [reflexivity|]. reflexivity. Qed.
Print Assumptions C113_refuted_table_pages.
