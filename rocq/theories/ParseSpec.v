(** What text files mean (C27-C29), independently of the parser: how a line of fields is written, and what its fields are. *)
From Verif Require Import Base.
Local Open Scope list_scope.
Local Open Scope nat_scope.

(** The characters with a meaning of their own; [delims] are the field delimiters in force. *)
Definition newline : ascii := ascii_of_nat 10.  Definition dquote : ascii := ascii_of_nat 34.
Definition slash : ascii := ascii_of_nat 92.  Definition hash : ascii := ascii_of_nat 35.
(** byte 255 cannot be told from the end of the file, see C27_byte_255_refuted *)
Definition plain (c : ascii) : Prop := c <> ascii_of_nat 255.
Definition nul : ascii := ascii_of_nat 0.
Definition special (c : ascii) : Prop := c = newline \/ c = dquote \/ c = slash \/ c = hash.
Definition blank_char (c : ascii) : Prop := c = ascii_of_nat 32 \/ c = ascii_of_nat 13 \/ c = ascii_of_nat 9.
Definition ok_delims (delims : list ascii) : Prop := forall c, In c delims -> ~ special c /\ c <> nul /\ plain c.
(** an ordinary character of a field; a blank that does not delimit; a blank that does; a visible delimiter *)
Definition ordinary (delims : list ascii) (c : ascii) : Prop := plain c /\ c <> nul /\ ~ special c /\ ~ blank_char c /\ ~ In c delims.
Definition soft_blank (delims : list ascii) (c : ascii) : Prop := blank_char c /\ ~ In c delims.
Definition delim_blank (delims : list ascii) (c : ascii) : Prop := blank_char c /\ In c delims.
Definition visible_delim (delims : list ascii) (c : ascii) : Prop := In c delims /\ ~ blank_char c.

(** ---- the written form of a line ---- *)
(** a piece of a field: a plain character, a plain blank, an escaped character, a quoted stretch *)
Inductive qchar := QC (c : ascii) | QE (c : ascii).
Inductive piece := Solid (c : ascii) | Soft (c : ascii) | Esc (c : ascii) | Quot (l : list qchar).
Definition write_q (x : qchar) : list ascii := match x with QC c => [c] | QE c => [slash; c] end.
Definition write_piece (x : piece) : list ascii :=
  match x with
  | Solid c => [c] | Soft c => [c] | Esc c => [slash; c]
  | Quot l => dquote :: concat (map write_q l) ++ [dquote]
  end.
Definition write_field (f : list piece) : list ascii := concat (map write_piece f).
(** what it means: characters, with a mark for those that count even at the ends of the field *)
Definition q_char (x : qchar) : ascii := match x with QC c => c | QE c => c end.
Definition ink_piece (x : piece) : list (ascii * bool) :=
  match x with
  | Solid c => [(c, true)] | Soft c => [(c, false)] | Esc c => [(c, true)]
  | Quot l => map (fun q => (q_char q, true)) l
  end.
Definition ink (f : list piece) : list (ascii * bool) := concat (map ink_piece f).
Fixpoint lead (l : list (ascii * bool)) : list (ascii * bool) :=
  match l with [] => [] | (c, b) :: l' => if b then l else lead l' end.
(** the characters from the first that counts to the last that counts *)
Definition value (f : list piece) : list ascii := map fst (rev (lead (rev (lead (ink f))))).
Definition blank (f : list piece) : bool := match lead (ink f) with [] => true | _ => false end.


(** which ways of writing are covered *)
Definition ok_q (x : qchar) : Prop :=
  match x with QC c => plain c /\ c <> dquote /\ c <> slash | QE c => plain c end.
Definition ok_piece (delims : list ascii) (x : piece) : Prop :=
  match x with
  | Solid c => ordinary delims c
  | Soft c => soft_blank delims c
  | Esc c => plain c
  | Quot l => Forall ok_q l
  end.

(** a line: runs of blank delimiters that count for nothing, fields, and what stands between fields: a visible delimiter
    (and blank delimiters after it), or a run of blank delimiters *)
Inductive sep := Tight (c : ascii) (pre : list ascii) | Loose (ws : list ascii).
Record line := Line { lpre : list ascii; lfirst : list piece; lrest : list (sep * list piece) }.
Definition write_sep (x : sep) : list ascii := match x with Tight c pre => c :: pre | Loose ws => ws end.
Definition write_line (L : line) : list ascii :=
  lpre L ++ write_field (lfirst L) ++ concat (map (fun x => write_sep (fst x) ++ write_field (snd x)) (lrest L)).
Definition line_fields (L : line) : list (list piece) := lfirst L :: map snd (lrest L).
(** a line with a single, blank field has no fields *)
Definition values (L : line) : list (list ascii) :=
  match lrest L with
  | [] => if blank (lfirst L) then [] else [value (lfirst L)]
  | _ => map value (line_fields L)
  end.
Fixpoint ok_rest (delims : list ascii) (prev : list piece) (l : list (sep * list piece)) : Prop :=
  match l with
  | [] => True
  | (x, f) :: l' =>
    match x with
    | Tight c pre => visible_delim delims c /\ Forall (delim_blank delims) pre
    | Loose ws => ws <> [] /\ Forall (delim_blank delims) ws /\ blank prev = false
    end /\ Forall (ok_piece delims) f /\ ok_rest delims f l'
  end.
Definition ok_line (delims : list ascii) (L : line) : Prop :=
  Forall (delim_blank delims) (lpre L) /\ Forall (ok_piece delims) (lfirst L) /\ ok_rest delims (lfirst L) (lrest L).
(** how a line ends *)
Inductive ending := Newline | Comment (w : list ascii).
Definition write_end (e : ending) : list ascii := match e with Newline => [newline] | Comment w => hash :: w ++ [newline] end.
Definition ok_end (e : ending) : Prop := match e with Newline => True | Comment w => Forall (fun c => plain c /\ c <> newline) w end.

(** a file: terminated lines, then what follows the last newline (nothing: the empty line) *)
Definition file_of (ls : list (line * ending)) (last : line) : list ascii :=
  concat (map (fun x => write_line (fst x) ++ write_end (snd x)) ls) ++ write_line last.
Definition no_line : line := Line [] [] [].
Definition nonblank (l : list (list (list ascii))) : list (list (list ascii)) := filter (fun v => v <> []) l.

(** fixed-width fields: the ends of the fields *)
Fixpoint increasing (prev : nat) (ends : list nat) : Prop :=
  match ends with [] => True | e :: r => prev < e /\ increasing e r end.
