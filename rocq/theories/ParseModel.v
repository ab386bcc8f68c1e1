(** Reading text files: apop_conversions.m4.c:417-670 and 1100-1202.  A file is a list of bytes. *)
From Verif Require Import Base NamesModel.
Local Open Scope list_scope.
Local Open Scope nat_scope.

Definition chr (n : nat) : ascii := ascii_of_nat n.
Definition nl := chr 10.  Definition quote := chr 34.  Definition backslash := chr 92.  Definition sharp := chr 35.

(** The buffered stream of apop_conversions.m4.c:472-483.  [past]: the end marker has been read; what follows it in
    the buffer was never written, so reading on is undefined.  (Not modelled: if the marker was the very last byte
    of the 1e5-byte buffer, reading on gives the end marker again.) *)
Record stream := St { bytes : list ascii; past : bool }.
(** get_next (472-483): a byte of value 255 is taken for the end of file *)
Definition get_next (s : stream) : res (option ascii * stream) :=
  match bytes s with
  | c :: r => Ok (if Ascii.eqb c (chr 255) then None else Some c, St r (past s))
  | [] => if past s then UB else Ok (None, St [] true)
  end.

Inductive ctype := TW | Tw | Td | Tn | Tq | Tb | TE | Ts | Tr.
(** strchr(delimiters, c): also finds the terminating NUL *)
Definition is_delim (delims : list ascii) (c : ascii) : bool := Ascii.eqb c (chr 0) || existsb (Ascii.eqb c) delims.
(** the type of a character, parse_next_char (485-498) *)
Definition classify (delims : list ascii) (o : option ascii) : ctype :=
  match o with
  | None => TE
  | Some c =>
    if Ascii.eqb c (chr 32) || Ascii.eqb c (chr 13) || Ascii.eqb c (chr 9) || Ascii.eqb c (chr 0)
    then (if is_delim delims c then TW else Tw)
    else if is_delim delims c then Td
    else if Ascii.eqb c nl then Tn
    else if Ascii.eqb c quote then Tq
    else if Ascii.eqb c backslash then Tb
    else if Ascii.eqb c sharp then Ts
    else Tr
  end.
Definition next_char (delims : list ascii) (s : stream) : res (option ascii * ctype * stream) :=
  do (o, s') <- get_next s; Ok (o, classify delims o, s').

(** for(int c='x'; (c!='\n' && c!=EOF); ) c = get_next(...)  (512-513) *)
Fixpoint skip_comment (fuel : nat) (s : stream) : res stream :=
  match fuel with
  | 0 => Fuel
  | S fuel =>
    do (o, s') <- get_next s;
    match o with
    | None => Ok s'
    | Some c => if Ascii.eqb c nl then Ok s' else skip_comment fuel s'
    end
  end.

(** The variables of parse_a_line (503-505).  [cells]: the strings of the text column being filled (its height is
    the stored textsize[0]); [cur]: the bytes of the field being read, thisflen = length cur, kept apart until the
    field is closed; [mlen]: the bytes allocated for it. *)
Record pst := Ps { cells : list (list ascii); ct : nat; cur : list ascii; inqq : bool; infield : bool; mlen : nat;
                   lastwhite : bool; lastnw : nat }.

Definition ctype_eqb (a b : ctype) : bool :=
  match a, b with
  | TW, TW | Tw, Tw | Td, Td | Tn, Tn | Tq, Tq | Tb, Tb | TE, TE | Ts, Ts | Tr, Tr => true
  | _, _ => false
  end.

(** 530-538: not in a field, the character may open one.  apop_text_alloc(fn, ct, 1) (apop_data.m4.c) adds a blank row
    if there are too few (C15); the 5 bytes are those of Textrealloc. *)
Definition open_field (p : pst) (t : ctype) : pst :=
  if ctype_eqb t Tr || ctype_eqb t Td || ((ctype_eqb t Tn || ctype_eqb t TE) && (0 <? ct p))
  then Ps (if length (cells p) <? S (ct p) then cells p ++ [[]] else cells p) (S (ct p)) [] (inqq p) true 5 (lastwhite p) (lastnw p)
  else p.
(** 540-559: in a field: close it, or add the character *)
Definition use_char (p : pst) (t : ctype) (c : ascii) : res pst :=
  if ctype_eqb t Td || ctype_eqb t Tn || ctype_eqb t TE || ctype_eqb t TW then
    if lastnw p <? mlen p then
      if ct p - 1 <? length (cells p)
      then Ok (Ps (<[ct p - 1 := take (lastnw p) (cur p)]> (cells p)) (ct p) [] (inqq p) false (mlen p) (lastwhite p) 0)
      else UB
    else UB
  else if ctype_eqb t Tw || ctype_eqb t Tr then
    let n := S (length (cur p)) in
    let m := if mlen p <? n + 2 then mlen p * 2 else mlen p in
    if n - 1 <? m
    then Ok (Ps (cells p) (ct p) (cur p ++ [c]) (inqq p) (infield p) m (lastwhite p) (if ctype_eqb t Tw then lastnw p else n))
    else UB
  else Ok p.
(** 525-559, once the type is settled; the result tells whether the line ends *)
Definition settle (p : pst) (t : ctype) (c : ascii) : res pst :=
  if ctype_eqb t TW && lastwhite p then Ok p
  else
    let p := Ps (cells p) (ct p) (cur p) (inqq p) (infield p) (mlen p) (ctype_eqb t TW) (lastnw p) in
    if negb (infield p) && ctype_eqb t Tw then Ok p
    else
      let p := if infield p then p else open_field p t in
      if infield p then use_char p t c else Ok p.
(** one turn of the loop of parse_a_line (507-560): new state, final type, rest of the stream *)
Definition turn (delims : list ascii) (p : pst) (s : stream) : res (pst * ctype * stream) :=
  do ots <- next_char delims s;
  let '(o, t, s) := ots in
  do ts <- (if ctype_eqb t Ts && negb (inqq p) then do s' <- skip_comment (S (S (length (bytes s)))) s; Ok (Tn, s') else Ok (t, s));
  let '(t, s) := ts in
  do ots <- (if ctype_eqb t Tb then
               do ots <- next_char delims s;
               let '(o', t', s') := ots in Ok (o', (if ctype_eqb t' TE then TE else Tr), s')
             else Ok (o, t, s));
  let '(o, t, s) := ots in
  let t' := if inqq p && negb (ctype_eqb t Tq) && negb (ctype_eqb t TE) then Tr else t in
  let q := if inqq p && negb (ctype_eqb t Tq) && negb (ctype_eqb t TE) then inqq p
           else if ctype_eqb t Tq then negb (inqq p) else inqq p in
  let p := Ps (cells p) (ct p) (cur p) q (infield p) (mlen p) (lastwhite p) (lastnw p) in
  do p' <- settle p t' (default (chr 255) o);
  Ok (p', t', s).
Fixpoint parse_loop (fuel : nat) (delims : list ascii) (p : pst) (s : stream) : res (pst * bool * stream) :=
  match fuel with
  | 0 => Fuel
  | S fuel =>
    do pts <- turn delims p s;
    let '(p', t, s') := pts in
    if ctype_eqb t Tn then Ok (p', false, s') else if ctype_eqb t TE then Ok (p', true, s') else parse_loop fuel delims p' s'
  end.
(** parse_a_line (503-562) with field_ends NULL, on a text column holding [fn]: the column afterwards, the count of
    fields, whether the end of file was met, the rest of the stream *)
Definition parse_line (delims : list ascii) (fn : list (list ascii)) (s : stream) : res (list (list ascii) * nat * bool * stream) :=
  do r <- parse_loop (S (S (length (bytes s)))) delims (Ps fn 0 [] false false 5 false 0) s;
  let '(p, e, s') := r in Ok (cells p, ct p, e, s').

(** parse_a_fixed_line (434-464).  [ends]: the array of field ends; reading past its last element is undefined.
    It reads with fgetc, which gives EOF as often as asked. [need]: needfield *)
Fixpoint fixed_loop (line : list ascii) (ends : list nat) (fn : list (list ascii)) (ct posn : nat) (cur : list ascii) (need : bool)
  : res (list (list ascii) * nat * bool * list ascii) :=
  let finish eof rest :=
    if need then Ok (fn, ct, eof, rest)
    else if ct - 1 <? length fn then Ok (<[ct - 1 := cur]> fn, ct, eof, rest) else UB in
  match line with
  | [] => finish true []
  | c :: rest =>
    if Ascii.eqb c nl then finish false rest
    else
      let posn := S posn in
      let ct' := if need then S ct else ct in
      let fn := if need then (if length fn <? ct' then fn ++ [[]] else fn) else fn in
      let cur := (if need then [] else cur) ++ [c] in
      match ends with
      | [] => UB
      | e :: ends' =>
        if posn =? e then
          (if ct' - 1 <? length fn then fixed_loop rest ends' (<[ct' - 1 := cur]> fn) ct' posn [] true else UB)
        else fixed_loop rest ends fn ct' posn cur false
      end
  end.
Definition parse_fixed_line (ends : list nat) (fn : list (list ascii)) (line : list ascii) :=
  fixed_loop line ends fn 0 0 [] true.

(** get_field_names (565-579), the loops "while (textsize[0]==0) parse_a_line(...)" *)
Fixpoint parse_until_some (fuel : nat) (delims : list ascii) (s : stream) : res (list (list ascii) * stream) :=
  match fuel with
  | 0 => Fuel
  | S fuel =>
    do r <- parse_line delims [] s;
    let '(fn, _, _, s') := r in
    match fn with [] => parse_until_some fuel delims s' | _ => Ok (fn, s') end
  end.

Section ToData.
(** strtod with its test for success: None if the string is not a number.  NaN and never-written cells are also
    told apart from numbers. *)
Context {E : Type} (number : list ascii -> option E).
Inductive tcell := Num (x : E) | NaN | Unwritten.
Definition field_cell (f : list ascii) : tcell :=
  match f with [] => NaN | _ => match number f with Some x => Num x | None => NaN end end.
(** the data set being filled: width (None before it is known), rows, row names, error 't' *)
Record tset := Ts_ { twidth : nat; trows : list (list tcell); tnames : list (list ascii); terr : bool }.

(** 636-661: one row; None if the line is too long (the row is added all the same, unwritten, and reading stops) *)
Definition add_row (hasrows : bool) (t : tset) (fn : list (list ascii)) (ct : nat) : tset :=
  let h := if hasrows then 1 else 0 in
  let names := if hasrows then tnames t ++ [default [] (fn !! 0)] else tnames t in
  let fields := drop h (take ct fn) in
  if twidth t <? ct - h then Ts_ (twidth t) (trows t ++ [replicate (twidth t) Unwritten]) names true
  else Ts_ (twidth t) (trows t ++ [map field_cell fields ++ replicate (twidth t - length fields) Unwritten]) names (terr t).
(** 628-667, the body of apop_text_to_data.  [set]: None while there is no set yet (has_col_names 'n') *)
Fixpoint data_body (fuel : nat) (delims : list ascii) (hasrows : bool) (set : option tset) (fn : list (list ascii)) (ct : nat) (eof : bool)
  (s : stream) : res tset :=
  match fuel with
  | 0 => Fuel
  | S fuel =>
    if bool_decide (is_Some set) && eof && (ct =? 0) then (match set with Some t => Ok t | None => UB end)
    else if ct =? 0 then
      do r <- parse_line delims fn s; let '(fn, ct, eof, s) := r in data_body fuel delims hasrows set fn ct eof s
    else
      let t := match set with Some t => t | None => Ts_ (ct - (if hasrows then 1 else 0)) [] [] false end in
      let t := add_row hasrows t fn ct in
      if terr t then Ok t
      else if eof then Ok t
      else do r <- parse_line delims fn s; let '(fn, ct, eof, s) := r in data_body fuel delims hasrows (Some t) fn ct eof s
  end.
(** apop_text_to_data (608-670): column names and set *)
Definition text_to_data (delims : list ascii) (hasrows hascols : bool) (file : list ascii) : res (list (list ascii) * tset) :=
  let fuel := S (S (length file)) in
  if hascols then
    do (names, s) <- parse_until_some fuel delims (St file false);
    do (fn, s) <- parse_until_some fuel delims s;
    let w := length fn - (if hasrows then 1 else 0) in
    if length names <? w then UB
    else do t <- data_body fuel delims hasrows (Some (Ts_ w [] [] false)) fn (length fn) false s; Ok (take w names, t)
  else do t <- data_body fuel delims hasrows None [] 0 false (St file false); Ok ([], t).

(** apop_text_to_db, the loop 1170-1190: the lines inserted and the count returned.  Inserting is abstract. *)
Fixpoint next_nonblank (fuel : nat) (delims : list ascii) (fn : list (list ascii)) (rows : nat) (s : stream)
  : res (list (list ascii) * nat * bool * stream * nat) :=
  match fuel with
  | 0 => Fuel
  | S fuel =>
    do r <- parse_line delims fn s;
    let '(fn, ct, eof, s) := r in
    if (ct =? 0) && negb eof then next_nonblank fuel delims fn (S rows) s else Ok (fn, ct, eof, s, S rows)
  end.
Fixpoint db_body (fuel : nat) (delims : list ascii) (fn : list (list ascii)) (ct : nat) (eof : bool) (s : stream) (rows : nat)
  (ins : list (list (list ascii))) : res (list (list (list ascii)) * nat) :=
  match fuel with
  | 0 => Fuel
  | S fuel =>
    if (ct =? 0) || eof then Ok (ins, rows)
    else
      do r <- next_nonblank (S (S (length (bytes s)))) delims fn rows s;
      let '(fn', ct', eof', s', rows') := r in
      db_body fuel delims fn' ct' eof' s' rows' (ins ++ [take ct fn])
  end.
(** 1146-1190: column names as given by the file (has_col_names 'y', field_names NULL) *)
Definition text_to_db (delims : list ascii) (file : list ascii) : res (list (list ascii) * list (list (list ascii)) * nat) :=
  let fuel := S (S (length file)) in
  do (names, s) <- parse_until_some fuel delims (St file false);
  do (fn, s) <- parse_until_some fuel delims s;
  do r <- db_body fuel delims fn (length fn) false s 1 [];
  Ok (names, fst r, snd r).
End ToData.
Arguments tcell : clear implicits.
Arguments tset : clear implicits.
