(** Model of where printed sets go: apop_output.m4.c:50-64 (apop_prep_output) and 324-340 (apop_data_print, with its pages).
    stdio: a stream given by the user (or stdout) is open, and takes what is written in order.  A file opened here is written through a buffer: of the text of a page some first bytes are written at once
    (as many as the library sees fit: [early]), the rest when the file is closed; a file opened with "w" is written at the stream's own position, one opened with "a" always at the end of
    the file.  Whether fopen succeeds is up to the system ([can_open]).  Tables are lists of the sets stored in them (apop_data_to_db: C30, C32). *)
From Coq Require Import Reals.
From Verif Require Import Base OutModel.
Local Open Scope list_scope.
Local Open Scope nat_scope.

Inductive handle := Stdout | Pipe (n : nat).
#[global] Instance handle_eq : EqDecision handle.
Proof. intros x y. unfold Decision. decide equality. apply Nat.eq_dec. Defined.
Inductive target := ToStream (h : handle) | ToFile (name : str) (append : bool) | ToTable (name : str).
Record world := Wo { stream : handle -> str; closed : handle -> bool; file : str -> str; table : str -> list odata }.
Definition none_ : ascii := ascii_of_nat 0.

Section Dest.
Context (can_open : str -> bool).
(** apop_prep_output: 51-57, then the destination (57-61).  A file that cannot be opened leaves a NULL stream, which the test of line 62 does not notice as it looks at the address of the
    pointer; the writing that follows is undefined.  The table's name is needed for type 'd' *)
Definition out_type (name : option str) (pipe : option handle) (type : ascii) : ascii :=
  if Ascii.eqb type none_ then
    match name, pipe with
    | None, None => "s"%char
    | Some _, None => "f"%char
    | None, Some _ => "p"%char
    | Some _, Some _ => none_
    end
  else type.
Definition prep_output (name : option str) (pipe : option handle) (type append : ascii) : res (ascii * ascii * target) :=
  let append := if Ascii.eqb append none_ then "w"%char else append in
  let type := out_type name pipe type in
  if Ascii.eqb type "p"%char then Ok (type, append, ToStream (match pipe with Some h => h | None => Stdout end))
  else if Ascii.eqb type "d"%char then match name with Some s => Ok (type, append, ToTable s) | None => UB end
  else match name with
       | Some s => if can_open s then Ok (type, append, ToFile s (Ascii.eqb append "a"%char)) else UB
       | None => Ok (type, append, ToStream Stdout)
       end.
Definition set_at {A B} `{EqDecision A} (f : A -> B) (x : A) (y : B) : A -> B := fun z => if decide (z = x) then y else f z.
Definition to_stream (h : handle) (t : str) (w : world) : res world :=
  if closed w h then UB else Ok (Wo (set_at (stream w) h (stream w h ++ t)) (closed w) (file w) (table w)).
Definition close_stream (h : handle) (w : world) : res world :=
  if closed w h then UB else Ok (Wo (stream w) (set_at (closed w) h true) (file w) (table w)).
Definition set_file (s : str) (t : str) (w : world) : world := Wo (stream w) (closed w) (set_at (file w) s t) (table w).
(** at position [n] of a file, over what is there *)
Definition write_at (n : nat) (t f : str) : str := take n f ++ t ++ drop (n + length t) f.
(** opening; the bytes written at once; those written at closing *)
Definition open_file (s : str) (append : bool) (w : world) : world := if append then w else set_file s [] w.
Definition put_early (s : str) (append : bool) (t : str) (w : world) : world := set_file s (if append then file w s ++ t else write_at 0 t (file w s)) w.
Definition put_late (s : str) (append : bool) (n : nat) (t : str) (w : world) : world := set_file s (if append then file w s ++ t else write_at n t (file w s)) w.

Context (core : bool -> odata -> res str)   (* apop_data_print_core: the text; true for the screen *)
        (early : nat -> nat).               (* of page i, the bytes written at once *)
(** apop_data_print (324-340): the pages in order, [i] the number of the first *)
Fixpoint data_print (pages : list odata) (i : nat) (name : option str) (pipe : option handle) (type append : ascii) (w : world) : res world :=
  match pages with
  | [] => UB
  | d :: more =>
    do p <- prep_output name pipe type append;
    let '(type, append, tgt) := p in
    let next w' := match more with [] => Ok w' | _ => data_print more (S i) name (Some (match tgt with ToStream h => h | _ => Stdout end)) type "a"%char w' end in
    match tgt with
    | ToTable s => Ok (Wo (stream w) (closed w) (file w) (set_at (table w) s ((if Ascii.eqb append "w"%char then [] else table w s) ++ [d])))
    | ToStream h =>
      do t <- core (Ascii.eqb type "s"%char) d;
      do w <- to_stream h t w;
      do w <- next w;
      match name with Some _ => close_stream h w | None => Ok w end
    | ToFile s a =>
      do t <- core (Ascii.eqb type "s"%char) d;
      let w := open_file s a w in
      let w := put_early s a (take (early i) t) w in
      do w <- next w;
      Ok (put_late s a (length (take (early i) t)) (drop (early i) t) w)
    end
  end.
End Dest.
