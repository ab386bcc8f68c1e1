(** Model of apop_data_pack / apop_data_unpack (apop_conversions.m4.c:672-806).
    A chain of pages is the list of its pages (a self-linked page is not modelled). *)
From Verif Require Import DataModel.
Local Open Scope string_scope.
Local Open Scope list_scope.
Local Open Scope nat_scope.

Section PackM.
Context {E : Type}.
Implicit Types p : page E.

(** apop_regex(title, "^<.*>$") as used at apop_conversions.m4.c:720,730,798: the title starts with '<', ends
    with '>' and has at least these two characters (POSIX: '.' matches any character, also a newline; NULL
    title: no match, apop_asst.m4.c:250-253). *)
Definition bracketed (s : string) : bool :=
  match list_ascii_of_string s with
  | c :: (_ :: _) as l => (c =? "<")%char && (List.last l "x"%char =? ">")%char
  | _ => false
  end.
Definition is_info p : bool := match title (nms p) with Some s => bracketed s | None => false end.

(** apop_conversions.m4.c:728-736 sizecount *)
Fixpoint sizecount (all_pp use_info : bool) (d : list (page E)) : nat :=
  match d with
  | [] => 0
  | p :: more =>
    if negb use_info && is_info p then (if all_pp then sizecount all_pp use_info more else 0)
    else vsz p + msz1 p * msz2 p + wsz p + (if all_pp then sizecount all_pp use_info more else 0)
  end.

Definition yes (c : ascii) : bool := (c =? "y")%char || (c =? "Y")%char.

(** gsl_vector_memcpy into gsl_vector_subvector(out, off, length v): a length of 0 or a range outside [out]
    calls the GSL error handler: UB. *)
Definition write (out : list E) (off : nat) (v : list E) : res (list E) :=
  if (0 <? length v) && (off + length v <=? length out)
  then Ok (take off out ++ v ++ drop (off + length v) out) else UB.
(** 785-791: the matrix rows, one after another; returns the vector and the new offset *)
Fixpoint write_rows (out : list E) (off : nat) (rows : list (list E)) : res (list E * nat) :=
  match rows with
  | [] => Ok (out, off)
  | r :: rows' => do out' <- write out off r; write_rows out' (off + length r) rows'
  end.
(** 779-796: one page into the front of [out] *)
Definition pack_page (out : list E) p : res (list E * nat) :=
  do (out, off) <- match vect p with Some v => do o <- write out 0 v; Ok (o, length v) | None => Ok (out, 0) end;
  do (out, off) <- match mat p with Some m => write_rows out off (ga m) | None => Ok (out, off) end;
  match wts p with Some w => do o <- write out off w; Ok (o, off + length w) | None => Ok (out, off) end.

(** 797-800: the next page that the packing goes on with; [None]: no page left *)
Fixpoint skip_info (d : list (page E)) : list (page E) :=
  match d with p :: more => if is_info p then skip_info more else d | [] => [] end.
(** 775-805 with the size checks of the wrapper (768-773).  [out] is the vector to fill; [None] is the NULL
    returned on a wrong size (the recursive caller, line 802, ignores it and the vector stays as it was).
    [k] bounds the recursion: one unit per page. *)
Fixpoint pack_into (k : nat) (out : list E) (d : list (page E)) (more_pages use_info : ascii) : res (option (list E)) :=
  match k, d with
  | 0, _ => Fuel
  | _, [] => Ok None
  | S k', p :: more =>
    let total := sizecount (yes more_pages) (yes use_info) d in
    if negb (length out =? total) then Ok None
    else if total =? 0 then Ok None
    else
      do (out, off) <- pack_page out p;
      if yes more_pages then
        match (if (use_info =? "n")%char then skip_info more else more) with
        | [] => Ok (Some out)
        | rest =>
          if length out - off =? 0 then UB
          else do r <- pack_into k' (drop off out) rest more_pages use_info;
               Ok (Some (take off out ++ match r with Some o => o | None => drop off out end))
        end
      else Ok (Some out)
  end.
(** 762-806 apop_data_pack, in non-NULL.  [g]: the content of freshly allocated memory. *)
Definition data_pack (g : E) (d : list (page E)) (out : option (list E)) (more_pages use_info : ascii) : res (option (list E)) :=
  let total := sizecount (yes more_pages) (yes use_info) d in
  match out with
  | Some o => pack_into (S (length d)) o d more_pages use_info
  | None => if total =? 0 then Ok None else pack_into (S (length d)) (replicate total g) d more_pages use_info
  end.

(** gsl_vector_subvector(in, off, n) *)
Definition read (inp : list E) (off n : nat) : res (list E) := subvec inp off n.
(** 704-710 *)
Fixpoint read_rows (inp : list E) (off n : nat) (k : nat) : res (list (list E)) :=
  match k with
  | 0 => Ok []
  | S k' => do r <- read inp off n; do rs <- read_rows inp (off + n) n k'; Ok (r :: rs)
  end.
(** 697-715: fill one page; returns it and the offset reached *)
Definition unpack_page (inp : list E) p : res (page E * nat) :=
  do (p, off) <- match vect p with
                 | Some v => do s <- read inp 0 (length v); Ok (set_vec p (Some s), length v)
                 | None => Ok (p, 0) end;
  do (p, off) <- match mat p with
                 | Some m => do rs <- read_rows inp off (gc m) (gr m); Ok (set_mat p (Some (Gr (gr m) (gc m) rs)), off + gr m * gc m)
                 | None => Ok (p, off) end;
  match wts p with
  | Some w => do s <- read inp off (length w); Ok (set_wts p (Some s), off + length w)
  | None => Ok (p, off) end.
(** 691-726 apop_data_unpack.  The recursive call (724) passes no use_info_pages, so it is 'n' from the
    second filled page on. *)
Fixpoint data_unpack (k : nat) (inp : list E) (d : list (page E)) (use_info : ascii) : res (list (page E)) :=
  match k, d with
  | 0, _ => Fuel
  | _, [] => UB
  | S k', p :: more =>
    do (q, off) <- unpack_page inp p;
    if negb (off =? length inp) && negb (match more with [] => true | _ => false end) then
      do rest <- read inp off (length inp - off);
      if (use_info =? "n")%char then
        match skip_info more with
        | [] => Ok (q :: more)
        | todo => do filled <- data_unpack k' rest todo "n";
                  Ok (q :: take (length more - length todo) more ++ filled)
        end
      else do filled <- data_unpack k' rest more "n"; Ok (q :: filled)
    else Ok (q :: more)
  end.
Definition unpack (inp : list E) (d : list (page E)) (use_info : ascii) : res (list (page E)) :=
  data_unpack (S (length d)) inp d use_info.
End PackM.
