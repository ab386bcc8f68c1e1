(** Model of apop_name.m4.c: the names attached to a data set. *)
From Verif Require Export Base.

(** POSIX strcasecmp in the C locale folds the 26 ASCII capitals. (libc; used at apop_name.m4.c:233,239,241.) *)
Definition lower (c : ascii) : ascii :=
  let n := nat_of_ascii c in
  if (65 <=? n) && (n <=? 90) then ascii_of_nat (n + 32) else c.
Fixpoint lower_s (s : string) : string :=
  match s with EmptyString => EmptyString | String c s' => String (lower c) (lower_s s') end.
(** [ci_eq a b]: !strcasecmp(a, b).  Strings contain no NUL. *)
Definition ci_eq (a b : string) : bool := String.eqb (lower_s a) (lower_s b).

(** `char c` is a signed char on the platforms considered. *)
Definition schar (c : ascii) : Z :=
  let z := Z.of_nat (nat_of_ascii c) in if (z <? 128)%Z then z else (z - 256)%Z.

(** apop_name.m4.c:31-36 apop_name_hash (identical: apop_settings.c hash). unsigned long: mod 2^64. *)
Fixpoint hash_from (h : Z) (s : string) : Z :=
  match s with
  | EmptyString => h
  | String c s' => hash_from ((h * 33 + schar c) mod 2 ^ 64)%Z s'
  end.
Definition name_hash (s : string) : Z := hash_from 5381 s.

(** A hash array: [None] cells are allocated but never written; the empty list is the NULL pointer. *)
Notation harray := (list (option Z)).

(** apop.m4.h apop_name struct: title, vector name, three lists of names and their hash arrays.
    The counts (rowct, colct, textct) are the lengths of the lists. *)
Record names := Nm {
  title : option string; vecn : option string;
  rown : list string; coln : list string; txtn : list string;
  rowh : harray; colh : harray; txth : harray }.

(** apop_name.m4.c:23-28 apop_name_alloc *)
Definition name_alloc : names := Nm None None [] [] [] [] [] [].

(** realloc of a hash array to [n] cells: keeps a prefix, new cells uninitialised. *)
Definition hrealloc (h : harray) (n : nat) : harray := take n h ++ replicate (n - length h) None.

(** Common body of the 'r', 't', 'c' branches, apop_name.m4.c:62-70, 71-79, 84-90. *)
Definition add_to (l : list string) (h : harray) (s : string) : list string * harray :=
  let n := S (length l) in
  (l ++ [s], <[n - 1 := Some (name_hash s)]> (hrealloc h n)).

(** apop_name.m4.c:49-91 apop_name_add. Returns the new names and the int returned. *)
Definition name_add (n : names) (add_me : option string) (type : ascii) : names * Z :=
  match add_me with
  | None => (n, (-1)%Z)
  | Some s =>
    if (type =? "h")%char then
      (Nm (Some s) (vecn n) (rown n) (coln n) (txtn n) (rowh n) (colh n) (txth n), 1%Z)
    else if (type =? "v")%char then
      (Nm (title n) (Some s) (rown n) (coln n) (txtn n) (rowh n) (colh n) (txth n), 1%Z)
    else if (type =? "r")%char then
      let '(l, h) := add_to (rown n) (rowh n) s in
      (Nm (title n) (vecn n) l (coln n) (txtn n) h (colh n) (txth n), Z.of_nat (length l))
    else if (type =? "t")%char then
      let '(l, h) := add_to (txtn n) (txth n) s in
      (Nm (title n) (vecn n) (rown n) (coln n) l (rowh n) (colh n) h, Z.of_nat (length l))
    else
      let '(l, h) := add_to (coln n) (colh n) s in
      (Nm (title n) (vecn n) (rown n) l (txtn n) (rowh n) h (txth n), Z.of_nat (length l))
  end.

Definition add1 (n : names) (s : string) (type : ascii) : names := fst (name_add n (Some s) type).

(** the loops of apop_name.m4.c:163-171 *)
Definition add_all (n : names) (l : list string) (type : ascii) : names :=
  fold_left (fun acc s => add1 acc s type) l n.

(** apop_name.m4.c:151-174 apop_name_stack(n1, nadd, type1, typeadd), both names non-NULL and both types
    given (the defaults, 156-157, are type1='r', typeadd=type1).  Stacking onto self: the counts are saved
    first (160), so the list appended is the one before the call, which is what value semantics gives. *)
Definition name_stack (n1 nadd : names) (type1 typeadd : ascii) : names :=
  if (typeadd =? "v")%char then fst (name_add n1 (vecn nadd) "v"%char)
  else if (typeadd =? "r")%char then add_all n1 (rown nadd) type1
  else if (typeadd =? "t")%char then add_all n1 (txtn nadd) type1
  else if (typeadd =? "c")%char then add_all n1 (coln nadd) type1
  else n1.

(** printf("%s", s) with s possibly NULL: glibc prints "(null)" (used by the Asprintf calls). *)
Definition pct_s (s : option string) : string := match s with Some x => x | None => "(null)"%string end.

(** apop_name.m4.c:190-198 apop_name_copy *)
Definition name_copy (n : names) : names :=
  let o := name_stack name_alloc n "v" "v" in
  let o := name_stack o n "c" "c" in
  let o := name_stack o n "r" "r" in
  let o := name_stack o n "t" "t" in
  Nm (Some (pct_s (title n))) (vecn o) (rown o) (coln o) (txtn o) (rowh o) (colh o) (txth o).

(** first loop of apop_name_find, apop_name.m4.c:232-234: reads listh[i] for each i < listct; a cell that
    is out of the allocation or uninitialised is UB. *)
Fixpoint find_hashed (name : string) (hash : Z) (i : nat) (list : list string) (h : harray) : res (option nat) :=
  match list with
  | [] => Ok None
  | s :: list' =>
    match h with
    | Some hi :: h' =>
        if (hash =? hi)%Z && ci_eq name s then Ok (Some i) else find_hashed name hash (S i) list' h'
    | _ => UB
    end
  end.

(** second loop, apop_name.m4.c:238-239 *)
Fixpoint find_plain (name : string) (i : nat) (list : list string) : option nat :=
  match list with
  | [] => None
  | s :: list' => if ci_eq name s then Some i else find_plain name (S i) list'
  end.

Definition is_r (t : ascii) : bool := (t =? "r")%char || (t =? "R")%char.
Definition is_t (t : ascii) : bool := (t =? "t")%char || (t =? "T")%char.
Definition is_c (t : ascii) : bool := (t =? "c")%char || (t =? "C")%char.

(** the choice of list, apop_name.m4.c:214-228 *)
Definition list_of (n : names) (t : ascii) : list string * harray :=
  if is_r t then (rown n, rowh n) else if is_t t then (txtn n, txth n) else (coln n, colh n).

(** apop_name.m4.c:209-243 apop_name_find, with a non-NULL name (NULL returns -2, line 210). *)
Definition name_find (n : names) (name : string) (type : ascii) : res Z :=
  let '(l, h) := list_of n type in
  do first <- (match h with [] => Ok None | _ => find_hashed name (name_hash name) 0 l h end);
  match first with
  | Some i => Ok (Z.of_nat i)
  | None =>
    match find_plain name 0 l with
    | Some i => Ok (Z.of_nat i)
    | None =>
      match vecn n with
      | Some v => if is_c type && ci_eq name v then Ok (-1)%Z else Ok (-2)%Z
      | None => Ok (-2)%Z
      end
    end
  end.
