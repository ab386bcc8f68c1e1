(** The two registries: apop_vtables.c and apop_settings.c (with the settings part of apop_model_copy). *)
From Verif Require Import Base NamesModel.
Local Open Scope string_scope.
Local Open Scope list_scope.
Local Open Scope nat_scope.

(** ---- apop_vtables.c ---- *)
Section Vtab.
(** [F]: function pointers, [null] the NULL one. *)
Context {F : Type} (null : F).
(** apop_vtables.c:14-28, apop_vtable_elmt_s and apop_vtable_s.  [cells] is the whole allocated array, of which
    the first [ct] are in use.  The name pointer is never read and is left out, and so is the mutex (every
    operation is taken as atomic). *)
Record vtab := Vt { vhash : Z; ct : nat; cells : list (Z * F) }.
(** apop_vtables.c:30 the global vtable_list: None is the NULL pointer, else the tables before the final all-zero one. *)
Definition vstate := option (list vtab).

(** apop_vtables.c:42-47 find_tab: the position of the first table that has hash [h], or where the loop stops
    (at a table of hash zero; past the last one there always is such a table) *)
Fixpoint find_tab (h : Z) (l : list vtab) : nat :=
  match l with
  | [] => 0
  | t :: l' => if (vhash t =? 0)%Z then 0 else if (vhash t =? h)%Z then 0 else S (find_tab h l')
  end.
(** the final all-zero table *)
Definition no_tab : vtab := Vt 0 0 [].
Definition tab_at (l : list vtab) (i : nat) : vtab := default no_tab (l !! i).

(** the loop "for i< v->elmt_ct: if (hash == v->elmts[i].hash)": first used cell with this hash *)
Fixpoint find_cell (h : Z) (n : nat) (l : list (Z * F)) : option nat :=
  match n, l with
  | S n', (h', _) :: l' => if (h =? h')%Z then Some 0 else option_map S (find_cell h n' l')
  | _, _ => None
  end.

(** memmove(a+i, a+i+1, n cells) (apop_vtables.c:59); a cell read outside the array has the value [junk], and the
    flag tells whether there was one *)
Definition cell_at (junk : Z * F) (a : list (Z * F)) (k : nat) : Z * F := default junk (a !! k).
Definition memmove (junk : Z * F) (a : list (Z * F)) (i n : nat) : list (Z * F) * bool :=
  (take i a ++ map (cell_at junk a) (seq (i + 1) n) ++ drop (i + n) a, length a <? i + 1 + n).

(** apop_vtables.c:51-66 apop_vtable_drop: return code, outside read, new state *)
Definition vdrop (junk : Z * F) (s : vstate) (tabname : string) (h : Z) : nat * bool * vstate :=
  match s with
  | None => (1, false, None)
  | Some l =>
    let i := find_tab (name_hash tabname) l in
    let v := tab_at l i in
    match find_cell h (ct v) (cells v) with
    | Some k =>
      let (c, out) := memmove junk (cells v) k (ct v - k) in
      (0, out, Some (<[i := Vt (vhash v) (ct v - 1) c]> l))
    | None => (1, false, s)
    end
  end.

(** realloc to n cells: keeps a prefix; new cells unspecified *)
Definition crealloc (junk : Z * F) (a : list (Z * F)) (n : nat) : list (Z * F) := map (cell_at junk a) (seq 0 n).

(** apop_vtables.c:68-105 apop_vtable_add *)
Definition vadd (junk : Z * F) (s : vstate) (tabname : string) (f : F) (h : Z) : vstate :=
  let l := default [] s in
  let th := name_hash tabname in
  let ctr := find_tab th l in
  let l1 := if (vhash (tab_at l ctr) =? 0)%Z then take ctr l ++ [Vt th 0 [(0%Z, null)]] else l in
  let v := tab_at l1 ctr in
  match find_cell h (ct v) (cells v) with
  | Some _ => Some l1
  | None =>
    let n := S (ct v) in
    Some (<[ctr := Vt (vhash v) n (<[n - 1 := (h, f)]> (crealloc junk (cells v) n))]> l1)
  end.

(** apop_vtables.c:107-118 apop_vtable_get *)
Definition vget (s : vstate) (tabname : string) (h : Z) : F :=
  match s with
  | None => null
  | Some l =>
    let v := tab_at l (find_tab (name_hash tabname) l) in
    if (vhash v =? 0)%Z then null
    else match find_cell h (ct v) (cells v) with
         | Some k => default null (snd <$> cells v !! k)
         | None => null
         end
  end.
End Vtab.
Arguments vtab : clear implicits.
Arguments vstate : clear implicits.

(** ---- apop_settings.c ---- *)
Section Settings.
(** [G]: settings groups (pointers to them) *)
Context {G : Type} (null : G).
(** apop.m4.h:85-91 apop_settings_type.  The free function is not interpreted: a call of it is recorded in a log. *)
Record sentry := Se { sname : string; shash : Z; sgroup : G; scopy : option (G -> G) }.
(** (apop_settings_type){ } *)
Definition sentinel : sentry := Se "" 0 null None.
(** model->settings: None is NULL, else the allocated array *)
Definition settings := option (list sentry).

(** apop_settings.c:6-11 get_settings_ct *)
Fixpoint live_ct (a : list sentry) : res nat :=
  match a with
  | [] => UB
  | e :: a' => if (sname e =? "")%string then Ok 0 else do n <- live_ct a'; Ok (S n)
  end.
Definition settings_ct (s : settings) : res nat := match s with None => Ok 0 | Some a => live_ct a end.

(** apop_settings.c:66-78 apop_settings_get_grp (with fail='c') *)
Fixpoint find_group (h : Z) (a : list sentry) : res (option sentry) :=
  match a with
  | [] => UB
  | e :: a' => if (sname e =? "")%string then Ok None else if (h =? shash e)%Z then Ok (Some e) else find_group h a'
  end.
Definition get_entry (s : settings) (type : string) : res (option sentry) :=
  match s with None => Ok None | Some a => find_group (name_hash type) a end.
Definition get_grp (s : settings) (type : string) : res (option G) :=
  do o <- get_entry s type; Ok (option_map sgroup o).

(** apop_settings.c:27-42 apop_settings_remove_group: the loop, on the array, with the log of freed groups.
    [ct] is computed once before the loop. *)
Fixpoint rm_loop (fuel : nat) (h : Z) (ct : nat) (a : list sentry) (i : nat) (freed : list G) : res (list sentry * list G) :=
  match fuel with
  | 0 => Fuel
  | S fuel =>
    match a !! i with
    | None => UB
    | Some e =>
      if (sname e =? "")%string then Ok (a, freed)
      else if (shash e =? h)%Z then
        if length a <? ct + 1 then UB
        else rm_loop fuel h ct (take i a ++ drop (S i) (take (S ct) a) ++ drop ct a) i (freed ++ [sgroup e])
      else rm_loop fuel h ct a (S i) freed
    end
  end.
Definition remove_group (s : settings) (delme : string) : res (settings * list G) :=
  match s with
  | None => Ok (None, [])
  | Some a =>
    do ct <- live_ct a;
    do r <- rm_loop (2 * length a + 2) (name_hash delme) ct a 0 [];
    Ok (Some (fst r), snd r)
  end.

(** apop_settings.c:45-57 apop_settings_group_alloc.  The realloc to ct+2 entries keeps the first ct; the other two
    are then written. *)
Definition group_alloc (s : settings) (type : string) (cp : option (G -> G)) (g : G) : res (settings * list G) :=
  do old <- get_grp s type;
  do sf <- (match old with Some _ => remove_group s type | None => Ok (s, []) end);
  let (s1, freed) := sf in
  do ct <- settings_ct s1;
  Ok (Some (take ct (default [] s1) ++ [Se (substring 0 100 type) (name_hash type) g cp; sentinel]), freed).

(** apop_settings.c:97-114 apop_settings_copy_group onto the settings [out]; the flag: error 's' *)
Definition copy_group (out inm : settings) (copyme : string) : res (settings * bool) :=
  if (copyme =? "")%string then Ok (out, false)
  else match inm with
  | None => Ok (out, false)
  | Some _ =>
    do o <- get_entry inm copyme;
    match o with
    | None => Ok (out, true)
    | Some e =>
      let g := match scopy e with Some f => f (sgroup e) | None => sgroup e end in
      do r <- group_alloc out copyme (scopy e) g; Ok (fst r, false)
    end
  end.
(** apop_model.m4.c:165-170, the do-while loop of apop_model_copy over the settings of the input *)
Fixpoint copy_all (inm : settings) (rest : list sentry) (out : settings) (err : bool) : res (settings * bool) :=
  match rest with
  | [] => UB
  | e :: rest' =>
    do r <- copy_group out inm (sname e);
    let (out', e') := r in
    if (sname e =? "")%string then Ok (out', err || e') else copy_all inm rest' out' (err || e')
  end.
Definition model_copy_settings (inm : settings) : res (settings * bool) :=
  match inm with None => Ok (None, false) | Some a => copy_all inm a None false end.
End Settings.
Arguments sentry : clear implicits.
Arguments settings : clear implicits.
