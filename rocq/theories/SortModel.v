(** Model of apop_data_sort (apop_sort.m4.c:1-238). *)
From Verif Require Import DataModel.
Local Open Scope string_scope.
Local Open Scope list_scope.
Local Open Scope nat_scope.

(** the columns one can sort on; the C code writes them as doubles: -1, -2, j, j+0.5, 0.2 (46-47) *)
Inductive key := KVec | KWts | KCol (j : nat) | KText (j : nat) | KName.

(** strcasecmp(a, b) <= 0: lexicographic on the lower-cased characters (unsigned) *)
Fixpoint str_leb (a b : string) : bool :=
  match a, b with
  | EmptyString, _ => true
  | _, EmptyString => false
  | String c a', String d b' =>
      if nat_of_ascii c <? nat_of_ascii d then true
      else if nat_of_ascii d <? nat_of_ascii c then false else str_leb a' b'
  end.
Definition ci_leb (a b : string) : bool := str_leb (lower_s a) (lower_s b).

(** ---- rearrange, generic in what a row move does to the data (apop_sort.m4.c:66-101) ---- *)
Section Rearrange.
Context {X R : Type} (save : X -> nat -> R) (restore : X -> nat -> R -> X) (mv : X -> nat -> nat -> X).

(** 66-71 find_min_unsorted *)
Fixpoint first_false (l : list bool) : option nat :=
  match l with [] => None | b :: l' => if b then option_map S (first_false l') else Some 0 end.
Definition find_min_unsorted (sorted : list bool) (min : nat) : option nat :=
  option_map (Nat.add min) (first_false (drop min sorted)).

(** 91-96: follow the cycle of [start], moving row perm[i] to row i.  [fuel] bounds the while loop. *)
Fixpoint walk (fuel : nat) (perm : list nat) (start i : nat) (sorted : list bool) (x : X) : res (X * list bool * nat) :=
  match fuel with
  | 0 => Fuel
  | S f =>
    match perm !! i with
    | None => UB
    | Some j => if j =? start then Ok (x, sorted, i)
                else if j <? length sorted then walk f perm start j (<[j := true]> sorted) (mv x i j) else UB
    end
  end.
(** 85-99 *)
Fixpoint outer (fuel : nat) (perm : list nat) (start : nat) (sorted : list bool) (x : X) : res X :=
  match fuel with
  | 0 => Fuel
  | S f =>
    match find_min_unsorted sorted start with
    | None => Ok x
    | Some s =>
      let r := save x s in
      do (x', sorted', i) <- walk (S (length perm)) perm s s (<[s := true]> sorted) x;
      outer f perm s sorted' (restore x' i r)
    end
  end.
(** 82-101 *)
Definition rearr (x : X) (height : nat) (perm : list nat) : res X :=
  outer (S height) perm 0 (replicate height false) x.
End Rearrange.

Section SortM.
Context {E : Type}.
Implicit Types p q : page E.

(** apop_data_memcpy(Apop_r(data, i), r), [r] a stored one-row page (97).  Faithful for pages whose numeric and
    text parts all have the same number of rows. *)
Definition put {A} (l : list A) (i : nat) (x : option A) : list A := match x with Some y => <[i := y]> l | None => l end.
Definition row1 {A} (o : option (list A)) : option A := match o with Some [x] => Some x | _ => None end.
Definition grow1 {A} (o : option (grid A)) : option (list A) := match o with Some g => row1 (Some (ga g)) | None => None end.
Definition put_row p (i : nat) (r : page E) : page E :=
  Pg (option_map (fun v => put v i (row1 (vect r))) (vect p))
     (option_map (fun m => Gr (gr m) (gc m) (put (ga m) i (grow1 (mat r)))) (mat p))
     (option_map (fun v => put v i (row1 (wts r))) (wts p))
     (option_map (fun m => Gr (gr m) (gc m) (put (ga m) i (grow1 (txt r)))) (txt p))
     (let n := nms p in Nm (title n) (vecn n) (put (rown n) i (row1 (Some (rown (nms r))))) (coln n) (txtn n) (rowh n) (colh n) (txth n))
     (err p).
(** 82-101 rearrange on a data page; row views and moves as in DataModel.v *)
Definition rearrange p (height : nat) (perm : list nat) : res (page E) :=
  rearr row_view put_row move_row p height perm.

(** the values of a numeric key (166-174), of a text key (180-182, 213) *)
Definition column_of {A} (g : grid A) (j : nat) : list A := omap (fun r => r !! j) (ga g).
Definition num_col p (k : key) : option (list E) :=
  match k with
  | KVec => vect p
  | KWts => wts p
  | KCol j => option_map (fun m => column_of m j) (mat p)
  | _ => None
  end.
Definition str_col p (k : key) : option (list string) :=
  match k with
  | KText j => option_map (fun t => column_of t j) (txt p)
  | KName => Some (rown (nms p))
  | _ => None
  end.

(** rows [b, b+len) of the page are replaced by those of the view [q] that was sorted in place (the view of
    lines 204, 217 shares the memory; it shows at most one row name) *)
Definition splice {A} (l : list A) (b : nat) (s : list A) : list A := take b l ++ s ++ drop (b + length s) l.
Definition write_back p (b : nat) q : page E :=
  Pg (match vect p, vect q with Some v, Some w => Some (splice v b w) | o, _ => o end)
     (match mat p, mat q with Some v, Some w => Some (Gr (gr v) (gc v) (splice (ga v) b (ga w))) | o, _ => o end)
     (match wts p, wts q with Some v, Some w => Some (splice v b w) | o, _ => o end)
     (match txt p, txt q with Some v, Some w => Some (Gr (gr v) (gc v) (splice (ga v) b (ga w))) | o, _ => o end)
     (let n := nms p in Nm (title n) (vecn n) (splice (rown n) b (rown (nms q))) (coln n) (txtn n) (rowh n) (colh n) (txth n))
     (err p).

(** gsl_sort_vector_index (180) and qsort with compare_strings (185): library code, given as parameters.
    Doubles are compared by [leb]; NaN is not modelled. *)
Context (leb : E -> E -> bool) (num_index : list E -> list nat) (str_index : list string -> list nat).
(** a == b on doubles *)
Definition num_eqb (a b : E) : bool := leb a b && leb b a.

(** 196-223, one run of the loop over i = 1..height: [end_eq] decides whether a block ends, [bot_eq] whether
    the next block starts here; [get] reads the key of row i in the present state. *)
Fixpoint pass2 {V} (sub : page E -> res (page E)) (get : page E -> nat -> option V) (end_eq bot_eq : V -> V -> bool)
    (left height i bottom : nat) (last : V) p : res (page E) :=
  match left with
  | 0 => Ok p
  | S left' =>
    let block := negb (bottom =? i - 1) in
    let do_sub p := if block then do q <- sub (view_rows p bottom (i - bottom)); Ok (write_back p bottom q) else Ok p in
    if i =? height then do_sub p
    else
      match get p i with
      | None => UB
      | Some this =>
        do p' <- (if end_eq this last then Ok p else do_sub p);
        pass2 sub get end_eq bot_eq left' height (S i) (if bot_eq last this then bottom else i) this p'
      end
  end.

Definition num_at (k : key) p (i : nat) : option E := match num_col p k with Some c => c !! i | None => None end.
Definition str_at (k : key) p (i : nat) : option string := match str_col p k with Some c => c !! i | None => None end.

(** 158-226 the recursive body (apop_data_sort_base with col_order = [keys]).  The permutation is reversed for
    a descending sort (188-193; the swap goes through a double, exact below 2^53); sub-blocks are always
    sorted 'a' (204, 217). *)
Fixpoint sort_keys (keys : list key) (desc : bool) p : res (page E) :=
  match keys with
  | [] => UB
  | k :: rest =>
    match num_col p k, str_col p k with
    | Some c, _ =>
        let perm := if desc then rev (num_index c) else num_index c in
        do p1 <- rearrange p (length c) perm;
        match rest with
        | [] => Ok p1
        | _ => match num_at k p1 0 with
               | None => UB
               | Some v0 => pass2 (sort_keys rest false) (num_at k) num_eqb num_eqb (length c) (length c) 1 0 v0 p1
               end
        end
    | None, Some c =>
        let perm := if desc then rev (str_index c) else str_index c in
        do p1 <- rearrange p (length c) perm;
        match rest with
        | [] => Ok p1
        | _ => match str_at k p1 0 with
               | None => UB
               | Some v0 => pass2 (sort_keys rest false) (str_at k) ci_eq String.eqb (length c) (length c) 1 0 v0 p1
               end
        end
    | None, None => UB
    end
  end.

(** 52-58: the default order *)
Definition default_keys p : list key :=
  (match vect p with Some _ => [KVec] | None => [] end) ++
  (match mat p with Some m => map KCol (seq 0 (gc m)) | None => [] end) ++
  (match txt p with Some t => if gr t =? 0 then [] else map KText (seq 0 (gc t)) | None => [] end) ++
  (match wts p with Some _ => [KWts] | None => [] end) ++
  (match rown (nms p) with [] => [] | _ => [KName] end).

(** 7-42 find_smallest_larger_than: [cands] lists the columns of the sort_order row in the order they are
    tried (vector, matrix, text, weights, row name) with their ranks, NaN entries left out; a rank is an
    integer here ("only comparisons" matter).  [x]: the last rank used, [None] = -infinity. *)
Definition above (x : option Z) (v : Z) : bool := match x with None => true | Some y => (y <? v)%Z end.
Fixpoint smallest_larger (x : option Z) (cands : list (key * Z)) (best : option (key * Z)) : option (key * Z) :=
  match cands with
  | [] => best
  | (k, v) :: cands' =>
      smallest_larger x cands'
        (if above x v && (match best with None => true | Some (_, b) => (v <? b)%Z end) then Some (k, v) else best)
  end.
(** 48-51; once no column is left every further entry is -100, the end mark *)
Fixpoint order_loop (n : nat) (x : option Z) (cands : list (key * Z)) : list key :=
  match n with
  | 0 => []
  | S n' => match smallest_larger x cands None with
            | Some (k, v) => k :: order_loop n' (Some v) cands
            | None => []
            end
  end.
(** 44-60 generate_sort_order *)
Definition requested_keys (cands : list (key * Z)) : list key := order_loop (length cands) None cands.

(** 144-226 apop_data_sort, data non-NULL; only the first page is sorted *)
Definition data_sort (g : E) (d : adata E) (order : option (list (key * Z))) (desc inplace : bool) : res (adata E) :=
  do out <- (if inplace then Ok d else data_copy g d);
  do q <- sort_keys (match order with Some c => requested_keys c | None => default_keys (head out) end) desc (head out);
  Ok (set_head out q).
End SortM.
