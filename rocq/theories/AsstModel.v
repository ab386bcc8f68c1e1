(** Model of apop_asst.m4.c: pasting text (96-123), the memo table of generalized harmonic numbers (134-176), counting
    parentheses and applying a regular expression repeatedly (196-283), the Beta model with a given mean and variance
    (318-333), the store of per-thread generators (356-379) and apop_model_draws (404-431).
    Simplifications: doubles and long doubles are reals; strings are NUL-free Coq strings; memory allocation succeeds. *)
From Coq Require Import Reals.
From Verif Require Import Base.

(** ---------- apop_asst.m4.c:19-25, apop_tack_on: NULL is None; adding NULL does nothing ---------- *)
Definition tack (s add : option string) : option string :=
  match add with None => s | Some a => Some (match s with Some x => x +:+ a | None => a end) end.
(** 109-113: one row.  [keep]: prune is NULL, or it returned nonzero for (i,j).  A cell that is used is followed by between_cols
    unless it is in the last column. *)
Fixpoint paste_row (bc : string) (last : nat) (keep : nat -> bool) (j : nat) (cells : list string) (one : option string) : option string :=
  match cells with
  | [] => one
  | c :: cs => paste_row bc last keep (S j) cs
      (if keep j then let o := tack one (Some c) in if j <? last then tack o (Some bc) else o else one)
  end.
(** 107-119: the loop over rows: [out], [prior] and the resulting pair of [out] and [oneline] *)
Fixpoint paste_rows (b bc : string) (last : nat) (keep : nat -> nat -> bool) (i : nat) (rows : list (list string))
    (out prior one : option string) : option string * option string :=
  match rows with
  | [] => (out, one)
  | r :: rs =>
      let one' := paste_row bc last (keep i) 0 r None in
      let o1 := tack out prior in
      let o2 := match prior, one' with Some _, Some _ => tack o1 (Some b) | _, _ => o1 end in
      paste_rows b bc last keep (S i) rs o2 one' one'
  end.
(** 98-123.  [t]: the text grid, None for a NULL set or one without text; [prune]: NULL or a function returning an int;
    [between] and [between_cols] are None if not given or given as NULL (defaults 100, 103). *)
Definition text_paste (t : option (grid string)) (between before after between_cols : option string) (prune : option (nat -> nat -> Z)) : option string :=
  let b := match between with Some s => s | None => " " end in
  let bc := match between_cols with Some s => s | None => b end in
  let keep i j := match prune with None => true | Some f => negb (f i j =? 0)%Z end in
  let '(out, one) := match t with None => (before, None)
                     | Some g => paste_rows b bc (gc g - 1) keep 0 (ga g) before None None end in
  tack (tack out one) after.

(** ---------- 134-176, apop_generalized_harmonic ---------- *)
(** one row of the table: the exponent, the recorded length, and the allocated block; None: not yet written *)
Record memo := Memo { es : R; len : nat; blk : list (option R) }.
Notation table := (list memo).
Definition powr (n : nat) (s : R) : R := Rpower (INR n) s.
(** realloc to N entries *)
Definition regrow (b : list (option R)) (n : nat) : list (option R) := take n b ++ replicate (n - length b) None.
Fixpoint find_es (s : R) (t : table) (i : nat) : option nat :=
  match t with [] => None | m :: r => if Req_EM_T (es m) s then Some i else find_es s r (S i) end.
(** 170-171: entries [j], [j+1], ... while fewer than [k] are done *)
Fixpoint extend (s : R) (k j : nat) (b : list (option R)) : res (list (option R)) :=
  match k with
  | 0 => Ok b
  | S k' => match b !! (j - 1) with
            | Some (Some x) => if j <? length b then extend s k' (S j) (<[j := Some (x + 1 / powr (j + 1) s)%R]> b) else UB
            | _ => UB end
  end.
(** 147-174: the critical section; returns the new table and the local variable i.  N > 0. *)
Definition harmonic_crit (t : table) (N : nat) (s : R) : res (table * nat) :=
  let '(t1, i, old_len) := match find_es s t 0 with
    | None => (t ++ [Memo s N (<[0 := Some 1%R]> (replicate N None))], length t, 1)
    | Some i => (t, i, match t !! i with Some m => len m | None => 0 end) end in
  match t1 !! i with
  | None => UB
  | Some m =>
      if old_len <=? N - 1
      then (do b <- extend s (N - old_len) old_len (regrow (blk m) N); Ok (<[i := Memo (es m) (len m) b]> t1, i))
      else Ok (t1, i)
  end.
(** 175: the read after the critical section *)
Definition harmonic_read (t : table) (i N : nat) : res R :=
  match t !! i with
  | Some m => match blk m !! (N - 1) with Some (Some x) => Ok x | _ => UB end
  | None => UB end.
(** a whole call by one thread; N <= 0 gives NaN (140), here None *)
Definition harmonic (t : table) (N : Z) (s : R) : res (table * option R) :=
  if (N <=? 0)%Z then Ok (t, None)
  else do (t', i) <- harmonic_crit t (Z.to_nat N) s; do x <- harmonic_read t' i (Z.to_nat N); Ok (t', Some x).
(** threads: a call is at its start, past its critical section with its i, or done *)
Inductive hpc := HStart | HMid (i : nat) | HDone (r : res R).
Record hcall := HC { hN : nat; hs : R; hpcs : hpc }.
Definition hstep (k : nat) (st : table * list hcall) : res (table * list hcall) :=
  let '(t, cs) := st in
  match cs !! k with
  | Some (HC N s HStart) => do (t', i) <- harmonic_crit t N s; Ok (t', <[k := HC N s (HMid i)]> cs)
  | Some (HC N s (HMid i)) => Ok (t, <[k := HC N s (HDone (harmonic_read t i N))]> cs)
  | _ => Ok st
  end.
Definition hrun (sched : list nat) (st : table * list hcall) : res (table * list hcall) :=
  fold_left (fun r k => do s <- r; hstep k s) sched (Ok st).

(** ---------- 196-210, count_parens ---------- *)
Fixpoint count_parens_from (s : list ascii) (bs : bool) (out : nat) : nat :=
  match s with
  | [] => out
  | c :: r => if Ascii.eqb c "\"%char && negb bs then count_parens_from r true out
              else count_parens_from r false (if Ascii.eqb c ")"%char && negb bs then S out else out)
  end.
Definition count_parens (s : list ascii) : nat := count_parens_from s false 0.

(** ---------- 256-281, apop_regex after compilation.  The POSIX matcher is a parameter: regexec on the rest of the string (and
    whether REG_NOTBOL is set) reports nothing, or the offsets of the whole match and of [ct] groups; a group that takes no part has
    offsets -1.  Strings are lists of characters. ---------- *)
Definition matcher := list ascii -> bool -> option (Z * list (Z * Z)).
Definition group_text (s : list ascii) (g : Z * Z) : list ascii :=
  let '(so, eo) := g in if (0 <? eo)%Z then take (Z.to_nat (eo - so)) (drop (Z.to_nat so) s) else [].
(** 262-279 with a place for substrings: the rows so far and the count *)
Fixpoint regex_loop (fuel : nat) (ex : matcher) (s : list ascii) (rows : list (list (list ascii))) (ct : nat) : res (nat * list (list (list ascii))) :=
  match fuel with
  | 0 => Fuel
  | S fuel' => match ex s (negb (length rows =? 0)) with
      | None => Ok (ct, rows)
      | Some (eo, gs) =>
          let rows' := rows ++ [map (group_text s) gs] in
          let s' := drop (Z.to_nat eo) s in
          match s' with [] => Ok (S ct, rows') | _ => regex_loop fuel' ex s' rows' (S ct) end
      end
  end.
Definition regex_subs (fuel : nat) (ex : matcher) (s : list ascii) : res (nat * list (list (list ascii))) := regex_loop fuel ex s [] 0.
(** without a place for substrings the loop runs once *)
Definition regex_count (ex : matcher) (s : list ascii) : nat := match ex s false with Some _ => 1 | None => 0 end.

(** ---------- 318-333, apop_beta_from_mean_var: error 'r' (inl) or the two parameters; v <> 0 ---------- *)
Definition beta_from_mean_var (m v : R) : ascii + R * R :=
  if Rle_dec 1 m then inl "r"%char else if Rle_dec m 0 then inl "r"%char
  else let k := (m * (1 - m) / v - 1)%R in inr (m * k, k * (1 - m))%R.

(** ---------- 356-379, apop_rng_get_thread ---------- *)
(** a generator is the pointer gsl_rng_alloc returned (numbered by allocation) and the seed it was given *)
Record rng := Rng { rid : nat; rseed : Z }.
(** [rngs]: the array; rng_ct = length - 1.  [nalloc]: generators allocated so far.  [seed]: apop_opts.rng_seed *)
Record rstore := RS { rngs : list rng; nalloc : nat; seed : Z }.
(** 371-374: [k] more generators *)
Fixpoint more_rngs (k : nat) (st : rstore) : rstore :=
  match k with 0 => st | S k' => more_rngs k' (RS (rngs st ++ [Rng (nalloc st) (seed st + 1)]) (S (nalloc st)) (seed st + 1)) end.
(** 368-376 *)
Definition rng_crit (thread : Z) (st : rstore) : rstore :=
  if (thread >? Z.of_nat (length (rngs st)) - 1)%Z then more_rngs (Z.to_nat (thread + 1) - length (rngs st)) st else st.
(** 377 *)
Definition rng_read (thread : Z) (st : rstore) : res rng :=
  if (thread <? 0)%Z then UB else match rngs st !! Z.to_nat thread with Some r => Ok r | None => UB end.
(** [me]: omp_get_thread_num() *)
Definition rng_get_thread (me thread : Z) (st : rstore) : res (rstore * rng) :=
  let th := if (thread =? -1)%Z then me else thread in
  let st' := rng_crit th st in do r <- rng_read th st'; Ok (st', r).
(** what a program may do: ask for a generator, set apop_opts.rng_seed, allocate a generator of its own *)
Inductive rop := RGet (me thread : Z) | RSeed (s : Z) | RAlloc.
Definition rstep (o : rop) (st : rstore) : res (rstore * option rng) :=
  match o with
  | RGet me th => do (st', r) <- rng_get_thread me th st; Ok (st', Some r)
  | RSeed s => Ok (RS (rngs st) (nalloc st) s, None)
  | RAlloc => Ok (RS (rngs st) (S (nalloc st)) (seed st), None)
  end.
Fixpoint rrun (os : list rop) (st : rstore) : res (rstore * list (option rng)) :=
  match os with [] => Ok (st, []) | o :: r => do (s1, a) <- rstep o st; do (s2, l) <- rrun r s1; Ok (s2, a :: l) end.
(** The same with threads, at the grain of memory accesses: the array is a numbered block, and realloc to a greater size frees the old
    block (as it may).  A call is at its start, past its critical section, or holds the array pointer it loaded (377). *)
Inductive rpc := RP0 | RP1 | RP2 (block : nat) | RP3 (r : res rng).
Record rmem := RM { rcur : nat; rst : rstore; rcalls : list (Z * rpc) }.
Definition rmstep (k : nat) (m : rmem) : rmem :=
  match rcalls m !! k with
  | Some (th, RP0) => let st' := rng_crit th (rst m) in
      RM (if length (rngs (rst m)) <? length (rngs st') then S (rcur m) else rcur m) st' (<[k := (th, RP1)]> (rcalls m))
  | Some (th, RP1) => RM (rcur m) (rst m) (<[k := (th, RP2 (rcur m))]> (rcalls m))
  | Some (th, RP2 b) => RM (rcur m) (rst m) (<[k := (th, RP3 (if b =? rcur m then rng_read th (rst m) else UB))]> (rcalls m))
  | _ => m
  end.

(** ---------- 404-431, apop_model_draws ---------- *)
(** [draw]: apop_draw on a generator state: None on failure, or the [dsize] numbers written; and the generator afterwards.
    A number is None if NaN.  404-418: the checks; [dsize] of the model, [given]: the matrix of the data set given (None: no data set given;
    Some None: one without matrix). *)
Section draws.
Context {G V : Type} (draw : G -> option (list V) * G) (nan : V).
(** 424-426: one row, by the thread with the given generator *)
Definition draw_row (row : list V) (g : G) : list V * bool * G :=
  match draw g with
  | (Some l, g') => (l ++ drop (length l) row, false, g')
  | (None, g') => (map (fun _ => nan) row, true, g') end.
(** the loop, for an order of the rows and the thread that takes each; [gs]: the generators by thread *)
Fixpoint draw_loop (order : list (nat * nat)) (rows : list (list V)) (gs : nat -> G) (bad : bool) : list (list V) * bool :=
  match order with
  | [] => (rows, bad)
  | (i, th) :: more =>
      let '(r, b, g') := draw_row (default [] (rows !! i)) (gs th) in
      draw_loop more (<[i := r]> rows) (fun t => if t =? th then g' else gs t) (bad || b)
  end.
(** the output: the error letter and the matrix rows (None: a data set without matrix); [blank]: what apop_data_alloc leaves *)
Definition model_draws (model : bool) (dsize : Z) (given : option (option (grid V))) (count : nat) (blank : grid V) (order : list (nat * nat)) (gs : nat -> G)
    : option ascii * option (list (list V)) :=
  if negb model then (Some "n"%char, None) else if (dsize =? 0)%Z then (Some "n"%char, None)
  else match given with
  | Some None => (Some "m"%char, None)
  | Some (Some g) => if (Z.of_nat (gc g) <? dsize)%Z then (Some "m"%char, Some (ga g))
      else let '(rows, bad) := draw_loop order (ga g) gs false in (if bad then Some "d"%char else None, Some rows)
  | None => if (dsize <=? 0)%Z then (Some "n"%char, None)
      else let '(rows, bad) := draw_loop order (ga blank) gs false in (if bad then Some "d"%char else None, Some rows)
  end.
End draws.
