(** Model of transform/apop_fix_params.c, transform/apop_dconstrain.c, transform/apop_cross.c, apop_model_clear (apop_model.m4.c:20-41) and the error
    macros (apop.m4.h:584-634). *)
From Coq Require Import Reals.
From Verif Require Import DataModel.
Local Open Scope list_scope.
Local Open Scope nat_scope.

(** ---------- transform/apop_fix_params.c ---------- *)
Section fix_params.
Context {V : Type}.
(** a double: [None] is NaN *)
Notation num := (option V).
(** a row of the predict table: 15-27 *)
Record entry := En { erow : nat; ecol : Z; epage : nat; eval : num }.
Definition is_nan (x : num) : bool := match x with None => true | Some _ => false end.
(** 29-41, find_missing: vector, then matrix row by row.  The value is uninitialised memory, here NaN. *)
Definition find_missing (p : page num) (k : nat) : list entry :=
  (match vect p with Some v => flat_map (fun i => match v !! i with Some x => if is_nan x then [En i (-1) k None] else [] | None => [] end) (seq 0 (length v)) | None => [] end) ++
  (match mat p with Some m => flat_map (fun i => flat_map (fun j => match cell m i j with Some x => if is_nan x then [En i (Z.of_nat j) k None] else [] | None => [] end) (seq 0 (gc m))) (seq 0 (gr m)) | None => [] end).
(** 43-55 *)
Fixpoint table_prep (ps : list (page num)) (k : nat) : list entry :=
  match ps with [] => [] | p :: r => find_missing p k ++ table_prep r (S k) end.
(** 67-82: [ct] is this_page_ct.  A page before the current one, or after the last, ends in a NULL dereference. *)
Fixpoint predict_fill (ps : list (page num)) (ct : nat) (tab : list entry) : res (list (page num)) :=
  match tab with
  | [] => Ok ps
  | e :: r => if epage e <? ct then UB else match ps !! epage e with
      | None => UB
      | Some p => predict_fill (<[epage e := fst (set_at p (Z.of_nat (erow e)) (ecol e) (eval e))]> ps) (epage e) r end
  end.
(** 94-100, unpack: gsl_vector_memcpy demands equal lengths *)
Definition fp_unpack (out : list (page num)) (tab : list entry) (params : list num) : res (list (page num) * list entry) :=
  if length params =? length tab then
    let tab' := zip_with (fun e x => En (erow e) (ecol e) (epage e) x) tab params in
    do ps <- predict_fill out 0 tab'; Ok (ps, tab')
  else UB.
(** 102-117, pack: the new parameters.  [ct] is mset->ct, which nothing sets: it is 0.  [i] the index, [inp] the rest of the pages.
    apop_data_get gives NaN or fails in GSL (GotRange: by default the program is aborted, here UB). *)
Fixpoint fp_pack_from (ct : Z) (inp : list (page num)) (tab : list entry) (i : Z) : res (list num) :=
  match tab with
  | [] => Ok []
  | e :: r => match inp with
      | [] => UB
      | p :: rest =>
        do x <- match get_at p (Z.of_nat (erow e)) (ecol e) with Got x => Ok x | GotNaN => Ok None | GotRange => UB end;
        let step := (i <? ct - 1)%Z && match r with e' :: _ => negb (epage e' =? epage e) | [] => false end in
        do l <- fp_pack_from ct (if step then rest else inp) r (i + 1);
        Ok (x :: l) end
  end.
Definition fp_pack (inp : list (page num)) (tab : list entry) : res (list num) := fp_pack_from 0 inp tab 0.
(** 223-239, apop_model_fix_params as to the parameters: None: a copy of the input model is returned; else the table and the vsize *)
Definition fix_params (params : list (page num)) : option (list entry * nat) :=
  match table_prep params 0 with [] => None | tab => Some (tab, length tab) end.
End fix_params.
Arguments entry : clear implicits.

(** ---------- transform/apop_dconstrain.c ---------- *)
(** 84-92, dc_rng: the tape holds what successive draws from the base model leave in [out], and their return values.  The constraint as a test. *)
Fixpoint dc_rng {D} (ok : D -> bool) (tape : list (D * Z)) : res (D * Z) :=
  match tape with [] => Fuel | (d, _) :: r => if ok d then Ok (d, 0%Z) else dc_rng ok r end.
Local Open Scope R_scope.
(** 43-54, get_scaling *)
Definition get_scaling {D} (ok : D -> bool) (draws : list D) : R :=
  INR (fold_left (fun tally d => (tally + if ok d then 1 else 0)%nat) draws 0%nat) / INR (length draws).
(** a settings group: scale, the address of last_params, the reference count *)
Record dset := DS { dscale : R; dlast : option nat; drefct : Z }.
(** the base model's parameters (packed; 77: every constrained model's parameters are these), the number of calls to scaling so far, allocated
    vectors (None: freed) and the settings groups of the constrained models (None: freed) *)
Record dstate := DSt { dparams : list R; dcalls : nat; dvecs : list (option (list R)); dsets : list (option dset) }.
Definition vec_eqb (a b : list R) : bool := if list_eq_dec Req_EM_T a b then true else false.
(** 99-120, is_stale, for a model with parameters: the new settings, vectors and the answer.  apop_vector_distance is zero exactly for equal vectors. *)
Definition is_stale (st : dstate) (s : dset) : res (dstate * dset * bool) :=
  do (st', s', stale) <- match dlast s with
    | None => Ok (DSt (dparams st) (dcalls st) (dvecs st ++ [Some (dparams st)]) (dsets st), DS (dscale s) (Some (length (dvecs st))) (drefct s), true)
    | Some a => match dvecs st !! a with
        | Some (Some v) => if vec_eqb v (dparams st) then Ok (st, s, false)
            else Ok (DSt (dparams st) (dcalls st) (<[a := Some (dparams st)]> (dvecs st)) (dsets st), s, true)
        | _ => UB end
    end;
  Ok (st', s', stale || bool_of (Req_EM_T (dscale s') 0)).
(** a log likelihood: -infinity or a number *)
Inductive ll := NegInf | LL (r : R).
Section dconstrain.
  Context {D : Type}.
  Variable (ok : D -> bool).
  (** the base model's log likelihood; the scaling function (of the call number, as draws may be random, and the parameters) *)
  Variable (base : list R -> list D -> R).
  Variable (scaling : nat -> list R -> R).
  (** 122-131, dc_ll of model number [k] *)
  Definition dc_ll (k : nat) (data : list D) (st : dstate) : res (dstate * ll) :=
    match dsets st !! k with
    | Some (Some s) =>
      if existsb (fun d => negb (ok d)) data then Ok (st, NegInf) else
      do (st1, s1, stale) <- is_stale st s;
      let s2 := if stale then DS (scaling (dcalls st1) (dparams st1)) (dlast s1) (drefct s1) else s1 in
      Ok (DSt (dparams st1) (if stale then S (dcalls st1) else dcalls st1) (dvecs st1) (<[k := Some s2]> (dsets st1)),
          LL (base (dparams st1) data - ln (dscale s2) * INR (length data)))
    | _ => UB end.
  (** what a program may do: change the parameters; evaluate; copy the settings (64: the count of the original goes up, after the copy was taken); free *)
  Inductive dop := DParams (p : list R) | DEval (k : nat) (data : list D) | DCopy (k : nat) | DFree (k : nat).
  Definition dstep (o : dop) (st : dstate) : res (dstate * option ll) :=
    match o with
    | DParams p => Ok (DSt p (dcalls st) (dvecs st) (dsets st), None)
    | DEval k data => do (st', r) <- dc_ll k data st; Ok (st', Some r)
    | DCopy k => match dsets st !! k with
        | Some (Some s) => Ok (DSt (dparams st) (dcalls st) (dvecs st) (<[k := Some (DS (dscale s) (dlast s) (drefct s + 1))]> (dsets st) ++ [Some s]), None)
        | _ => UB end
    | DFree k => match dsets st !! k with
        | Some (Some s) =>
            let s' := DS (dscale s) (dlast s) (drefct s - 1) in
            match (if (drefct s' =? 0)%Z then dlast s else None) with
            | Some a => match dvecs st !! a with Some (Some _) => Ok (DSt (dparams st) (dcalls st) (<[a := None]> (dvecs st)) (<[k := None]> (dsets st)), None) | _ => UB end
            | None => Ok (DSt (dparams st) (dcalls st) (dvecs st) (<[k := None]> (dsets st)), None) end
        | _ => UB end
    end.
  Fixpoint drun (os : list dop) (st : dstate) : res (dstate * list (option ll)) :=
    match os with [] => Ok (st, []) | o :: r => do (st1, a) <- dstep o st; do (st2, l) <- drun r st1; Ok (st2, a :: l) end.
End dconstrain.
Arguments DParams {D}. Arguments DEval {D}. Arguments DCopy {D}. Arguments DFree {D}.
(** a constrained model just made (56-62): scale zero, no last_params *)
Definition dc_new (p : list R) : dstate := DSt p 0 [] [Some (DS 0 None 0)].
Local Open Scope nat_scope.

(** ---------- transform/apop_cross.c ---------- *)
(** pages in memory: the title, the number of columns if there is a matrix, what it holds, and the address of the next *)
Record cnode (C : Type) := CN { ctitle : option string; ccols : option nat; cbody : C; cmore : option nat }.
Arguments CN {C}. Arguments ctitle {C}. Arguments ccols {C}. Arguments cbody {C}. Arguments cmore {C}.
Record cpage (C : Type) := CP { pgtitle : option string; pgcols : option nat; pgbody : C }.
Arguments CP {C}. Arguments pgtitle {C}. Arguments pgcols {C}. Arguments pgbody {C}.
Section cross.
  Context {C A : Type}.
  Variable op : A -> A -> A.
  Notation cheap := (list (cnode C)).
  (** a model: not a cross, with its msize2 and its log likelihood (or p) of a data set; or a cross with its splitpage *)
  Inductive cmodel := Leaf (ms2 : Z) (f : list (cpage C) -> A) | Cross (split : option string) (m1 m2 : cmodel).
  (** a cross is a copy of a struct that says nothing of its sizes (147) *)
  Definition cms2 (m : cmodel) : Z := match m with Leaf z _ => z | Cross _ _ _ => 0%Z end.
  (** the pages from an address on *)
  Fixpoint chain (fuel : nat) (h : cheap) (d : option nat) : res (list (cpage C)) :=
    match d with None => Ok [] | Some a => match fuel with O => Fuel | S f =>
      match h !! a with None => UB | Some n => do l <- chain f h (cmore n); Ok (CP (ctitle n) (ccols n) (cbody n) :: l) end end end.
  Definition titled (t : string) (n : cnode C) : bool := match ctitle n with Some s => ci_eq s t | None => false end.
  (** 79-80: the last page before the one with that title, or the last page *)
  Fixpoint before (fuel : nat) (t : string) (h : cheap) (a : nat) : res nat :=
    match fuel with O => Fuel | S f =>
      match h !! a with None => UB | Some n => match cmore n with None => Ok a | Some b =>
        match h !! b with None => UB | Some n' => if titled t n' then Ok a else before f t h b end end end end.
  Definition set_more (h : cheap) (a : nat) (d : option nat) : cheap :=
    match h !! a with Some n => <[a := CN (ctitle n) (ccols n) (cbody n) d]> h | None => h end.
  (** 68-69: size2 > msize2, where msize2 is converted to an unsigned number: -1 is larger than any size *)
  Definition as_draw (n : cnode C) (m : cmodel) : bool :=
    match ccols n with Some c => (0 <=? cms2 m)%Z && (Z.to_nat (cms2 m) <? c) | None => false end.
  (** CDraw: the data are taken for a draw and cut up (48-63), which is not modelled *)
  Inductive cout := CVal (x : A) (h : cheap) | CDraw.
  (** 122-139, cross_ll and cross_p, with get_second (65-87) and repaste (90-93) *)
  Fixpoint ceval (m : cmodel) (h : cheap) (d : option nat) : res cout :=
    match m with
    | Leaf _ f => do l <- chain (S (length h)) h d; Ok (CVal (f l) h)
    | Cross None m1 m2 =>
        do o1 <- ceval m1 h d;
        match o1 with CDraw => Ok CDraw | CVal x h1 => do o2 <- ceval m2 h1 d; match o2 with CDraw => Ok CDraw | CVal y h2 => Ok (CVal (op x y) h2) end end
    | Cross (Some t) m1 m2 =>
        match d with None => UB | Some a =>
        match h !! a with None => UB | Some n =>
        if as_draw n m1 then Ok CDraw else
        if titled t n then
          do o1 <- ceval m1 h None;
          match o1 with CDraw => Ok CDraw | CVal x h1 => do o2 <- ceval m2 h1 d; match o2 with CDraw => Ok CDraw | CVal y h2 => Ok (CVal (op x y) h2) end end
        else
          do c <- before (S (length h)) t h a;
          let d2 := match h !! c with Some n => cmore n | None => None end in
          do o1 <- ceval m1 (set_more h c None) d;
          match o1 with CDraw => Ok CDraw | CVal x h1 => do o2 <- ceval m2 h1 d2; match o2 with CDraw => Ok CDraw | CVal y h2 => Ok (CVal (op x y) (set_more h2 c d2)) end end
        end end
    end.
End cross.
Arguments Leaf {C A}. Arguments Cross {C A}. Arguments CVal {C A}. Arguments CDraw {C A}.
(** 141-148 cross_draw, and the sizes given by 152-162, apop_model_cross_base.  A model that is not a cross has a dsize and, for the tape at hand, what a
    draw writes (None: it fails). *)
Inductive dmodel (A : Type) := DLeaf (dsize : Z) (draw : option (list A)) | DCross (dsize : Z) (m1 m2 : dmodel A).
Arguments DLeaf {A}. Arguments DCross {A}.
Definition dsz {A} (m : dmodel A) : Z := match m with DLeaf z _ => z | DCross z _ _ => z end.
Definition dwrite {A} (buf : list A) (off : Z) (l : list A) : res (list A) :=
  if (off <? 0)%Z || (Z.of_nat (length buf) <? off + Z.of_nat (length l))%Z then UB
  else Ok (take (Z.to_nat off) buf ++ l ++ drop (Z.to_nat off + length l) buf).
(** the buffer afterwards and whether the draw failed *)
Fixpoint cross_draw {A} (m : dmodel A) (buf : list A) (off : Z) : res (list A * bool) :=
  match m with
  | DLeaf _ None => Ok (buf, false)
  | DLeaf _ (Some l) => do b <- dwrite buf off l; Ok (b, true)
  | DCross _ m1 m2 => do (b1, ok1) <- cross_draw m1 buf off; if ok1 then cross_draw m2 b1 (off + dsz m1) else Ok (b1, false)
  end.
(** None: NULL *)
Fixpoint cross_base {A} (l : list (dmodel A)) : option (dmodel A) :=
  match l with
  | [] => None
  | m :: r => match r with
      | [] => None
      | m' :: r' => match (match r' with [] => Some m' | _ => cross_base r end) with
          | Some m2 => Some (DCross (if (0 <=? dsz m)%Z && (0 <=? dsz m2)%Z then dsz m + dsz m2 else 0) m m2)%Z
          | None => None end end
  end.

(** ---------- apop_model.m4.c:20-41, apop_model_clear ---------- *)
(** the parts of a model that are looked at; sizes -1: width of the data.  [mpars]: vector size and matrix size of the parameters, if any *)
Record amodel (D : Type) := AM { mds : Z; mvs : Z; mms1 : Z; mms2 : Z; mpars : option (nat * (nat * nat)); minfo : option string; mdata : option D; merr : option ascii }.
Arguments AM {D}. Arguments mds {D}. Arguments mvs {D}. Arguments mms1 {D}. Arguments mms2 {D}. Arguments mpars {D}. Arguments minfo {D}. Arguments mdata {D}. Arguments merr {D}.
(** the shape of a data set: is there a vector, and the columns of the matrix (0 if there is none) *)
Record dshape := Sh { has_vec : bool; shcols : nat }.
(** 22: Get_vmsizes of the data set (NULL: zeros) *)
Definition clear_width (d : option dshape) : Z := match d with Some s => if shcols s =? 0 then (if has_vec s then 1 else 0) else Z.of_nat (shcols s) | None => 0 end.
(** apop_data_alloc(vsize, msize1, msize2) for the sizes of a model: DataModel.alloc_shape; the vector and the matrix that are made.  Negative sizes other than
    -1 are not modelled. *)
Definition pars_of (v m1 m2 : nat) : nat * (nat * nat) :=
  let '(a, b, c) := alloc_shape v m1 (Z.of_nat m2) in (a, (b, Z.to_nat c)).
Definition model_clear {D} (shape : D -> dshape) (data : option D) (m : amodel D) : amodel D :=
  let w := clear_width (option_map shape data) in
  let e := if ((mds m =? -1) || (mvs m =? -1) || (mms1 m =? -1) || (mms2 m =? -1))%Z && (w =? 0)%Z then Some "d"%char else merr m in
  let sz z := if (z =? -1)%Z then w else z in
  let v := sz (mvs m) in let a := sz (mms1 m) in let b := sz (mms2 m) in
  AM (sz (mds m)) (mvs m) (mms1 m) (mms2 m)
     (match mpars m with Some p => Some p | None => if negb (v =? 0)%Z || negb (a * b =? 0)%Z then Some (pars_of (Z.to_nat v) (Z.to_nat a) (Z.to_nat b)) else None end)
     (Some "<Info>"%string) (match mdata m with Some d => Some d | None => data end) e.

(** ---------- apop.m4.h:584-634, the error macros ---------- *)
(** preprocessing tokens; a character constant is one token *)
Inductive tok := TId (s : string) | TChar (c : ascii) | TPunct (s : string).
(** macro expansion: a parameter in the replacement list is replaced by the argument; character constants are not looked into *)
Definition expand (param : string) (arg body : list tok) : list tok :=
  flat_map (fun t => match t with TId s => if String.eqb s param then arg else [t] | _ => [t] end) body.
(** 634 *)
Definition return_data_error_body : list tok :=
  [TPunct "{"; TId "apop_data"; TPunct "*"; TId "out"; TPunct "="; TId "apop_data_alloc"; TPunct "("; TPunct ")"; TPunct ";";
   TId "out"; TPunct "->"; TId "error"; TPunct "="; TChar "E"; TPunct ";"; TId "return"; TId "out"; TPunct ";"; TPunct "}"].
(** the error set by expanded code: the character constant assigned to out->error *)
Fixpoint error_set (l : list tok) : option ascii :=
  match l with
  | TId o :: ((TPunct a :: TId e :: TPunct q :: TChar c :: _) as r) =>
      if String.eqb o "out" && String.eqb a "->" && String.eqb e "error" && String.eqb q "=" then Some c else error_set r
  | _ :: r => error_set r
  | [] => None
  end.
(** 584-628: a failed Apop_stopif: is the message printed, is the program stopped by SIGTRAP (default action), else the action is run *)
Record fail := Fl { printed : bool; halts : bool; acts : bool }.
Definition stopif (test : bool) (verbose level : Z) (stop_on_warning : ascii) : fail :=
  if test then
    let h := ((level <=? verbose)%Z && Ascii.eqb stop_on_warning "v") || Ascii.eqb stop_on_warning "w" in
    Fl (negb (verbose =? -1)%Z && (level <=? verbose)%Z) h (negb h)
  else Fl false false false.
