(** Model of apop_arms.c (adaptive rejection Metropolis sampling): setting up the envelope, a draw, and its parts.  Numbers are reals; the logarithm of zero is
    [None] (minus infinity).  The envelope, in C a doubly linked list of POINTs whose leftmost is the first of an array, is a list from left to right: q->pl and
    q->pr of the element at i are those at i-1 and i+1.  A failing assertion and the dereference of NULL are UB.  The log density (perfunc, 523-532) is a function
    f; its count of evaluations is left out. *)
From Coq Require Import Reals.
From Verif Require Import DataModel.
Local Open Scope list_scope.
Local Open Scope nat_scope.

(** 10-13 *)
Definition XEPS : R := (1 / 100000)%R.
Definition YEPS : R := (1 / 10)%R.
Definition EYEPS : R := (1 / 1000)%R.
Definition YCEIL : R := 50%R.
(** apop.m4.h, POINT: x, y, exp(y) shifted, the integral up to x, and whether y is on the log density *)
Record pt := Pt { px : R; py : R; pey : R; pcum : R; pf : bool }.
(** the settings: bounds, starting points, room for points, Metropolis or not, the convexity adjustment *)
Record aset := AS { xl : R; xr : R; xinit : list R; npoint : nat; metro : bool; convex : R }.
(** arms_state: the envelope (its length is cpoint), ymax, the previous Markov chain iterate *)
Record arms := Ar { env : list pt; ymax : R; xprev : R; yprev : R }.
Definition Rltb (a b : R) : bool := if Rlt_dec a b then true else false.
(** 511-517, 519-521 *)
Definition expshift (y y0 : R) : R := if Rlt_dec (-2 * YCEIL) (y - y0) then exp (y - y0 + YCEIL)%R else 0%R.
Definition logshift (y y0 : R) : option R := if Rlt_dec 0 y then Some (ln y + y0 - YCEIL)%R else None.
(** 499-509, area of the piece between [a] = q->pl and [q] *)
Definition area (a q : pt) : R :=
  if Req_EM_T (px a) (px q) then 0%R
  else if Rlt_dec (Rabs (py q - py a)) YEPS then (1 / 2 * (pey q + pey a) * (px q - px a))%R
  else ((pey q - pey a) / (py q - py a) * (px q - px a))%R.
(** 400-424, cumulate *)
Definition ymax_of (l : list pt) : R := match l with [] => 0%R | q :: r => fold_left (fun m q => if Rlt_dec m (py q) then py q else m) r (py q) end.
Definition with_ey (l : list pt) (ym : R) : list pt := map (fun q => Pt (px q) (py q) (expshift (py q) ym) (pcum q) (pf q)) l.
Fixpoint with_cum (a : pt) (r : list pt) : list pt :=
  match r with [] => [] | q :: r' => let q' := Pt (px q) (py q) (pey q) (pcum a + area a q)%R (pf q) in q' :: with_cum q' r' end.
Definition cumulate (l : list pt) : list pt :=
  match with_ey l (ymax_of l) with [] => [] | q :: r => let q' := Pt (px q) (py q) (pey q) 0%R (pf q) in q' :: with_cum q' r end.
(** 426-497, meet at index i: None: an envelope violation without Metropolis; else the point with its new coordinates *)
Definition slope (a b : pt) : R := ((py a - py b) / (px a - px b))%R.
Definition meet (s : aset) (l : list pt) (i : nat) : res (option pt) :=
  match l !! i with None => UB | Some q =>
  if pf q then UB else
  let pl := match i with O => None | S j => l !! j end in
  let pr := l !! S i in
  do gl0 <- match pl with
            | None => Ok None
            | Some a => match i with S (S (S j)) => Ok (option_map (slope a) (l !! j)) | S (S O) => Ok None | _ => UB end end;
  do gr0 <- match pr with
            | None => Ok None
            | Some b => match l !! (i + 2) with None => UB | Some _ => Ok (option_map (slope b) (l !! (i + 3))) end end;
  let grl := match pl, pr with Some a, Some b => Some (slope b a) | _, _ => None end in
  let bad_l := match grl, gl0 with Some c, Some g => Rltb g c | _, _ => false end in
  let bad_r := match grl, gr0 with Some c, Some g => Rltb c g | _, _ => false end in
  if (bad_l || bad_r) && negb (metro s) then Ok None else
  let gl := if bad_l then match grl, gl0 with Some c, Some g => Some (g + (1 + convex s) * (c - g))%R | _, _ => gl0 end else gl0 in
  let gr := if bad_r then match grl, gr0 with Some c, Some g => Some (g + (1 + convex s) * (c - g))%R | _, _ => gr0 end else gr0 in
  let at_least d := if Rlt_dec d YEPS then YEPS else d in
  do (x, y) <- match pl, pr with
    | Some a, Some b =>
      let c := slope b a in let w := (px b - px a)%R in
      match gl, gr with
      | Some g, Some h => let dr := at_least ((g - c) * w)%R in let dl := at_least ((c - h) * w)%R in
          Ok ((dl * px b + dr * px a) / (dl + dr), (dl * py b + dr * py a + dl * dr) / (dl + dr))%R
      | Some g, None => Ok (px b, (py b + at_least ((g - c) * w))%R)
      | None, Some h => Ok (px a, (py a + at_least ((c - h) * w))%R)
      | None, None => UB end
    | Some a, None => match gl with Some g => Ok (px q, (py a + g * (px q - px a))%R) | None => UB end
    | None, Some b => match gr with Some h => Ok (px q, (py b - h * (px b - px q))%R) | None => UB end
    | None, None => UB end;
  if match pl with Some a => Rltb x (px a) | None => false end || match pr with Some b => Rltb (px b) x | None => false end then UB
  else Ok (Some (Pt x y (pey q) (pcum q) false))
  end.
Definition meet_at (s : aset) (l : list pt) (i : nat) : res (option (list pt)) :=
  do o <- meet s l i; Ok (option_map (fun q => <[i := q]> l) o).
(** meets at some places one after the other, ending at a violation *)
Fixpoint meets (s : aset) (l : list pt) (is : list nat) : res (option (list pt)) :=
  match is with [] => Ok (Some l) | i :: r => do o <- meet_at s l i; match o with None => Ok None | Some l' => meets s l' r end end.
(** 122-180, initial.  None: an error code (1001-1004, 1008, 2000).  The intersections' coordinates are not yet set: here 0. *)
Fixpoint ordered (l : list R) : bool := match l with a :: (b :: _) as r => Rltb a b && ordered r | _ => true end.
Definition blank (x : R) : pt := Pt x 0 0 0 false.
Fixpoint start_points (f : R -> R) (b : R) (l : list R) : list pt :=
  match l with [] => [] | x :: r => Pt x (f x) 0 0 true :: blank (match r with [] => b | _ => 0%R end) :: start_points f b r end.
Definition initial (s : aset) (f : R -> R) : res (option arms) :=
  let n := length (xinit s) in
  let mpoint := 2 * n + 1 in
  if n <? 3 then Ok None else
  if npoint s <? mpoint then Ok None else
  if Rltb (match xinit s with x :: _ => x | [] => 0%R end) (xl s) || Rltb (xr s) (List.last (xinit s) 0%R) then Ok None else
  if negb (ordered (xinit s)) then Ok None else
  if Rltb (convex s) 0 then Ok None else
  do o <- meets s (blank (xl s) :: start_points f (xr s) (xinit s)) (map (fun j => 2 * j) (seq 0 (S n)));
  match o with None => Ok None | Some l => Ok (Some (Ar (cumulate l) (ymax_of l) 0 0)) end.
(** 60-70: the chain's first state *)
Definition set_chain (f : R -> R) (x0 : R) (st : arms) : arms := Ar (env st) (ymax st) x0 (f x0).
(** 182-243, invert: the sampled x, y and exp(y) shifted, and the index of the right end of its piece *)
Record work := Wk { wx : R; wy : R; wey : R; wr : nat }.
Fixpoint find_piece (l : list pt) (u : R) (i : nat) : res nat :=
  match i with O => UB | S j => match l !! j with None => UB | Some a => if Rlt_dec u (pcum a) then find_piece l u j else Ok i end end.
Definition invert (prob : R) (l : list pt) (ym : R) : res work :=
  match l !! (length l - 1) with None => UB | Some last =>
  let u := (prob * pcum last)%R in
  do i <- find_piece l u (length l - 1);
  match l !! (i - 1), l !! i with
  | Some a, Some q =>
    let prop := ((u - pcum a) / (pcum q - pcum a))%R in
    if Req_EM_T (px a) (px q) then Ok (Wk (px q) (py q) (pey q) i) else
    if Rlt_dec (Rabs (py q - py a)) YEPS then
      let x := if Rlt_dec (EYEPS * Rabs (pey q + pey a)) (Rabs (pey q - pey a))
               then (px a + (px q - px a) / (pey q - pey a) * (- pey a + R_sqrt.sqrt ((1 - prop) * pey a * pey a + prop * pey q * pey q)))%R
               else (px a + (px q - px a) * prop)%R in
      let e := ((x - px a) / (px q - px a) * (pey q - pey a) + pey a)%R in
      match logshift e ym with None => UB | Some y => Ok (Wk x y e i) end
    else
      match logshift ((1 - prop) * pey a + prop * pey q)%R ym with
      | None => UB
      | Some z => let x := (px a + (px q - px a) / (py q - py a) * (- py a + z))%R in
                  let y := ((x - px a) / (px q - px a) * (py q - py a) + py a)%R in
                  Ok (Wk x y (expshift y ym) i)
      end
  | _, _ => UB end end.
(** 324-398, update with a point (x, y) on the log density in the piece whose right end is at k.  None: failure. *)
Definition update (s : aset) (f : R -> R) (st : arms) (x y : R) (k : nat) : res (option arms) :=
  let l := env st in
  if npoint s <? length l + 2 then Ok (Some st) else
  match l !! (k - 1), l !! k with
  | Some a, Some b =>
    let q0 := Pt x y 0 0 true in
    match (if pf a && negb (pf b) then Some (take k l ++ [blank 0; q0] ++ drop k l, k + 1)
           else if negb (pf a) && pf b then Some (take k l ++ [q0; blank 0] ++ drop k l, k) else None) with
    | None => Ok None
    | Some (l1, c) =>
      match l1 !! (if c <? 2 then c - 1 else c - 2), l1 !! (if c + 2 <? length l1 then c + 2 else c + 1) with
      | Some ql, Some qr =>
        let lo := ((1 - XEPS) * px ql + XEPS * px qr)%R in
        let hi := (XEPS * px ql + (1 - XEPS) * px qr)%R in
        let q := if Rlt_dec x lo then Pt lo (f lo) 0 0 true else if Rlt_dec hi x then Pt hi (f hi) 0 0 true else q0 in
        do o <- meets s (<[c := q]> l1) ([c - 1; c + 1] ++ (if c <? 2 then [] else [c - 3]) ++ (if c + 2 <? length l1 then [c + 3] else []));
        match o with None => Ok None | Some l2 => Ok (Some (Ar (cumulate l2) (ymax_of l2) (xprev st) (yprev st))) end
      | _, _ => UB end
    end
  | _, _ => UB end.
(** comparison with a logarithm *)
Definition log_le (y : option R) (z : R) : bool := match y with None => true | Some y => if Rle_dec y z then true else false end.
Definition log_lt (y : option R) (z : R) : bool := match y with None => true | Some y => Rltb y z end.
(** 294-296: the piece holding the chain's previous state, from the left *)
Fixpoint chain_piece (l : list pt) (x : R) (i n : nat) : res nat :=
  match n with O => UB | S n' => match l !! S i with None => UB | Some q => if Rlt_dec (px q) x then chain_piece l x (S i) n' else Ok i end end.
Inductive verdict := Accept | Reject | Violation.
(** 245-322, test, with the random numbers u2 and u3: the state, the verdict and the x that is drawn.  After a violation the envelope, left half updated in C, is
    that of before.  302-303: in a piece of length zero that holds xprev, w is the minimum of NaN and 0 by GSL_MIN, which is 0. *)
Definition test (s : aset) (f : R -> R) (st : arms) (p : work) (u2 u3 : R) : res (arms * verdict * R) :=
  let l := env st in
  let y := logshift (u2 * wey p)%R (ymax st) in
  do squeezed <- match l !! (wr p - 1), l !! wr p with
    | Some a, Some b =>
      if negb (metro s) && (2 <=? wr p) && (wr p + 1 <? length l) then
        match (if pf a then Some a else l !! (wr p - 2)), (if pf b then Some b else l !! (wr p + 1)) with
        | Some ql, Some qr => Ok (log_le y ((py qr * (wx p - px ql) + py ql * (px qr - wx p)) / (px qr - px ql))%R)
        | _, _ => UB end
      else Ok false
    | _, _ => UB end;
  if squeezed : bool then Ok (st, Accept, wx p) else
  let ynew := f (wx p) in
  if negb (metro s) || negb (log_lt y ynew) then
    do o <- update s f st (wx p) ynew (wr p);
    match o with None => Ok (st, Violation, wx p) | Some st' => Ok (st', (if log_lt y ynew then Accept else Reject), wx p) end
  else
    do i <- chain_piece l (xprev st) 0 (length l);
    match l !! i, l !! S i with
    | Some ql, Some qr =>
      let w0 := ((xprev st - px ql) / (px qr - px ql))%R in
      let zold := Rmin (py ql + w0 * (py qr - py ql))%R (yprev st) in
      let znew := Rmin (wy p) ynew in
      let w1 := if Req_EM_T (px ql) (px qr) then 0%R else Rmin (ynew - znew - yprev st + zold)%R 0 in
      let w := if Rlt_dec (- YCEIL) w1 then exp w1 else 0%R in
      if Rlt_dec w u3 then Ok (st, Accept, xprev st)
      else Ok (Ar l (ymax st) (wx p) ynew, Accept, wx p)
    | _, _ => UB end.
(** 87-120, apop_arms_draw for a model with its envelope: the random numbers are u n, u (n+1), ...  The return value and what is written to *out, if anything.
    As a simplification each round takes three numbers. *)
Fixpoint rounds (s : aset) (f : R -> R) (u : nat -> R) (k n : nat) (st : arms) : res (arms * nat * Z * option R) :=
  match k with
  | O => Ok (st, n, 0%Z, None)
  | S k' =>
    do p <- invert (u n) (env st) (ymax st);
    do (st1, v, x) <- test s f st p (u (n + 1)) (u (n + 2));
    match v with
    | Accept => Ok (st1, n + 3, 0%Z, Some x)
    | Violation => Ok (st1, n + 3, 1%Z, None)
    | Reject => rounds s f u k' (n + 3) st1 end
  end.
Definition arms_draw (s : aset) (f : R -> R) (u : nat -> R) (n : nat) (st : arms) := rounds s f u 1000 n st.
(** any number of draws: what each returned and wrote *)
Fixpoint draws (s : aset) (f : R -> R) (u : nat -> R) (k n : nat) (st : arms) : res (arms * list (Z * option R)) :=
  match k with
  | O => Ok (st, [])
  | S k' => do (st1, n1, z, o) <- arms_draw s f u n st; do (st2, l) <- draws s f u k' n1 st1; Ok (st2, (z, o) :: l)
  end.
