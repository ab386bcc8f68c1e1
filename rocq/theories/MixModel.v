(** Model of mixtures of models, transform/apop_mixture.c.  Doubles are reals; the log likelihoods of the components are finite.  A data set is its list of observations (one row each). *)
From Coq Require Import Reals.
From Verif Require Import Base StatsModel ConsModel PmfModel.
Local Open Scope list_scope.
Local Open Scope R_scope.

Section mix.
  Context {D : Type}.
  (** A component: log likelihood and distribution function of one observation given the parameters (in apop_data_pack order), the constraint (None: the component has none; else the penalty and
      the parameters it moves to), and the parameters apop_prep sets up (None: there are none, as for apop_pmf). *)
  Record comp := Comp { c_ll : list R -> D -> R; c_cdf : list R -> D -> R; c_con : option (list R -> R * list R); c_new : option (list R) }.
  (** What the copies of one mixture have in common, since apop_settings_copy copies the pointers (102-105): the component models with their parameters, the weights, and param_sizes (one entry for
      each that has been set, by mixture_prep). *)
  Record shared := Sh { s_comps : list (comp * option (list R)); s_weights : list R; s_sizes : list nat }.
  (** What each has to itself: find_weights, next_weights, the weights copied into the pmf of the draws, and the parameters of the mixture *)
  Record mix := Mix { m_find : bool; m_next : option (list R); m_cmf : option (list R); m_pars : option (list R) }.

  (** 123-147, apop_model_mixture: equal weights *)
  Definition mixture_base (cs : list (comp * option (list R))) : res (shared * mix) :=
    match cs with [] => UB | _ => Ok (Sh cs (replicate (length cs) (1 / INR (length cs))) [], Mix false None None None) end.
  (** 102-105 and apop_model_copy *)
  Definition mixture_copy (m : mix) : mix := m.

  Definition psize (p : option (list R)) : nat := match p with Some l => length l | None => 0 end.
  Definition pvec (p : option (list R)) : list R := match p with Some l => l | None => [] end.
  (** 163-180, mixture_prep: the weights, then the parameters of one component after the other *)
  Fixpoint prep_loop (cs : list (comp * option (list R))) (v : list R) (sizes : list nat) : list (comp * option (list R)) * list R * list nat :=
    match cs with
    | [] => ([], v, sizes)
    | (c, p) :: cs =>
      let p := match p with None => c_new c | Some _ => p end in
      let '(cs', v, sizes) := prep_loop cs (v ++ pvec p) (sizes ++ [psize p]) in
      ((c, p) :: cs', v, sizes)
    end.
  Definition mixture_prep (s : shared) (m : mix) : shared * mix :=
    match m_pars m with
    | Some _ => (s, m)
    | None =>
      let '(cs, v, sizes) := prep_loop (s_comps s) (s_weights s) [] in
      (Sh cs (s_weights s) sizes, Mix (m_find m) (m_next m) (m_cmf m) (Some v))
    end.

  (** 192-197: the loop of unpack.  [sizes !! i = None]: an entry never written.  A component of size zero is passed over without counting it (193: continue comes before i++). *)
  Fixpoint unpack_loop (v : list R) (sizes : list nat) (i posn : nat) (cs : list (comp * option (list R))) : res (list (comp * option (list R))) :=
    match cs with
    | [] => Ok []
    | (c, p) :: cs =>
      match sizes !! i with
      | None => UB
      | Some O => do cs' <- unpack_loop v sizes i posn cs; Ok ((c, p) :: cs')
      | Some n =>
        if (posn + n <=? length v)%nat && (psize p =? n)%nat
        then do cs' <- unpack_loop v sizes (S i) (posn + n) cs; Ok ((c, Some (take n (drop posn v))) :: cs')
        else UB
      end
    end.
  (** 183-198, unpack *)
  Definition unpack (s : shared) (m : mix) : res shared :=
    match m_pars m with
    | None => Ok s
    | Some v =>
      let posn := length (s_weights s) in
      do w <- (if m_find m && bool_decide (is_Some (m_next m)) then (if (posn <=? length v)%nat then Ok (take posn v) else UB) else Ok (s_weights s));
      do cs <- unpack_loop v (s_sizes s) 0 posn (s_comps s);
      Ok (Sh cs w (s_sizes s))
    end.

  (** 208-221, get_lls: one row for each observation; a component without parameters is evaluated as it is *)
  Definition get_lls (s : shared) (d : list D) : list (list R) := map (fun x => map (fun '(c, p) => c_ll c (pvec p) x) (s_comps s)) d.
  (** gsl_vector_max *)
  Definition vmax (l : list R) : R := match l with [] => 0 | x :: l => fold_left Rmax l x end.
  (** 232-238, sum_exp_vector *)
  Definition sum_exp_vector (l : list R) : R := vector_sum (map (fun x => exp (x - vmax l)) l) * exp (vmax l).
  (** 263-267: for one observation, each component's share *)
  Definition shares (row : list R) : list R := map (fun x => 1 / sum_exp_vector (map (fun y => y + - x) row)) row.
  (** 240-287, mixture_log_likelihood.  The matrix of an empty data set is NULL (250). *)
  Definition mixture_log_likelihood (s : shared) (m : mix) (d : list D) : res (R * shared * mix) :=
    do s <- unpack s m;
    match d with
    | [] => UB
    | _ =>
      if (length (s_comps s) =? length (s_weights s))%nat && negb (length (s_comps s) =? 0)%nat then
        let lls := map (fun row => zip_with Rplus row (s_weights s)) (get_lls s d) in
        let total := fold_left (fun t row => t + vmax row) lls 0 in
        let ps := map shares lls in
        let next := map (fun j => vector_sum (map (fun row => nth j row 0) ps) / INR (length d)) (seq 0 (length (s_comps s))) in
        Ok (total, s, Mix (m_find m) (Some next) (m_cmf m) (m_pars m))
      else UB
    end.

  (** 200-206 and 305-312, mixture_cdf, with apop_cdf of each component.  apop_sum of the weights zero: no number comes out. *)
  Definition mixture_cdf (s : shared) (m : mix) (x : D) : res (option R * shared) :=
    do s <- unpack s m;
    if (length (s_comps s) <=? length (s_weights s))%nat then
      let tw := vector_sum (s_weights s) in
      Ok (fold_left (fun t '((c, p), w) => try t <- t; try q <- cdiv (c_cdf c (pvec p) x * w) tw; Some (t + q)) (combine (s_comps s) (s_weights s)) (Some 0), s)
    else UB.

  (** 289-303, mixture_draw for the uniform draw [u]: the component drawn from next (None: failure, return value 1) *)
  Definition mixture_draw (fuel : nat) (s : shared) (m : mix) (u : R) : res (option nat * mix) :=
    let w := match m_cmf m with Some w => w | None => s_weights s end in
    let m := Mix (m_find m) (m_next m) (Some w) (m_pars m) in
    do k <- pmf_draw fuel w u;
    match k with None => Ok (None, m) | Some k => if (k <? length (s_comps s))%nat then Ok (Some k, m) else UB end.

  (** 319-320: the components' constraints; a component without one is called all the same *)
  Fixpoint con_loop (cs : list (comp * option (list R))) (pen : R) : res (R * list (comp * option (list R))) :=
    match cs with
    | [] => Ok (pen, [])
    | (c, p) :: cs =>
      match c_con c with
      | None => UB
      | Some f => let '(q, p') := f (pvec p) in
        do (pen, cs') <- con_loop cs (pen + q); Ok (pen, (c, match p with Some _ => Some p' | None => None end) :: cs')
      end
    end.
  Definition write (posn : nat) (x v : list R) : list R := take posn v ++ x ++ drop (posn + length x) v.
  (** 322-328: the components' parameters written back, starting at [posn] *)
  Fixpoint pack_loop (sizes : list nat) (i posn : nat) (cs : list (comp * option (list R))) (v : list R) : res (list R) :=
    match cs with
    | [] => Ok v
    | (c, p) :: cs =>
      match sizes !! i with
      | None => UB
      | Some O => pack_loop sizes i posn cs v
      | Some n => if (posn + n <=? length v)%nat && (psize p =? n)%nat then pack_loop sizes (S i) (posn + n) cs (write posn (pvec p) v) else UB
      end
    end.
  (** 314-341, mixture_constraint; [st] is the state apop_linear_constraint keeps (ConsModel). *)
  Definition mixture_constraint (s : shared) (m : mix) (st : option scratch) : res (R * shared * mix * option scratch) :=
    do s <- unpack s m;
    do (pen, cs) <- con_loop (s_comps s) 0;
    let s := Sh cs (s_weights s) (s_sizes s) in
    match m_pars m with
    | None => UB
    | Some v =>
      do v <- (if Req_EM_T pen 0 then Ok v else pack_loop (s_sizes s) 0 0 cs v);
      match m_find m, m_next m with
      | true, Some next =>
        let n := length next in
        if (n <=? length v)%nat then
          do dist <- distance next (take n v);
          Ok (pen + dist, s, Mix true (Some next) (m_cmf m) (Some (write 0 next v)), st)
        else UB
      | _, _ =>
        let n := length cs in
        if (n <=? length v)%nat then
          do (r, st) <- linear_constraint (take n v) None 0 st;
          let '(q, w) := r in
          Ok (pen + q, s, Mix (m_find m) (m_next m) (m_cmf m) (Some (write 0 w v)), st)
        else UB
      end
    end.
End mix.
Arguments comp : clear implicits.
Arguments shared : clear implicits.

(** 102-117: what apop_model_copy and apop_model_free do to the memory blocks of the settings: [b_sizes], the array param_sizes; [b_next], next_weights if there is one; [b_own], the settings
    structure itself.  [live]: the blocks allocated.  108: "--in->cmf_refct" counts the pointer down, not what it points to, so the model list and the cmf are never freed. *)
Record blocks := Bl { b_sizes : nat; b_next : option nat; b_own : nat }.
Definition alloc (live : list nat) : nat := S (fold_right Nat.max 0%nat live).
Definition mfree (live : list nat) (b : nat) : res (list nat) := if bool_decide (b ∈ live) then Ok (filter (fun x => x <> b) live) else UB.
Definition settings_copy (live : list nat) (b : blocks) : list nat * blocks :=
  let own := alloc live in
  let live := own :: live in
  match b_next b with None => (live, Bl (b_sizes b) None own) | Some _ => let n := alloc live in (n :: live, Bl (b_sizes b) (Some n) own) end.
Definition settings_free (live : list nat) (b : blocks) : res (list nat) :=
  do live <- mfree live (b_sizes b);
  do live <- match b_next b with None => Ok live | Some n => mfree live n end;
  mfree live (b_own b).
