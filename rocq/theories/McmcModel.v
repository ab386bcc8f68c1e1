(** Model of apop_mcmc.m4.c: the block layout, a Metropolis-Hastings step, the main loop, and drawing on from the chain.
    Doubles are reals, [None] a value that is NaN or infinite.  The parameter set is its packed vector (apop_data_pack and
    apop_data_unpack are PackModel.v).  What the proposal distributions draw and what gsl_rng_uniform returns is an input, the
    [tape]; so the adaptation of the proposals (step_to_vector, sigma_adapt), which only changes what is drawn, is left out.
    [ll] is apop_log_likelihood and [fails] the model's constraint (nonzero answer), as functions of the parameters; neither
    changes them. *)
From Coq Require Import Reals.
From Verif Require Import DataModel StatsModel ConvModel.
Local Open Scope list_scope.
Local Open Scope nat_scope.

(** -------- apop_mcmc.m4.c:80-108 set_block_count_and_block_starts: block_starts (block_count+1 entries) -------- *)
Definition opt_len {A} (o : option (list A)) : list nat := match o with Some v => [length v] | None => [] end.
Definition part_sizes {E} (p : page E) : list nat :=
  opt_len (vect p) ++ match mat p with Some m => [gr m * gc m] | None => [] end ++ opt_len (wts p).
Fixpoint starts_from (ctr : nat) (sizes : list nat) : list nat :=
  match sizes with [] => [] | s :: sizes' => (ctr + s) :: starts_from (ctr + s) sizes' end.
Definition block_starts {E} (gibbs_chunks : ascii) (d : adata E) (total_len : nat) : list nat :=
  if (gibbs_chunks =? "a")%char then [0; total_len]
  else if (gibbs_chunks =? "b")%char then 0 :: starts_from 0 (concat (map part_sizes (pages d)))
  else 0 :: seq 1 total_len.

Section Mcmc.
Context (ll : list R -> option R) (fails : list R -> bool).
Context (has_vector : bool).   (* m->parameters->vector is non-NULL *)

(** draw: the running vector; pars: m->parameters; last: s->last_ll ([None]: minus infinity) *)
Record chain := Ch { draw : list R; pars : list R; last : option R; accs : nat; rejs : nat; bacc : list nat; brej : list nat; cfails : nat }.

(** apop_draw(draw->data + start, rng, proposal): writes as many entries as the proposal draws, the size of the block (305, 67-75); past
    the end: UB.  An entry of the tape is a sequence of numbers, of which the first [size] are used. *)
Definition overwrite (v : list R) (start size : nat) (x : nat -> R) : res (list R) :=
  if start + size <=? length v then Ok (take start v ++ map x (seq 0 size) ++ drop (start + size) v) else UB.
(** log(u) < ratio, u in [0,1), log(0) = -inf *)
Definition log_below (u ratio : R) : bool :=
  if Req_EM_T u 0 then true else if Rlt_dec (ln u) ratio then true else false.
(** 127-128 *)
Definition accepts (newll : R) (last : option R) (u : R) : bool :=
  match last with
  | None => true
  | Some l => if Rle_dec 0 (newll - l) then true else log_below u (newll - l)
  end.
(** apop_mcmc.m4.c:110-143 one_step but for the last line: returns the chain and the rest of the tape.  Each turn of the
    newdraw loop takes one entry of the tape.  122-125 print the first entry of the parameter's vector. *)
Fixpoint one_step (block start size : nat) (clean : list R) (tape : list ((nat -> R) * R)) (c : chain) : res (chain * list ((nat -> R) * R)) :=
  match tape with
  | [] => Fuel
  | (x, u) :: tape' =>
    do d <- overwrite (draw c) start size x;
    if fails d then one_step block start size clean tape' (Ch d d (last c) (accs c) (rejs c) (bacc c) (brej c) (S (cfails c)))
    else match ll d with
    | None => if has_vector then one_step block start size clean tape' (Ch d d (last c) (accs c) (rejs c) (bacc c) (brej c) (cfails c)) else UB
    | Some newll =>
      if accepts newll (last c) u
      then Ok (Ch d d (Some newll) (S (accs c)) (rejs c) (alter S block (bacc c)) (brej c) (cfails c), tape')
      else Ok (Ch clean clean (last c) (accs c) (S (rejs c)) (bacc c) (alter S block (brej c)) (cfails c), tape')
    end
  end.
(** 142: if (out_row>=0) gsl_vector_memcpy(Apop_rv(out, out_row), draw); Apop_rv of a row not there is NULL *)
Definition record_row (out : list (option (list R))) (out_row : Z) (v : list R) : res (list (option (list R))) :=
  if (out_row <? 0)%Z then Ok out
  else if (out_row <? Z.of_nat (length out))%Z then Ok (<[Z.to_nat out_row := Some v]> out) else UB.
(** apop_mcmc.m4.c:199-211 main_mcmc_loop; [k]: periods left *)
Fixpoint main_loop (k : nat) (starts : list nat) (block : nat) (out_row : Z) (tape : list ((nat -> R) * R)) (c : chain) (out : list (option (list R)))
  : res (chain * list (option (list R))) :=
  match k with
  | 0 => Ok (c, out)
  | S k' =>
    match starts !! block, starts !! S block with
    | Some start, Some fin =>
      do (c, tape) <- one_step block start (fin - start) (draw c) tape c;
      do out <- record_row out out_row (draw c);
      let count := length starts - 1 in
      if count =? 0 then UB else                                               (* modulo by zero *)
      main_loop k' starts (S block mod count) (out_row + 1)%Z tape c out
    | _, _ => UB
    end
  end.

(** what apop_model_metropolis leaves: the chain, the rows of the pmf's data, that data set's error and the model's error *)
Record mcmc_out := MO { m_chain : chain; m_rows : list (option (list R)); m_data_err : option ascii; m_model_err : option ascii }.
(** apop_mcmc.m4.c:278-336 apop_model_metropolis, with given or default proposals; [starts]: the block layout; [params]: the
    packed parameters; [start1]: start_at == '1'. *)
Definition metropolis (periods : nat) (burnin : R) (starts : list nat) (params : list R) (start1 : bool) (tape : list ((nat -> R) * R)) : res mcmc_out :=
  let burnin := if Rlt_dec 1 burnin then (burnin / INR periods)%R else burnin in
  let data_size1 := trunc (INR periods * (1 - burnin)) in
  if (data_size1 <? 0)%Z then UB else
  let drawv := if start1 then replicate (length params) 1%R else params in
  let n := length starts - 1 in
  let c0 := Ch drawv params None 0 0 (replicate n 0) (replicate n 0) 0 in
  do (c, out) <- main_loop periods starts 0 (- trunc (INR periods * burnin))%Z tape c0 (replicate (Z.to_nat data_size1) None);
  Ok (MO c out (if cfails c =? 0 then None else Some "c"%char) None).

(** apop_mcmc.m4.c:165-196 apop_model_metropolis_draw after a run: the rows are extended by one per block; the value returned is
    the draw.  The weights of the pmf are not extended (not shown here). *)
Fixpoint draw_blocks (k : nat) (starts : list nat) (block : nat) (tape : list ((nat -> R) * R)) (c : chain) (rows : list (option (list R)))
  : res (chain * list (option (list R))) :=
  match k with
  | 0 => Ok (c, rows)
  | S k' =>
    match starts !! block, starts !! S block with
    | Some start, Some fin =>
      do (c, tape) <- one_step block start (fin - start) (draw c) tape c;
      do rows <- record_row (rows ++ [None]) (Z.of_nat (length rows)) (draw c);
      draw_blocks k' starts (S block) tape c rows
    | _, _ => UB
    end
  end.
Definition metropolis_draw (starts : list nat) (tape : list ((nat -> R) * R)) (c : chain) (rows : list (option (list R)))
  : res (chain * list (option (list R)) * Z) :=
  let c := Ch (pars c) (pars c) (last c) (accs c) (rejs c) (bacc c) (brej c) 0 in
  do (c, rows) <- draw_blocks (length starts - 1) starts 0 tape c rows;
  Ok (c, rows, if cfails c =? 0 then 0%Z else 1%Z).
End Mcmc.
