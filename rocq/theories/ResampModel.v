(** Model of apop_bootstrap.m4.c: the jackknife and the bootstrap covariance.  A data set is the list of its rows, a row (type
    [A]) being the vector entry, matrix row, weight and text row at one height: apop_data_memcpy from a one-row view to a
    one-row view replaces all of these (apop_data.m4.c:203-262, DataModel.v).  Row names are left out: in->names is NULL while
    the rows are copied (65, 148), so the copies do not change them.  The estimation routine of the model is an arbitrary function from
    data to the packed parameters. *)
From Coq Require Import Reals.
From Verif Require Import DataModel StatsModel.
Local Open Scope list_scope.
Local Open Scope nat_scope.

Section Resamp.
Context {A : Type}.

(** -------- apop_jackknife_cov, apop_bootstrap.m4.c:50-91 -------- *)
(** 70-73, the data set estimated at each turn; [k] turns, the next one copying row i *)
Fixpoint jack_turns (k i : nat) (rows subset : list A) : list (list A) :=
  match k with
  | 0 => []
  | S k' => let subset := match rows !! i with Some r => <[i := r]> subset | None => subset end in
            subset :: jack_turns k' (S i) rows subset
  end.
(** 63: Apop_rs(in, 1, n-1); the turn i=-1 copies nothing *)
Definition jack_sets (rows : list A) : list (list A) :=
  let subset := drop 1 rows in
  subset :: jack_turns (length rows - 1) 0 rows subset.
(** 74-77: n*overall - (n-1)*estimate; [None]: gsl_vector_sub on different sizes *)
Definition pseudoval (n : nat) (overall estp : list R) : option (list R) :=
  if length overall =? length estp
  then Some (zip_with Rminus (map (fun x => (x * INR n)%R) overall) (map (fun x => (x * (INR n - 1))%R) estp)) else None.
(** [given]: the parameters the model came with, if any (58).  n = 0 and n = 1 are not modelled (views of no rows). *)
Definition jackknife_cov (est : list A -> list R) (given : option (list R)) (rows : list A) : res (grid (option R)) :=
  let n := length rows in
  if n <=? 1 then UB else
  let overall := match given with Some p => p | None => est rows end in
  match mapM (fun s => pseudoval n overall (est s)) (jack_sets rows) with
  | None => UB
  | Some boots =>
    match data_covariance None (Pg None (Some (Gr n (length overall) boots)) None None name_alloc None) with
    | None => UB
    | Some (out, _) => Ok (Gr (gr out) (gc out) (map (map (oscale (Some (1 / (INR n - 1))%R))) (ga out)))
    end
  end.

(** -------- apop_bootstrap_cov, apop_bootstrap.m4.c:134-188 -------- *)
(** The draws of gsl_rng_uniform_int are an input, [tape]; [Fuel]: the tape ended.  An estimate with a NaN is [None]. *)
Definition resample (rows : list A) (idx : list nat) : list A := omap (fun i => rows !! i) idx.
(** 151-174.  [boots]: array_of_boots ([None]: NULL), a row not yet written being [None].  Returns i, nan_draws and the array. *)
Fixpoint boot_loop (fuel : nat) (est : list A -> option (list R)) (rows : list A) (iterations : nat) (ignore_nans : bool)
    (tape : list nat) (i nan_draws : nat) (boots : option (list (option (list R)))) : res (nat * nat * option (list (option (list R)))) :=
  match fuel with
  | 0 => Fuel
  | S f =>
    if (i <? iterations) && (nan_draws <? iterations) then
      let h := length rows in
      if length tape <? h then Fuel else
      match est (resample rows (take h tape)) with
      | Some estp =>
        let boots := if i =? 0 then Some (replicate iterations None) else boots in
        match boots with
        | None => UB                                                       (* array_of_boots->matrix with a NULL array *)
        | Some b => boot_loop f est rows iterations ignore_nans (drop h tape) (S i) nan_draws (Some (<[i := Some estp]> b))
        end
      | None =>
        if ignore_nans then boot_loop f est rows iterations ignore_nans (drop h tape) i (S nan_draws) boots
        else boot_loop f est rows iterations ignore_nans (drop h tape) (S i) nan_draws boots
      end
    else Ok (i, nan_draws, boots)
  end.
(** 179-187: the error code and the rows summarised ([None]: array_of_boots is NULL, and so is the summary) *)
Definition bootstrap (fuel : nat) (est : list A -> option (list R)) (rows : list A) (iterations : nat) (ignore_nans : bool) (tape : list nat)
  : res (option ascii * option (list (option (list R)))) :=
  do (ij, boots) <- boot_loop fuel est rows iterations ignore_nans tape 0 0 None;
  let '(i, nan_draws) := ij in
  if (i =? 0) && (nan_draws =? iterations) then Ok (Some "N"%char, None)
  else if nan_draws =? iterations then Ok (Some "N"%char, option_map (take i) boots)
  else Ok (None, boots).
End Resamp.
