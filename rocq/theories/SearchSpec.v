(** What the properties C88 and C89 say of a search, without the code's shell: where the objective is evaluated, what it is worth there,
    how a run of a minimiser ends. *)
From Coq Require Import Reals.
From Verif Require Import Base SearchModel.
Local Open Scope list_scope.
Local Open Scope nat_scope.

(** vector length (if any) and number of other cells *)
Definition shape (p : params) : option nat * nat := (option_map (@length R) (p_vec p), length (p_rest p)).
Definition dim (p : params) : nat := length (vpart p) + length (p_rest p).
(** the constraint and the gradient write numbers; they do not reshape the parameters *)
Definition con_ok (m : mdl) : Prop := forall c p, m_con m = Some c -> shape (snd (c p)) = shape p.
Definition keeps (g : params -> params) : Prop := forall p, shape (g p) = shape p.

Section spec.
  Context (m : mdl) (use_con : bool) (p0 : params).
  (** the function searched over: the log likelihood, or else the probability *)
  Definition fn : option (params -> xr) := match m_ll m with Some f => Some f | None => m_p m end.
  (** a point after the constraint has had its say: the penalty and the parameters *)
  Definition nudged (p : params) : xr * params := match m_con m with Some c => if use_con then c p else (Fin 0, p) | None => (Fin 0, p) end.
  Definition place (b : list R) : params := snd (nudged (unpack b p0)).
  Definition penalty (b : list R) : xr := fst (nudged (unpack b p0)).
  (** function minus penalty *)
  Definition objective (b : list R) : xr := match fn with Some f => xneg (xsub (penalty b) (f (place b))) | None => NaN end.
  (** ... on the log scale *)
  Definition llval (b : list R) : xr := match m_ll m with Some _ => objective b | None => xlog (objective b) end.
  Definition again (b : list R) : list R := if truthy (penalty b) then pack (place b) else b.
  (** where a request makes the objective be evaluated: with a path, the gradient evaluates it, too *)
  Definition points (path : bool) (r : request) : list (list R) :=
    match r with Ask_f b => [b] | Ask_df b => if path then [b] else [] | Ask_fdf b => b :: (if path then [again b] else []) end.
  Definition the_point (r : request) : list R := match r with Ask_f b | Ask_df b | Ask_fdf b => b end.
  Definition asks_ok (l : list request) : Prop := Forall (fun r => length (the_point r) = dim p0) l.
End spec.

(** an iteration after which the loop goes on *)
Definition goes_on (me : method) (e : event) : Prop :=
  (ev_status e = 0%Z \/ (me = Conjugate /\ ev_status e = (-2)%Z)) /\ ev_test e = (-2)%Z /\ (me <> Newton -> ev_ctrl_c e = false).
(** why a loop ended *)
Inductive reason := Bad_eval | Stuck (status : Z) | Tested (test : Z) | Limit | Interrupted.
Definition ended (me : method) (max_it : Z) (k : nat) (e : event) (r : reason) : Prop :=
  match r with
  | Bad_eval => True
  | Stuck st => ev_status e = st /\ st <> 0%Z /\ ~ (me = Conjugate /\ st = (-2)%Z)
  | Tested t => ev_test e = t /\ t <> (-2)%Z
  | Limit => (max_it <= Z.of_nat k + 1)%Z /\ ev_test e = (-2)%Z
  | Interrupted => me <> Newton /\ ev_ctrl_c e = true /\ ev_test e = (-2)%Z
  end.
Global Instance reason_eq : EqDecision reason. Proof. solve_decision. Defined.
