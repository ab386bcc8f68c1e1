(** C114: what one evaluation of the objective of an imputation returns, wherever the missing numbers are. *)
From Coq Require Import Reals Lra.
From Verif Require Import DataModel AccessProps TransModel FixProps ImputeModel ImputeProps.
Local Open Scope list_scope.
Local Open Scope nat_scope.
Section objective.
Context {V P : Type}.
Notation num := (option V).
Lemma pack_from_length ct : forall (tab : list (entry V)) (inp : list (page num)) i w, fp_pack_from ct inp tab i = Ok w -> length w = length tab.
Proof.
  intros tab; revert ct. induction tab as [|e tab IH]; intros ct inp i w; cbn [fp_pack_from].
  - intros [= <-]. auto.
  - destruct inp as [|p rest]; [discriminate|]. destruct (match get_at p _ _ with Got x => Ok x | GotNaN => Ok None | GotRange => UB end) as [x| |]; cbn [rbind]; try discriminate.
    match goal with |- context [fp_pack_from ct ?a tab ?b] => destruct (fp_pack_from ct a tab b) as [l| |] eqn:E end; cbn [rbind]; try discriminate. intros [= <-]. cbn. f_equal. eauto.
Qed.
(** C114: one evaluation of the objective at [v], wherever the missing numbers are: the value is the penalty, at the data filled in with [v], less the log likelihood, at the
    model's own parameters, of the data filled in with the point as the penalty left it (which is where it was, if there was no penalty); the data are left filled in
    with that point. *)
Theorem C114_objective : forall (m : imodel V P) (d : list (page num)) tab n pars v x w s,
  good_pages d -> fix_params d = Some (tab, n) -> calm m -> length v = length (free_places d) ->
  do_probe m (Objective v) (IS d tab pars) = Ok (x, w, s) ->
  length w = length v /\ is_pars s = pars /\ filled d w (is_data s) /\
  exists c, filled d v c /\ x = (penalty m c pars - im_ll m (is_data s) pars)%R /\ (penalty m c pars = 0%R -> w = v).
Proof.
  intros m d tab n pars v x w s Hg Hf Hcalm Hl. pose proof (inv_start d tab n pars Hg Hf) as Hi.
  destruct (unpack_filled d _ v Hg Hi Hl) as (c & t & E & Ht & HF). cbn [do_probe]. unfold shell, fixed_constraint. rewrite E. cbn [rbind is_pars].
  assert (S1 : swap_constraint m (IS c t pars) = (penalty m c pars, IS c t pars)).
  { unfold swap_constraint, penalty. cbn [is_data is_tab is_pars]. destruct (im_cons m) as [f|] eqn:Ef; auto. specialize (Hcalm f c pars Ef). destruct (f c pars) as [o q]; cbn [fst snd] in *.
    destruct (Req_EM_T o 0); [rewrite Hcalm by auto|]; auto. }
  rewrite S1. assert (Lt : length t = length v) by (rewrite Hl, <- (table_key d t Ht), map_length; auto).
  assert (G : forall w', length w' = length v -> (do (f, s2) <- fixed_ll m w' (IS c t pars); Ok ((penalty m c pars - f)%R, w', s2)) = Ok (x, w, s) -> (penalty m c pars = 0%R -> w' = v) ->
    length w = length v /\ is_pars s = pars /\ filled d w (is_data s) /\
    exists c, filled d v c /\ x = (penalty m c pars - im_ll m (is_data s) pars)%R /\ (penalty m c pars = 0%R -> w = v)).
  { intros w' Lw. unfold fixed_ll. destruct (unpack_filled d (IS c t pars) w' Hg (filled_inv _ _ _ _ _ Ht HF)) as (c' & t' & E' & Ht' & HF'); [congruence|]. rewrite E'. cbn [rbind is_pars].
    intros [= <- <- <-] Hz. split; auto. split; auto. split; auto. exists c. auto. }
  destruct (Req_EM_T (penalty m c pars) 0) as [Hz|Hz]; cbn [rbind].
  - intros H. apply (G v); auto.
  - cbn [is_data is_tab]. destruct (fp_pack c t) as [w'| |] eqn:Ep; cbn [rbind]; try discriminate. intros H. apply (G w'); auto; [|tauto].
    rewrite (pack_from_length _ _ _ _ _ Ep). auto.
Qed.
End objective.
Print Assumptions C114_objective.
