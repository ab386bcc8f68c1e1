(** C125: the distribution of parameter estimates. *)
From Coq Require Import Reals Lra Lia.
From Verif Require Import DataModel PackModel PackProps MvnModel MvnProps PmodModel.
Local Open Scope list_scope.
Local Open Scope nat_scope.

(** ---------- specification ---------- *)
(** all the numbers of the parameters, in the order of apop_data_pack (C19) *)
Definition numbers (par : list (page R)) : list R := concat (map page_values (used_pages false par)).
(** parameters that are in order: every part has elements, and the first page is not an info page *)
Definition params_ok (par : list (page R)) : Prop := exists p more, par = p :: more /\ Forall full (used_pages false par) /\ is_info p = false.
(** one page, of a vector only *)
Definition vector_only (par : list (page R)) : Prop := exists p v, par = [p] /\ is_info p = false /\ vect p = Some v /\ v <> [] /\ mat p = None /\ wts p = None.
(** two sets of parameters have as many numbers *)
Lemma vector_only_ok par : vector_only par -> params_ok par /\ pm_size par = length (numbers par).
Proof.
  intros (p & v & -> & Hi & Hv & Hn & Hm & Hw). assert (F : full p).
  { split; [congruence|]. split; [congruence|]. split; [congruence|]. left. congruence. }
  assert (Uq : used_pages false [p] = [p]) by (unfold used_pages; cbn; rewrite Hi; reflexivity).
  split; [exists p, []; rewrite Uq; auto|]. unfold numbers. rewrite Uq. cbn [map concat]. unfold pm_size, page_values, vsz, msz1, msz2, from_opt. rewrite Hv, Hm, Hw.
  rewrite !app_nil_r. lia.
Qed.
Lemma packed g par : params_ok par -> data_pack g par None "y" "n" = Ok (Some (numbers par)).
Proof. intros (p & more & -> & F & I). apply (C19_pack_lists_all R g false p more F); [rewrite I; auto|congruence]. Qed.
Lemma packed_into g par o : params_ok par -> data_pack g par (Some o) "y" "n" = Ok (if length o =? length (numbers par) then Some (numbers par) else None).
Proof.
  intros (p & more & -> & F & I). destruct (length o =? length (numbers (p :: more))) eqn:E.
  - apply Nat.eqb_eq in E. apply (C19_pack_lists_all R g false p more F); [rewrite I; auto|]. intros o' H. injection H as <-. exact E.
  - apply Nat.eqb_neq in E. apply (C19_pack_wrong_size R g false p more o F E).
Qed.
(** ---------- C125 ---------- *)
(** with data: the multivariate Normal around the parameters, with the bootstrap's covariances; one of its draws has as many numbers as there are parameters, and so
    has the place apop_draw writes to, dsize, if the parameters are a vector *)
Theorem C125_all : forall g par cov, params_ok par -> exists d, pm_data g par cov None = Ok (PMulti d (numbers par) cov) /\
  (forall chol z, length (mvn_draw chol (numbers par) cov z) = length (numbers par)) /\ (vector_only par -> d = length (numbers par)).
Proof.
  intros g par cov H. exists (pm_size par). unfold pm_data. rewrite packed by auto. cbn [rbind]. split; auto. split; [intros; apply draw_len|]. intros V. apply vector_only_ok. auto.
Qed.
(** one parameter: its mean is the parameter; what is handed over as its standard deviation is the bootstrap's variance *)
Theorem C125_one : forall g par cov i x s, params_ok par -> numbers par !! i = Some x -> at_m cov i i = Some s ->
  pm_data g par cov (Some i) = Ok (PNormal (Some x) (Some s)).
Proof. intros g par cov i x s H Hx Hs. unfold pm_data. rewrite packed by auto. cbn [rbind]. unfold at_v. rewrite Hx, Hs. auto. Qed.
Lemma fill_ok g size ests : Forall (fun e => params_ok e /\ length (numbers e) = size) ests -> pm_fill g size ests = Ok (map numbers ests).
Proof.
  induction 1 as [|e ests [H1 H2] _ IH]; cbn [pm_fill map]; auto. rewrite packed_into by auto. rewrite replicate_length, H2, Nat.eqb_refl. cbn [rbind]. rewrite IH. auto.
Qed.
Lemma fill_bad g size ests : Forall (fun e => params_ok e /\ length (numbers e) <> size) ests -> pm_fill g size ests = Ok (map (fun _ => replicate size g) ests).
Proof.
  induction 1 as [|e ests [H1 H2] _ IH]; cbn [pm_fill map]; auto. rewrite packed_into by auto. rewrite replicate_length. apply not_eq_sym in H2. rewrite (proj2 (Nat.eqb_neq _ _) H2). cbn [rbind]. rewrite IH. auto.
Qed.
(** without data: the PMF over the estimates, or over one of their parameters, for parameters that are a vector *)
Theorem C125_stochastic : forall g par ests i, vector_only par -> Forall (fun e => params_ok e /\ length (numbers e) = length (numbers par)) ests ->
  pm_draws g par ests None = Ok (PRows (map numbers ests)) /\
  (i < length (numbers par) -> exists l, pm_draws g par ests (Some i) = Ok (PNumbers l) /\ Forall2 (fun e x => numbers e !! i = Some x) ests l).
Proof.
  intros g par ests i V F. destruct (vector_only_ok par V) as [_ S]. unfold pm_draws. rewrite S, fill_ok by auto. cbn [rbind]. split; auto. intros Hi.
  rewrite (proj2 (Nat.ltb_lt _ _) Hi). eexists. split; [reflexivity|]. rewrite map_map. clear -F Hi. induction F as [|e ests [H1 H2] _ IH]; cbn; constructor; auto.
  rewrite <- H2 in Hi. apply lookup_lt_is_Some in Hi. destruct Hi as [x Hx]. rewrite Hx. f_equal. symmetry. apply nth_lookup_Some. auto.
Qed.
(** deviation: the standard deviation is the bootstrap's variance, which is the right one only for a variance of zero or one *)
Theorem C125_refuted_sd : forall g par cov i x s, params_ok par -> numbers par !! i = Some x -> at_m cov i i = Some s -> (0 <= s)%R ->
  (pm_data g par cov (Some i) = Ok (PNormal (Some x) (Some (R_sqrt.sqrt s))) <-> (s = 0 \/ s = 1)%R).
Proof.
  intros g par cov i x s H Hx Hs P. rewrite (C125_one g par cov i x s H Hx Hs). split.
  - intros E. injection E as E. pose proof (R_sqrt.sqrt_sqrt s P) as Q. rewrite <- E in Q. assert (s * (s - 1) = 0)%R as Z by lra. apply Rmult_integral in Z. destruct Z; [left|right]; lra.
  - intros [-> | ->]; rewrite ?R_sqrt.sqrt_0, ?R_sqrt.sqrt_1; auto.
Qed.
(** deviation: for parameters with a matrix the size is that of its rows plus that of its columns; it is the number of parameters only for two by two *)
Theorem C125_refuted_size : forall g p m cov, is_info p = false -> full p -> mat p = Some m -> wts p = None ->
  exists d, pm_data g [p] cov None = Ok (PMulti d (numbers [p]) cov) /\ (d = length (numbers [p]) <-> gr m = 2 /\ gc m = 2) /\
    (2 < gr m -> 2 <= gc m -> d < length (numbers [p])).
Proof.
  intros g p m cov I F Hm Hw. assert (Uq : used_pages false [p] = [p]) by (unfold used_pages; cbn; rewrite I; reflexivity).
  assert (OK : params_ok [p]) by (exists p, []; rewrite Uq; auto). destruct (C125_all g [p] cov OK) as (d & E & _). exists d. split; auto.
  assert (Ed : d = vsz p + gr m + gc m). { unfold pm_data in E. rewrite packed in E by auto. cbn [rbind] in E. injection E as <-. unfold pm_size, msz1, msz2. rewrite Hm. auto. }
  assert (L : length (numbers [p]) = vsz p + gr m * gc m). { unfold numbers. rewrite Uq. cbn [map concat]. rewrite app_nil_r, full_len by auto. unfold msz1, msz2, wsz. rewrite Hm, Hw. lia. }
  destruct F as (_ & F & _). destruct (F m Hm) as (_ & P1 & P2). rewrite Ed, L. clear -P1 P2. destruct (gr m) as [|[|[|a]]], (gc m) as [|[|[|b]]]; try lia; (split; [split; intros; lia|intros; lia]).
Qed.
(** ... and without data every row of the PMF is what the allocated memory held *)
Theorem C125_refuted_draws : forall g p m ests, is_info p = false -> full p -> mat p = Some m -> wts p = None -> (gr m, gc m) <> (2, 2) ->
  Forall (fun e => params_ok e /\ length (numbers e) = length (numbers [p])) ests -> exists n, pm_draws g [p] ests None = Ok (PRows (map (fun _ => replicate n g) ests)).
Proof.
  intros g p m ests I F Hm Hw N E. destruct (C125_refuted_size g p m (Gr 0 0 []) I F Hm Hw) as (d & E1 & E2 & _). exists d.
  assert (Uq : used_pages false [p] = [p]) by (unfold used_pages; cbn; rewrite I; reflexivity). assert (OK : params_ok [p]) by (exists p, []; rewrite Uq; auto).
  assert (Ed : d = pm_size [p]). { unfold pm_data in E1. rewrite packed in E1 by auto. cbn [rbind] in E1. injection E1 as <-. auto. }
  unfold pm_draws. rewrite <- Ed. rewrite fill_bad; [reflexivity|]. eapply List.Forall_impl; [|exact E]. intros e [H1 H2]. split; auto. rewrite H2. intros C. apply N.
  destruct (proj1 E2 (eq_sym C)) as [-> ->]. auto.
Qed.
Example C125_nonvacuous : let vp := Pg (Some [3; 5]%R) None None None name_alloc None in let mp := Pg None (Some (Gr 3 3 [[1; 2; 3]; [4; 5; 6]; [7; 8; 9]]%R)) None None name_alloc None in
  vector_only [vp] /\ full mp /\ is_info mp = false /\ numbers [vp] = [3; 5]%R.
Proof.
  split; [|split; [|split]].
  - exists (Pg (Some [3; 5]%R) None None None name_alloc None), [3; 5]%R. repeat split; auto.
  - split; [discriminate|]. split; [|split; [discriminate|right; left; discriminate]]. intros m H. injection H as <-. split; [split; cbn; auto; repeat constructor|cbn; lia].
  - reflexivity.
  - reflexivity.
Qed.
Print Assumptions C125_all. Print Assumptions C125_one. Print Assumptions C125_stochastic. Print Assumptions C125_refuted_sd. Print Assumptions C125_refuted_size. Print Assumptions C125_refuted_draws.
