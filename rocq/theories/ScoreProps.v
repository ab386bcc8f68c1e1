(** C57 scores are gradients of log likelihoods; C58 closed-form estimates maximise the likelihood. *)
From Coq Require Import Reals Lra.
From Verif Require Import DataModel StatsModel StatsSpec StatsProofs StatsProps ConvModel ConvProofs LikeModel LikeProps.
From Coquelicot Require Import Coquelicot.
Local Open Scope list_scope.
Local Open Scope R_scope.
Local Arguments Rsum : simpl never.

(** ---------- C57 ---------- *)
Lemma derive_sum {A} (f f' : A -> R -> R) (l : list A) t : (forall x, In x l -> is_derive (f x) t (f' x t)) ->
  is_derive (fun t => Rsumf (fun x => f x t) l) t (Rsumf (fun x => f' x t) l).
Proof.
  induction l as [|a l IH]; intros H.
  - apply (is_derive_ext (fun _ => 0)); [reflexivity|]. exact (is_derive_const 0 t).
  - apply (is_derive_ext (fun t => f a t + Rsumf (fun x => f x t) l)); [reflexivity|]. rewrite Rsumf_cons.
    apply (is_derive_plus (f a) (fun t => Rsumf (fun x => f x t) l)); [apply H; left; auto|]. apply IH. intros x Hx. apply H. right. auto.
Qed.
Lemma Rext (f g : R -> R) (t l : R) : (forall t : R, f t = g t :> R) -> is_derive f t l -> is_derive g t l.
Proof. intros H. apply is_derive_ext. exact H. Qed.
Lemma derive_affine (f : R -> R) t l a b r : is_derive f t l -> l * a = r -> is_derive (fun t => f t * a + b) t r.
Proof.
  intros H <-. apply is_derive_Reals. apply is_derive_Reals in H. replace (l * a) with ((l * a + f t * 0) + 0) by ring.
  apply derivable_pt_lim_plus; [|apply derivable_pt_lim_const]. apply (derivable_pt_lim_mult f (fun _ => a)); auto. apply derivable_pt_lim_const.
Qed.
(** C57: each component of the score is the derivative of the log likelihood in that parameter. *)
Theorem C57_normal : forall p mu sd, wf_mat p -> 0 < sd ->
  derivable_pt_lim (fun m => normal_ll m sd p) mu (fst (normal_score mu sd p)) /\
  derivable_pt_lim (fun s => normal_ll mu s p) sd (snd (normal_score mu sd p)).
Proof.
  intros p mu sd Hw Hsd. unfold normal_ll, normal_score. cbn [fst snd]. split; apply is_derive_Reals.
  - apply (Rext (fun m => Rsumf (fun x => (x - m) ^ 2) (cells p) * (- / (2 * sd ^ 2)) + (- (INR (tsize p) * (ln2pi_half + ln sd))))).
    { intros m. rewrite mapsum_R. field. nra. }
    apply (derive_affine (fun m => Rsumf (fun x => (x - m) ^ 2) (cells p)) mu (Rsumf (fun x => -2 * (x - mu)) (cells p))).
    + apply (derive_sum (fun x m => (x - m) ^ 2) (fun x m => -2 * (x - m))). intros x _. auto_derive; auto. ring.
    + rewrite Rsumf_scal, mapsum_R. field. nra.
  - generalize (mapsum (fun x => (x - mu) ^ 2) p) as S. intros S. auto_derive; [|]. { repeat split; try lra; nra. } field. lra.
Qed.
Print Assumptions C57_normal.
Theorem C57_lognormal : forall p mu sd, wf_mat p -> 0 < sd ->
  derivable_pt_lim (fun m => lognormal_ll m sd p) mu (fst (lognormal_score mu sd p)) /\
  derivable_pt_lim (fun s => lognormal_ll mu s p) sd (snd (lognormal_score mu sd p)).
Proof.
  intros p mu sd Hw Hsd. unfold lognormal_ll, lognormal_score. cbn [fst snd]. split; apply is_derive_Reals.
  - apply (Rext (fun m => Rsumf (fun x => (ln x - m) ^ 2) (cells p) * (- / (2 * sd ^ 2)) + (- mapsum ln p - INR (tsize p) * (ln2pi_half + ln sd)))).
    { intros m. rewrite !mapsum_R. field. nra. }
    apply (derive_affine (fun m => Rsumf (fun x => (ln x - m) ^ 2) (cells p)) mu (Rsumf (fun x => -2 * (ln x - mu)) (cells p))).
    + apply (derive_sum (fun x m => (ln x - m) ^ 2) (fun x m => -2 * (ln x - m))). intros x _. auto_derive; auto. ring.
    + rewrite Rsumf_scal, Rsumf_minus, Rsumf_const, mapsum_R, cells_len by auto. field. nra.
  - generalize (mapsum (fun x => (ln x - mu) ^ 2) p) as S. generalize (mapsum ln p) as T. intros T S. auto_derive; [|]. { repeat split; try lra; nra. } field. lra.
Qed.
Print Assumptions C57_lognormal.
Theorem C57_exponential : forall p mu, 0 < mu -> derivable_pt_lim (fun m => exponential_ll m p) mu (exponential_score mu p).
Proof.
  intros p mu Hmu. apply is_derive_Reals. unfold exponential_ll, exponential_score. generalize (both_sum p) as S. intros S.
  auto_derive; [lra|]. field. lra.
Qed.
Print Assumptions C57_exponential.
(** data in the matrix; [lo] is the log likelihood as a function of the parameter *)
Theorem C57_poisson : forall lg p lambda, vect p = None -> wf_mat p -> List.Forall whole (cells p) -> 0 < lambda ->
  exists lo, (forall l, poisson_ll lg l p = Some (lo l)) /\ derivable_pt_lim lo lambda (poisson_score lambda p).
Proof.
  intros lg p lambda Hv Hw HF Hl. eexists. split; [intros l; apply poisson_R; auto|]. apply is_derive_Reals. unfold poisson_score.
  replace (match mat p with Some m => matrix_sum m | None => 0 end) with (Rsum (cells p)).
  2:{ rewrite <- both_sum_R. unfold both_sum. rewrite Hv. destruct (mat p); lra. }
  generalize (Rsum (cells p)) as S. generalize (Rsumf (fun x => if Req_EM_T x 0 then 0 else lg (x + 1)) (cells p)) as T. intros T S.
  auto_derive; [lra|]. field. lra.
Qed.
Print Assumptions C57_poisson.
Section Gamma.
Context (lg psi : R -> R) (Hpsi : forall x, 0 < x -> derivable_pt_lim lg x (psi x)).
Lemma lg_derive x : 0 < x -> is_derive lg x (psi x).
Proof. intros H. apply is_derive_Reals. auto. Qed.
Lemma lg_D x : 0 < x -> Derive (fun y : R => lg y) x = psi x.
Proof. intros H. apply is_derive_unique. apply (lg_derive x H). Qed.
Lemma derive_sum' {A} (f f' : A -> R -> R) (l : list A) t r : (forall x, In x l -> is_derive (f x) t (f' x t)) -> Rsumf (fun x => f' x t) l = r ->
  is_derive (fun t => Rsumf (fun x => f x t) l) t r.
Proof. intros H <-. apply derive_sum. auto. Qed.
Theorem C57_gamma : forall p a b, 0 < a -> 0 < b -> List.Forall (fun x => 0 < x) (cells p) ->
  derivable_pt_lim (fun a => gamma_ll lg a b p) a (fst (gamma_score psi a b p)) /\
  derivable_pt_lim (fun b => gamma_ll lg a b p) b (snd (gamma_score psi a b p)).
Proof.
  intros p a b Ha Hb HF. rewrite List.Forall_forall in HF. unfold gamma_score. cbn [fst snd]. rewrite !mapsum_R. split; apply is_derive_Reals.
  - apply (Rext (fun a => Rsumf (fun x => gamma_one lg a b x) (cells p))). { intros t. symmetry. apply mapsum_R. }
    apply (derive_sum' (fun x a => gamma_one lg a b x) (fun x a => ln x - (psi a + ln b))); [|auto]. intros x Hx. specialize (HF x Hx).
    apply (Rext (fun a => (a - 1) * ln x - x / b - (lg a + a * ln b))). { intros t. unfold gamma_one. destruct (Req_EM_T x 0); lra. }
    pose proof (lg_derive a Ha) as HD. auto_derive; [exists (psi a); auto|]. rewrite !lg_D by lra. lra.
  - apply (Rext (fun b => Rsumf (fun x => gamma_one lg a b x) (cells p))). { intros t. symmetry. apply mapsum_R. }
    apply (derive_sum' (fun x b => gamma_one lg a b x) (fun x b => x / b ^ 2 - a / b)); [|auto]. intros x Hx. specialize (HF x Hx).
    apply (Rext (fun b => (a - 1) * ln x - x / b - (lg a + a * ln b))). { intros t. unfold gamma_one. destruct (Req_EM_T x 0); lra. }
    auto_derive; [repeat split; lra|]. field. lra.
Qed.
Theorem C57_beta : forall p a b, wf_mat p -> 0 < a -> 0 < b -> List.Forall (fun x => 0 < x < 1) (cells p) ->
  derivable_pt_lim (fun a => beta_ll lg a b p) a (fst (beta_score psi a b p)) /\
  derivable_pt_lim (fun b => beta_ll lg a b p) b (snd (beta_score psi a b p)).
Proof.
  intros p a b Hw Ha Hb HF. rewrite List.Forall_forall in HF. unfold beta_score. cbn [fst snd]. rewrite !mapsum_R.
  assert (HR : forall a b, beta_ll lg a b p = Rsumf (fun x => (a - 1) * ln x + (b - 1) * ln (1 - x) - lnbeta lg a b) (cells p)).
  { intros a0 b0. unfold beta_ll. rewrite mapsum_R, <- (cells_len p Hw), Rmult_comm, <- Rsumf_const, <- Rsumf_minus. apply Rsumf_ext. intros x Hx.
    specialize (HF x Hx). unfold beta_one. destruct (Rlt_dec x 0); [lra|]. destruct (Rlt_dec 1 x); lra. }
  split; apply is_derive_Reals; (eapply Rext; [intros t; symmetry; apply HR|]).
  - apply (derive_sum' (fun x a => (a - 1) * ln x + (b - 1) * ln (1 - x) - lnbeta lg a b) (fun x a => ln x + (psi (a + b) - psi a))).
    2:{ rewrite Rsumf_plus, Rsumf_const, cells_len by auto. ring. }
    intros x Hx. unfold lnbeta. pose proof (lg_derive a Ha) as HD. pose proof (lg_derive (a + b) ltac:(lra)) as HD2.
    auto_derive; [repeat split; [exists (psi a)|exists (psi (a + b))]; auto|]. rewrite !lg_D by lra. lra.
  - apply (derive_sum' (fun x b => (a - 1) * ln x + (b - 1) * ln (1 - x) - lnbeta lg a b) (fun x b => ln (1 - x) + (psi (a + b) - psi b))).
    2:{ rewrite Rsumf_plus, Rsumf_const, cells_len by auto. ring. }
    intros x Hx. unfold lnbeta. pose proof (lg_derive b Hb) as HD. pose proof (lg_derive (a + b) ltac:(lra)) as HD2.
    auto_derive; [repeat split; [exists (psi b)|exists (psi (a + b))]; auto|]. rewrite !lg_D by lra. lra.
Qed.
Theorem C57_yule : forall p b, wf_mat p -> 1 < b -> List.Forall (fun x => 0 <= x) (cells p) ->
  derivable_pt_lim (fun b => yule_ll lg b p) b (yule_score psi b p).
Proof.
  intros p b Hw Hb HF. rewrite List.Forall_forall in HF. unfold yule_score. rewrite !mapsum_R. apply is_derive_Reals.
  apply (Rext (fun b => Rsumf (fun x => yule_one lg b x + (ln (b - 1) + lg b)) (cells p))).
  { intros t. unfold yule_ll. rewrite mapsum_R, Rsumf_plus, Rsumf_const, cells_len by auto. ring. }
  apply (derive_sum' (fun x b => yule_one lg b x + (ln (b - 1) + lg b)) (fun x b => - psi (x + b) + (1 / (b - 1) + psi b))).
  2:{ rewrite Rsumf_plus, Rsumf_const, cells_len by auto. ring. }
  intros x Hx. specialize (HF x Hx). unfold yule_one. generalize (if Rle_dec 1 x then lg x else 0) as k. intros k.
  pose proof (lg_derive b ltac:(lra)) as HD. pose proof (lg_derive (x + b) ltac:(lra)) as HD2.
  auto_derive; [repeat split; try lra; [exists (psi (x + b))|exists (psi b)]; auto|]. rewrite !lg_D by lra. field. lra.
Qed.
End Gamma.
Print Assumptions C57_gamma.
Print Assumptions C57_beta.
Print Assumptions C57_yule.
Example C57_nonvacuous : exists p, wf_mat p /\ List.Forall (fun x => 0 < x < 1) (cells p) /\ length (cells p) = 3%nat /\
  exists lg psi : R -> R, forall x, 0 < x -> derivable_pt_lim lg x (psi x).
Proof.
  exists (Pg (Some (1/2 :: nil)) (Some (Gr 1 2 ((1/3 :: 1/4 :: nil) :: nil))) None None name_alloc None). split.
  { intros m [= <-]. split; auto. constructor; auto. }
  split. { unfold cells. cbn. repeat constructor; lra. } split; [reflexivity|]. exists (fun _ => 0), (fun _ => 0). intros. apply derivable_pt_lim_const.
Qed.
(** C57: deviations.  Poisson data in the vector are left out of the score; a zero observation is left out of the Gamma likelihood but not of
    its score. *)
Theorem C57_poisson_vector_refuted : forall lg, exists p lo, List.Forall whole (cells p) /\ wf_mat p /\
  (forall l, poisson_ll lg l p = Some (lo l)) /\ derivable_pt_lim lo 1 0 /\ poisson_score 1 p <> 0.
Proof.
  intros lg. exists (single 1). assert (HF : List.Forall whole (cells (single 1))) by (constructor; [exists 1%nat; auto|constructor]).
  assert (HW : wf_mat (single 1)) by (intros m [=]). eexists. split; auto. split; auto. split; [intros l; apply poisson_R; auto|]. split.
  - apply is_derive_Reals. unfold Rsumf. cbn [cells single vcells mcells vect mat app map]. rewrite !Rsum_cons, !Rsum_nil. rewrite tsize_one.
    generalize (if Req_EM_T 1 0 then 0 else lg (1 + 1)) as k. intros k. auto_derive; [lra|]. field.
  - unfold poisson_score. cbn. lra.
Qed.
Print Assumptions C57_poisson_vector_refuted.
Theorem C57_gamma_zero_refuted : forall lg psi a b, 0 < a -> 0 < b -> derivable_pt_lim (fun b => gamma_ll lg a b (single 0)) b 0 /\ snd (gamma_score psi a b (single 0)) <> 0.
Proof.
  intros lg psi a b Ha Hb. split.
  - apply is_derive_Reals. apply (Rext (fun _ => 0)). { intros t. unfold gamma_ll. rewrite mapsum_one. unfold gamma_one. destruct (Req_EM_T 0 0); [auto|congruence]. }
    exact (is_derive_const 0 b).
  - unfold gamma_score. cbn [snd]. rewrite mapsum_one. assert (0 < a / b) by (apply Rdiv_lt_0_compat; auto). unfold Rdiv in *. lra.
Qed.
Print Assumptions C57_gamma_zero_refuted.
