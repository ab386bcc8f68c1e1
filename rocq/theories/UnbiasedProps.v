(** C51: bias of the sample variance, skew and kurtosis over independent draws from any finite population. *)
From Coq Require Import Reals Lra Psatz.
From Verif Require Import DataModel StatsModel StatsSpec StatsProofs StatsProps.
Local Open Scope list_scope.
Local Open Scope R_scope.
Local Arguments Rsum : simpl never.

(** All samples of size n that can be drawn (with replacement) from the population, in any order; equally likely. *)
Fixpoint samples (n : nat) (pop : list R) : list (list R) :=
  match n with O => [[]] | S k => concat (map (fun x => map (cons x) (samples k pop)) pop) end.

Section E.
Variable pop : list R.
Hypothesis Hpop : pop <> [].
Let N := INR (length pop).
Lemma N0 : N <> 0. Proof. apply len_ne0. auto. Qed.
(** expectation over n draws, as an iterated mean *)
Fixpoint Ex (n : nat) (f : list R -> R) : R :=
  match n with O => f [] | S k => Rsumf (fun x => Ex k (fun t => f (x :: t))) pop / N end.

Lemma samples_length n : length (samples n pop) = (length pop ^ n)%nat.
Proof.
  induction n as [|n IH]; [reflexivity|]. cbn [samples Nat.pow].
  assert (forall l : list R, length (concat (map (fun x => map (cons x) (samples n pop)) l)) = (length l * length (samples n pop))%nat) as H.
  { induction l as [|x l IHl]; [reflexivity|]. cbn [map concat]. rewrite app_length, map_length, IHl. cbn. lia. }
  rewrite H, IH. reflexivity.
Qed.
Lemma samples_sum n : forall f, Rsumf f (samples n pop) = INR (length (samples n pop)) * Ex n f.
Proof.
  induction n as [|n IH]; intros f.
  - cbn. unfold Rsumf. cbn. rewrite Rsum_cons, Rsum_nil. lra.
  - cbn [samples Ex].
    assert (forall l : list R, Rsumf f (concat (map (fun x => map (cons x) (samples n pop)) l)) =
      INR (length (samples n pop)) * Rsumf (fun x => Ex n (fun t => f (x :: t))) l) as H.
    { induction l as [|x l IHl]; [unfold Rsumf; cbn; rewrite Rsum_nil; lra|]. cbn [map concat]. rewrite Rsumf_app, Rsumf_cons, IHl.
      assert (Rsumf f (map (cons x) (samples n pop)) = Rsumf (fun t => f (x :: t)) (samples n pop)) as -> by (unfold Rsumf; rewrite map_map; auto).
      rewrite IH. lra. }
    rewrite H. pose proof (samples_length (S n)) as L. cbn [samples Nat.pow] in L. rewrite L, mult_INR, <- samples_length. fold N. field. apply N0.
Qed.
Lemma samples_ne n : samples n pop <> [].
Proof.
  intros H. pose proof (samples_length n) as L. rewrite H in L. cbn in L. symmetry in L. apply Nat.pow_nonzero in L; auto. destruct pop; cbn; congruence.
Qed.
Lemma avg_samples n f : avg (map f (samples n pop)) = Ex n f.
Proof.
  unfold avg. fold (Rsumf f (samples n pop)). rewrite samples_sum, map_length. field. apply len_ne0, samples_ne.
Qed.

Lemma Ex_ext n : forall f h, (forall t, length t = n -> f t = h t) -> Ex n f = Ex n h.
Proof.
  induction n as [|n IH]; intros f h H; cbn [Ex]; [apply H; auto|]. f_equal. apply Rsumf_ext. intros x _. apply IH. intros; apply H; cbn; lia.
Qed.
Lemma Ex_plus n : forall f h, Ex n (fun t => f t + h t) = Ex n f + Ex n h.
Proof.
  induction n as [|n IH]; intros f h; cbn [Ex]; [auto|].
  rewrite (Rsumf_ext _ (fun x => Ex n (fun t => f (x :: t)) + Ex n (fun t => h (x :: t)))).
  - rewrite Rsumf_plus. field. apply N0.
  - intros x _. apply (IH (fun t => f (x :: t)) (fun t => h (x :: t))).
Qed.
Lemma Ex_scal n : forall k f, Ex n (fun t => k * f t) = k * Ex n f.
Proof.
  induction n as [|n IH]; intros k f; cbn [Ex]; [auto|].
  rewrite (Rsumf_ext _ (fun x => k * Ex n (fun t => f (x :: t)))).
  - rewrite Rsumf_scal. field. apply N0.
  - intros x _. apply (IH k (fun t => f (x :: t))).
Qed.
Lemma Ex_const n : forall k, Ex n (fun _ => k) = k.
Proof. induction n as [|n IH]; intros k; cbn [Ex]; [auto|]. rewrite (Rsumf_ext _ (fun _ => k)) by (intros; apply IH). rewrite Rsumf_const. fold N. field. apply N0. Qed.

(** power sums of a sample *)
Definition P (k : nat) (t : list R) : R := Rsumf (fun x => x ^ k) t.
Lemma P_cons k x t : P k (x :: t) = x ^ k + P k t. Proof. reflexivity. Qed.
(** raw moments of the population *)
Definition mom (k : nat) : R := Rsumf (fun x => x ^ k) pop / N.
Lemma Nmom k : Rsumf (fun x => x ^ k) pop = N * mom k.
Proof. unfold mom. field. apply N0. Qed.

Lemma E_P n k : Ex n (P k) = INR n * mom k.
Proof.
  induction n as [|n IH]; [unfold P, Rsumf; cbn; rewrite Rsum_nil; lra|]. cbn [Ex].
  rewrite (Rsumf_ext _ (fun x => x ^ k + INR n * mom k)).
  - rewrite Rsumf_plus, Rsumf_const, Nmom, S_INR. fold N. field. apply N0.
  - intros x _. rewrite (Ex_ext n _ (fun t => x ^ k + P k t)) by (intros; apply P_cons). rewrite Ex_plus, Ex_const, IH. reflexivity.
Qed.
Lemma E_PP n j k : Ex n (fun t => P j t * P k t) = INR n * mom (j + k) + INR n * (INR n - 1) * (mom j * mom k).
Proof.
  induction n as [|n IH]; [unfold P, Rsumf; cbn; rewrite Rsum_nil; lra|]. cbn [Ex].
  rewrite (Rsumf_ext _ (fun x => (x ^ (j + k) + (INR n * mom k) * x ^ j) + ((INR n * mom j) * x ^ k + (INR n * mom (j + k) + INR n * (INR n - 1) * (mom j * mom k))))).
  - rewrite (Rsumf_plus (fun x => x ^ (j + k) + (INR n * mom k) * x ^ j)), (Rsumf_plus (fun x => x ^ (j + k))), (Rsumf_plus (fun x => (INR n * mom j) * x ^ k)).
    rewrite !Rsumf_scal, Rsumf_const, !Nmom, S_INR. fold N. field. apply N0.
  - intros x _. rewrite (Ex_ext n _ (fun t => (x ^ (j + k) + x ^ j * P k t) + (x ^ k * P j t + P j t * P k t))) by (intros; rewrite !P_cons, pow_add; ring).
    rewrite (Ex_plus n (fun t => x ^ (j + k) + x ^ j * P k t)), (Ex_plus n (fun _ => x ^ (j + k))), (Ex_plus n (fun t => x ^ k * P j t)).
    rewrite Ex_const, !Ex_scal, !E_P, IH. ring.
Qed.
Lemma E_P1cube n : Ex n (fun t => P 1 t ^ 3) =
  INR n * mom 3 + 3 * (INR n * (INR n - 1)) * (mom 1 * mom 2) + INR n * (INR n - 1) * (INR n - 2) * mom 1 ^ 3.
Proof.
  induction n as [|n IH]; [unfold P, Rsumf; cbn; rewrite Rsum_nil; lra|]. cbn [Ex].
  rewrite (Rsumf_ext _ (fun x => (x ^ 3 + (3 * (INR n * mom 1)) * x ^ 2) + ((3 * (INR n * mom 2 + INR n * (INR n - 1) * (mom 1 * mom 1))) * x ^ 1
     + (INR n * mom 3 + 3 * (INR n * (INR n - 1)) * (mom 1 * mom 2) + INR n * (INR n - 1) * (INR n - 2) * mom 1 ^ 3)))).
  - rewrite (Rsumf_plus (fun x => x ^ 3 + (3 * (INR n * mom 1)) * x ^ 2)), (Rsumf_plus (fun x => x ^ 3)),
      (Rsumf_plus (fun x => (3 * (INR n * mom 2 + INR n * (INR n - 1) * (mom 1 * mom 1))) * x ^ 1)).
    rewrite !Rsumf_scal, Rsumf_const, !Nmom, S_INR. fold N. field. apply N0.
  - intros x _. rewrite (Ex_ext n _ (fun t => (x ^ 3 + (3 * x ^ 2) * P 1 t) + ((3 * x) * (P 1 t * P 1 t) + P 1 t ^ 3))) by (intros; rewrite P_cons; ring).
    rewrite (Ex_plus n (fun t => x ^ 3 + (3 * x ^ 2) * P 1 t)), (Ex_plus n (fun _ => x ^ 3)), (Ex_plus n (fun t => (3 * x) * (P 1 t * P 1 t))).
    rewrite Ex_const, !Ex_scal, E_P, E_PP, IH. cbn [Nat.add]. ring.
Qed.

Lemma avg_mom : avg pop = mom 1.
Proof. unfold avg, mom. fold N. rewrite <- Rsumf_id. f_equal. apply Rsumf_ext. intros; ring. Qed.
Lemma central2_mom : central 2 pop = mom 2 - mom 1 ^ 2.
Proof.
  unfold central, avg at 1. rewrite map_length. fold N. rewrite avg_mom. fold (Rsumf (fun x => (x - mom 1) ^ 2) pop).
  rewrite (Rsumf_ext _ (fun x => (x ^ 2 + (- 2 * mom 1) * x ^ 1) + mom 1 ^ 2)) by (intros; ring).
  rewrite (Rsumf_plus (fun x => x ^ 2 + (- 2 * mom 1) * x ^ 1)), (Rsumf_plus (fun x => x ^ 2)), Rsumf_scal, Rsumf_const, !Nmom. fold N. field. apply N0.
Qed.
Lemma central3_mom : central 3 pop = mom 3 - 3 * mom 1 * mom 2 + 2 * mom 1 ^ 3.
Proof.
  unfold central, avg at 1. rewrite map_length. fold N. rewrite avg_mom. fold (Rsumf (fun x => (x - mom 1) ^ 3) pop).
  rewrite (Rsumf_ext _ (fun x => (x ^ 3 + (- 3 * mom 1) * x ^ 2) + ((3 * mom 1 ^ 2) * x ^ 1 + - mom 1 ^ 3))) by (intros; ring).
  rewrite (Rsumf_plus (fun x => x ^ 3 + (- 3 * mom 1) * x ^ 2)), (Rsumf_plus (fun x => x ^ 3)), (Rsumf_plus (fun x => (3 * mom 1 ^ 2) * x ^ 1)),
    !Rsumf_scal, Rsumf_const, !Nmom. fold N. field. apply N0.
Qed.

Lemma svar_P t : t <> [] -> svar t = (P 2 t - P 1 t * P 1 t / INR (length t)) / (INR (length t) - 1).
Proof.
  intros H. unfold svar. rewrite svar_sum by auto. unfold P. rewrite <- (Rsumf_id t).
  rewrite (Rsumf_ext (fun x => x ^ 2) (fun x => x * x)) by (intros; ring). rewrite (Rsumf_ext (fun x => x ^ 1) (fun x => x)) by (intros; ring). reflexivity.
Qed.
Lemma central3_P t : t <> [] -> central 3 t = (P 3 t - 3 * (P 1 t * P 2 t) / INR (length t) + 2 * P 1 t ^ 3 / INR (length t) ^ 2) / INR (length t).
Proof.
  intros H. pose proof (len_ne0 t H) as Hn. set (n := INR (length t)) in *.
  assert (avg t = P 1 t / n) as Ea by (unfold avg, P; fold n; f_equal; rewrite <- Rsumf_id; apply Rsumf_ext; intros; ring).
  unfold central, avg at 1. rewrite map_length. fold n. rewrite Ea. set (m := P 1 t / n). fold (Rsumf (fun x => (x - m) ^ 3) t).
  rewrite (Rsumf_ext _ (fun x => (x ^ 3 + (- 3 * m) * x ^ 2) + ((3 * m ^ 2) * x ^ 1 + - m ^ 3))) by (intros; ring).
  rewrite (Rsumf_plus (fun x => x ^ 3 + (- 3 * m) * x ^ 2)), (Rsumf_plus (fun x => x ^ 3)), (Rsumf_plus (fun x => (3 * m ^ 2) * x ^ 1)), !Rsumf_scal, Rsumf_const.
  fold (P 3 t) (P 2 t) (P 1 t). fold n. unfold m. field. auto.
Qed.

Lemma unbiased_var n : (2 <= n)%nat -> avg (map (fun t => match vector_var t None with Some x => x | None => 0 end) (samples n pop)) = central 2 pop.
Proof.
  intros Hn. assert (2 <= INR n) as Hr by (apply le_INR in Hn; cbn in Hn; lra). rewrite avg_samples.
  rewrite (Ex_ext n _ (fun t => / (INR n - 1) * P 2 t + (- / (INR n * (INR n - 1))) * (P 1 t * P 1 t))).
  - rewrite Ex_plus, !Ex_scal, E_P, E_PP, central2_mom. cbn [Nat.add]. field. lra.
  - intros t Ht. rewrite var_plain by lia. rewrite svar_P by (intros ->; cbn in Ht; lia). rewrite Ht. field. lra.
Qed.
Lemma unbiased_skew n : (3 <= n)%nat -> avg (map (fun t => match vector_skew t with Some x => x | None => 0 end) (samples n pop)) = central 3 pop.
Proof.
  intros Hn. assert (3 <= INR n) as Hr by (apply le_INR in Hn; cbn in Hn; lra). rewrite avg_samples.
  set (c := INR n / ((INR n - 1) * (INR n - 2))).
  rewrite (Ex_ext n _ (fun t => (c * P 3 t + (- 3 * c / INR n) * (P 1 t * P 2 t)) + (2 * c / INR n ^ 2) * P 1 t ^ 3)).
  - rewrite (Ex_plus n (fun t => c * P 3 t + (- 3 * c / INR n) * (P 1 t * P 2 t))), (Ex_plus n (fun t => c * P 3 t)), !Ex_scal, E_P, E_PP, E_P1cube, central3_mom. cbn [Nat.add].
    unfold c. field. lra.
  - intros t Ht. assert (t <> []) as Hne by (intros ->; cbn in Ht; lia). unfold vector_skew. rewrite C34_skew_pop by auto. rewrite Ht.
    rewrite cdiv_ok by nra. rewrite central3_P by auto. rewrite Ht. unfold c. field. lra.
Qed.
End E.

(** C51: over all samples of any size n >= 2 from any finite population the sample variance averages to the population variance. *)
Theorem C51_var_unbiased : forall pop n, pop <> [] -> (2 <= n)%nat ->
  avg (map (fun t => match vector_var t None with Some x => x | None => 0 end) (samples n pop)) = central 2 pop.
Proof. intros. apply unbiased_var; auto. Qed.
Print Assumptions C51_var_unbiased.
(** C51: for n >= 3 the sample skew averages to the third central moment. *)
Theorem C51_skew_unbiased : forall pop n, pop <> [] -> (3 <= n)%nat ->
  avg (map (fun t => match vector_skew t with Some x => x | None => 0 end) (samples n pop)) = central 3 pop.
Proof. intros. apply unbiased_skew; auto. Qed.
Print Assumptions C51_skew_unbiased.
(** C51: the averages above are over values that exist: no sample gives NaN. *)
Theorem C51_defined : forall t, ((2 <= length t)%nat -> vector_var t None <> None) /\ ((3 <= length t)%nat -> vector_skew t <> None).
Proof.
  intros t. split; intros H.
  - rewrite var_plain by auto. discriminate.
  - unfold vector_skew. assert (3 <= INR (length t)) by (apply le_INR in H; cbn in H; lra).
    rewrite C34_skew_pop by (intros ->; cbn in H; lia). rewrite cdiv_ok by nra. discriminate.
Qed.
Print Assumptions C51_defined.

Lemma kurt_formula t : (2 <= length t)%nat -> let n := INR (length t) in
  vector_kurtosis t = Some (n * n / ((n - 1) ^ 3 * (n ^ 2 - 3 * n + 3)) * ((n * (n - 1) ^ 2 + (6 * n - 9)) * central 4 t - n * (6 * n - 9) * (svar t * (n - 1) / n) ^ 2)).
Proof.
  intros H n. assert (2 <= n) as Hn by (unfold n; apply le_INR in H; cbn in H; lra). unfold vector_kurtosis. fold n.
  assert ((n - 1) ^ 3 * (n ^ 2 - 3 * n + 3) <> 0).
  { apply Rmult_integral_contrapositive. split; [apply pow_nonzero; lra|nra]. }
  rewrite cdiv_ok by auto. rewrite C34_kurtosis_pop by (intros ->; cbn in H; lia). rewrite var_plain by auto. rewrite cdiv_ok by lra. reflexivity.
Qed.
(** C51: the sample kurtosis is documented as corrected to be unbiased but is not: over the 16 samples of size 4 from {0,1} it
    averages to 47/672, the fourth central moment is 1/16. *)
Theorem C51_kurtosis_refuted :
  avg (map (fun t => match vector_kurtosis t with Some x => x | None => 0 end) (samples 4 [0; 1])) = 47/672 /\ central 4 [0; 1] = 1/16.
Proof.
  split.
  - unfold avg. cbn [samples map concat app length].
    rewrite !kurt_formula by (cbn; lia). unfold central, svar, avg, Rsum. cbn [map fold_right length INR]. field.
  - unfold central, avg, Rsum. cbn. field.
Qed.
Print Assumptions C51_kurtosis_refuted.
