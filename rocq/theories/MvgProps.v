(** C129: the multivariate Gamma function and its logarithm. *)
From Coq Require Import Reals ZArith List Lra Lia.
From Verif Require Import Base MvgModel.
Local Open Scope R_scope.

(** ---------- specification ---------- *)
(** Gamma_n(a) for n dimensions, by dimension *)
Fixpoint Gamma_n (G : R -> R) (n : nat) (a : R) : R :=
  match n with O => 1 | S k => Rpower PI (INR k / 2) * G a * Gamma_n G k (a - 1 / 2) end.
(** where the Gamma function is not defined *)
Definition pole (x : R) : Prop := exists k, x = - INR k.
(** the j-th of the arguments *)
Definition argument (a : R) (j : nat) : R := a + (1 - INR j) / 2.
Definition in_int (x : R) : Prop := - 2 ^ 31 < x < 2 ^ 31.

(** ---------- proofs ---------- *)
Lemma Int_part_bounds r : IZR (Int_part r) <= r < IZR (Int_part r) + 1.
Proof. pose proof (base_Int_part r). lra. Qed.
Lemma Int_part_IZR j : Int_part (IZR j) = j.
Proof. pose proof (Int_part_bounds (IZR j)) as [A B]. rewrite <- (plus_IZR _ 1) in B. apply le_IZR in A. apply lt_IZR in B. lia. Qed.
Lemma trunc_IZR k : trunc (IZR k) = k.
Proof.
  unfold trunc. destruct (Rle_dec 0 (IZR k)); [apply Int_part_IZR|]. rewrite <- opp_IZR, Int_part_IZR. lia.
Qed.
Lemma trunc_near r : IZR (trunc r) - 1 < r < IZR (trunc r) + 1.
Proof. unfold trunc. destruct (Rle_dec 0 r); [pose proof (Int_part_bounds r); lra|]. pose proof (Int_part_bounds (- r)). rewrite opp_IZR. lra. Qed.
Lemma trunc_toward r : (0 <= r -> IZR (trunc r) <= r) /\ (r <= 0 -> r <= IZR (trunc r)).
Proof.
  unfold trunc. destruct (Rle_dec 0 r) as [H|H]; split; intros K; try lra; [apply Int_part_bounds|assert (r = 0) by lra; subst; rewrite (Int_part_IZR 0); lra|].
  pose proof (Int_part_bounds (- r)). rewrite opp_IZR. lra.
Qed.
Lemma pow31 : IZR (2 ^ 31) = 2 ^ 31. Proof. rewrite (pow_IZR 2 31). reflexivity. Qed.
Lemma to_int_ok r : in_int r -> to_int r = Ok (trunc r).
Proof.
  intros [A B]. unfold to_int. pose proof (trunc_near r) as T. pose proof (trunc_toward r) as [T1 T2].
  assert (A' : (- 2 ^ 31 <= trunc r)%Z). { apply Z.lt_pred_le. apply lt_IZR. unfold Z.pred. rewrite plus_IZR, opp_IZR, pow31. lra. }
  assert (B' : (trunc r < 2 ^ 31)%Z). { apply lt_IZR. rewrite pow31. destruct (Rle_dec 0 r); [lra|]. apply Rle_lt_trans with 0; [|apply pow_lt; lra].
    apply IZR_le. unfold trunc. destruct (Rle_dec 0 r); [lra|]. assert (0 <= Int_part (- r))%Z; [|lia]. apply Z.lt_succ_r. apply lt_IZR. unfold Z.succ. rewrite plus_IZR. pose proof (Int_part_bounds (- r)). lra. }
  apply Z.leb_le in A'. apply Z.ltb_lt in B'. now rewrite A', B'.
Qed.
Lemma undefined_ok a p : in_int (checked a p) -> exists b, undefined_here a p = Ok b /\ (b = true <-> pole (checked a p)).
Proof.
  intros [A B]. unfold undefined_here. rewrite to_int_ok by (split; lra). set (x := checked a p) in *. destruct (Req_EM_T (- x) _) as [E|N].
  - destruct (Rle_dec x 0); eexists; (split; [reflexivity|]); split; intros H; auto; try discriminate.
    + exists (Z.to_nat (trunc (- x))). rewrite INR_IZR_INZ, Z2Nat.id; [lra|]. apply le_IZR. lra.
    + destruct H as [k K]. pose proof (pos_INR k). lra.
  - eexists. split; [reflexivity|]. split; [discriminate|]. intros [k K]. exfalso. apply N. rewrite K, Ropp_involutive, INR_IZR_INZ, trunc_IZR. reflexivity.
Qed.
Lemma quot_odd n : (1 <= n)%nat -> exists j, Nat.Odd j /\ (1 <= j <= n)%nat /\ (n <= j + 1)%nat /\ forall a, checked a (Z.of_nat n) = argument a j.
Proof.
  intros Hn. unfold checked, argument. destruct (Nat.Even_or_Odd n) as [[k ->]|[k ->]].
  - exists (2 * k - 1)%nat. split; [exists (k - 1)%nat; lia|]. split; [lia|]. split; [lia|]. intros a. f_equal.
    replace (Z.quot _ 2) with (- Z.of_nat (k - 1))%Z. 2:{ replace (1 - Z.of_nat (2 * k))%Z with (- (Z.of_nat (k - 1) * 2 + 1))%Z by lia. rewrite Z.quot_opp_l by lia. f_equal. rewrite Z.quot_div_nonneg by lia. rewrite Z.div_add_l by lia. cbn. lia. }
    rewrite opp_IZR, <- INR_IZR_INZ. rewrite !minus_INR, mult_INR by lia. cbn. lra.
  - exists (2 * k + 1)%nat. split; [exists k; lia|]. split; [lia|]. split; [lia|]. intros a. f_equal.
    replace (Z.quot _ 2) with (- Z.of_nat k)%Z. 2:{ replace (1 - Z.of_nat (2 * k + 1))%Z with (- (Z.of_nat k) * 2)%Z by lia. now rewrite Z.quot_mul by lia. }
    rewrite opp_IZR, <- INR_IZR_INZ. rewrite plus_INR, mult_INR. cbn. lra.
Qed.
Lemma pole_odd a i j : Nat.Odd i -> Nat.Odd j -> (i <= j)%nat -> pole (argument a i) -> pole (argument a j).
Proof.
  intros [u ->] [v ->] H [k K]. exists (k + (v - u))%nat. rewrite plus_INR, minus_INR by lia. unfold argument in *. rewrite !plus_INR, !mult_INR in *. cbn in *. lra.
Qed.
Lemma checked0 a : checked a (Z.of_nat 0) = a.
Proof. unfold checked. change (Z.quot (1 - Z.of_nat 0) 2) with 0%Z. lra. Qed.
(** C129: NaN is returned exactly when the Gamma function is not defined at an argument with an odd number (the library's failing at the others) *)
Theorem C129_nan : forall G lG a n, (1 <= n)%nat -> in_int (checked a (Z.of_nat n)) ->
  ((exists j, Nat.Odd j /\ (1 <= j <= n)%nat /\ pole (argument a j)) <-> multivariate_gamma G a (Z.of_nat n) = Ok None) /\
  (multivariate_gamma G a (Z.of_nat n) = Ok None <-> multivariate_lngamma lG a (Z.of_nat n) = Ok None).
Proof.
  intros G lG a n Hn R. destruct (undefined_ok a _ R) as (b & E & B). unfold multivariate_gamma, multivariate_lngamma. rewrite E. destruct (quot_odd n Hn) as (j & Oj & Lj & Nj & Cj). rewrite Cj in B. split.
  - split.
    + intros (i & Oi & Li & P). assert (i <= j)%nat. { destruct Oi as [u ->], Oj as [v ->]. lia. } assert (b = true) as -> by (apply B; eapply pole_odd; eauto). auto.
    + destruct b; [|discriminate]. intros _. exists j. split; auto. split; auto. now apply B.
  - destruct b; split; auto; discriminate.
Qed.
Lemma fold_mul (f : nat -> R) l x : fold_left (fun s i => s * f i) l x = x * fold_left (fun s i => s * f i) l 1.
Proof. revert x. induction l as [|i l IH]; intros x; cbn; [lra|]. rewrite IH, (IH (1 * f i)). lra. Qed.
Lemma fold_mul_ext (f g : nat -> R) l x : (forall i, In i l -> f i = g i) -> fold_left (fun s i => s * f i) l x = fold_left (fun s i => s * g i) l x.
Proof. revert x. induction l as [|i l IH]; intros x H; cbn; auto. rewrite (H i) by (left; auto). apply IH. intros; apply H; right; auto. Qed.
Lemma fold_mul_S (f : nat -> R) s k x : fold_left (fun s i => s * f i) (seq (S s) k) x = fold_left (fun s i => s * f (S i)) (seq s k) x.
Proof. revert s x. induction k as [|k IH]; intros s x; cbn; auto. Qed.
Lemma Gamma_n_factors G n a : Rpower PI (INR n * (INR n - 1) / 4) * fold_left (fun f i => f * G (arg a i)) (seq 1 n) 1 = Gamma_n G n a.
Proof.
  revert a. induction n as [|n IH]; intros a.
  - cbn. replace (0 * (0 - 1) / 4) with 0 by lra. rewrite Rpower_O by apply PI_RGT_0. lra.
  - cbn [Gamma_n seq fold_left]. rewrite <- (IH (a - 1 / 2)). rewrite (fold_mul (fun i => G (arg a i))), (fold_mul_S (fun i => G (arg a i))).
    rewrite (fold_mul_ext (fun i => G (arg a (S i))) (fun i => G (arg (a - 1 / 2) i))). 2:{ intros i _. f_equal. unfold arg. rewrite S_INR. lra. }
    replace (arg a 1) with a by (unfold arg; cbn; lra). set (q := fold_left _ _ 1). replace (Rpower PI (INR (S n) * (INR (S n) - 1) / 4)) with (Rpower PI (INR n / 2) * Rpower PI (INR n * (INR n - 1) / 4)); [ring|].
    rewrite <- Rpower_plus. f_equal. rewrite S_INR. field.
Qed.
Lemma fold_exp (f g : nat -> R) l x y : exp x = Rabs y -> (forall i, In i l -> exp (f i) = Rabs (g i)) -> exp (fold_left (fun s i => s + f i) l x) = Rabs (fold_left (fun s i => s * g i) l y).
Proof. revert x y. induction l as [|i l IH]; intros x y H K; cbn; auto. apply IH; [|intros; apply K; right; auto]. rewrite exp_plus, H, (K i) by (left; auto). symmetry. apply Rabs_mult. Qed.
(** C129: if the Gamma function is defined at all the arguments, the first function is the multivariate Gamma function, and the second the logarithm of its size *)
Theorem C129_value : forall G lG, (forall x, ~ pole x -> G x <> 0 /\ lG x = ln (Rabs (G x))) -> forall a n, in_int (checked a (Z.of_nat n)) -> ~ pole a ->
  (forall j, (1 <= j <= n)%nat -> ~ pole (argument a j)) -> multivariate_gamma G a (Z.of_nat n) = Ok (Some (Gamma_n G n a)) /\
  multivariate_lngamma lG a (Z.of_nat n) = Ok (Some (ln (Rabs (Gamma_n G n a)))).
Proof.
  intros G lG L a n R Pa P. destruct (undefined_ok a _ R) as (b & E & B). assert (b = false) as ->.
  { destruct b; auto. exfalso. destruct n as [|n]. { apply Pa. rewrite checked0 in B. now apply B. }
    destruct (quot_odd (S n)) as (j & Oj & Lj & Nj & Cj); [lia|]. rewrite Cj in B. apply (P j); [lia|]. now apply B. }
  unfold multivariate_gamma, multivariate_lngamma, factors. rewrite E, Nat2Z.id, <- INR_IZR_INZ. split; [now rewrite Gamma_n_factors|].
  do 2 f_equal. rewrite <- Gamma_n_factors. match goal with |- fold_left ?f ?l ?x = _ => rewrite <- (ln_exp (fold_left f l x)) end. f_equal.
  set (X := Rpower PI _). assert (HX : 0 < X) by apply exp_pos. assert (EX : exp (ln PI * INR n * (INR n - 1) / 4) = Rabs X). { rewrite Rabs_pos_eq by lra. unfold X, Rpower. f_equal. field. }
  rewrite (fold_exp _ (fun i => G (arg a i)) _ _ X EX).
  - now rewrite (fold_mul (fun i => G (arg a i)) _ X).
  - intros i Hi. apply in_seq in Hi. destruct (L (arg a i)) as [N ->]; [apply (P i); lia|]. apply exp_ln. now apply Rabs_pos_lt.
Qed.
(** C129: above (n-1)/2 that is so, and the value is positive *)
Theorem C129_positive : forall G lG, (forall x, 0 < x -> 0 < G x /\ lG x = ln (G x)) -> forall a n, INR n - 1 < 2 * a -> 0 < a < 2 ^ 31 ->
  exists v, multivariate_gamma G a (Z.of_nat n) = Ok (Some v) /\ v = Gamma_n G n a /\ 0 < v /\ multivariate_lngamma lG a (Z.of_nat n) = Ok (Some (ln v)).
Proof.
  intros G lG L a n Ha Hb. assert (PP : forall x, 0 < x -> ~ pole x) by (intros x Hx [k K]; pose proof (pos_INR k); lra).
  assert (Arg : forall j, (1 <= j <= n)%nat -> 0 < argument a j). { intros j Hj. unfold argument. assert (INR j <= INR n) by (apply le_INR; lia). lra. }
  assert (R : in_int (checked a (Z.of_nat n))). { destruct n as [|n]. { rewrite checked0. unfold in_int. lra. } destruct (quot_odd (S n)) as (j & Oj & Lj & Nj & Cj); [lia|]. rewrite Cj. specialize (Arg j ltac:(lia)). unfold in_int, argument in *. assert (1 <= INR j) by (apply (le_INR 1); lia). lra. }
  assert (V : 0 < Gamma_n G n a). { clear R Arg. destruct Hb as [Hb _]. revert a Ha Hb. induction n as [|n IH]; intros a Ha Hb; cbn [Gamma_n]; [lra|]. rewrite S_INR in Ha.
    apply Rmult_lt_0_compat; [apply Rmult_lt_0_compat; [apply exp_pos|apply L; lra]|]. destruct n as [|n]; [cbn; lra|]. rewrite S_INR in *. pose proof (pos_INR n). apply IH; lra. }
  (* the laws only hold above zero: as if they held everywhere *)
  destruct (undefined_ok a _ R) as (b & E & B). assert (b = false) as ->.
  { destruct b; auto. exfalso. assert (B' : pole (checked a (Z.of_nat n))) by now apply B. revert B'. destruct n as [|n]. { rewrite checked0. apply PP. lra. } destruct (quot_odd (S n)) as (j & Oj & Lj & Nj & Cj); [lia|]. rewrite Cj. apply PP, Arg. lia. }
  exists (Gamma_n G n a). unfold multivariate_gamma, multivariate_lngamma, factors. rewrite E, Nat2Z.id, <- INR_IZR_INZ, Gamma_n_factors. split; auto. split; auto. split; auto.
  do 2 f_equal. match goal with |- fold_left ?f ?l ?x = _ => rewrite <- (ln_exp (fold_left f l x)) end. f_equal. rewrite <- (Rabs_pos_eq (Gamma_n G n a)) by lra. rewrite <- Gamma_n_factors.
  set (X := Rpower PI _). assert (HX : 0 < X) by apply exp_pos. assert (EX : exp (ln PI * INR n * (INR n - 1) / 4) = Rabs X). { rewrite Rabs_pos_eq by lra. unfold X, Rpower. f_equal. field. }
  rewrite (fold_exp _ (fun i => G (arg a i)) _ _ X EX).
  - now rewrite (fold_mul (fun i => G (arg a i)) _ X).
  - intros i Hi. apply in_seq in Hi. destruct (L (arg a i)) as [N ->]; [apply (Arg i); lia|]. rewrite exp_ln by auto. rewrite Rabs_pos_eq; lra.
Qed.

(** ---------- deviations ---------- *)
(** (1-p)/2 is a quotient of ints: for two dimensions at one half the second argument, zero, is not noticed, and the library is called there *)
Theorem C129_refuted_even : forall G lG, argument (1 / 2) 2 = 0 /\ pole 0 /\ multivariate_gamma G (1 / 2) 2 <> Ok None /\ multivariate_lngamma lG (1 / 2) 2 <> Ok None.
Proof.
  intros G lG. split; [unfold argument; cbn; lra|]. split; [exists 0%nat; cbn; lra|]. assert (C : checked (1 / 2) 2 = 1 / 2) by (unfold checked; change (Z.quot (1 - 2) 2) with 0%Z; lra).
  assert (R : in_int (checked (1 / 2) 2)). { rewrite C. unfold in_int. cbn. lra. } destruct (undefined_ok _ _ R) as (b & E & B). assert (b = false) as ->. { destruct b; auto. destruct (proj1 B eq_refl) as [k K]. pose proof (pos_INR k). lra. }
  unfold multivariate_gamma, multivariate_lngamma. rewrite E. split; discriminate.
Qed.
(** the test converts a double to int: for large arguments, where both functions' arguments are fine, that is undefined *)
Theorem C129_refuted_large : forall G lG a, 2 ^ 31 + 1 <= a -> multivariate_gamma G a 1 = UB /\ multivariate_lngamma lG a 1 = UB.
Proof.
  intros G lG a Ha. unfold multivariate_gamma, multivariate_lngamma, undefined_here. replace (checked a 1) with a by (unfold checked; change (Z.quot (1 - 1) 2) with 0%Z; lra).
  assert (to_int (- a) = UB) as ->; auto. unfold to_int. pose proof (trunc_near (- a)). destruct (Z.leb_spec (- 2 ^ 31) (trunc (- a))) as [H1|H1]; [|reflexivity].
  exfalso. apply IZR_le in H1. rewrite opp_IZR, pow31 in H1. lra.
Qed.
Example C129_nonvacuous : INR 3 - 1 < 2 * (5 / 2) /\ 0 < 5 / 2 < 2 ^ 31 /\ (exists j, Nat.Odd j /\ (1 <= j <= 3)%nat /\ pole (argument 1 j)) /\
  (forall G, Gamma_n G 2 (3 / 2) = Rpower PI (1 / 2) * G (3 / 2) * (Rpower PI 0 * G 1 * 1)).
Proof.
  split; [cbn; lra|]. split; [cbn; lra|]. split.
  - exists 3%nat. split; [exists 1%nat; lia|]. split; [lia|]. exists 0%nat. unfold argument. cbn. lra.
  - intros G. cbn [Gamma_n]. replace (3 / 2 - 1 / 2) with 1 by lra. cbn [INR]. replace (0 / 2) with 0 by lra. reflexivity.
Qed.
Print Assumptions C129_value. Print Assumptions C129_nan. Print Assumptions C129_positive.
