(** C107, C108: the multinomial's log likelihood and its estimation. *)
From Coq Require Import Reals Lra.
From Verif Require Import Base StatsSpec StatsProofs SearchModel KlProps MultiModel.
Local Open Scope list_scope.
Local Open Scope R_scope.

(** the multinomial's probability of the counts [o] when as many balls as they sum to are tossed into bins of probabilities [p] *)
Definition product (l : list R) : R := fold_right Rmult 1 l.
Definition mpmf (p : list R) (o : list nat) : R := INR (fact (list_sum o)) * product (zip_with (fun q k => q ^ k / INR (fact k)) p o).
(** the bins' probabilities, that of bin zero being what the others leave *)
Definition bins (q : list R) : list R := (1 - Rsum q) :: q.
Definition probabilities (p : list R) : Prop := Forall (Rle 0) p /\ Rsum p = 1.

Lemma fact_pos n : 0 < INR (fact n). Proof. apply lt_0_INR, lt_O_fact. Qed.
Lemma Int_part_IZR z : Int_part (IZR z) = z.
Proof. destruct (base_Int_part (IZR z)) as [H1 H2]. apply le_IZR in H1. rewrite <- minus_IZR in H2. apply Rgt_lt in H2. apply lt_IZR in H2. lia. Qed.
Lemma p_vector_bins n q : p_vector (n :: q) n = bins q.
Proof. unfold p_vector, bins. rewrite fold_left_Rplus, Rsum_cons. f_equal. lra. Qed.
Lemma bins_sum q : Rsum (bins q) = 1. Proof. unfold bins. rewrite Rsum_cons. lra. Qed.
Lemma product_nonneg p o : Forall (Rle 0) p -> 0 <= product (zip_with (fun q k => q ^ k / INR (fact k)) p o).
Proof.
  intros H. revert o. induction H as [|x p Hx Hp IH]; intros [|k o]; cbn; try lra. apply Rmult_le_pos; [|apply IH]. apply Rmult_le_pos; [apply pow_le; auto|apply Rlt_le, Rinv_0_lt_compat, fact_pos].
Qed.
Lemma mpmf_nonneg p o : Forall (Rle 0) p -> 0 <= mpmf p o.
Proof. intros H. apply Rmult_le_pos; [apply Rlt_le, fact_pos|apply product_nonneg; auto]. Qed.
Lemma ln_div x y : 0 < x -> 0 < y -> ln (x / y) = ln x - ln y.
Proof. intros Hx Hy. unfold Rdiv. rewrite ln_mult, ln_Rinv by (auto; apply Rinv_0_lt_compat; auto). lra. Qed.
(** one bin *)
Lemma term_ok x k : 0 <= x -> (0 < x ^ k / INR (fact k) -> (if (0 <? k)%nat then xsub (xscale (INR k) (xlog (xquot x 1))) (Fin (lnfact k)) else Fin 0) = Fin (ln (x ^ k / INR (fact k)))) /\
  (x ^ k / INR (fact k) = 0 -> (0 <? k)%nat = true /\ xsub (xscale (INR k) (xlog (xquot x 1))) (Fin (lnfact k)) = NInf).
Proof.
  intros Hx. pose proof (fact_pos k) as Hf. unfold xquot. destruct (Req_EM_T 1 0); [lra|]. destruct k as [|k].
  - split; intros H; [|exfalso; cbn in H; lra]. change (0 <? 0)%nat with false. cbv iota. f_equal. symmetry. rewrite <- ln_1. f_equal. cbn. lra.
  - assert (0 < INR (S k)) as Hk by (apply lt_0_INR; lia). cbn [Nat.ltb Nat.leb]. destruct (Rle_lt_or_eq_dec _ _ Hx) as [Hp|<-].
    + assert (0 < x ^ S k / INR (fact (S k))) by (apply Rdiv_lt_0_compat; [apply pow_lt|]; auto). split; [|lra]. intros _. replace (x / 1) with x by lra. cbn [xlog]. destruct (Rlt_dec x 0); [lra|]. destruct (Rlt_dec 0 x); [|lra]. cbn [xscale xsub xneg xadd]. f_equal.
      rewrite ln_div by (auto; apply pow_lt; auto). rewrite ln_pow by auto. unfold lnfact. lra.
    + rewrite pow_i by lia. split; [lra|]. intros _. split; auto. replace (0 / 1) with 0 by lra. cbn [xlog]. destruct (Rlt_dec 0 0); [lra|]. cbn [xscale]. destruct (Rlt_dec 0 (INR (S k))); [|lra]. reflexivity.
Qed.
Lemma fold_ok p : Forall (Rle 0) p -> forall h a, 
  (0 < product (zip_with (fun q k => q ^ k / INR (fact k)) p h) -> fold_left (fun acc '(q, n) => if (0 <? n)%nat then xadd acc (xsub (xscale (INR n) (xlog (xquot q 1))) (Fin (lnfact n))) else acc) (combine p h) (Fin a) = Fin (a + ln (product (zip_with (fun q k => q ^ k / INR (fact k)) p h)))) /\
  (product (zip_with (fun q k => q ^ k / INR (fact k)) p h) = 0 -> fold_left (fun acc '(q, n) => if (0 <? n)%nat then xadd acc (xsub (xscale (INR n) (xlog (xquot q 1))) (Fin (lnfact n))) else acc) (combine p h) (Fin a) = NInf).
Proof.
  intros Hp. assert (forall h, fold_left (fun acc '(q, n) => if (0 <? n)%nat then xadd acc (xsub (xscale (INR n) (xlog (xquot q 1))) (Fin (lnfact n))) else acc) (combine p h) NInf = NInf) as Hstay.
  { induction Hp as [|x p Hx Hp IH]; intros [|k h]; cbn [combine fold_left]; auto. destruct (term_ok x k Hx) as [T1 T2]. assert (0 <= x ^ k / INR (fact k)) as Hn by (apply Rmult_le_pos; [apply pow_le; auto|apply Rlt_le, Rinv_0_lt_compat, fact_pos]).
    destruct (0 <? k)%nat; [|apply IH]. destruct (Rle_lt_or_eq_dec _ _ Hn) as [H|H]; [rewrite (T1 H)|rewrite (proj2 (T2 (eq_sym H)))]; apply IH. }
  induction Hp as [|x p Hx Hp IH]; intros [|k h] a; cbn [zip_with product fold_right combine fold_left]; try (rewrite ln_1; split; [intros; f_equal; lra|lra]). fold (product (zip_with (fun q k => q ^ k / INR (fact k)) p h)).
  destruct (term_ok x k Hx) as [T1 T2]. assert (0 <= x ^ k / INR (fact k)) as Hn by (apply Rmult_le_pos; [apply pow_le; auto|apply Rlt_le, Rinv_0_lt_compat, fact_pos]). pose proof (product_nonneg p h Hp) as Hr.
  assert (forall h, fold_left (fun acc '(q, n) => if (0 <? n)%nat then xadd acc (xsub (xscale (INR n) (xlog (xquot q 1))) (Fin (lnfact n))) else acc) (combine p h) NInf = NInf) as Hstay'.
  { intros h'. specialize (Hstay (0%nat :: h')). exact Hstay. }
  specialize (IH Hstay'). destruct (Rle_lt_or_eq_dec _ _ Hn) as [H|H].
  - assert ((if (0 <? k)%nat then xadd (Fin a) (xsub (xscale (INR k) (xlog (xquot x 1))) (Fin (lnfact k))) else Fin a) = Fin (a + ln (x ^ k / INR (fact k)))) as ->.
    { specialize (T1 H). destruct (0 <? k)%nat; [rewrite T1; reflexivity|]. injection T1 as T1. rewrite <- T1. f_equal. lra. }
    destruct (IH h (a + ln (x ^ k / INR (fact k)))) as [I1 I2]. split.
    + intros Hpos. assert (0 < product (zip_with (fun q k => q ^ k / INR (fact k)) p h)) as Hq by (destruct (Rle_lt_or_eq_dec _ _ Hr) as [|E]; auto; rewrite <- E in Hpos; lra). rewrite (I1 Hq), ln_mult by auto. f_equal. lra.
    + intros Hz. apply I2. apply Rmult_integral in Hz as [Hz|Hz]; [lra|auto].
  - destruct (T2 (eq_sym H)) as [-> ->]. rewrite <- H. split; [lra|]. intros _. apply Hstay'.
Qed.
Lemma lnpdf_ok p h : probabilities p -> length h = length p -> (0 < mpmf p h -> lnpdf p h = Ok (Fin (ln (mpmf p h)))) /\ (mpmf p h = 0 -> lnpdf p h = Ok NInf).
Proof.
  intros [Hp H1] Hl. unfold lnpdf, mpmf. rewrite Hl, Nat.leb_refl, take_ge by lia. rewrite fold_left_Rplus, H1, Rplus_0_l. destruct (fold_ok p Hp h (lnfact (list_sum h))) as [F1 F2]. pose proof (fact_pos (list_sum h)) as Hf. pose proof (product_nonneg p h Hp). split; intros H2.
  - assert (0 < product (zip_with (fun q k => q ^ k / INR (fact k)) p h)) as Hq. { destruct (Rle_lt_or_eq_dec _ _ H) as [|E]; auto. rewrite <- E in H2. lra. } rewrite (F1 Hq), ln_mult by auto. reflexivity.
  - rewrite F2; auto. apply Rmult_integral in H2 as [|]; [lra|auto].
Qed.
(** summing over the rows *)
Lemma rows_ok {A} (f : A -> res xr) (g : A -> R) rows : (forall r, In r rows -> 0 <= g r /\ (0 < g r -> f r = Ok (Fin (ln (g r)))) /\ (g r = 0 -> f r = Ok NInf)) -> forall a,
  (Forall (fun r => 0 < g r) rows -> sum_rows f rows (Fin a) = Ok (Fin (a + Rsum (map (fun r => ln (g r)) rows)))) /\ (Exists (fun r => g r = 0) rows -> sum_rows f rows (Fin a) = Ok NInf).
Proof.
  intros H. assert (sum_rows f rows NInf = Ok NInf) as Hstay. { induction rows as [|r rows IH]; [reflexivity|]. cbn [sum_rows]. destruct (H r (or_introl eq_refl)) as (Hn & H1 & H2). destruct (Rle_lt_or_eq_dec _ _ Hn) as [E|E]; [rewrite (H1 E)|rewrite (H2 (eq_sym E))]; cbn; apply IH; intros; apply H; cbn; auto. }
  induction rows as [|r rows IH]; intros a; cbn [sum_rows map]; rewrite ?Rsum_nil, ?Rsum_cons; [split; [intros; do 2 f_equal; lra|intros X; inversion X]|]. destruct (H r (or_introl eq_refl)) as (Hn & H1 & H2).
  assert (sum_rows f rows NInf = Ok NInf) as Hst. { cbn [sum_rows] in Hstay. destruct (Rle_lt_or_eq_dec _ _ Hn) as [E|E]; [rewrite (H1 E) in Hstay|rewrite (H2 (eq_sym E)) in Hstay]; exact Hstay. }
  specialize (IH ltac:(intros; apply H; cbn; auto) Hst). split.
  - intros HF. inversion HF; subst. rewrite H1 by auto. cbn [rbind xadd]. rewrite (proj1 (IH _)) by auto. do 2 f_equal. lra.
  - intros HE. destruct (Rle_lt_or_eq_dec _ _ Hn) as [E|E]; [rewrite (H1 E)|rewrite (H2 (eq_sym E))]; cbn [rbind xadd]; auto. apply IH. inversion HE; subst; [lra|auto].
Qed.

(** C107: unless n is two, the log likelihood is the sum of the logarithms of the multinomial's probabilities of the rows, minus infinity if a row has none; and the parameters are as they were. *)
Theorem C107_value : forall n q rows, q <> [] -> Forall (Rle 0) (bins q) -> n <> 2 -> Forall (fun r => length r = length (bins q)) rows ->
  (Forall (fun r => 0 < mpmf (bins q) r) rows -> log_likelihood (n :: q) rows = Ok (Fin (Rsum (map (fun r => ln (mpmf (bins q) r)) rows)), n :: q)) /\
  (Exists (fun r => mpmf (bins q) r = 0) rows -> log_likelihood (n :: q) rows = Ok (NInf, n :: q)).
Proof.
  intros n q rows Hq Hp Hn Hl. destruct q as [|q1 q]; [congruence|]. unfold log_likelihood. rewrite p_vector_bins. 
  assert (q1 <= 1) as H1. { apply List.Forall_cons_iff in Hp as [A B]. apply List.Forall_cons_iff in B as [_ D]. rewrite Rsum_cons in A. assert (0 <= Rsum q) by (clear - D; induction D as [|z l Hz HD IH]; rewrite ?Rsum_nil, ?Rsum_cons; lra). lra. }
  destruct (Rlt_dec 1 q1); [lra|]. destruct (Req_EM_T n 2); [congruence|]. cbv zeta. assert (probabilities (bins (q1 :: q))) as HP by (split; [auto|apply bins_sum]).
  destruct (rows_ok (lnpdf (bins (q1 :: q))) (mpmf (bins (q1 :: q))) rows) with (a := 0) as [R1 R2].
  { intros r Hr. rewrite List.Forall_forall in Hl. destruct (lnpdf_ok _ r HP (Hl r Hr)). split; [apply mpmf_nonneg; auto|auto]. }
  split; intros H; [rewrite (R1 H)|rewrite (R2 H)]; cbn [rbind]; [rewrite Rplus_0_l|]; reflexivity.
Qed.
Print Assumptions C107_value.
(** C107: with n two so for two bins, if the rows have two balls each. *)
Theorem C107_two_bins : forall q rows, 0 <= q <= 1 -> Forall (fun r => length r = 2%nat /\ list_sum r = 2%nat) rows ->
  (Forall (fun r => 0 < mpmf (bins [q]) r) rows -> log_likelihood [2; q] rows = Ok (Fin (Rsum (map (fun r => ln (mpmf (bins [q]) r)) rows)), [2; q])) /\
  (Exists (fun r => mpmf (bins [q]) r = 0) rows -> log_likelihood [2; q] rows = Ok (NInf, [2; q])).
Proof.
  intros q rows Hq Hl. unfold log_likelihood. destruct (Rlt_dec 1 q); [lra|]. destruct (Req_EM_T 2 2); [|congruence].
  assert (Forall (Rle 0) (bins [q])) as Hp. { unfold bins. rewrite Rsum_cons, Rsum_nil. repeat (apply List.Forall_cons || apply List.Forall_nil); lra. }
  destruct (rows_ok (binomial_row q 2) (mpmf (bins [q])) rows) with (a := 0) as [R1 R2].
  { intros r Hr. rewrite List.Forall_forall in Hl. destruct (Hl r Hr) as [L S]. split; [apply mpmf_nonneg; auto|]. destruct r as [|a [|b [|]]]; try discriminate. unfold binomial_row. rewrite Int_part_IZR. change (Z.to_nat 2) with 2%nat.
    assert (binom_pdf b q 2 = mpmf (bins [q]) [a; b]) as ->.
    { unfold mpmf, binom_pdf, choose, bins. rewrite S. cbn in S. assert (a = 2 - b)%nat as -> by lia. destruct (Nat.ltb_spec 2 b); [lia|]. rewrite Rsum_cons, Rsum_nil. cbn [zip_with product fold_right]. pose proof (fact_pos b). pose proof (fact_pos (2 - b)). replace (1 - (q + 0)) with (1 - q) by lra. field. lra. }
    cbn [xlog]. split; intros H; destruct (Rlt_dec (mpmf (bins [q]) [a; b]) 0); try lra; destruct (Rlt_dec 0 (mpmf (bins [q]) [a; b])); auto; lra. }
  split; intros H; [rewrite (R1 H)|rewrite (R2 H)]; cbn [rbind]; [rewrite Rplus_0_l|]; reflexivity.
Qed.
Print Assumptions C107_two_bins.
(** C107, refuted: so for n two and more bins.  The code means to ask whether there are two bins: only column one is looked at, and the "probabilities" of the ways to toss two balls into three bins sum to five halves. *)
Definition two_in_three : list (list nat) := [[2; 0; 0]; [1; 0; 1]; [0; 0; 2]; [1; 1; 0]; [0; 1; 1]; [0; 2; 0]]%nat.
Theorem C107_refuted_n2 : 
  (forall q rows rows', map (nth 1) rows = map (nth 1) rows' -> Forall (fun r : list nat => (2 <= length r)%nat) rows -> Forall (fun r => (2 <= length r)%nat) rows' -> log_likelihood (2 :: q) rows = log_likelihood (2 :: q) rows') /\
  exists v, Forall2 (fun r x => log_likelihood [2; 1 / 4; 1 / 4] [r] = Ok (Fin (ln x), [2; 1 / 4; 1 / 4]) /\ 0 < x) two_in_three v /\ Rsum v = 5 / 2 /\ Rsum (map (mpmf (bins [1 / 4; 1 / 4])) two_in_three) = 1.
Proof.
  split.
  - intros q rows rows' E H H'. unfold log_likelihood. destruct q as [|q1 q]; auto. destruct (Rlt_dec 1 q1); auto. destruct (Req_EM_T 2 2); [|congruence]. f_equal. generalize (Fin 0). revert rows' E H'. induction H as [|r rows Hr H IH]; intros [|r' rows'] E H' a; try discriminate; auto.
    inversion H'; subst. cbn [map] in E. injection E as E1 E2. cbn [sum_rows]. assert (binomial_row q1 2 r = binomial_row q1 2 r') as ->. { destruct r as [|a0 [|b r]]; cbn in Hr; try lia. destruct r' as [|a1 [|b' r']]; cbn in *; try lia. apply (f_equal (fun f => f 0%nat)) in E1. subst. reflexivity. }
    destruct (binomial_row q1 2 r'); cbn; auto.
  - assert (forall r x, binomial_row (1 / 4) 2 r = Ok (Fin (ln x)) -> log_likelihood [2; 1 / 4; 1 / 4] [r] = Ok (Fin (ln x), [2; 1 / 4; 1 / 4])) as H.
    { intros r x E. unfold log_likelihood. destruct (Rlt_dec 1 (1 / 4)); [lra|]. destruct (Req_EM_T 2 2); [|congruence]. cbn [sum_rows]. rewrite E. cbn. do 2 f_equal. f_equal. lra. }
    assert (forall a b l x, binom_pdf b (1 / 4) 2 = x -> 0 < x -> binomial_row (1 / 4) 2 (a :: b :: l) = Ok (Fin (ln x))) as Hb.
    { intros a b l x E Hx. unfold binomial_row. rewrite Int_part_IZR. change (Z.to_nat 2) with 2%nat. rewrite E. cbn [xlog]. destruct (Rlt_dec x 0); [lra|]. destruct (Rlt_dec 0 x); [auto|lra]. }
    assert (binom_pdf 0 (1 / 4) 2 = 9 / 16) as B0 by (unfold binom_pdf, choose; destruct (Nat.ltb_spec 2 0); [lia|]; cbn; field). assert (binom_pdf 1 (1 / 4) 2 = 3 / 8) as B1 by (unfold binom_pdf, choose; destruct (Nat.ltb_spec 2 1); [lia|]; cbn; field). assert (binom_pdf 2 (1 / 4) 2 = 1 / 16) as B2 by (unfold binom_pdf, choose; destruct (Nat.ltb_spec 2 2); [lia|]; cbn; field).
    exists [9 / 16; 9 / 16; 9 / 16; 3 / 8; 3 / 8; 1 / 16]. split; [|split].
    + unfold two_in_three. repeat (apply List.Forall2_cons || apply List.Forall2_nil); (split; [apply H, Hb; [auto|lra]|lra]).
    + cbn. lra.
    + unfold two_in_three, bins. rewrite !Rsum_cons, Rsum_nil. unfold mpmf. cbn. lra.
Qed.
Print Assumptions C107_refuted_n2.
Example C107_nonvacuous : exists q rows, q <> [] /\ Forall (Rle 0) (bins q) /\ Forall (fun r => length r = length (bins q)) rows /\ Forall (fun r => 0 < mpmf (bins q) r) rows /\ length rows = 2%nat.
Proof.
  exists [1 / 4; 1 / 4], [[1; 2; 0]; [3; 0; 0]]%nat. split; [discriminate|]. unfold bins. rewrite !Rsum_cons, Rsum_nil. split; [repeat (apply List.Forall_cons || apply List.Forall_nil); lra|]. split; [repeat (apply List.Forall_cons || apply List.Forall_nil); reflexivity|].
  split; [|reflexivity]. repeat (apply List.Forall_cons || apply List.Forall_nil); unfold mpmf; cbn; lra.
Qed.
