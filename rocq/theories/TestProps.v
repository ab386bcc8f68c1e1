(** C78: t tests.  Vocabulary in TestSpec. *)
From Coq Require Import Reals Lra.
From Verif Require Import DataModel NamesModel StatsModel StatsSpec StatsProofs StatsProps LinModel OlsModel TestModel TestSpec.
Local Open Scope list_scope.
Local Open Scope R_scope.

Lemma sym_half F : symmetric F -> F 0 = 1 / 2.
Proof. intros (S & _). specialize (S 0). rewrite Ropp_0 in S. lra. Qed.
Lemma sym_cases F x : symmetric F -> 1 / 2 <= F (Rabs x) <= 1 /\ (F x = F (Rabs x) \/ F x = 1 - F (Rabs x)).
Proof.
  intros HF. pose proof HF as (S & I & B). pose proof (sym_half F HF). split.
  - split; [|apply B]. destruct (Rle_lt_or_eq_dec 0 (Rabs x) (Rabs_pos x)) as [L|L]; [apply I in L; lra|rewrite <- L; lra].
  - unfold Rabs. destruct (Rcase_abs x); [right; rewrite S; lra|left; auto].
Qed.
(** the report: one- and two-sided p values and confidences *)
Lemma produce_ok g df t diff : symmetric (fun x => tP g x (IZR df)) -> let F x := tP g x (IZR df) in let o := produce_t g df (Some t) diff in
  elem o "mean left - right" = diff /\ elem o "t statistic" = Some t /\ elem o "df" = Some (IZR df) /\
  elem o "p value, 1 tail" = Some (1 - F (Rabs t)) /\ elem o "confidence, 1 tail" = Some (F (Rabs t)) /\
  elem o "p value, 2 tail" = Some (2 * (1 - F (Rabs t))) /\ elem o "confidence, 2 tail" = Some (2 * F (Rabs t) - 1).
Proof.
  intros HF F o. destruct (sym_cases _ t HF) as [B C]. fold (F (Rabs t)) in *. fold (F t) in *. unfold o, produce_t. cbn [omap1 elem String.eqb Ascii.eqb Bool.eqb]. fold (F t).
  assert (E1 : Rmin (F t) (1 - F t) = 1 - F (Rabs t)). { destruct C as [C|C]; rewrite C; [rewrite Rmin_right|rewrite Rmin_left]; lra. }
  assert (E2 : Rmin (Rabs (F t - 0.5)) (Rabs (1 - F t - 0.5)) = F (Rabs t) - 1 / 2). { destruct C as [C|C]; rewrite C; [rewrite (Rabs_pos_eq (_ - 0.5)) by lra; rewrite (Rabs_left1 (1 - _ - 0.5)) by lra|rewrite (Rabs_left1 (1 - _ - 0.5)) by lra; rewrite (Rabs_pos_eq (_ - 0.5)) by lra]; (rewrite Rmin_left || rewrite Rmin_right); lra. }
  rewrite E1, E2. repeat split; f_equal; lra.
Qed.
Lemma INR2 n : (2 <= n)%nat -> 1 <= INR n - 1.
Proof. intros H. apply le_INR in H. cbn in H. lra. Qed.
Lemma ne2 (l : list R) : (2 <= length l)%nat -> l <> [].
Proof. destruct l; [cbn; lia|discriminate]. Qed.
Lemma share_ok v : (2 <= length v)%nat -> share v = Some (mean_var1 v).
Proof. intros H. unfold share. rewrite (proj2 (Nat.ltb_lt _ _)) by lia. rewrite C34_var by auto. unfold cdiv. pose proof (INR2 _ H). destruct (Req_EM_T _ 0); [lra|auto]. Qed.
Definition tstat (a b : list R) : R := (avg a - avg b) / R_sqrt.sqrt (mean_var1 a + mean_var1 b).
Definition tdf (a b : list R) : Z := (Z.of_nat (length a) + Z.of_nat (length b) - 2)%Z.
Lemma t_eq g a b : (2 <= length a)%nat -> (2 <= length b)%nat -> 0 < mean_var1 a + mean_var1 b -> t_test g a b = produce_t g (tdf a b) (Some (tstat a b)) (Some (avg a - avg b)).
Proof.
  intros Ha Hb Hv. unfold t_test. rewrite !C34_mean by (apply ne2; auto). rewrite !share_ok by auto. unfold csqrt. rewrite (Rplus_comm (mean_var1 b)). destruct (Rlt_dec (mean_var1 a + mean_var1 b) 0); [lra|]. pose proof (sqrt_lt_R0 _ Hv). unfold cdiv. destruct (Req_EM_T _ 0); [lra|]. reflexivity.
Qed.
(** the report of the t test of two samples that are not both constant *)
Theorem C78_t_test g a b : (2 <= length a)%nat -> (2 <= length b)%nat -> 0 < mean_var1 a + mean_var1 b -> symmetric (fun x => tP g x (IZR (tdf a b))) ->
  let t := (avg a - avg b) / R_sqrt.sqrt (mean_var1 a + mean_var1 b) in let F x := tP g x (IZR (tdf a b)) in let o := t_test g a b in
  elem o "mean left - right" = Some (avg a - avg b) /\ elem o "t statistic" = Some t /\ elem o "df" = Some (INR (length a) + INR (length b) - 2) /\
  elem o "p value, 1 tail" = Some (1 - F (Rabs t)) /\ elem o "confidence, 1 tail" = Some (F (Rabs t)) /\
  elem o "p value, 2 tail" = Some (2 * (1 - F (Rabs t))) /\ elem o "confidence, 2 tail" = Some (2 * F (Rabs t) - 1) /\ 0 <= 2 * (1 - F (Rabs t)) <= 1.
Proof.
  intros Ha Hb Hv HF t F o. unfold o. rewrite t_eq by auto. destruct (produce_ok g (tdf a b) (tstat a b) (Some (avg a - avg b)) HF) as (E1 & E2 & E3 & E4 & E5 & E6 & E7). fold t in E2, E4, E5, E6, E7 |- *. rewrite E1, E2, E3, E4, E5, E6, E7. destruct (sym_cases _ t HF) as [B _].
  split; [auto|]. split; [auto|]. split. { f_equal. unfold tdf. rewrite minus_IZR, plus_IZR, <- !INR_IZR_INZ. auto. } split; [auto|]. split; [auto|]. split; [auto|]. split; [auto|]. unfold F. lra.
Qed.
(** the samples swapped: differences and statistic change sign, the rest stays *)
Theorem C78_swap g a b : (2 <= length a)%nat -> (2 <= length b)%nat -> 0 < mean_var1 a + mean_var1 b -> symmetric (fun x => tP g x (IZR (tdf a b))) ->
  (forall k, In k ["mean left - right"; "t statistic"]%string -> elem (t_test g b a) k = option_map Ropp (elem (t_test g a b) k)) /\
  (forall k, ~ In k ["mean left - right"; "t statistic"]%string -> elem (t_test g b a) k = elem (t_test g a b) k).
Proof.
  intros Ha Hb Hv HF. assert (Ed : tdf b a = tdf a b) by (unfold tdf; lia). assert (Et : tstat b a = - tstat a b). { unfold tstat. rewrite (Rplus_comm (mean_var1 b)). pose proof (sqrt_lt_R0 _ Hv). field. lra. }
  rewrite (t_eq g a b), (t_eq g b a) by (auto; lra). rewrite Ed, Et. pose proof (produce_ok g (tdf a b) (tstat a b) (Some (avg a - avg b)) HF) as P1. pose proof (produce_ok g (tdf a b) (- tstat a b) (Some (avg b - avg a)) HF) as P2. cbv zeta in P1, P2. rewrite Rabs_Ropp in P2.
  destruct P1 as (A1 & A2 & A3 & A4 & A5 & A6 & A7), P2 as (B1 & B2 & B3 & B4 & B5 & B6 & B7). split.
  - intros k [<-|[<-|[]]]; [rewrite A1, B1|rewrite A2, B2]; cbn; f_equal; lra.
  - intros k Hk. assert (C : k = "df"%string \/ k = "p value, 1 tail"%string \/ k = "confidence, 1 tail"%string \/ k = "p value, 2 tail"%string \/ k = "confidence, 2 tail"%string \/ (elem (produce_t g (tdf a b) (Some (- tstat a b)) (Some (avg b - avg a))) k = None /\ elem (produce_t g (tdf a b) (Some (tstat a b)) (Some (avg a - avg b))) k = None)).
    { unfold produce_t. cbn [elem]. repeat match goal with |- context [String.eqb ?x k] => destruct (String.eqb_spec x k); [subst; tauto || (exfalso; apply Hk; cbn; tauto)|] end. tauto. }
    destruct C as [->|[->|[->|[->|[->|[-> ->]]]]]]; congruence.
Qed.
(** both samples multiplied by a positive number and shifted by another: the same but for the difference *)
Lemma Rsum_affine c s l : Rsum (map (fun x => c * x + s) l) = c * Rsum l + INR (length l) * s.
Proof. induction l as [|x l IH]; [cbn; lra|]. cbn [map]. rewrite !Rsum_cons, IH. cbn [length]. rewrite S_INR. ring. Qed.
Lemma avg_affine c s l : l <> [] -> avg (map (fun x => c * x + s) l) = c * avg l + s.
Proof. intros H. unfold avg. rewrite Rsum_affine, map_length. assert (INR (length l) <> 0) by (apply not_0_INR; destruct l; cbn; [congruence|lia]). field. auto. Qed.
Lemma svar_affine c s l : l <> [] -> svar (map (fun x => c * x + s) l) = c ^ 2 * svar l.
Proof.
  intros H. unfold svar. rewrite avg_affine, map_length, map_map by auto. unfold Rdiv. rewrite <- Rmult_assoc. f_equal. assert (E : forall k m, Rsum (map (fun x => (c * x + s - (c * k + s)) ^ 2) m) = c ^ 2 * Rsum (map (fun x => (x - k) ^ 2) m)). { intros k m. induction m as [|x m IH]; [cbn; lra|]. cbn [map]. rewrite !Rsum_cons, IH. ring. } apply E.
Qed.
Theorem C78_affine g a b c s : (2 <= length a)%nat -> (2 <= length b)%nat -> 0 < mean_var1 a + mean_var1 b -> 0 < c -> let f := map (fun x => c * x + s) in
  elem (t_test g (f a) (f b)) "mean left - right" = Some (c * (avg a - avg b)) /\ forall k, k <> "mean left - right"%string -> elem (t_test g (f a) (f b)) k = elem (t_test g a b) k.
Proof.
  intros Ha Hb Hv Hc f. assert (E : forall l, (2 <= length l)%nat -> mean_var1 (f l) = c ^ 2 * mean_var1 l). { intros l Hl. unfold mean_var1, f. rewrite svar_affine by (apply ne2; auto). rewrite map_length. unfold Rdiv. ring. }
  assert (Hv' : mean_var1 (f a) + mean_var1 (f b) = (c * c) * (mean_var1 a + mean_var1 b)) by (rewrite !E by auto; ring).
  assert (Et : tstat (f a) (f b) = tstat a b). { unfold tstat. rewrite Hv', sqrt_mult_alt, sqrt_square by nra. unfold f. rewrite !avg_affine by (apply ne2; auto). pose proof (sqrt_lt_R0 _ Hv). field. lra. }
  assert (Ed : tdf (f a) (f b) = tdf a b) by (unfold tdf, f; rewrite !map_length; auto).
  rewrite (t_eq g a b), (t_eq g (f a) (f b)); auto; [|unfold f; rewrite map_length; auto|unfold f; rewrite map_length; auto|rewrite Hv'; apply Rmult_lt_0_compat; nra]. rewrite Et, Ed. split; [cbn; f_equal; unfold f; rewrite !avg_affine by (apply ne2; auto); ring|].
  intros k Hk. unfold produce_t. cbn [elem]. destruct (String.eqb_spec "mean left - right" k); [congruence|]. reflexivity.
Qed.

(** ** paired *)
Definition pstat (d : list R) : R := avg d / R_sqrt.sqrt (mean_var1 d).
Theorem C78_paired g a b : length a = length b -> (2 <= length a)%nat -> 0 < svar (diffs a b) -> let df := (Z.of_nat (length a) - 1)%Z in symmetric (fun x => tP g x (IZR df)) ->
  let t := avg (diffs a b) / R_sqrt.sqrt (mean_var1 (diffs a b)) in let F x := tP g x (IZR df) in exists o, paired_t_test g a b = Ok o /\
  elem o "mean left - right" = Some (avg a - avg b) /\ elem o "t statistic" = Some t /\ elem o "df" = Some (INR (length a) - 1) /\
  elem o "p value, 1 tail" = Some (1 - F (Rabs t)) /\ elem o "confidence, 1 tail" = Some (F (Rabs t)) /\ elem o "p value, 2 tail" = Some (2 * (1 - F (Rabs t))) /\ elem o "confidence, 2 tail" = Some (2 * F (Rabs t) - 1).
Proof.
  intros Hl Ha Hv df HF t F. unfold paired_t_test, vzip. rewrite (proj2 (Nat.eqb_eq _ _) Hl). cbn [rbind]. fold (diffs a b). assert (Ld : length (diffs a b) = length a) by (unfold diffs; rewrite zip_with_length; lia).
  rewrite C34_mean by (apply ne2; lia). rewrite C34_var by lia. pose proof (INR2 _ Ha). unfold cdiv at 1. destruct (Req_EM_T (INR (length a) - 1) 0); [lra|]. assert (Em : svar (diffs a b) / (INR (length a) - 1) = mean_var1 (diffs a b)) by (unfold mean_var1; rewrite Ld; auto). rewrite Em.
  assert (P : 0 < mean_var1 (diffs a b)) by (rewrite <- Em; apply Rdiv_lt_0_compat; lra). unfold csqrt. destruct (Rlt_dec (mean_var1 (diffs a b)) 0); [lra|]. pose proof (sqrt_lt_R0 _ P). unfold cdiv. destruct (Req_EM_T _ 0); [lra|]. fold t. fold df.
  destruct (produce_ok g df t (Some (avg (diffs a b))) HF) as (E1 & E2 & E3 & E4 & E5 & E6 & E7). eexists. split; [reflexivity|]. rewrite E1, E2, E3, E4, E5, E6, E7.
  split. { f_equal. unfold avg. rewrite Ld, <- Hl. assert (S : Rsum (diffs a b) = Rsum a - Rsum b). { clear - Hl. unfold diffs. revert b Hl. induction a as [|x a IH]; intros [|y b] Hl; cbn in Hl; try lia; [cbn; lra|]. cbn [zip_with]. rewrite !Rsum_cons, IH by lia. lra. } rewrite S. field. lra. }
  split; [auto|]. split; [f_equal; unfold df; rewrite minus_IZR, <- INR_IZR_INZ; auto|]. auto.
Qed.
Theorem C78_paired_lengths g a b : length a <> length b -> paired_t_test g a b = UB.
Proof. intros H. unfold paired_t_test, vzip. rewrite (proj2 (Nat.eqb_neq _ _) H). reflexivity. Qed.

(** ** where the code differs *)
(** the variances are divided by the number of observations less one, though they are sample variances already: the statistic is always nearer zero, and the p value larger, than with the variance of the means *)
Lemma mv_le l : (2 <= length l)%nat -> 0 < svar l -> mean_var l < mean_var1 l.
Proof. intros H Hs. unfold mean_var, mean_var1, Rdiv. pose proof (INR2 _ H). apply Rmult_lt_compat_l; auto. apply Rinv_lt_contravar; [nra|lra]. Qed.
Theorem C78_refuted_statistic g a b : (2 <= length a)%nat -> (2 <= length b)%nat -> 0 < svar a -> 0 < svar b -> avg a <> avg b -> symmetric (fun x => tP g x (IZR (tdf a b))) ->
  exists t p, elem (t_test g a b) "t statistic" = Some t /\ elem (t_test g a b) "p value, 2 tail" = Some p /\ let w := (avg a - avg b) / R_sqrt.sqrt (mean_var a + mean_var b) in Rabs t < Rabs w /\ 2 * (1 - tP g (Rabs w) (IZR (tdf a b))) < p.
Proof.
  intros Ha Hb Va Vb Hne HF. pose proof (mv_le a Ha Va). pose proof (mv_le b Hb Vb). pose proof (INR2 _ Ha). pose proof (INR2 _ Hb).
  assert (Pa : 0 < mean_var a) by (apply Rdiv_lt_0_compat; lra). assert (Pb : 0 < mean_var b) by (apply Rdiv_lt_0_compat; lra).
  destruct (C78_t_test g a b Ha Hb ltac:(lra) HF) as (_ & Et & _ & _ & _ & Ep & _). eexists _, _. split; [exact Et|]. split; [exact Ep|]. cbv zeta. pose proof HF as (_ & I & _).
  assert (L : Rabs ((avg a - avg b) / R_sqrt.sqrt (mean_var1 a + mean_var1 b)) < Rabs ((avg a - avg b) / R_sqrt.sqrt (mean_var a + mean_var b))).
  { unfold Rdiv. rewrite !Rabs_mult. assert (0 < Rabs (avg a - avg b)) by (apply Rabs_pos_lt; lra). apply Rmult_lt_compat_l; auto. assert (0 < R_sqrt.sqrt (mean_var a + mean_var b)) by (apply sqrt_lt_R0; lra). assert (R_sqrt.sqrt (mean_var a + mean_var b) < R_sqrt.sqrt (mean_var1 a + mean_var1 b)) by (apply sqrt_lt_1; lra).
    rewrite !Rabs_pos_eq by (left; apply Rinv_0_lt_compat; lra). apply Rinv_lt_contravar; [nra|lra]. }
  split; [exact L|]. pose proof (I _ _ L). cbv beta in *. lra.
Qed.
Theorem C78_refuted_paired g a b : length a = length b -> (2 <= length a)%nat -> 0 < svar (diffs a b) -> avg a <> avg b -> symmetric (fun x => tP g x (IZR (Z.of_nat (length a) - 1))) ->
  exists o t p, paired_t_test g a b = Ok o /\ elem o "t statistic" = Some t /\ elem o "p value, 2 tail" = Some p /\ let w := avg (diffs a b) / R_sqrt.sqrt (mean_var (diffs a b)) in Rabs t < Rabs w /\ 2 * (1 - tP g (Rabs w) (IZR (Z.of_nat (length a) - 1))) < p.
Proof.
  intros Hl Ha Hv Hne HF. assert (Ld : length (diffs a b) = length a) by (unfold diffs; rewrite zip_with_length; lia). pose proof (mv_le (diffs a b) ltac:(lia) Hv). pose proof (INR2 _ Ha). assert (P : 0 < mean_var (diffs a b)) by (apply Rdiv_lt_0_compat; rewrite ?Ld; lra).
  destruct (C78_paired g a b Hl Ha Hv HF) as (o & Eo & _ & Et & _ & _ & _ & Ep & _). eexists o, _, _. split; [exact Eo|]. split; [exact Et|]. split; [exact Ep|]. cbv zeta. pose proof HF as (_ & I & _).
  assert (S : avg (diffs a b) = avg a - avg b). { unfold avg. rewrite Ld, <- Hl. assert (S : Rsum (diffs a b) = Rsum a - Rsum b). { clear - Hl. unfold diffs. revert b Hl. induction a as [|x a IH]; intros [|y b] Hl; cbn in Hl; try lia; [cbn; lra|]. cbn [zip_with]. rewrite !Rsum_cons, IH by lia. lra. } rewrite S. field. lra. }
  assert (L : Rabs (avg (diffs a b) / R_sqrt.sqrt (mean_var1 (diffs a b))) < Rabs (avg (diffs a b) / R_sqrt.sqrt (mean_var (diffs a b)))).
  { rewrite S. unfold Rdiv. rewrite !Rabs_mult. assert (0 < Rabs (avg a - avg b)) by (apply Rabs_pos_lt; lra). apply Rmult_lt_compat_l; auto. assert (0 < R_sqrt.sqrt (mean_var (diffs a b))) by (apply sqrt_lt_R0; lra). assert (R_sqrt.sqrt (mean_var (diffs a b)) < R_sqrt.sqrt (mean_var1 (diffs a b))) by (apply sqrt_lt_1; lra).
    rewrite !Rabs_pos_eq by (left; apply Rinv_0_lt_compat; lra). apply Rinv_lt_contravar; [nra|lra]. }
  split; [exact L|]. pose proof (I _ _ L). cbv beta in *. lra.
Qed.

(** the hypotheses can be met: the distribution function 1/2 + x/(2(1+|x|)) *)
Definition soft (x : R) : R := 1 / 2 + x / (2 * (1 + Rabs x)).
Lemma soft_sym : symmetric soft.
Proof.
  assert (B : forall x, 0 < 1 + Rabs x) by (intros x; pose proof (Rabs_pos x); lra). split; [|split].
  - intros x. unfold soft. rewrite Rabs_Ropp. specialize (B x). field. lra.
  - intros x y H. unfold soft. apply Rplus_lt_compat_l. pose proof (B x) as Bx. pose proof (B y) as By.
    apply (Rmult_lt_reg_r (2 * (1 + Rabs x) * (2 * (1 + Rabs y)))); [nra|]. replace (x / (2 * (1 + Rabs x)) * (2 * (1 + Rabs x) * (2 * (1 + Rabs y)))) with (2 * (x * (1 + Rabs y))) by (field; lra). replace (y / (2 * (1 + Rabs y)) * (2 * (1 + Rabs x) * (2 * (1 + Rabs y)))) with (2 * (y * (1 + Rabs x))) by (field; lra).
    unfold Rabs. destruct (Rcase_abs x), (Rcase_abs y); nra.
  - intros x. unfold soft. pose proof (B x). assert (- (1 / 2) <= x / (2 * (1 + Rabs x)) <= 1 / 2); [|lra]. assert (Rabs x < 1 + Rabs x) by lra. pose proof (Rle_abs x). pose proof (Rle_abs (- x)). rewrite Rabs_Ropp in *. split.
    + apply (Rmult_le_reg_r (2 * (1 + Rabs x))); [lra|]. replace (x / (2 * (1 + Rabs x)) * (2 * (1 + Rabs x))) with x by (field; lra). lra.
    + apply (Rmult_le_reg_r (2 * (1 + Rabs x))); [lra|]. replace (x / (2 * (1 + Rabs x)) * (2 * (1 + Rabs x))) with x by (field; lra). lra.
Qed.
Definition soft_cdfs : cdfs := let f1 x (_ : R) := soft x in let f2 x (_ _ : R) := soft x in Cdfs f1 f1 f2 f2 f1 f1 f2 f2 f1 f1 f2 f2.
(** samples 0, 2 and 1, 5: variances 2 and 8 *)
Example C78_nonvacuous : exists t p, elem (t_test soft_cdfs [0; 2] [1; 5]) "t statistic" = Some t /\ t = - 2 / R_sqrt.sqrt 10 /\ elem (t_test soft_cdfs [0; 2] [1; 5]) "p value, 2 tail" = Some p /\ 0 <= p <= 1 /\
  exists o, paired_t_test soft_cdfs [0; 2] [1; 5] = Ok o /\ elem o "t statistic" = Some (- 2 / R_sqrt.sqrt 2).
Proof.
  assert (Va : mean_var1 [0; 2] = 2) by (unfold mean_var1, svar, avg; cbn; lra). assert (Vb : mean_var1 [1; 5] = 8) by (unfold mean_var1, svar, avg; cbn; lra). assert (Ma : avg [0; 2] - avg [1; 5] = - 2) by (unfold avg; cbn; lra).
  destruct (C78_t_test soft_cdfs [0; 2] [1; 5]) as (_ & E2 & _ & _ & _ & E6 & _ & B); [cbn; lia|cbn; lia|lra|exact soft_sym|]. eexists _, _. split; [exact E2|]. split; [rewrite Va, Vb, Ma; f_equal; f_equal; lra|]. split; [exact E6|]. split; [exact B|].
  assert (Ed : diffs [0; 2] [1; 5] = [0 - 1; 2 - 5]) by reflexivity. assert (Vd : mean_var1 (diffs [0; 2] [1; 5]) = 2) by (rewrite Ed; unfold mean_var1, svar, avg; cbn; lra).
  destruct (C78_paired soft_cdfs [0; 2] [1; 5]) as (o & Eo & _ & Et & _); [reflexivity|cbn; lia|rewrite Ed; unfold svar, avg; cbn; lra|exact soft_sym|]. exists o. split; [exact Eo|]. rewrite Et, Vd. f_equal. f_equal. rewrite Ed. unfold avg. cbn. lra.
Qed.

Print Assumptions C78_t_test. Print Assumptions C78_swap. Print Assumptions C78_affine. Print Assumptions C78_paired. Print Assumptions C78_paired_lengths. Print Assumptions C78_refuted_statistic. Print Assumptions C78_refuted_paired. Print Assumptions C78_nonvacuous.
