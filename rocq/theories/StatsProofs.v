(** Lemmas for the statistics properties. *)
From Coq Require Import Reals Lra Psatz.
From Verif Require Import DataModel StatsModel StatsSpec.
Local Notation sqrt := R_sqrt.sqrt.
Local Open Scope list_scope.
Local Open Scope R_scope.

(** -------- sums -------- *)
Local Arguments Rsum : simpl never.
Lemma Rsum_nil : Rsum [] = 0. Proof. reflexivity. Qed.
Lemma Rsum_cons x l : Rsum (x :: l) = x + Rsum l. Proof. reflexivity. Qed.
Lemma Rsum_app a b : Rsum (a ++ b) = Rsum a + Rsum b.
Proof. induction a as [|x a IH]; cbn; rewrite ?Rsum_cons, ?Rsum_nil, ?IH; lra. Qed.
Lemma fold_left_Rplus l acc : fold_left Rplus l acc = acc + Rsum l.
Proof. revert acc; induction l as [|x l IH]; intros acc; cbn; rewrite ?Rsum_cons, ?Rsum_nil, ?IH; lra. Qed.
Lemma Rsum_scale k l : Rsum (map (fun x => x * k) l) = Rsum l * k.
Proof. induction l as [|x l IH]; cbn; rewrite ?Rsum_cons, ?Rsum_nil, ?IH; lra. Qed.
Lemma Rsum_add_const k l : Rsum (map (fun x => x + k) l) = Rsum l + INR (length l) * k.
Proof.
  induction l as [|x l IH]; [cbn; rewrite ?Rsum_nil; lra|]. cbn [map]. rewrite !Rsum_cons, IH.
  cbn [length]. rewrite S_INR. lra.
Qed.
Lemma Rsum_nonneg l : Forall (fun x => 0 <= x) l -> 0 <= Rsum l.
Proof. induction 1; rewrite ?Rsum_cons, ?Rsum_nil; lra. Qed.
Lemma Rsum_zero l : Forall (fun x => 0 <= x) l -> Rsum l = 0 -> Forall (fun x => x = 0) l.
Proof.
  induction 1 as [|x l Hx Hl IH]; intros H; constructor.
  - rewrite Rsum_cons in H. pose proof (Rsum_nonneg l Hl). lra.
  - apply IH. rewrite Rsum_cons in H. pose proof (Rsum_nonneg l Hl). lra.
Qed.
Lemma Rsum_replicate n x : Rsum (replicate n x) = INR n * x.
Proof. induction n as [|n IH]; [cbn; rewrite Rsum_nil; lra|]. cbn [replicate]. rewrite Rsum_cons, IH, S_INR. lra. Qed.
Lemma INR_pos n : (0 < n)%nat -> 0 < INR n. Proof. intros. apply lt_0_INR. auto. Qed.
Lemma len_ne0 {A} (l : list A) : l <> [] -> INR (length l) <> 0.
Proof. intros H. apply not_0_INR. destruct l; cbn; congruence. Qed.

(** linear combination of three sums in one go: sum of f over l *)
Definition Rsumf {A} (f : A -> R) (l : list A) : R := Rsum (map f l).
Lemma Rsumf_cons {A} (f : A -> R) x l : Rsumf f (x :: l) = f x + Rsumf f l. Proof. reflexivity. Qed.
Lemma Rsumf_ext {A} (f h : A -> R) l : (forall x, In x l -> f x = h x) -> Rsumf f l = Rsumf h l.
Proof. intros H. unfold Rsumf. f_equal. apply map_ext_in. auto. Qed.
Lemma Rsumf_plus {A} (f h : A -> R) l : Rsumf (fun x => f x + h x) l = Rsumf f l + Rsumf h l.
Proof. induction l as [|x l IH]; [unfold Rsumf; cbn; rewrite ?Rsum_nil; lra|]. rewrite !Rsumf_cons, IH. lra. Qed.
Lemma Rsumf_scal {A} k (f : A -> R) l : Rsumf (fun x => k * f x) l = k * Rsumf f l.
Proof. induction l as [|x l IH]; [unfold Rsumf; cbn; rewrite ?Rsum_nil; lra|]. rewrite !Rsumf_cons, IH. lra. Qed.
Lemma Rsumf_const {A} k (l : list A) : Rsumf (fun _ => k) l = INR (length l) * k.
Proof. induction l as [|x l IH]; [unfold Rsumf; cbn; rewrite ?Rsum_nil; lra|]. rewrite Rsumf_cons, IH. cbn [length]. rewrite S_INR. lra. Qed.
Lemma Rsumf_nonneg {A} (f : A -> R) l : (forall x, In x l -> 0 <= f x) -> 0 <= Rsumf f l.
Proof.
  intros H. unfold Rsumf. apply Rsum_nonneg. rewrite Forall_map. apply List.Forall_forall. auto.
Qed.
Lemma Rsumf_zero {A} (f : A -> R) l : (forall x, In x l -> 0 <= f x) -> Rsumf f l = 0 -> forall x, In x l -> f x = 0.
Proof.
  intros H H0 x Hx. assert (Forall (fun y => y = 0) (map f l)) as HF.
  { apply Rsum_zero; auto. rewrite Forall_map. apply List.Forall_forall. auto. }
  rewrite Forall_map in HF. rewrite List.Forall_forall in HF. apply HF. auto.
Qed.
Lemma zip_combine {A B C} (f : A -> B -> C) a b : zip_with f a b = map (fun p => f (fst p) (snd p)) (combine a b).
Proof. revert b; induction a as [|x a IH]; intros [|y b]; cbn; auto. f_equal. apply IH. Qed.

(** -------- running mean -------- *)
Lemma running_spec l : forall i acc, INR (i + length l) * running i acc l = INR i * acc + Rsum l.
Proof.
  induction l as [|x l IH]; intros i acc.
  - cbn. rewrite Nat.add_0_r, Rsum_nil. lra.
  - cbn [running length]. replace (i + S (length l))%nat with (S i + length l)%nat by lia.
    rewrite IH, Rsum_cons, S_INR. field. pose proof (pos_INR i). lra.
Qed.
Lemma running_avg l : l <> [] -> running 0 0 l = avg l.
Proof.
  intros H. pose proof (running_spec l 0 0) as E. cbn [Nat.add] in E. unfold avg.
  apply Rmult_eq_reg_l with (INR (length l)); [|apply len_ne0; auto]. rewrite E. cbn. field. apply len_ne0; auto.
Qed.
Lemma avg_len l : l <> [] -> INR (length l) * avg l = Rsum l.
Proof. intros H. unfold avg. field. apply len_ne0; auto. Qed.

(** -------- Cauchy-Schwarz -------- *)
Lemma cauchy {A} (f h : A -> R) l : Rsumf (fun x => f x * h x) l ^ 2 <= Rsumf (fun x => f x ^ 2) l * Rsumf (fun x => h x ^ 2) l.
Proof.
  set (a := Rsumf (fun x => f x ^ 2) l). set (b := Rsumf (fun x => h x ^ 2) l). set (c := Rsumf (fun x => f x * h x) l).
  assert (0 <= b) as Hb by (apply Rsumf_nonneg; intros; apply pow2_ge_0).
  assert (0 <= Rsumf (fun x => (b * f x - c * h x) ^ 2) l) as H by (apply Rsumf_nonneg; intros; apply pow2_ge_0).
  assert (Rsumf (fun x => (b * f x - c * h x) ^ 2) l = b * (a * b - c ^ 2)) as E.
  { rewrite (Rsumf_ext _ (fun x => (b ^ 2 * f x ^ 2 + (- 2 * b * c) * (f x * h x)) + c ^ 2 * h x ^ 2)).
    2:{ intros; ring. }
    rewrite (Rsumf_plus (fun x => b ^ 2 * f x ^ 2 + (- 2 * b * c) * (f x * h x))), Rsumf_plus.
    rewrite (Rsumf_scal (b ^ 2)), (Rsumf_scal (- 2 * b * c)), (Rsumf_scal (c ^ 2)).
    fold a b c. ring. }
  rewrite E in H. destruct (Req_dec b 0) as [Z|NZ].
  - assert (c = 0) as ->.
    { unfold c. rewrite (Rsumf_ext _ (fun _ => 0)); [rewrite Rsumf_const; lra|].
      intros x Hx. assert (h x ^ 2 = 0) as Eh.
      { apply (Rsumf_zero (fun x => h x ^ 2) l); auto. intros; apply pow2_ge_0. }
      assert (h x = 0) as ->; [|ring]. destruct (Req_dec (h x) 0); auto. exfalso. apply pow_nonzero with (n := 2%nat) in H0. lra. }
    rewrite Z. lra.
  - assert (0 < b) by lra. nra.
Qed.

(** -------- the weighted loops -------- *)
Lemma wloop1_spec l : forall s ws : R,
  fold_left (fun '(s, ws) '(x, y) => (s + y * x, ws + y)) l (s, ws) =
  (s + Rsumf (fun p : R * R => snd p * fst p) l, ws + Rsumf snd l).
Proof.
  induction l as [|[x y] l IH]; intros s ws; cbn [fold_left]; [unfold Rsumf; cbn; rewrite Rsum_nil; f_equal; lra|].
  rewrite IH, !Rsumf_cons. cbn. f_equal; lra.
Qed.
Lemma wloop2_spec l : forall s sq ws : R,
  fold_left (fun '(s, sq, ws) '(x, y) => (s + y * x, sq + y * (x * x), ws + y)) l (s, sq, ws) =
  (s + Rsumf (fun p : R * R => snd p * fst p) l, sq + Rsumf (fun p : R * R => snd p * (fst p * fst p)) l, ws + Rsumf snd l).
Proof.
  induction l as [|[x y] l IH]; intros s sq ws; cbn [fold_left]; [unfold Rsumf; cbn; rewrite Rsum_nil; f_equal; [f_equal|]; lra|].
  rewrite IH, !Rsumf_cons. cbn. f_equal; [f_equal|]; lra.
Qed.
Lemma wloop3_spec (l : list (R * (R * R))) : forall s1 s2 sq ws : R,
  fold_left (fun '(s1, s2, sq, ws) '(x1, (x2, y)) => (s1 + y * x1, s2 + y * x2, sq + y * x1 * x2, ws + y)) l (s1, s2, sq, ws) =
  (s1 + Rsumf (fun p : R * (R * R) => snd (snd p) * fst p) l, s2 + Rsumf (fun p : R * (R * R) => snd (snd p) * fst (snd p)) l,
   sq + Rsumf (fun p : R * (R * R) => snd (snd p) * fst p * fst (snd p)) l, ws + Rsumf (fun p : R * (R * R) => snd (snd p)) l).
Proof.
  induction l as [|[x [x2 y]] l IH]; intros s1 s2 sq ws; cbn [fold_left]; [unfold Rsumf; cbn; rewrite Rsum_nil; f_equal; [f_equal; [f_equal|]|]; lra|].
  rewrite IH, !Rsumf_cons. cbn. f_equal; [f_equal; [f_equal|]|]; lra.
Qed.
Lemma wloopk_spec mu e l : forall s ws : R,
  fold_left (fun '(s, ws) '(x, y) => (s + y * (x - mu) ^ e, ws + y)) l (s, ws) =
  (s + Rsumf (fun p : R * R => snd p * (fst p - mu) ^ e) l, ws + Rsumf snd l).
Proof.
  induction l as [|[x y] l IH]; intros s ws; cbn [fold_left]; [unfold Rsumf; cbn; rewrite Rsum_nil; f_equal; lra|].
  rewrite IH, !Rsumf_cons. cbn [fst snd]. f_equal; lra.
Qed.

(** -------- replicates -------- *)
Lemma rep_cons x l k ks : rep (x :: l) (k :: ks) = replicate k x ++ rep l ks. Proof. reflexivity. Qed.
Lemma Rsumf_app {A} (f : A -> R) a b : Rsumf f (a ++ b) = Rsumf f a + Rsumf f b.
Proof. unfold Rsumf. rewrite map_app. apply Rsum_app. Qed.
Lemma Rsumf_replicate {A} (f : A -> R) n x : Rsumf f (replicate n x) = INR n * f x.
Proof. unfold Rsumf. induction n as [|n IH]; [cbn; rewrite Rsum_nil; lra|]. cbn [replicate map]. rewrite Rsum_cons, IH, S_INR. lra. Qed.
Lemma Rsumf_rep f l : forall ks, length ks = length l ->
  Rsumf f (rep l ks) = Rsumf (fun p : R * R => snd p * f (fst p)) (combine l (map INR ks)).
Proof.
  induction l as [|x l IH]; intros [|k ks] H; try discriminate; [reflexivity|].
  rewrite rep_cons, Rsumf_app, Rsumf_replicate. cbn [combine map]. rewrite Rsumf_cons, IH by (cbn in H; lia). reflexivity.
Qed.
Lemma rep_length l : forall ks, length ks = length l -> length (rep l ks) = total ks.
Proof.
  induction l as [|x l IH]; intros [|k ks] H; try discriminate; [reflexivity|].
  rewrite rep_cons, app_length, replicate_length, IH by (cbn in H; lia). reflexivity.
Qed.
Lemma Rsumf_snd l : forall ks, length ks = length l -> Rsumf (@snd R R) (combine l (map INR ks)) = INR (total ks).
Proof.
  induction l as [|x l IH]; intros [|k ks] H; try discriminate; [reflexivity|].
  cbn [combine map]. rewrite Rsumf_cons, IH by (cbn in H; lia). cbn [total fold_right snd]. rewrite plus_INR. reflexivity.
Qed.

(** -------- textbook forms -------- *)
Lemma Rsumf_id l : Rsumf (fun x => x) l = Rsum l. Proof. unfold Rsumf. rewrite map_id. reflexivity. Qed.
Lemma Rsumf_fst {B} (l : list R) : forall b : list B, length b = length l -> Rsumf fst (combine l b) = Rsum l.
Proof.
  induction l as [|x l IH]; intros [|y b] H; try discriminate; [reflexivity|]. cbn [combine].
  rewrite Rsumf_cons, IH, Rsum_cons by (cbn in H; lia). reflexivity.
Qed.
Lemma Rsumf_snd' {A} (l : list A) : forall b : list R, length b = length l -> Rsumf snd (combine l b) = Rsum b.
Proof.
  induction l as [|x l IH]; intros [|y b] H; try discriminate; [reflexivity|]. cbn [combine].
  rewrite Rsumf_cons, IH, Rsum_cons by (cbn in H; lia). reflexivity.
Qed.
Lemma Rsumf_minus {A} (f h : A -> R) l : Rsumf (fun x => f x - h x) l = Rsumf f l - Rsumf h l.
Proof. induction l as [|x l IH]; [unfold Rsumf; cbn; rewrite ?Rsum_nil; lra|]. rewrite !Rsumf_cons, IH. lra. Qed.

Lemma scov_sum a b : a <> [] -> length b = length a ->
  Rsum (zip_with (fun x y => (x - avg a) * (y - avg b)) a b) = Rdot a b - Rsum a * Rsum b / INR (length a).
Proof.
  intros Ha Hl. unfold Rdot. rewrite !zip_combine. fold (Rsumf (fun p => (fst p - avg a) * (snd p - avg b)) (combine a b)).
  fold (Rsumf (fun p : R * R => fst p * snd p) (combine a b)).
  rewrite (Rsumf_ext _ (fun p => (fst p * snd p + (- avg b) * fst p) + ((- avg a) * snd p + avg a * avg b))) by (intros; ring).
  rewrite (Rsumf_plus (fun p => fst p * snd p + (- avg b) * fst p)), (Rsumf_plus (fun p => fst p * snd p)),
    (Rsumf_plus (fun p => (- avg a) * snd p)), !Rsumf_scal, Rsumf_const, Rsumf_fst, Rsumf_snd' by auto.
  rewrite combine_length, Hl, Nat.min_id. unfold avg. rewrite Hl. field. apply len_ne0; auto.
Qed.
Lemma svar_sum a : a <> [] ->
  Rsum (map (fun x => (x - avg a) ^ 2) a) = Rsumf (fun x => x * x) a - Rsum a * Rsum a / INR (length a).
Proof.
  intros Ha. fold (Rsumf (fun x => (x - avg a) ^ 2) a).
  rewrite (Rsumf_ext _ (fun x => (x * x + (- 2 * avg a) * x) + avg a * avg a)) by (intros; ring).
  rewrite (Rsumf_plus (fun x => x * x + (- 2 * avg a) * x)), (Rsumf_plus (fun x => x * x)), Rsumf_scal, Rsumf_const, Rsumf_id.
  unfold avg. field. apply len_ne0; auto.
Qed.

Lemma len2 {A} (l : list A) : (2 <= length l)%nat -> INR (length l) - 1 <> 0 /\ 0 < INR (length l) - 1 /\ l <> [].
Proof.
  intros H. apply le_INR in H. cbn in H. split; [lra|]. split; [lra|]. intros ->. cbn in H. lra.
Qed.
Lemma cdiv_ok x y : y <> 0 -> cdiv x y = Some (x / y).
Proof. intros H. unfold cdiv. destruct (Req_EM_T y 0); congruence. Qed.
Lemma cdiv_0 x : cdiv x 0 = None.
Proof. unfold cdiv. destruct (Req_EM_T 0 0); congruence. Qed.

Lemma check_ok v w : v <> [] -> match w with Some w => length w = length v | None => True end -> check_vw v w = true.
Proof.
  intros H Hw. unfold check_vw. destruct v as [|x v]; [congruence|]. destruct w as [w|]; cbn; auto.
  rewrite Hw. apply Nat.eqb_refl.
Qed.
Lemma mean_plain v : v <> [] -> vector_mean v None = Some (avg v).
Proof. intros H. unfold vector_mean. rewrite check_ok by auto. cbn. unfold gsl_mean. rewrite running_avg; auto. Qed.
Lemma mean_weighted v w : v <> [] -> length w = length v -> Rsum w <> 0 ->
  vector_mean v (Some w) = Some (Rdot w v / Rsum w).
Proof.
  intros H Hl Hw. unfold vector_mean. rewrite check_ok by auto. cbn. unfold wloop1. rewrite wloop1_spec.
  rewrite !Rplus_0_l, Rsumf_snd' by auto. rewrite cdiv_ok by auto. do 2 f_equal. unfold Rdot. rewrite zip_combine.
  clear Hw H. revert w Hl; induction v as [|x v IH]; intros [|y w] Hl; try discriminate; [reflexivity|].
  cbn [combine map]. rewrite Rsumf_cons, Rsum_cons, IH by (cbn in Hl; lia). reflexivity.
Qed.

Lemma var_plain v : (2 <= length v)%nat -> vector_var v None = Some (svar v).
Proof.
  intros H. destruct (len2 v H) as (Hn & Hp & Hne). unfold vector_var. rewrite check_ok by auto. cbn [negb].
  unfold gsl_variance_m, gsl_mean. rewrite cdiv_ok by auto. f_equal. rewrite !running_avg by (auto; destruct v; auto; discriminate).
  unfold svar, avg at 1. rewrite map_length.
  rewrite (map_ext (fun x => (x - avg v) * (x - avg v)) (fun x => (x - avg v) ^ 2)) by (intros; ring).
  field. split; auto. apply len_ne0; auto.
Qed.
Lemma cov_plain v1 v2 : (2 <= length v1)%nat -> length v2 = length v1 -> vector_cov v1 v2 None = Some (scov v1 v2).
Proof.
  intros H Hl. destruct (len2 v1 H) as (Hn & Hp & Hne). unfold vector_cov. rewrite Hl, Nat.eqb_refl.
  replace (length v1 =? 0)%nat with false by (symmetry; apply Nat.eqb_neq; lia). cbn [negb orb].
  unfold gsl_covariance, gsl_mean. rewrite Hl, cdiv_ok by auto. f_equal.
  assert (v2 <> []) as Hne2 by (intros ->; cbn in Hl; lia).
  assert (length (zip_with (fun x y => (x - avg v1) * (y - avg v2)) v1 v2) = length v1) as EL
    by (rewrite zip_with_length, Hl; lia).
  rewrite (running_avg v1), (running_avg v2) by auto.
  rewrite running_avg by (intros E; rewrite E in EL; cbn in EL; lia).
  unfold scov, avg at 1. rewrite EL. field. split; auto. apply len_ne0; auto.
Qed.

(** -------- the weighted variance and covariance -------- *)
Lemma wlen_big w s : 11 / 10 <= s -> wlen w s = s.
Proof. intros H. unfold wlen. destruct (Rlt_dec s (11 / 10)); auto; lra. Qed.
Lemma cov_weighted v1 v2 w : v1 <> [] -> length v2 = length v1 -> length w = length v1 -> 11 / 10 <= Rsum w ->
  vector_cov v1 v2 (Some w) =
  Some ((Rsumf (fun p : R * (R * R) => snd (snd p) * fst p * fst (snd p)) (combine v1 (combine v2 w)) / Rsum w
        - Rsumf (fun p : R * (R * R) => snd (snd p) * fst p) (combine v1 (combine v2 w)) * Rsumf (fun p : R * (R * R) => snd (snd p) * fst (snd p)) (combine v1 (combine v2 w))
           / (Rsum w * Rsum w)) * (Rsum w / (Rsum w - 1))).
Proof.
  intros Hne Hl Hw HW. unfold vector_cov. rewrite Hl, Hw, Nat.eqb_refl.
  replace (length v1 =? 0)%nat with false by (symmetry; apply Nat.eqb_neq; destruct v1; cbn; [congruence|lia]).
  cbn [negb orb andb]. rewrite wloop3_spec, !Rplus_0_l.
  assert (Rsumf (fun p : R * (R * R) => snd (snd p)) (combine v1 (combine v2 w)) = Rsum w) as ->.
  { rewrite <- (Rsumf_snd' v2 w) by lia. clear - Hl Hw. revert v1 Hl Hw.
    assert (forall (c : list (R * R)) (v1 : list R), length v1 = length c ->
      Rsumf (fun p : R * (R * R) => snd (snd p)) (combine v1 c) = Rsumf snd c) as HH.
    { induction c as [|x c IH]; intros [|y v1] H; try discriminate; [reflexivity|]. cbn [combine].
      rewrite !Rsumf_cons, IH by (cbn in H; lia). reflexivity. }
    intros. apply HH. rewrite combine_length. lia. }
  rewrite wlen_big by auto. rewrite !cdiv_ok by nra. reflexivity.
Qed.
Lemma var_weighted v w : v <> [] -> length w = length v -> 11 / 10 <= Rsum w ->
  vector_var v (Some w) =
  Some ((Rsumf (fun p : R * R => snd p * (fst p * fst p)) (combine v w) / Rsum w
        - (Rsumf (fun p : R * R => snd p * fst p) (combine v w) / Rsum w) * (Rsumf (fun p : R * R => snd p * fst p) (combine v w) / Rsum w)) * Rsum w / (Rsum w - 1)).
Proof.
  intros Hne Hw HW. unfold vector_var. rewrite check_ok by auto. cbn [negb]. rewrite wloop2_spec, !Rplus_0_l.
  rewrite Rsumf_snd' by auto. rewrite wlen_big by auto. rewrite !cdiv_ok by lra. reflexivity.
Qed.

(** -------- replicates: weighted = unweighted on the expanded list -------- *)
Lemma Rdot_rep v1 : forall v2 ks, length v2 = length v1 -> length ks = length v1 ->
  Rdot (rep v1 ks) (rep v2 ks) = Rsumf (fun p : R * (R * R) => snd (snd p) * fst p * fst (snd p)) (combine v1 (combine v2 (map INR ks))).
Proof.
  induction v1 as [|x v1 IH]; intros [|y v2] [|k ks] H1 H2; try discriminate; [reflexivity|].
  rewrite !rep_cons. unfold Rdot. rewrite zip_with_app by (rewrite !replicate_length; auto).
  rewrite Rsum_app. fold (Rdot (rep v1 ks) (rep v2 ks)). rewrite IH by (cbn in *; lia). cbn [combine map].
  rewrite Rsumf_cons. cbn [fst snd]. f_equal. clear.
  induction k as [|k IH]; [cbn; rewrite Rsum_nil; lra|]. cbn [replicate zip_with]. rewrite Rsum_cons, IH, S_INR. lra.
Qed.
Lemma rep_ne v ks : length ks = length v -> (2 <= total ks)%nat -> (2 <= length (rep v ks))%nat /\ v <> [].
Proof.
  intros Hl Ht. rewrite rep_length by auto. split; auto. intros ->. destruct ks; [cbn in Ht; lia|discriminate].
Qed.
Lemma Rsum_INR ks : Rsum (map INR ks) = INR (total ks).
Proof. induction ks as [|k ks IH]; [reflexivity|]. cbn [map]. rewrite Rsum_cons, IH. cbn [total fold_right]. rewrite plus_INR. reflexivity. Qed.
Lemma combine3_1 v1 : forall v2 w : list R, length v2 = length v1 -> length w = length v1 ->
  Rsumf (fun p : R * (R * R) => snd (snd p) * fst p) (combine v1 (combine v2 w)) = Rsumf (fun p : R * R => snd p * fst p) (combine v1 w).
Proof.
  induction v1 as [|x v1 IH]; intros [|y v2] [|z w] H1 H2; try discriminate; [reflexivity|].
  cbn [combine]. rewrite !Rsumf_cons, IH by (cbn in *; lia). reflexivity.
Qed.
Lemma combine3_2 v1 : forall v2 w : list R, length v2 = length v1 -> length w = length v1 ->
  Rsumf (fun p : R * (R * R) => snd (snd p) * fst (snd p)) (combine v1 (combine v2 w)) = Rsumf (fun p : R * R => snd p * fst p) (combine v2 w).
Proof.
  induction v1 as [|x v1 IH]; intros [|y v2] [|z w] H1 H2; try discriminate; [reflexivity|].
  cbn [combine]. rewrite !Rsumf_cons, IH by (cbn in *; lia). reflexivity.
Qed.
Lemma combine3_self v1 : forall w : list R, length w = length v1 ->
  Rsumf (fun p : R * (R * R) => snd (snd p) * fst p * fst (snd p)) (combine v1 (combine v1 w)) = Rsumf (fun p : R * R => snd p * (fst p * fst p)) (combine v1 w).
Proof.
  induction v1 as [|x v1 IH]; intros [|z w] H2; try discriminate; [reflexivity|].
  cbn [combine]. rewrite !Rsumf_cons, IH by (cbn in *; lia). cbn. ring.
Qed.
Lemma combine3_sym v1 : forall v2 w : list R, length v2 = length v1 -> length w = length v1 ->
  Rsumf (fun p : R * (R * R) => snd (snd p) * fst p * fst (snd p)) (combine v1 (combine v2 w)) =
  Rsumf (fun p : R * (R * R) => snd (snd p) * fst p * fst (snd p)) (combine v2 (combine v1 w)).
Proof.
  induction v1 as [|x v1 IH]; intros [|y v2] [|z w] H1 H2; try discriminate; [reflexivity|].
  cbn [combine]. rewrite !Rsumf_cons, (IH v2 w) by (cbn in *; lia). cbn. ring.
Qed.

Lemma total_ge2 ks : (2 <= total ks)%nat -> 2 <= INR (total ks).
Proof. intros H. apply le_INR in H. cbn in H. lra. Qed.

Lemma cov_replicate v1 v2 ks : length v2 = length v1 -> length ks = length v1 -> (2 <= total ks)%nat ->
  vector_cov v1 v2 (Some (map INR ks)) = vector_cov (rep v1 ks) (rep v2 ks) None.
Proof.
  intros Hl Hk Ht. destruct (rep_ne v1 ks Hk Ht) as [H2 Hne]. pose proof (total_ge2 _ Ht) as Hw.
  rewrite cov_weighted; rewrite ?map_length; auto; [|rewrite Rsum_INR; lra].
  rewrite cov_plain; rewrite ?rep_length by lia; auto.
  rewrite Rsum_INR, <- Rdot_rep, combine3_1, combine3_2 by (rewrite ?map_length; lia). f_equal. unfold scov.
  rewrite scov_sum; [|destruct (rep v1 ks); [cbn in H2; lia|discriminate]|rewrite !rep_length; lia].
  rewrite rep_length by lia.
  rewrite <- (Rsumf_id (rep v1 ks)), <- (Rsumf_id (rep v2 ks)), !Rsumf_rep by lia. field. lra.
Qed.
Lemma var_replicate v ks : length ks = length v -> (2 <= total ks)%nat ->
  vector_var v (Some (map INR ks)) = vector_var (rep v ks) None.
Proof.
  intros Hk Ht. destruct (rep_ne v ks Hk Ht) as [H2 Hne]. pose proof (total_ge2 _ Ht) as Hw.
  rewrite var_weighted; rewrite ?map_length; auto; [|rewrite Rsum_INR; lra].
  rewrite var_plain; rewrite ?rep_length by lia; auto. f_equal. unfold svar.
  rewrite svar_sum by (destruct (rep v ks); [cbn in H2; lia|discriminate]).
  rewrite rep_length, Rsum_INR by lia. rewrite <- (Rsumf_id (rep v ks)), !Rsumf_rep by lia. field. lra.
Qed.
Lemma mean_replicate v ks : length ks = length v -> (0 < total ks)%nat ->
  vector_mean v (Some (map INR ks)) = vector_mean (rep v ks) None.
Proof.
  intros Hk Ht. assert (v <> []) as Hne by (intros ->; destruct ks; [cbn in Ht; lia|discriminate]).
  pose proof (rep_length v ks Hk) as EL.
  assert (rep v ks <> []) as Hr by (intros E; rewrite E in EL; cbn in EL; lia).
  assert (INR (total ks) <> 0) as Hz by (apply not_0_INR; lia).
  unfold vector_mean. rewrite !check_ok by (rewrite ?map_length; auto). cbn [negb]. unfold wloop1.
  rewrite wloop1_spec, !Rplus_0_l, Rsumf_snd, cdiv_ok by auto. f_equal. unfold gsl_mean. rewrite running_avg by auto. unfold avg.
  rewrite EL, <- (Rsumf_id (rep v ks)), Rsumf_rep by auto. reflexivity.
Qed.
Lemma central_replicate e v ks : length ks = length v -> (2 <= total ks)%nat ->
  central_pop e v (Some (map INR ks)) = central_pop e (rep v ks) None.
Proof.
  intros Hk Ht. destruct (rep_ne v ks Hk Ht) as [H2 Hne]. pose proof (total_ge2 _ Ht) as Hw.
  assert (rep v ks <> []) as Hr by (destruct (rep v ks); [cbn in H2; lia|discriminate]).
  unfold central_pop, wskewkurt. rewrite !check_ok by (rewrite ?map_length; auto). cbn [negb].
  rewrite mean_replicate by (auto; lia). rewrite mean_plain by auto.
  rewrite wloopk_spec, !Rplus_0_l, Rsumf_snd by auto. rewrite wlen_big by lra. rewrite cdiv_ok by lra. f_equal.
  unfold gsl_mean. rewrite (running_avg (rep v ks)) by auto. rewrite running_avg by (destruct (rep v ks); [auto|discriminate]).
  unfold avg at 2. rewrite map_length, rep_length by auto.
  fold (Rsumf (fun x => (x - avg (rep v ks)) ^ e) (rep v ks)). rewrite Rsumf_rep by auto. reflexivity.
Qed.

(** -------- symmetry and diagonal (all weights) -------- *)
Lemma cov_sym v1 v2 w : vector_cov v1 v2 w = vector_cov v2 v1 w.
Proof.
  unfold vector_cov.
  destruct (Nat.eqb_spec (length v1) (length v2)) as [E|E].
  2:{ replace (length v2 =? length v1)%nat with false by (symmetry; apply Nat.eqb_neq; lia). cbn [negb].
      rewrite !Bool.orb_true_r. reflexivity. }
  rewrite E, Nat.eqb_refl. cbn [negb]. destruct (length v2 =? 0)%nat; [reflexivity|]. cbn [orb].
  destruct w as [w|].
  - destruct (Nat.eqb_spec (length w) (length v2)) as [Ew|Ew]; [|reflexivity]. cbn [andb negb].
    rewrite !wloop3_spec, !Rplus_0_l.
    rewrite (combine3_sym v1 v2 w), (combine3_1 v1 v2 w), (combine3_2 v1 v2 w), (combine3_1 v2 v1 w), (combine3_2 v2 v1 w) by lia.
    assert (forall a b : list R, length b = length a -> length w = length a ->
      Rsumf (fun p : R * (R * R) => snd (snd p)) (combine a (combine b w)) = Rsum w) as HH.
    { intros a. revert w Ew. intros w' _. revert w'. induction a as [|x a IH]; intros [|z w'] [|y b] H1 H2; try discriminate; [reflexivity|].
      cbn [combine]. rewrite Rsumf_cons, IH, Rsum_cons by (cbn in *; lia). reflexivity. }
    rewrite !HH by lia. rewrite (Rmult_comm (Rsumf _ (combine v1 w))). reflexivity.
  - unfold gsl_covariance. rewrite E. destruct (cdiv _ _) as [r|]; [|reflexivity]. do 2 f_equal. f_equal.
    revert E. generalize (gsl_mean v1) (gsl_mean v2). clear. intros a b. revert v2.
    induction v1 as [|x v1 IH]; intros [|y v2] H; try discriminate; [reflexivity|]. cbn. f_equal; [ring|]. apply IH. cbn in H. lia.
Qed.

Lemma cov_diag v w : vector_cov v v w = vector_var v w.
Proof.
  unfold vector_cov, vector_var, check_vw. rewrite Nat.eqb_refl.
  destruct (length v =? 0)%nat; [reflexivity|]. cbn [negb orb andb]. destruct w as [w|].
  - destruct (Nat.eqb_spec (length w) (length v)) as [Ew|Ew]; [|reflexivity]. cbn [andb negb].
    rewrite wloop3_spec, wloop2_spec, !Rplus_0_l.
    rewrite combine3_self, combine3_1, combine3_2 by lia.
    assert (forall a : list R, length w = length a ->
      Rsumf (fun p : R * (R * R) => snd (snd p)) (combine a (combine a w)) = Rsumf (@snd R R) (combine a w)) as HH.
    { intros a. clear Ew. revert w. induction a as [|x a IH]; intros [|z w'] H1; try discriminate; [reflexivity|].
      cbn [combine]. rewrite !Rsumf_cons, IH by (cbn in *; lia). reflexivity. }
    rewrite HH by lia. set (len := wlen w _). unfold cdiv at 1 4.
    destruct (Req_EM_T len 0) as [E0|E0]; [reflexivity|].
    rewrite (cdiv_ok _ len) by auto. rewrite (cdiv_ok _ (len * len)) by nra. unfold cdiv.
    destruct (Req_EM_T (len - 1) 0); [reflexivity|]. f_equal. field. auto.
  - unfold gsl_covariance, gsl_variance_m. destruct (cdiv _ _); [|reflexivity]. do 2 f_equal. f_equal.
    generalize (gsl_mean v). clear. intros m. induction v as [|x v IH]; [reflexivity|]. cbn. f_equal. auto.
Qed.

(** -------- nonnegativity, correlation -------- *)
Lemma svar_nonneg v : (2 <= length v)%nat -> 0 <= svar v.
Proof.
  intros H. destruct (len2 v H) as (Hn & Hp & Hne). unfold svar. apply Rmult_le_pos; [|left; apply Rinv_0_lt_compat; auto].
  apply (Rsumf_nonneg (fun x => (x - avg v) ^ 2)). intros; apply pow2_ge_0.
Qed.
Lemma svar_zero v : (2 <= length v)%nat -> (svar v = 0 <-> forall x y, In x v -> In y v -> x = y).
Proof.
  intros H. destruct (len2 v H) as (Hn & Hp & Hne). unfold svar. split.
  - intros E. assert (Rsum (map (fun x => (x - avg v) ^ 2) v) = 0) as E0.
    { apply Rmult_eq_reg_r with (/ (INR (length v) - 1)); [|apply Rinv_neq_0_compat; auto]. unfold Rdiv in E. lra. }
    assert (forall x, In x v -> x = avg v) as HA.
    { intros x Hx. assert ((x - avg v) ^ 2 = 0) as Ex.
      { apply (Rsumf_zero (fun x => (x - avg v) ^ 2) v); auto. intros; apply pow2_ge_0. }
      nra. }
    intros x y Hx Hy. rewrite (HA x), (HA y); auto.
  - intros HC. destruct v as [|x0 v0] eqn:Ev; [congruence|]. rewrite <- Ev in *.
    assert (forall x, In x v -> x = x0) as HA by (intros; apply HC; auto; rewrite Ev; left; auto).
    assert (Rsum v = INR (length v) * x0) as Es.
    { rewrite <- Rsumf_id, (Rsumf_ext _ (fun _ => x0)) by auto. apply Rsumf_const. }
    assert (avg v = x0) as Ea by (unfold avg; rewrite Es; field; apply len_ne0; auto).
    replace (Rsum (map (fun x => (x - avg v) ^ 2) v)) with 0; [unfold Rdiv; lra|].
    fold (Rsumf (fun x => (x - avg v) ^ 2) v). rewrite (Rsumf_ext _ (fun _ => 0)); [rewrite Rsumf_const; lra|].
    intros x Hx. rewrite Ea, (HA x Hx). ring.
Qed.
Lemma scov_cs a b : (2 <= length a)%nat -> length b = length a -> scov a b ^ 2 <= svar a * svar b.
Proof.
  intros H Hl. destruct (len2 a H) as (Hn & Hp & Hne). unfold scov, svar. rewrite Hl. set (n := INR (length a) - 1) in *.
  rewrite zip_combine.
  pose proof (cauchy (fun p : R * R => fst p - avg a) (fun p => snd p - avg b) (combine a b)) as HC. cbn beta in HC.
  assert (Rsumf (fun p : R * R => (fst p - avg a) ^ 2) (combine a b) = Rsum (map (fun x => (x - avg a) ^ 2) a)) as E1.
  { generalize (avg a). clear - Hl. intros m. revert b Hl. induction a as [|x a IH]; intros [|y b] Hl; try discriminate; [reflexivity|].
    cbn [combine map]. rewrite Rsumf_cons, Rsum_cons, IH by (cbn in Hl; lia). reflexivity. }
  assert (Rsumf (fun p : R * R => (snd p - avg b) ^ 2) (combine a b) = Rsum (map (fun x => (x - avg b) ^ 2) b)) as E2.
  { generalize (avg b). clear - Hl. intros m. revert b Hl. induction a as [|x a IH]; intros [|y b] Hl; try discriminate; [reflexivity|].
    cbn [combine map]. rewrite Rsumf_cons, Rsum_cons, IH by (cbn in Hl; lia). reflexivity. }
  rewrite E1, E2 in HC. unfold Rsumf in HC.
  set (c := Rsum (map _ (combine a b))) in *. set (u := Rsum (map _ a)) in *. set (v := Rsum (map _ b)) in *.
  replace ((c / n) ^ 2) with (c ^ 2 / n ^ 2) by (field; lra). replace (u / n * (v / n)) with (u * v / n ^ 2) by (field; lra).
  apply Rmult_le_compat_r; auto. left. apply Rinv_0_lt_compat. nra.
Qed.
Lemma wvar_nonneg v w x : v <> [] -> length w = length v -> 11 / 10 <= Rsum w -> Forall (fun y => 0 <= y) w ->
  vector_var v (Some w) = Some x -> 0 <= x.
Proof.
  intros Hne Hl HW Hf. rewrite var_weighted by auto. intros [= <-]. set (W := Rsum w) in *.
  set (a := Rsumf (fun p : R * R => snd p * fst p) (combine v w)). set (q := Rsumf (fun p : R * R => snd p * (fst p * fst p)) (combine v w)).
  assert (0 <= W * (W * q - a * a)) as H.
  { replace (W * (W * q - a * a)) with (Rsumf (fun p : R * R => snd p * (W * fst p - a) ^ 2) (combine v w)).
    - apply Rsumf_nonneg. intros [x y] Hin. apply in_combine_r in Hin. rewrite List.Forall_forall in Hf.
      apply Rmult_le_pos; [apply Hf; auto|apply pow2_ge_0].
    - rewrite (Rsumf_ext _ (fun p => (W ^ 2 * (snd p * (fst p * fst p)) + (- 2 * W * a) * (snd p * fst p)) + a ^ 2 * snd p)) by (intros; ring).
      rewrite (Rsumf_plus (fun p => W ^ 2 * (snd p * (fst p * fst p)) + (- 2 * W * a) * (snd p * fst p))),
        (Rsumf_plus (fun p => W ^ 2 * (snd p * (fst p * fst p)))), !Rsumf_scal, Rsumf_snd' by auto.
      fold a q W. ring. }
  replace ((q / W - a / W * (a / W)) * W / (W - 1)) with ((W * (W * q - a * a)) / (W ^ 2 * (W - 1))) by (field; lra).
  apply Rmult_le_pos; auto. left. apply Rinv_0_lt_compat. apply Rmult_lt_0_compat; [nra|lra].
Qed.
Lemma corr_plain a b : (2 <= length a)%nat -> length b = length a -> svar a <> 0 -> svar b <> 0 ->
  exists r, vector_correlation a b None = Some r /\ r = scov a b / (sqrt (svar a) * sqrt (svar b)) /\ -1 <= r <= 1.
Proof.
  intros H Hl Ha Hb. pose proof (svar_nonneg a H) as Pa. assert (2 <= length b)%nat as H' by lia. pose proof (svar_nonneg b H') as Pb.
  assert (0 < svar a * svar b) as Pab by (apply Rmult_lt_0_compat; lra).
  pose proof (sqrt_lt_R0 _ Pab) as Ps. unfold vector_correlation. rewrite cov_plain, !var_plain by auto.
  unfold csqrt. destruct (Rlt_dec _ 0); [lra|]. rewrite cdiv_ok by lra. eexists. split; [reflexivity|].
  rewrite sqrt_mult by lra. split; [reflexivity|].
  rewrite <- sqrt_mult by lra. pose proof (scov_cs a b H Hl) as HC.
  assert (Rabs (scov a b) <= sqrt (svar a * svar b)) as HA.
  { rewrite <- sqrt_Rsqr_abs. apply sqrt_le_1_alt. unfold Rsqr. lra. }
  assert (Rabs (scov a b / sqrt (svar a * svar b)) <= 1) as HB.
  { unfold Rdiv. rewrite Rabs_mult, (Rabs_right (/ _)) by (left; apply Rinv_0_lt_compat; auto).
    apply Rmult_le_reg_r with (sqrt (svar a * svar b)); auto. rewrite Rmult_assoc, Rinv_l by lra. lra. }
  unfold Rabs in HB. destruct (Rcase_abs _); lra.
Qed.
