(** C83: apop_linear_constraint.  Vocabulary in ConsSpec. *)
From Coq Require Import Reals Ratan Lra.
From Verif Require Import DataModel StatsModel StatsSpec StatsProofs LinModel LinProps OlsModel OlsProofs DistProps ConsModel ConsSpec.
Local Open Scope list_scope.
Local Open Scope R_scope.

(** ** scalar products *)
Lemma ddot_dot x : forall y r, ddot_loop x y r = r + Rdot x y.
Proof. induction x as [|a x IH]; intros [|b y] r; cbn [ddot_loop]; unfold Rdot; cbn [zip_with]; try (rewrite Rsum_nil; lra). rewrite IH, Rsum_cons. unfold Rdot. lra. Qed.
Lemma dot_cons a x b y : Rdot (a :: x) (b :: y) = a * b + Rdot x y.
Proof. unfold Rdot. cbn [zip_with]. apply Rsum_cons. Qed.
Lemma dot_comm x : forall y, Rdot x y = Rdot y x.
Proof. induction x as [|a x IH]; intros [|b y]; try reflexivity. rewrite !dot_cons, IH. ring. Qed.
Lemma dot_vadd x : forall y z, length x = length y -> Rdot (vadd x y) z = Rdot x z + Rdot y z.
Proof. induction x as [|a x IH]; intros [|b y] [|c z] H; cbn in H; try lia; try (cbn; unfold Rdot; cbn; lra). cbn [vadd zip_with]. fold (vadd x y). rewrite !dot_cons, IH by lia. ring. Qed.
Lemma dot_vscale k x : forall z, Rdot (vscale k x) z = k * Rdot x z.
Proof. induction x as [|a x IH]; intros [|c z]; try (cbn; unfold Rdot; cbn; lra). cbn [vscale map]. fold (vscale k x). rewrite !dot_cons, IH. ring. Qed.
Lemma dot_self_nonneg x : 0 <= Rdot x x.
Proof. induction x as [|a x IH]; [unfold Rdot; cbn; lra|]. rewrite dot_cons. nra. Qed.
Definition vsub (a b : list R) : list R := vadd a (vscale (-1) b).
Lemma len_vscale k x : length (vscale k x) = length x.
Proof. apply map_length. Qed.
Lemma len_vadd x y : length x = length y -> length (vadd x y) = length x.
Proof. intros H. unfold vadd. rewrite zip_with_length. lia. Qed.
Lemma eu_dot a : forall b, length a = length b -> eu a b = R_sqrt.sqrt (Rdot (vsub a b) (vsub a b)).
Proof.
  intros b H. unfold eu. f_equal. revert b H. induction a as [|x a IH]; intros [|y b] H; cbn in H; try lia; [reflexivity|]. cbn [zip_with vsub vadd vscale map]. rewrite Rsum_cons, dot_cons. rewrite IH by lia. unfold vsub, vadd, vscale. ring.
Qed.
Lemma distance_ok a b : length a = length b -> distance a b = Ok (eu a b).
Proof.
  intros H. unfold distance, vector_distance. rewrite (proj2 (Nat.eqb_eq _ _) H). cbn. f_equal. unfold eu. f_equal. assert (G : forall a b s, length a = length b -> fold_left (fun d '(x, y) => d + (x - y) * (x - y)) (combine a b) s = s + Rsum (zip_with (fun x y => (x - y) ^ 2) a b)).
  { clear. induction a as [|x a IH]; intros [|y b] s H; cbn in H; try lia; cbn [combine fold_left zip_with]; [rewrite Rsum_nil; lra|]. rewrite IH, Rsum_cons by lia. ring. } rewrite G by auto. lra.
Qed.
Ltac dots := repeat (rewrite dot_vadd by (rewrite ?len_vadd, ?len_vscale; rewrite ?len_vscale; congruence || lia) || rewrite dot_vscale || (rewrite (dot_comm _ (vadd _ _)), dot_vadd by (rewrite ?len_vadd, ?len_vscale; rewrite ?len_vscale; congruence || lia)) || rewrite (dot_comm _ (vscale _ _)), dot_vscale).
Lemma dot_axpy z x s r : length x = length r -> Rdot z (vadd x (vscale s r)) = Rdot z x + s * Rdot z r.
Proof. intros H. rewrite (dot_comm z), dot_vadd by (rewrite len_vscale; auto). rewrite dot_vscale, (dot_comm x), (dot_comm r). reflexivity. Qed.
Lemma dot_axpy_l z x s r : length x = length r -> Rdot (vadd x (vscale s r)) z = Rdot x z + s * Rdot r z.
Proof. intros H. rewrite dot_vadd by (rewrite len_vscale; auto). rewrite dot_vscale. reflexivity. Qed.
Lemma len_axpy x s r : length x = length r -> length (vadd x (vscale s r)) = length x.
Proof. intros H. apply len_vadd. rewrite len_vscale. auto. Qed.
(** x is nearest to beta if the step from beta makes no obtuse angle with a step to any other point *)
Lemma nearest_angle beta x y : length x = length beta -> length y = length beta -> 0 <= Rdot (vsub x beta) (vsub y x) -> eu beta x <= eu beta y /\ eu beta y ^ 2 = eu beta x ^ 2 + 2 * Rdot (vsub x beta) (vsub y x) + eu x y ^ 2.
Proof.
  intros Hx Hy H. rewrite !eu_dot by congruence. rewrite <- !Rsqr_pow2, !Rsqr_sqrt by apply dot_self_nonneg. assert (E : Rdot (vsub beta y) (vsub beta y) = Rdot (vsub beta x) (vsub beta x) + 2 * Rdot (vsub x beta) (vsub y x) + Rdot (vsub x y) (vsub x y)).
  { clear H. unfold vsub. revert x y Hx Hy. induction beta as [|b beta IH]; intros [|p x] [|q y] Hx Hy; cbn in Hx, Hy; try lia; [unfold Rdot; cbn; lra|]. cbn [vadd vscale map zip_with]. rewrite !dot_cons. unfold vadd, vscale in IH. rewrite (IH x y) by lia. ring. }
  split; [|exact E]. apply sqrt_le_1_alt. rewrite E. pose proof (dot_self_nonneg (vsub x y)). lra.
Qed.
Lemma eu_zero a b : length a = length b -> eu a b = 0 -> a = b.
Proof.
  intros H E. assert (Z : Rsum (zip_with (fun x y => (x - y) ^ 2) a b) = 0). { apply sqrt_eq_0; auto. clear. revert b. induction a as [|x a IH]; intros [|y b]; cbn [zip_with]; try (rewrite Rsum_nil; lra). rewrite Rsum_cons. specialize (IH b). pose proof (pow2_ge_0 (x - y)). lra. }
  clear E. revert b H Z. induction a as [|x a IH]; intros [|y b] H Z; cbn in H; try lia; auto. cbn [zip_with] in Z. rewrite Rsum_cons in Z. assert (0 <= Rsum (zip_with (fun x y => (x - y) ^ 2) a b)). { clear. revert b. induction a as [|x a IH]; intros [|y b]; cbn [zip_with]; try (rewrite Rsum_nil; lra). rewrite Rsum_cons. specialize (IH b). pose proof (pow2_ge_0 (x - y)). lra. }
  pose proof (pow2_ge_0 (x - y)). assert (Q : (x - y) ^ 2 = 0) by lra. f_equal; [nra|]. apply IH; [lia|lra].
Qed.
Lemma eu_nonneg a b : 0 <= eu a b.
Proof. apply sqrt_pos. Qed.
Lemma find_nearest_ok v k b : length v = length b -> Rdot b b <> 0 -> find_nearest v k b = Ok (vadd v (vscale ((k - Rdot b v) / Rdot b b) b)).
Proof.
  intros H Hb. unfold find_nearest, magnitude, cdiv. rewrite !ddot_dot, !Rplus_0_l. destruct (Req_EM_T (Rdot b b) 0); [contradiction|]. cbn [or_ub rbind]. f_equal. replace ((k - Rdot b v) / Rdot b b) with (- ((Rdot b v - k) / Rdot b b)) by (field; auto). generalize (- ((Rdot b v - k) / Rdot b b)). intros s. clear Hb n. revert b H. induction v as [|x v IH]; intros [|y b] H; cbn in H; try lia; auto. cbn [vadd vscale map zip_with]. unfold vadd, vscale in IH. rewrite IH by lia. f_equal. ring.
Qed.
Lemma binds_ok v k b m : binds v k b m = true <-> Rdot b v < k + m.
Proof. unfold binds. rewrite ddot_dot, Rplus_0_l, dot_comm. destruct (Rlt_dec _ _); cbn; split; intros; auto; try discriminate; lra. Qed.

(** ** met constraints *)
Theorem C83_met beta c margin st : (forall k r, In (k, r) c -> length r = length beta /\ k + margin <= Rdot r beta) -> exists st', linear_constraint beta (Some c) margin st = Ok (0, beta, st').
Proof.
  intros H. unfold linear_constraint. assert (F : forallb (fun '(_, r) => (length r =? length beta)%nat) c = true). { apply forallb_forall. intros [k r] Hin. apply Nat.eqb_eq. eapply H; eauto. } rewrite F. cbn [negb].
  assert (B : forall i, nth i (map (fun '(k, r) => binds beta k r margin) c) false = false). { intros i. destruct (nth_in_or_default i (map (fun '(k, r) => binds beta k r margin) c) false) as [Hin|E]; auto. apply in_map_iff in Hin as ([k r] & E & Hin). rewrite <- E. destruct (binds beta k r margin) eqn:Eb; auto. apply binds_ok in Eb. apply H in Hin. lra. }
  match goal with |- context [match ?l with [] => _ | _ :: _ => _ end] => assert (E : l = []) end; [|rewrite E; eauto]. generalize (seq 0 (length c)). intros l. induction l as [|i l IH]; auto. rewrite filter_cons. rewrite decide_False; auto. rewrite B. discriminate.
Qed.
(** ** one constraint *)
Lemma bound_one (P : bool) : filter (fun i => nth i [P] false = true) (seq 0 1) = if P then [0%nat] else [].
Proof. destruct P; reflexivity. Qed.
Lemma vadd_zero a b : length a = length b -> vadd a (vscale 0 b) = a.
Proof. revert b. induction a as [|x a IH]; intros [|y b] H; cbn in H; try lia; auto. cbn [vscale map vadd zip_with]. fold (vscale 0 b). fold (vadd a (vscale 0 b)). rewrite IH by lia. f_equal. ring. Qed.
Lemma eu_self x : eu x x = 0.
Proof. unfold eu. replace (Rsum _) with 0; [apply sqrt_0|]. induction x as [|a b IH]; [reflexivity|]. cbn [zip_with]. rewrite Rsum_cons, <- IH. ring. Qed.
(** one constraint, any margin (only 0 unless the normal has length 1) *)
Theorem C83_one beta k r margin st : length r = length beta -> Rdot r r <> 0 -> margin = 0 \/ Rdot r r = 1 -> exists x st', linear_constraint beta (Some [(k, r)]) margin st = Ok (eu beta x, x, st') /\ nearest [(k + margin, r)] beta x /\ (k + margin <= Rdot r beta -> x = beta).
Proof.
  intros L N HM. assert (P : 0 < Rdot r r) by (pose proof (dot_self_nonneg r); lra). destruct (Rle_dec (k + margin) (Rdot r beta)) as [M|M].
  - destruct (C83_met beta [(k, r)] margin st) as (st' & E). { intros k' r' [[= <- <-]|[]]. split; auto. } exists beta, st'. rewrite eu_self. split; [auto|]. split; [|auto]. split; [auto|]. split; [intros k' r' [[= <- <-]|[]]; auto|]. intros. rewrite eu_self. apply eu_nonneg.
  - unfold linear_constraint. cbn [forallb map length]. rewrite (proj2 (Nat.eqb_eq _ _) L). cbn [andb negb]. rewrite bound_one. assert (B : binds beta k r margin = true) by (apply binds_ok; lra). rewrite B. rewrite find_nearest_ok by auto. cbn [rbind fold_left]. set (s0 := (k - Rdot r beta) / Rdot r r). change ([(k, r)] !! 0%nat) with (Some (k, r)). cbv iota. set (s := (k + margin - Rdot r beta) / Rdot r r). set (x := vadd beta (vscale s r)).
    assert (Ex : vadd (vadd beta (vscale s0 r)) (vscale margin (vscale (magnitude r) r)) = x).
    { unfold magnitude. rewrite ddot_dot, Rplus_0_l. assert (Q : s = s0 + margin * Rdot r r). { unfold s, s0. destruct HM as [-> | ->]; field; auto. } unfold x. rewrite Q. clear -L. generalize s0. clear s0. intros s0. generalize (Rdot r r). intros d. revert r L. induction beta as [|y b IH]; intros [|z r] L; cbn in L; try lia; auto. cbn [vadd vscale map zip_with]. unfold vadd, vscale in IH. rewrite IH by lia. f_equal. ring. }
    rewrite Ex. assert (Lx : length x = length beta) by (unfold x; apply len_axpy; auto). rewrite distance_ok by auto. cbn [rbind]. exists x. eexists. split; [reflexivity|]. assert (Es : Rdot r x = k + margin). { unfold x. rewrite dot_axpy by auto. unfold s. field. auto. } split; [|intros; lra].
    split; [auto|]. split; [intros k' r' [[= <- <-]|[]]; lra|]. intros y Ly My. apply nearest_angle; auto. assert (Ev : Rdot (vsub x beta) (vsub y x) = s * (Rdot r y - Rdot r x)).
    { unfold vsub. rewrite dot_axpy_l, !dot_axpy by congruence. unfold x. rewrite !dot_axpy_l, !dot_axpy by congruence. rewrite (dot_comm beta r). ring. }
    rewrite Ev. assert (0 < s) by (apply Rdiv_lt_0_compat; lra). pose proof (My (k + margin) r (or_introl eq_refl)). nra.
Qed.

(** ** several constraints: the closest of the candidates and the remembered point *)
Definition feasible (c : list (R * list R)) (beta x : list R) := length x = length beta /\ meets c x.
Lemma best_ok beta c m l : (forall i, In i l -> exists y, get_candidate beta c i m = Ok y /\ feasible c beta y) -> forall pt, (forall p, pt = Some p -> feasible c beta p) ->
  exists q, best beta c m l pt = Ok q /\ (forall x, q = Some x -> feasible c beta x) /\ (forall i y, In i l -> get_candidate beta c i m = Ok y -> exists x, q = Some x /\ eu beta x <= eu beta y) /\ (forall p, pt = Some p -> exists x, q = Some x /\ eu beta x <= eu beta p).
Proof.
  induction l as [|i l IH]; intros Hl pt Hpt; cbn [best].
  - exists pt. repeat split; auto; try (intros ? ? []); try (eapply Hpt; eauto). intros p ->. exists p. split; auto. lra.
  - destruct (Hl i) as (y & Ey & Fy); [now left|]. rewrite Ey. cbn [rbind]. rewrite distance_ok by (symmetry; apply Fy). cbn [rbind]. specialize (IH (fun j H => Hl j (or_intror H))).
    assert (G : forall pt', (forall p, pt' = Some p -> feasible c beta p) -> (exists p, pt' = Some p /\ eu beta p <= eu beta y) -> (forall p, pt = Some p -> exists p', pt' = Some p' /\ eu beta p' <= eu beta p) ->
      exists q, best beta c m l pt' = Ok q /\ (forall x, q = Some x -> feasible c beta x) /\ (forall i0 y0, In i0 (i :: l) -> get_candidate beta c i0 m = Ok y0 -> exists x, q = Some x /\ eu beta x <= eu beta y0) /\ (forall p, pt = Some p -> exists x, q = Some x /\ eu beta x <= eu beta p)).
    { intros pt' Hp' (p & Ep & Lp) Hold. destruct (IH pt' Hp') as (q & E & Q1 & Q2 & Q3). exists q. split; [auto|]. split; [auto|]. destruct (Q3 p Ep) as (x & -> & Lx). split.
      - intros j z [<-|Hj] Ez; [|eapply Q2; eauto]. rewrite Ey in Ez. injection Ez as <-. exists x. split; auto. lra.
      - intros p0 Hp0. destruct (Hold p0 Hp0) as (p' & Ep' & Lp'). destruct (Q3 p' Ep') as (x' & [= <-] & Lx'). exists x. split; auto. lra. }
    destruct pt as [p|]; cbn [rbind].
    + rewrite distance_ok by (symmetry; apply (Hpt p eq_refl)). cbn [rbind]. destruct (Rlt_dec (eu beta y) (eu beta p)) as [D|D]; cbn [bool_of].
      * apply G. { intros ? [= <-]. auto. } { exists y. split; auto. lra. } { intros ? [= <-]. exists y. split; auto. lra. }
      * apply G; auto. { exists p. split; auto. lra. } { intros ? [= <-]. exists p. split; auto. lra. }
    + apply G. { intros ? [= <-]. auto. } { exists y. split; auto. lra. } { discriminate. }
Qed.
Lemma fold_margin_0 (c : list (R * list R)) n l : (forall k r, In (k, r) c -> length r = n) -> forall x, length x = n -> fold_left (fun b i => match c !! i with Some (_, r) => vadd b (vscale 0 (vscale (magnitude r) r)) | None => b end) l x = x.
Proof. intros H. induction l as [|i l IH]; intros x Hx; cbn [fold_left]; auto. destruct (c !! i) as [[k r]|] eqn:E; [|auto]. rewrite vadd_zero; auto. rewrite len_vscale, Hx. symmetry. eapply H. apply elem_of_list_In. eapply elem_of_list_lookup_2; eauto. Qed.
(** the points that calls leave in the scratch *)
Definition scratch_ok (c : nat -> list (R * list R)) (st : option scratch) := forall s p, st = Some s -> sc_pt s = Some p -> length p = sc_size s /\ meets (c (sc_size s)) p.
Lemma in_bound beta (c : list (R * list R)) m i : In i (filter (fun i => nth i (map (fun '(k, r) => binds beta k r m) c) false = true) (seq 0 (length c))) <-> exists k r, c !! i = Some (k, r) /\ Rdot r beta < k + m.
Proof.
  rewrite <- elem_of_list_In, elem_of_list_filter. split.
  - intros [H Hi]. apply elem_of_seq in Hi. destruct (c !! i) as [[k r]|] eqn:E. 2: { apply lookup_ge_None_1 in E. lia. } exists k, r. split; auto. apply binds_ok. rewrite <- H. symmetry. apply nth_lookup_Some with (d := false). rewrite list_lookup_fmap, E. reflexivity.
  - intros (k & r & E & B). split; [|apply elem_of_seq; apply lookup_lt_Some in E; lia]. apply binds_ok in B. rewrite <- B. apply nth_lookup_Some. rewrite list_lookup_fmap, E. reflexivity.
Qed.
(** if every binding constraint gives a feasible candidate and one of them is the nearest point, so is what comes out *)
Lemma several beta c st cs : (2 <= length c)%nat -> cs (length beta) = c -> (forall k r, In (k, r) c -> length r = length beta) -> scratch_ok cs st -> ~ meets c beta ->
  (forall i k r, c !! i = Some (k, r) -> Rdot r beta < k -> exists y, get_candidate beta c i 0 = Ok y /\ feasible c beta y) ->
  (exists i k r y, c !! i = Some (k, r) /\ Rdot r beta < k /\ get_candidate beta c i 0 = Ok y /\ nearest c beta y) ->
  exists x st', linear_constraint beta (Some c) 0 st = Ok (eu beta x, x, st') /\ nearest c beta x /\ scratch_ok cs st'.
Proof.
  intros Hc Ecs Hlen Hst Hm Hall Hone. unfold linear_constraint. assert (F : forallb (fun '(_, r) => (length r =? length beta)%nat) c = true). { apply forallb_forall. intros [k r] Hin. apply Nat.eqb_eq. eapply Hlen; eauto. } rewrite F. cbn [negb].
  set (st0 := match st with Some s => _ | None => _ end). assert (Hst0 : sc_size st0 = length beta /\ forall p, sc_pt st0 = Some p -> feasible c beta p).
  { unfold st0. destruct st as [s|]; [|split; [reflexivity|discriminate]]. destruct (sc_size s =? length beta)%nat eqn:E; [|split; [reflexivity|discriminate]]. apply Nat.eqb_eq in E. split; auto. intros p Hp. destruct (Hst s p eq_refl Hp) as [A B]. rewrite E in A, B. rewrite Ecs in B. split; auto. }
  clearbody st0. destruct Hst0 as [_ Hst0]. set (bound := filter _ _). assert (Hb : forall i, In i bound <-> exists k r, c !! i = Some (k, r) /\ Rdot r beta < k + 0) by (intros; apply in_bound). clearbody bound.
  assert (Hpt : forall i, In i bound -> exists y, get_candidate beta c i 0 = Ok y /\ feasible c beta y). { intros i Hi. apply Hb in Hi as (k & r & E & B). apply (Hall i k r E). lra. }
  destruct (best_ok beta c 0 bound Hpt (sc_pt st0) Hst0) as (q & Eq & Q1 & Q2 & Q3). destruct Hone as (i & k & r & y & E & B & Ey & Ny). assert (Hi : In i bound). { apply Hb. exists k, r. split; auto. lra. } destruct (Q2 i y Hi Ey) as (x & -> & Lx). destruct bound as [|b0 bs] eqn:Eb0; [destruct Hi|]. rewrite <- Eb0 in *.
  assert (Ec : match c with [(k, r)] => do x <- find_nearest beta k r; Ok (x, st0) | _ => do pt <- best beta c 0 bound (sc_pt st0); do x <- or_ub pt; Ok (x, Sc (length beta) (Some x)) end = Ok (x, Sc (length beta) (Some x))). { destruct c as [|[k1 r1] [|c2 c']]; cbn in Hc; try lia. rewrite Eq. reflexivity. }
  destruct (Q1 x eq_refl) as [Lx' Mx]. subst bound. rewrite Ec. cbn [rbind]. rewrite (fold_margin_0 c (length beta)) by auto. rewrite distance_ok by auto. cbn [rbind]. exists x. eexists. split; [reflexivity|]. split.
  - split; [auto|]. split; [auto|]. intros z Lz Mz. destruct Ny as (_ & _ & Ny). specialize (Ny z Lz Mz). lra.
  - intros s p [= <-] [= <-]. cbn. rewrite Ecs. auto.
Qed.
Lemma met_ok beta c st cs : (forall k r, In (k, r) c -> length r = length beta /\ k <= Rdot r beta) -> scratch_ok cs st -> exists st', linear_constraint beta (Some c) 0 st = Ok (0, beta, st') /\ scratch_ok cs st'.
Proof.
  intros H Hst. destruct (C83_met beta c 0 st) as (st' & E). { intros k r Hin. destruct (H k r Hin). split; auto. lra. } exists st'. split; auto. revert E. unfold linear_constraint. destruct (negb _); [discriminate|]. set (st0 := match st with Some s => _ | None => _ end). assert (S0 : scratch_ok cs (Some st0)).
  { unfold st0. destruct st as [s|]; [|intros s p [= <-]; discriminate]. destruct (sc_size s =? length beta)%nat eqn:E; [exact Hst|]. intros s' p [= <-]. discriminate. }
  clearbody st0. assert (B : filter (fun i => nth i (map (fun '(k, r) => binds beta k r 0) c) false = true) (seq 0 (length c)) = []). { destruct (filter _ _) as [|i l] eqn:E; auto. exfalso. assert (Hi : In i (i :: l)) by now left. rewrite <- E in Hi. apply in_bound in Hi as (k & r & Hi & Hb). apply elem_of_list_lookup_2, elem_of_list_In, H in Hi. lra. }
  rewrite B. intros [= <-]. exact S0.
Qed.
(** ** two constraints, normals of length 1, not parallel *)
Lemma trig_ok a b d : Rdot a a = 1 -> Rdot b b = 1 -> -1 < Rdot a b < 1 -> trig_bit a b d = Ok (d / (1 - Rdot a b ^ 2)).
Proof.
  intros Ha Hb Hr. unfold trig_bit, magnitude. rewrite !ddot_dot, !Rplus_0_l, Ha, Hb. unfold cdiv at 1. destruct (Req_EM_T (1 * 1) 0) as [E|_]; [lra|]. cbn [or_ub rbind]. replace (Rdot a b / (1 * 1)) with (Rdot a b) by field. destruct (Rle_dec (-1) (Rdot a b)); [|lra]. destruct (Rle_dec (Rdot a b) 1); [|lra].
  assert (E : sin (acos (Rdot a b)) ^ 2 = 1 - Rdot a b ^ 2). { pose proof (sin2_cos2 (acos (Rdot a b))) as H. rewrite cos_acos in H by lra. unfold Rsqr in H. lra. } rewrite E. unfold cdiv. destruct (Req_EM_T _ 0) as [Z|_]; [|reflexivity]. exfalso. assert (Rdot a b ^ 2 < 1); [|lra]. nra.
Qed.
Lemma eu_axpy x t b : length x = length b -> Rdot b b = 1 -> eu x (vadd x (vscale t b)) = Rabs t.
Proof.
  intros L U. rewrite eu_dot by (rewrite len_axpy; auto). rewrite <- sqrt_Rsqr_abs. f_equal. unfold vsub. assert (E : vadd x (vscale (-1) (vadd x (vscale t b))) = vscale (- t) b). { clear U. revert b L. induction x as [|y x IH]; intros [|z b] L; cbn in L; try lia; auto. cbn [vadd vscale map zip_with]. unfold vadd, vscale in IH. rewrite IH by lia. f_equal. ring. }
  rewrite E, dot_vscale, dot_comm, dot_vscale, U. unfold Rsqr. ring.
Qed.
Section Two.
Context (beta a b : list R) (h g : R).
Hypothesis La : length a = length beta.
Hypothesis Lb : length b = length beta.
Hypothesis Ua : Rdot a a = 1.
Hypothesis Ub : Rdot b b = 1.
Hypothesis Hr : -1 < Rdot a b < 1.
Let u := h - Rdot a beta.
Let v := g - Rdot b beta.
Let rho := Rdot a b.
Let X s t := vadd (vadd beta (vscale s a)) (vscale t b).
Lemma lenX s t : length (X s t) = length beta.
Proof. unfold X. rewrite len_axpy, len_axpy; auto. rewrite len_axpy; congruence. Qed.
Lemma aX s t : Rdot a (X s t) = Rdot a beta + s + t * rho.
Proof. unfold X. rewrite dot_axpy, dot_axpy by (rewrite ?len_axpy; congruence). rewrite Ua. unfold rho. ring. Qed.
Lemma bX s t : Rdot b (X s t) = Rdot b beta + s * rho + t.
Proof. unfold X. rewrite dot_axpy, dot_axpy by (rewrite ?len_axpy; congruence). rewrite Ub, (dot_comm b a). unfold rho. ring. Qed.
Lemma one_minus : 0 < 1 - rho ^ 2.
Proof. fold rho in Hr. nra. Qed.
(** the candidate of the constraint (h, a) when (g, b) is the other *)
Definition cs_s := if Rlt_dec 0 (v - u * rho) then Rabs (u - rho * v) / (1 - rho ^ 2) else u.
Definition cs_t := if Rlt_dec 0 (v - u * rho) then v - cs_s * rho else 0.
Lemma loop_two i cur c0 : i <> cur -> c0 = vadd beta (vscale u a) -> candidate_loop [(g, b)] i cur a h 0 beta c0 = Ok (X cs_s cs_t).
Proof.
  intros Hi Hc. cbn [candidate_loop]. rewrite (proj2 (Nat.eqb_neq _ _) Hi). cbn [negb andb].
  assert (Eb : Rdot b c0 = Rdot b beta + u * rho). { rewrite Hc, dot_axpy by congruence. rewrite (dot_comm b a). reflexivity. }
  unfold cs_s, cs_t, cs_s. destruct (binds c0 g b 0) eqn:B.
  - apply binds_ok in B. destruct (Rlt_dec 0 (v - u * rho)) as [_|N]; [|exfalso; apply N; unfold v; lra].
    rewrite find_nearest_ok by (try congruence; lra). rewrite Ub. replace ((g - Rdot b beta) / 1) with v by (unfold v; field). cbn [rbind]. set (p1 := vadd beta (vscale v b)). assert (Lp : length p1 = length beta) by (apply len_axpy; auto).
    rewrite find_nearest_ok by (try congruence; lra). rewrite Ua. cbn [rbind]. replace ((h - Rdot a p1) / 1) with (u - rho * v). 2: { unfold p1. rewrite dot_axpy by congruence. unfold u, rho. field. }
    rewrite distance_ok by (rewrite len_axpy; congruence). cbn [rbind]. rewrite eu_axpy by (congruence || auto). rewrite trig_ok by auto. cbn [rbind]. fold rho. set (s := Rabs (u - rho * v) / (1 - rho ^ 2)).
    assert (Ef : vadd beta (vscale s (vscale (magnitude a) a)) = vadd beta (vscale s a)). { unfold magnitude. rewrite ddot_dot, Rplus_0_l, Ua. f_equal. f_equal. clear. induction a as [|x l IH]; auto. cbn [vscale map]. unfold vscale in IH. rewrite IH. f_equal. ring. }
    rewrite Ef. rewrite find_nearest_ok by (try (rewrite len_axpy; congruence); lra). cbn [rbind]. rewrite Ub. f_equal. unfold X. f_equal. f_equal. rewrite dot_axpy by congruence. rewrite (dot_comm b a). fold rho. unfold v. field.
  - assert (B' : ~ Rdot b c0 < g + 0). { intros H. apply binds_ok in H. congruence. } destruct (Rlt_dec 0 (v - u * rho)) as [N|_]; [exfalso; unfold v in N; lra|]. f_equal. rewrite Hc. unfold X. rewrite vadd_zero; auto. rewrite len_axpy; congruence.
Qed.
Lemma nearest0 : find_nearest beta h a = Ok (vadd beta (vscale u a)).
Proof. rewrite find_nearest_ok by (try congruence; lra). rewrite Ua. unfold u. repeat f_equal. field. Qed.
(** it meets both constraints *)
Lemma two_feasible : u <= cs_s + cs_t * rho /\ v <= cs_s * rho + cs_t.
Proof.
  unfold cs_s, cs_t, cs_s. pose proof one_minus as O. destruct (Rlt_dec 0 (v - u * rho)) as [D|D]; [|split; lra]. set (s := Rabs (u - rho * v) / (1 - rho ^ 2)). split; [|lra]. assert (E : s * (1 - rho ^ 2) = Rabs (u - rho * v)) by (unfold s; field; lra). pose proof (Rle_abs (u - rho * v)). replace (s + (v - s * rho) * rho) with (s * (1 - rho ^ 2) + v * rho) by ring. lra.
Qed.
Lemma X_feasible : Rdot a (X cs_s cs_t) >= h /\ Rdot b (X cs_s cs_t) >= g.
Proof. rewrite aX, bX. pose proof two_feasible. unfold u, v in H. lra. Qed.
(** unless the projection of beta on the other surface already meets this constraint, it is the nearest point *)
Lemma two_kkt y : 0 < u -> (0 < v - u * rho -> 0 <= u - rho * v) -> length y = length beta -> h <= Rdot a y -> g <= Rdot b y -> eu beta (X cs_s cs_t) <= eu beta y.
Proof.
  intros Hu Hp Ly Hay Hby. apply nearest_angle; auto using lenX.
  assert (Ev : Rdot (vsub (X cs_s cs_t) beta) (vsub y (X cs_s cs_t)) = cs_s * (Rdot a y - Rdot a (X cs_s cs_t)) + cs_t * (Rdot b y - Rdot b (X cs_s cs_t))).
  { set (x := X cs_s cs_t). assert (Lx : length x = length beta) by apply lenX. unfold vsub. rewrite dot_axpy_l, !dot_axpy by congruence. assert (G : forall z, Rdot x z = Rdot beta z + cs_s * Rdot a z + cs_t * Rdot b z). { intros z. unfold x, X. rewrite !dot_axpy_l by (rewrite ?len_axpy; congruence). ring. } rewrite !(G y), !(G x). ring. }
  rewrite Ev, aX, bX. pose proof two_feasible as [F1 F2]. pose proof one_minus as O. unfold cs_s, cs_t, cs_s in *. destruct (Rlt_dec 0 (v - u * rho)) as [D|D].
  - specialize (Hp D). rewrite Rabs_right in * by lra. set (s := (u - rho * v) / (1 - rho ^ 2)) in *. assert (E : s * (1 - rho ^ 2) = u - rho * v) by (unfold s; field; lra). assert (Hs : 0 <= s) by (apply Rmult_le_pos; [lra|left; apply Rinv_0_lt_compat; lra]).
    assert (Ht : v - s * rho = (v - u * rho) / (1 - rho ^ 2)) by (unfold s; field; lra). assert (0 <= v - s * rho). { rewrite Ht. apply Rmult_le_pos; [lra|left; apply Rinv_0_lt_compat; lra]. }
    assert (A : Rdot a beta + s + (v - s * rho) * rho = h). { replace (s + (v - s * rho) * rho) with (s * (1 - rho ^ 2) + v * rho) by ring. replace (Rdot a beta + s + (v - s * rho) * rho) with (Rdot a beta + (s * (1 - rho ^ 2) + v * rho)) by ring. rewrite E. unfold u. ring. }
    assert (B : Rdot b beta + s * rho + (v - s * rho) = g) by (unfold v; ring). rewrite A, B. apply Rplus_le_le_0_compat; apply Rmult_le_pos; lra.
  - replace (_ + _) with (u * (Rdot a y - h)) by (unfold u; ring). apply Rmult_le_pos; lra.
Qed.
End Two.

Lemma meets_two h a g b x : meets [(h, a); (g, b)] x <-> h <= Rdot a x /\ g <= Rdot b x.
Proof. unfold meets. split. { intros H. split; apply H; cbn; auto. } intros [A B] k r [[= <- <-]|[[= <- <-]|[]]]; auto. Qed.
Definition ends_at (cs : list (R * list R)) := fun (_ : nat) => cs.
Lemma two_step beta a b h g st : length a = length beta -> length b = length beta -> Rdot a a = 1 -> Rdot b b = 1 -> -1 < Rdot a b < 1 -> scratch_ok (ends_at [(h, a); (g, b)]) st ->
  exists x st', linear_constraint beta (Some [(h, a); (g, b)]) 0 st = Ok (eu beta x, x, st') /\ nearest [(h, a); (g, b)] beta x /\ (meets [(h, a); (g, b)] beta -> x = beta) /\ scratch_ok (ends_at [(h, a); (g, b)]) st'.
Proof.
  intros La Lb Ua Ub Hr Hst. set (c := [(h, a); (g, b)]). assert (Hlen : forall k r, In (k, r) c -> length r = length beta) by (intros k r [[= <- <-]|[[= <- <-]|[]]]; auto).
  assert (Hr' : -1 < Rdot b a < 1) by (rewrite dot_comm; auto). pose proof (dot_comm b a) as Eab.
  assert (Dm : {meets c beta} + {~ meets c beta}). { destruct (Rle_dec h (Rdot a beta)) as [A|A]; [|right; intros M; apply meets_two in M; lra]. destruct (Rle_dec g (Rdot b beta)) as [B|B]; [|right; intros M; apply meets_two in M; lra]. left. apply meets_two. auto. }
  destruct Dm as [M|M].
  - destruct (met_ok beta c st (ends_at c)) as (st' & E & S'); [intros k r Hin; split; [eauto|exact (M k r Hin)]|auto|]. exists beta, st'. rewrite eu_self. split; [auto|]. split; [|auto]. split; [auto|]. split; [auto|]. intros. rewrite eu_self. apply eu_nonneg.
  - assert (G0 : get_candidate beta c 0 0 = Ok (vadd (vadd beta (vscale (cs_s beta a b h g) a)) (vscale (cs_t beta a b h g) b))).
    { unfold get_candidate, c. cbn [lookup list_lookup]. rewrite (nearest0 beta a b) by auto. cbn [rbind]. rewrite <- (loop_two beta a b h g La Lb Ua Ub Hr 1 0 (vadd beta (vscale (h - Rdot a beta) a))) by auto. reflexivity. }
    assert (G1 : get_candidate beta c 1 0 = Ok (vadd (vadd beta (vscale (cs_s beta b a g h) b)) (vscale (cs_t beta b a g h) a))).
    { unfold get_candidate, c. cbn [lookup list_lookup]. rewrite (nearest0 beta b a) by auto. cbn [rbind]. rewrite <- (loop_two beta b a g h Lb La Ub Ua Hr' 0 1 (vadd beta (vscale (g - Rdot b beta) b))) by auto. cbn [candidate_loop Nat.eqb negb andb]. destruct (binds _ _ _ _); [|reflexivity]. repeat match goal with |- rbind ?r _ = rbind ?r _ => destruct r; cbn [rbind]; auto end. }
    pose proof (X_feasible beta a b h g La Lb Ua Ub Hr) as [F0a F0b]. pose proof (X_feasible beta b a g h Lb La Ub Ua Hr') as [F1b F1a].
    assert (K0 := two_kkt beta a b h g La Lb Ua Ub Hr). assert (K1 := two_kkt beta b a g h Lb La Ub Ua Hr'). rewrite Eab in K1.
    set (x0 := vadd (vadd beta (vscale (cs_s beta a b h g) a)) (vscale (cs_t beta a b h g) b)) in *. set (x1 := vadd (vadd beta (vscale (cs_s beta b a g h) b)) (vscale (cs_t beta b a g h) a)) in *.
    assert (L0 : length x0 = length beta) by (unfold x0; rewrite !len_axpy; try rewrite !len_axpy; congruence). assert (L1 : length x1 = length beta) by (unfold x1; rewrite !len_axpy; try rewrite !len_axpy; congruence).
    assert (M0 : meets c x0) by (apply meets_two; lra). assert (M1 : meets c x1) by (apply meets_two; lra).
    assert (N0 : 0 < h - Rdot a beta -> (0 < (g - Rdot b beta) - (h - Rdot a beta) * Rdot a b -> 0 <= (h - Rdot a beta) - Rdot a b * (g - Rdot b beta)) -> nearest c beta x0). { intros. split; [auto|]. split; [auto|]. intros y Ly My. apply meets_two in My. apply K0; tauto. }
    assert (N1 : 0 < g - Rdot b beta -> (0 < (h - Rdot a beta) - (g - Rdot b beta) * Rdot a b -> 0 <= (g - Rdot b beta) - Rdot a b * (h - Rdot a beta)) -> nearest c beta x1). { intros. split; [auto|]. split; [auto|]. intros y Ly My. apply meets_two in My. apply K1; tauto. }
    destruct (several beta c st (ends_at c)) as (x & st' & E & N & S'); auto.
    + intros i k r Hi Hb. destruct i as [|[|i]]; cbn in Hi; try discriminate; injection Hi as <- <-; [exists x0|exists x1]; split; auto; split; auto.
    + assert (Hin0 : c !! 0%nat = Some (h, a)) by reflexivity. assert (Hin1 : c !! 1%nat = Some (g, b)) by reflexivity. set (u := h - Rdot a beta) in *. set (v := g - Rdot b beta) in *. set (rho := Rdot a b) in *.
      assert (Hu : 0 < u \/ 0 < v). { destruct (Rlt_dec 0 u); auto. destruct (Rlt_dec 0 v); auto. exfalso. apply M. apply meets_two. unfold u, v in *. lra. }
      assert (D : (0 < u /\ (0 < v - u * rho -> 0 <= u - rho * v)) \/ (0 < v /\ (0 < u - v * rho -> 0 <= v - rho * u))).
      { fold rho in Hr. destruct (Rlt_dec 0 u) as [Pu|Pu], (Rlt_dec 0 v) as [Pv|Pv]; try tauto.
        - destruct (Rle_dec u v); [right|left]; split; auto; intros _; nra.
        - left. split; auto. intros Q. nra.
        - right. split; auto. intros Q. nra. }
      destruct D as [[D1 D2]|[D1 D2]].
      * exists 0%nat, h, a, x0. split; auto. split; [unfold u in D1; lra|]. auto.
      * exists 1%nat, g, b, x1. split; auto. split; [unfold v in D1; lra|]. auto.
    + exists x, st'. split; [auto|]. split; [auto|]. split; [tauto|auto].
Qed.
(** the states of the scratch after any calls with the constraints [c] and margin 0 *)
Lemma reached_two a b h g st : Rdot a a = 1 -> Rdot b b = 1 -> -1 < Rdot a b < 1 -> reached (Some [(h, a); (g, b)]) st -> scratch_ok (ends_at [(h, a); (g, b)]) st.
Proof.
  intros Ua Ub Hr H. induction H as [|beta pen x st st' H IH E]; [intros s p; discriminate|]. assert (L : length a = length beta /\ length b = length beta). { revert E. unfold linear_constraint. cbn [forallb]. destruct (length a =? length beta)%nat eqn:E1, (length b =? length beta)%nat eqn:E2; cbn; try discriminate. apply Nat.eqb_eq in E1, E2. auto. }
  destruct L as [La Lb]. destruct (two_step beta a b h g st La Lb Ua Ub Hr IH) as (x' & st2 & E2 & _ & _ & S2). rewrite E in E2. injection E2 as -> -> ->. auto.
Qed.
Theorem C83_two beta a b h g st : length a = length beta -> length b = length beta -> Rdot a a = 1 -> Rdot b b = 1 -> -1 < Rdot a b < 1 -> reached (Some [(h, a); (g, b)]) st ->
  exists x st', linear_constraint beta (Some [(h, a); (g, b)]) 0 st = Ok (eu beta x, x, st') /\ nearest [(h, a); (g, b)] beta x /\ (meets [(h, a); (g, b)] beta -> x = beta).
Proof. intros La Lb Ua Ub Hr H. destruct (two_step beta a b h g st La Lb Ua Ub Hr) as (x & st' & E & N & M & _); [now apply reached_two|]. eauto. Qed.

(** ** the default: every element at least 0 *)
Lemma dot_unit n : forall i v, length v = n -> (i < n)%nat -> Rdot (unit_vec n i) v = nth i v 0.
Proof.
  unfold unit_vec. intros i v L Hi. assert (G : forall v a, Rdot (map (fun j => if (j =? i)%nat then 1 else 0) (seq a (length v))) v = if (a <=? i)%nat then nth (i - a) v 0 else 0).
  { clear. induction v as [|x v IH]; intros a; cbn [length seq map]. { unfold Rdot. cbn. destruct (a <=? i)%nat; auto. destruct (i - a)%nat; auto. } rewrite dot_cons, IH. destruct (Nat.eqb_spec a i) as [->|N]. - rewrite Nat.leb_refl, Nat.sub_diag. destruct (Nat.leb_spec (S i) i); [lia|]. cbn. ring. - destruct (Nat.leb_spec (S a) i), (Nat.leb_spec a i); try lia; [|ring]. replace (i - a)%nat with (S (i - S a)) by lia. cbn. ring. }
  rewrite <- L, G. cbn. now rewrite Nat.sub_0_r.
Qed.
Lemma len_unit n i : length (unit_vec n i) = n.
Proof. unfold unit_vec. now rewrite map_length, seq_length. Qed.
Lemma axpy_unit n i s v : length v = n -> (i < n)%nat -> vadd v (vscale s (unit_vec n i)) = <[i := nth i v 0 + s]> v.
Proof.
  intros L Hi. apply list_eq. intros j. destruct (decide (j < n)%nat) as [Hj|Hj].
  2: { rewrite !lookup_ge_None_2; auto; rewrite ?insert_length, ?len_axpy; rewrite ?len_unit; lia. }
  unfold vadd. rewrite lookup_zip_with. unfold vscale, unit_vec. rewrite map_map, list_lookup_fmap, lookup_seq_lt by auto. destruct (lookup_lt_is_Some_2 v j) as [y Ey]; [lia|]. rewrite Ey. cbn. destruct (Nat.eqb_spec j i) as [->|N].
  - rewrite list_lookup_insert by lia. rewrite (nth_lookup_Some v i 0 y) by auto. f_equal. ring.
  - rewrite list_lookup_insert_ne by auto. rewrite Ey. f_equal. ring.
Qed.
Lemma nth_unit n i j : (j < n)%nat -> nth j (unit_vec n i) 0 = if (j =? i)%nat then 1 else 0.
Proof. intros H. unfold unit_vec. rewrite (nth_lookup_Some _ j 0 (if (j =? i)%nat then 1 else 0)); auto. rewrite list_lookup_fmap, lookup_seq_lt by auto. reflexivity. Qed.
Lemma dot_unit_unit n i j : (i < n)%nat -> (j < n)%nat -> Rdot (unit_vec n i) (unit_vec n j) = if (i =? j)%nat then 1 else 0.
Proof. intros Hi Hj. rewrite dot_unit by (auto using len_unit). apply nth_unit; auto. Qed.
Lemma near_unit n i v : length v = n -> (i < n)%nat -> find_nearest v 0 (unit_vec n i) = Ok (<[i := 0]> v).
Proof. intros L Hi. rewrite find_nearest_ok by (rewrite ?len_unit, ?dot_unit_unit, ?Nat.eqb_refl; auto; lra). rewrite axpy_unit by auto. rewrite dot_unit_unit, Nat.eqb_refl, dot_unit by auto. repeat f_equal. field. Qed.
Lemma nth_ins {A} (d : A) i j x v : (i < length v)%nat -> nth j (<[i := x]> v) d = if (j =? i)%nat then x else nth j v d.
Proof. intros Hi. destruct (Nat.eqb_spec j i) as [->|N]. - apply nth_lookup_Some. now rewrite list_lookup_insert. - rewrite !nth_lookup, list_lookup_insert_ne; auto. Qed.
Lemma nth_eq (v w : list R) : length v = length w -> (forall j, (j < length v)%nat -> nth j v 0 = nth j w 0) -> v = w.
Proof. intros L H. apply (nth_ext v w 0 0); auto. Qed.
Lemma eu_zeroed n i v : length v = n -> (i < n)%nat -> eu v (<[i := 0]> v) = Rabs (nth i v 0).
Proof. intros L Hi. replace (<[i := 0]> v) with (vadd v (vscale (- nth i v 0) (unit_vec n i))) by (rewrite axpy_unit by auto; f_equal; ring). rewrite eu_axpy by (rewrite ?len_unit, ?dot_unit_unit, ?Nat.eqb_refl; auto). apply Rabs_Ropp. Qed.
Lemma loop_default n cur : (cur < n)%nat -> forall m a pseudo cand, (a + m = n)%nat -> length pseudo = n -> <[cur := 0]> pseudo = cand -> nth cur pseudo 0 <= 0 ->
  exists r, candidate_loop (map (fun j => (0, unit_vec n j)) (seq a m)) a cur (unit_vec n cur) 0 0 pseudo cand = Ok r /\ length r = n /\ forall j, (j < n)%nat -> nth j r 0 = if (a <=? j)%nat && negb (j =? cur)%nat then Rmax 0 (nth j cand 0) else nth j cand 0.
Proof.
  intros Hcur. induction m as [|m IH]; intros a pseudo cand Ha L E Hp; cbn [seq map candidate_loop].
  - exists cand. split; [auto|]. split; [subst cand; now rewrite insert_length|]. intros j Hj. destruct (Nat.leb_spec a j); [lia|reflexivity].
  - assert (Lc : length cand = n) by (subst cand; now rewrite insert_length). assert (Han : (a < n)%nat) by lia. destruct (Nat.eqb_spec a cur) as [Eac|Nac]; cbn [negb andb].
    + destruct (IH (S a) pseudo cand) as (r & Er & Lr & Hr); auto; [lia|]. exists r. split; [auto|]. split; [auto|]. intros j Hj. rewrite Hr by auto. destruct (Nat.eqb_spec j cur); cbn; [now rewrite !andb_false_r|]. destruct (Nat.leb_spec (S a) j), (Nat.leb_spec a j); auto; lia.
    + destruct (binds cand 0 (unit_vec n a) 0) eqn:B.
      * apply binds_ok in B. rewrite dot_unit in B by auto. rewrite near_unit by auto. cbn [rbind]. rewrite near_unit by (rewrite ?insert_length; auto). cbn [rbind]. rewrite distance_ok by (rewrite !insert_length; auto). cbn [rbind]. rewrite (eu_zeroed n) by (rewrite ?insert_length; auto). rewrite nth_ins by lia. rewrite (proj2 (Nat.eqb_neq cur a)) by auto.
        rewrite trig_ok by (rewrite dot_unit_unit by auto; rewrite ?Nat.eqb_refl, ?(proj2 (Nat.eqb_neq cur a)) by auto; auto; lra). cbn [rbind]. rewrite dot_unit_unit by auto. rewrite (proj2 (Nat.eqb_neq cur a)) by auto.
        assert (Es : Rabs (nth cur pseudo 0) / (1 - 0 ^ 2) = - nth cur pseudo 0). { rewrite Rabs_left1 by auto. field. } rewrite Es. clear Es.
        assert (Ef : vadd pseudo (vscale (- nth cur pseudo 0) (vscale (magnitude (unit_vec n cur)) (unit_vec n cur))) = cand).
        { unfold magnitude. rewrite ddot_dot, Rplus_0_l, dot_unit_unit, Nat.eqb_refl by auto. assert (Q : vscale 1 (unit_vec n cur) = unit_vec n cur). { generalize (unit_vec n cur). intros l. clear. induction l as [|x l IH]; auto. cbn [vscale map]. unfold vscale in IH. rewrite IH. f_equal. ring. } rewrite Q, axpy_unit by auto. rewrite <- E. f_equal. ring. }
        rewrite Ef, near_unit by auto. cbn [rbind]. set (c := <[a := 0]> cand). assert (Lc' : length c = n) by (unfold c; now rewrite insert_length). assert (Hcc : nth cur c 0 = 0). { unfold c. rewrite nth_ins by lia. rewrite (proj2 (Nat.eqb_neq cur a)) by auto. rewrite <- E, nth_ins, Nat.eqb_refl by lia. auto. }
        destruct (IH (S a) c c) as (r & Er & Lr & Hr); auto; [lia| |lra|]. { apply nth_eq; rewrite ?insert_length; auto. intros j Hj. rewrite nth_ins by lia. destruct (Nat.eqb_spec j cur) as [->|]; auto. }
        exists r. split; [auto|]. split; [auto|]. intros j Hj. rewrite Hr by auto. unfold c. rewrite !nth_ins by lia. destruct (Nat.eqb_spec j a) as [->|Nja].
        -- destruct (Nat.leb_spec (S a) a); [lia|]. rewrite Nat.leb_refl, (proj2 (Nat.eqb_neq a cur)) by auto. cbn. rewrite Rmax_left; lra.
        -- destruct (Nat.leb_spec (S a) j), (Nat.leb_spec a j); auto; lia.
      * assert (B' : 0 <= nth a cand 0). { destruct (Rle_dec 0 (nth a cand 0)) as [|N]; auto. exfalso. assert (Q : binds cand 0 (unit_vec n a) 0 = true) by (apply binds_ok; rewrite dot_unit by auto; lra). congruence. }
        destruct (IH (S a) pseudo cand) as (r & Er & Lr & Hr); auto; [lia|]. exists r. split; [auto|]. split; [auto|]. intros j Hj. rewrite Hr by auto. destruct (Nat.eqb_spec j a) as [->|Nja].
        -- destruct (Nat.leb_spec (S a) a); [lia|]. rewrite Nat.leb_refl, (proj2 (Nat.eqb_neq a cur)) by auto. cbn. rewrite Rmax_right; auto.
        -- destruct (Nat.leb_spec (S a) j), (Nat.leb_spec a j); auto; lia.
Qed.
Lemma default_lookup n i : (i < n)%nat -> default_constraints n !! i = Some (0, unit_vec n i).
Proof. intros H. unfold default_constraints, constraints. change (map ?f ?l) with (f <$> l). rewrite (list_lookup_fmap (fun i => (0, unit_vec n i))), lookup_seq_lt by auto. reflexivity. Qed.
Lemma nth_pos beta j : nth j (map (Rmax 0) beta) 0 = Rmax 0 (nth j beta 0).
Proof. assert (E : 0 = Rmax 0 0) by (rewrite Rmax_left; lra). rewrite E at 2. apply map_nth. Qed.
Lemma default_candidate beta i : (i < length beta)%nat -> nth i beta 0 < 0 -> get_candidate beta (default_constraints (length beta)) i 0 = Ok (map (Rmax 0) beta).
Proof.
  intros Hi Hb. set (n := length beta) in *. unfold get_candidate. rewrite default_lookup by auto. rewrite near_unit by auto. cbn [rbind]. destruct (loop_default n i Hi n 0 beta (<[i := 0]> beta)) as (r & Er & Lr & Hr); auto; [lra|]. unfold default_constraints. rewrite Er. f_equal. apply nth_eq; [now rewrite map_length|]. intros j Hj. rewrite Hr by lia. rewrite nth_pos, nth_ins by auto. rewrite (proj2 (Nat.leb_le 0 j)) by lia. destruct (Nat.eqb_spec j i) as [->|]; cbn [negb andb]; [rewrite Rmax_left; lra|auto].
Qed.
Lemma default_meets n x : length x = n -> (meets (default_constraints n) x <-> forall i, (i < n)%nat -> 0 <= nth i x 0).
Proof.
  intros L. unfold meets. split.
  - intros H i Hi. rewrite <- (dot_unit n) by auto. apply H. apply elem_of_list_In, (elem_of_list_lookup_2 _ i). now apply default_lookup.
  - intros H k r Hin. apply in_map_iff in Hin as (i & [= <- <-] & Hi). apply in_seq in Hi. rewrite dot_unit by (auto; lia). apply H. lia.
Qed.
Lemma in_default n k r : In (k, r) (default_constraints n) -> k = 0 /\ exists i, (i < n)%nat /\ r = unit_vec n i.
Proof. intros Hin. apply in_map_iff in Hin as (i & [= <- <-] & Hi). apply in_seq in Hi. split; auto. exists i. split; auto. lia. Qed.
Lemma dot_sum x : forall y, length x = length y -> (forall j, (j < length x)%nat -> 0 <= nth j x 0 * nth j y 0) -> 0 <= Rdot x y.
Proof. induction x as [|a x IH]; intros [|b y] L H; cbn in L; try lia; [unfold Rdot; cbn; lra|]. rewrite dot_cons. pose proof (H 0%nat ltac:(cbn; lia)) as H0. cbn in H0. assert (0 <= Rdot x y). { apply IH; [lia|]. intros j Hj. apply (H (S j)). cbn. lia. } lra. Qed.
Lemma nth_vsub x : forall y j, length x = length y -> nth j (vsub x y) 0 = nth j x 0 - nth j y 0.
Proof. induction x as [|a x IH]; intros [|b y] j L; cbn in L; try lia; [destruct j; cbn; lra|]. destruct j; cbn [vsub vadd vscale map zip_with nth]; [lra|]. apply IH. lia. Qed.
Lemma default_angle beta y : length y = length beta -> meets (default_constraints (length beta)) y -> 0 <= Rdot (vsub (map (Rmax 0) beta) beta) (vsub y (map (Rmax 0) beta)).
Proof.
  intros L M. rewrite (default_meets _ y L) in M. assert (Lm := map_length (Rmax 0) beta). assert (Lv : length (vsub (map (Rmax 0) beta) beta) = length beta) by (unfold vsub; rewrite len_axpy; lia). apply dot_sum. { rewrite Lv. unfold vsub. rewrite len_axpy; lia. }
  intros j Hj. rewrite Lv in Hj. rewrite !nth_vsub by lia. rewrite nth_pos. specialize (M j Hj). unfold Rmax. destruct (Rle_dec 0 (nth j beta 0)); [lra|]. nra.
Qed.
Lemma default_nearest beta : nearest (default_constraints (length beta)) beta (map (Rmax 0) beta).
Proof.
  split; [apply map_length|]. split. { apply default_meets; [apply map_length|]. intros i Hi. rewrite nth_pos. apply Rmax_l. } intros y L M. apply nearest_angle; auto using map_length. apply default_angle; auto.
Qed.
Lemma default_unique beta x : nearest (default_constraints (length beta)) beta x -> x = map (Rmax 0) beta.
Proof.
  intros (L & M & N). assert (Lm := map_length (Rmax 0) beta). pose proof (default_nearest beta) as (_ & Mp & _). specialize (N _ Lm Mp). pose proof (default_angle beta x L M) as A. destruct (nearest_angle beta (map (Rmax 0) beta) x Lm L A) as [D E]. assert (Z : eu beta x = eu beta (map (Rmax 0) beta)) by lra. rewrite Z in E. symmetry. apply eu_zero; [lia|]. pose proof (pow2_ge_0 (eu (map (Rmax 0) beta) x)). assert (Q : eu (map (Rmax 0) beta) x ^ 2 = 0) by lra. nra.
Qed.
Lemma default_step beta st : scratch_ok default_constraints st -> exists st', linear_constraint beta None 0 st = Ok (eu beta (map (Rmax 0) beta), map (Rmax 0) beta, st') /\ scratch_ok default_constraints st'.
Proof.
  intros Hst. change (linear_constraint beta None 0 st) with (linear_constraint beta (Some (default_constraints (length beta))) 0 st). set (n := length beta). assert (Hlen : forall k r, In (k, r) (default_constraints n) -> length r = length beta). { intros k r Hin. apply in_default in Hin as (_ & i & _ & ->). apply len_unit. }
  assert (Ln : length (default_constraints n) = n) by (unfold default_constraints; now rewrite map_length, seq_length).
  destruct (Forall_Exists_dec (fun x => 0 <= x) (fun x => Rle_dec 0 x) beta) as [F|F].
  - assert (E : map (Rmax 0) beta = beta). { clear -F. induction F; auto. cbn. rewrite IHF, Rmax_right; auto. } rewrite E, eu_self. apply met_ok; auto. intros k r Hin. split; [eauto|]. apply in_default in Hin as (-> & i & Hi & ->). rewrite dot_unit by auto. rewrite Forall_forall in F. apply F. apply nth_In. auto.
  - apply Exists_exists in F as (y & Hy & Ny). apply elem_of_list_In, elem_of_list_lookup in Hy as (i & Hi). assert (Hin : (i < n)%nat) by (apply lookup_lt_Some in Hi; auto). assert (Hni : nth i beta 0 < 0) by (rewrite (nth_lookup_Some _ _ _ _ Hi); lra).
    destruct (decide (n = 1)%nat) as [E1|N1].
    + destruct beta as [|b0 [|b1 beta]]; cbn in n; try (unfold n in E1; discriminate). clear Hlen Ln. subst n. destruct i; [|lia]. cbn in Hni. assert (Eu : default_constraints 1 = [(0, [1])]) by reflexivity. cbn [length]. rewrite Eu. unfold linear_constraint. cbn [length forallb Nat.eqb andb negb map]. rewrite bound_one. assert (B : binds [b0] 0 [1] 0 = true). { apply binds_ok. unfold Rdot. cbn. lra. } rewrite B.
      rewrite find_nearest_ok by (auto; unfold Rdot; cbn; lra). cbn [rbind fold_left]. change ([(0, [1])] !! 0%nat) with (Some (0, [1])). cbv iota. rewrite vadd_zero by reflexivity. assert (Ex : vadd [b0] (vscale ((0 - Rdot [1] [b0]) / Rdot [1] [1]) [1]) = [Rmax 0 b0]). { unfold Rdot. cbn. f_equal. rewrite Rmax_left by lra. field. } rewrite Ex. rewrite distance_ok by auto. cbn [rbind]. eexists. split; [reflexivity|].
      destruct st as [s|]; [|intros s p [= <-]; discriminate]. destruct (sc_size s =? 1)%nat eqn:E; [exact Hst|]. intros s' p [= <-]. discriminate.
    + destruct (several beta (default_constraints n) st default_constraints) as (x & st' & E & N & S'); auto.
      * lia.
      * intros M. rewrite (default_meets n beta eq_refl) in M. specialize (M i Hin). lra.
      * intros j k r Hj Hb. assert (Hjn : (j < n)%nat) by (apply lookup_lt_Some in Hj; lia). rewrite default_lookup in Hj by auto. injection Hj as <- <-. rewrite dot_unit in Hb by auto. exists (map (Rmax 0) beta). split; [now apply default_candidate|]. destruct (default_nearest beta) as (A & B & _). split; auto.
      * exists i, 0, (unit_vec n i), (map (Rmax 0) beta). split; [now apply default_lookup|]. split; [rewrite dot_unit; auto|]. split; [now apply default_candidate|apply default_nearest].
      * exists st'. split; auto. rewrite (default_unique beta x N) in E. exact E.
Qed.
Theorem C83_default beta st : reached None st -> exists st', linear_constraint beta None 0 st = Ok (eu beta (map (Rmax 0) beta), map (Rmax 0) beta, st') /\ nearest (default_constraints (length beta)) beta (map (Rmax 0) beta) /\ (forall x, length x = length beta -> (meets (default_constraints (length beta)) x <-> forall i, (i < length beta)%nat -> 0 <= nth i x 0)).
Proof.
  intros H. assert (S : scratch_ok default_constraints st). { induction H as [|b pen x st st' H IH E]; [intros s p; discriminate|]. destruct (default_step b st IH) as (st2 & E2 & S2). rewrite E in E2. injection E2 as -> -> ->. auto. }
  destruct (default_step beta st S) as (st' & E & _). exists st'. split; [auto|]. split; [apply default_nearest|]. intros x L. now apply default_meets.
Qed.

(** ** what does not hold *)
Lemma near1 v k b x : length v = length b -> Rdot b b <> 0 -> x = vadd v (vscale ((k - Rdot b v) / Rdot b b) b) -> find_nearest v k b = Ok x.
Proof. intros L N ->. now apply find_nearest_ok. Qed.
(** one normal of length 1/2, x/2 > 0, margin 1, from -1: to 1/8 (and not to 1, or to 2, where x/2 = 1) *)
Theorem C83_refuted_margin : ~ (forall beta k r margin st pen x st', length r = length beta -> Rdot r r <> 0 -> linear_constraint beta (Some [(k, r)]) margin st = Ok (pen, x, st') -> k + margin <= Rdot r x).
Proof.
  intros H. specialize (H [-1] 0 [1 / 2] 1 None). assert (E : linear_constraint [-1] (Some [(0, [1 / 2])]) 1 None = Ok (eu [-1] [1 / 8], [1 / 8], Some (Sc 1 None))).
  { unfold linear_constraint. cbn [length forallb Nat.eqb andb negb map]. rewrite bound_one. assert (B : binds [-1] 0 [1 / 2] 1 = true). { apply binds_ok. unfold Rdot. cbn. lra. } rewrite B. rewrite find_nearest_ok by (auto; unfold Rdot; cbn; lra). cbn [rbind fold_left]. change ([(0, [1 / 2])] !! 0%nat) with (Some (0, [1 / 2])). cbv iota. unfold magnitude. rewrite ddot_dot. assert (Q : vadd (vadd [-1] (vscale ((0 - Rdot [1 / 2] [-1]) / Rdot [1 / 2] [1 / 2]) [1 / 2])) (vscale 1 (vscale (0 + Rdot [1 / 2] [1 / 2]) [1 / 2])) = [1 / 8]). { unfold Rdot. cbn. f_equal. field. } rewrite Q, distance_ok by auto. reflexivity. }
  specialize (H _ _ _ eq_refl ltac:(unfold Rdot; cbn; lra) E). unfold Rdot in H. cbn in H. lra.
Qed.
Ltac near x := rewrite (near1 _ _ _ x) by (auto; unfold Rdot; cbn; (lra || (repeat f_equal; field))); cbn [rbind].
Lemma trig0 a b d : Rdot a b = 0 -> Rdot a a <> 0 -> Rdot b b <> 0 -> trig_bit a b d = Ok d.
Proof.
  intros E A B. unfold trig_bit, magnitude. rewrite !ddot_dot, !Rplus_0_l, E. unfold cdiv at 1. destruct (Req_EM_T _ 0) as [Z|_]. { apply Rmult_integral in Z. tauto. } cbn [or_ub rbind]. replace (0 / _) with 0 by (field; auto). destruct (Rle_dec (-1) 0); [|lra]. destruct (Rle_dec 0 1); [|lra]. assert (Q : sin (acos 0) ^ 2 = 1). { pose proof (sin2_cos2 (acos 0)) as H. rewrite cos_acos in H by lra. unfold Rsqr in H. lra. } rewrite Q. unfold cdiv. destruct (Req_EM_T 1 0); [lra|]. cbn. f_equal. field.
Qed.
Ltac bnd t := match goal with |- context [binds ?v ?k ?b ?m] => let B := fresh "B" in assert (B : binds v k b m = t); [first [apply binds_ok; unfold Rdot; cbn; lra | destruct (binds v k b m) eqn:Q; auto; apply binds_ok in Q; unfold Rdot in Q; cbn in Q; lra]|rewrite B; clear B] end.
Lemma bound_two (P Q : bool) : filter (fun i => nth i [P; Q] false = true) (seq 0 2) = if P then if Q then [0%nat; 1%nat] else [0%nat] else if Q then [1%nat] else [].
Proof. destruct P, Q; reflexivity. Qed.
(** two normals of length 1/2, x/2 > 0 and y/2 > 0, from (-1, -1): to (-7/8, 0) or (0, -7/8), where one constraint is still not met *)
Theorem C83_refuted_length : ~ (forall beta c pen x st', (forall k r, In (k, r) c -> length r = length beta /\ Rdot r r <> 0) -> linear_constraint beta (Some c) 0 None = Ok (pen, x, st') -> meets c x).
Proof.
  intros H. set (c := [(0, [1 / 2; 0]); (0, [0; 1 / 2])]). set (beta := [-1; -1]).
  assert (G0 : get_candidate beta c 0 0 = Ok [- (7 / 8); 0]).
  { unfold get_candidate, c, beta. cbn [lookup list_lookup]. near [0; -1]. cbn [candidate_loop Nat.eqb negb andb]. bnd true. near [-1; 0]. near [0; 0]. rewrite distance_ok by auto. cbn [rbind]. rewrite trig0 by (unfold Rdot; cbn; lra). cbn [rbind]. assert (E1 : eu [-1; 0] [0; 0] = 1). { unfold eu. cbn. replace (_ + _) with (1 * 1) by ring. apply sqrt_square. lra. } rewrite E1. unfold magnitude. rewrite ddot_dot. assert (E2 : vadd [-1; -1] (vscale 1 (vscale (0 + Rdot [1 / 2; 0] [1 / 2; 0]) [1 / 2; 0])) = [- (7 / 8); -1]). { unfold Rdot. cbn. repeat f_equal; field. } rewrite E2. near [- (7 / 8); 0]. reflexivity. }
  assert (G1 : get_candidate beta c 1 0 = Ok [0; - (7 / 8)]).
  { unfold get_candidate, c, beta. cbn [lookup list_lookup]. near [-1; 0]. cbn [candidate_loop Nat.eqb negb andb]. bnd true. near [0; -1]. near [0; 0]. rewrite distance_ok by auto. cbn [rbind]. rewrite trig0 by (unfold Rdot; cbn; lra). cbn [rbind]. assert (E1 : eu [0; -1] [0; 0] = 1). { unfold eu. cbn. replace (_ + _) with (1 * 1) by ring. apply sqrt_square. lra. } rewrite E1. unfold magnitude. rewrite ddot_dot. assert (E2 : vadd [-1; -1] (vscale 1 (vscale (0 + Rdot [0; 1 / 2] [0; 1 / 2]) [0; 1 / 2])) = [-1; - (7 / 8)]). { unfold Rdot. cbn. repeat f_equal; field. } rewrite E2. near [0; - (7 / 8)]. reflexivity. }
  specialize (H beta c). assert (E : exists pen x st', linear_constraint beta (Some c) 0 None = Ok (pen, x, st') /\ (x = [- (7 / 8); 0] \/ x = [0; - (7 / 8)])).
  { unfold linear_constraint. cbn [beta c length forallb Nat.eqb andb negb map]. do 2 bnd true. rewrite bound_two. fold c beta. cbn [sc_pt best]. rewrite G0. cbn [rbind]. rewrite distance_ok by auto. cbn [rbind]. rewrite G1. cbn [rbind].
 rewrite !distance_ok by auto. cbn [rbind]. assert (M : forall x, length x = 2%nat -> fold_left (fun b i => match c !! i with Some (_, r) => vadd b (vscale 0 (vscale (magnitude r) r)) | None => b end) [0%nat; 1%nat] x = x). { apply fold_margin_0. intros k r [[= <- <-]|[[= <- <-]|[]]]; auto. }
    destruct (Rlt_dec _ _); cbn [bool_of or_ub rbind]; rewrite M by auto; rewrite distance_ok by auto; cbn [rbind]; eauto 10. }
  destruct E as (pen & x & st' & E & Hx). apply H in E. { assert (E1 := E 0 [1 / 2; 0] (or_introl eq_refl)). assert (E2 := E 0 [0; 1 / 2] (or_intror (or_introl eq_refl))). unfold Rdot in E1, E2. destruct Hx as [-> | ->]; cbn in E1, E2; lra. }
  intros k r [[= <- <-]|[[= <- <-]|[]]]; (split; [auto|unfold Rdot; cbn; lra]).
Qed.
(** the default from (-1, -1) leaves (0, 0) in the scratch; then x > 1 and y > 1 from (0, 0) gives the stale (0, 0) back, with no penalty *)
Theorem C83_refuted_history : ~ (forall beta0 beta c pen0 x0 st pen x st', linear_constraint beta0 None 0 None = Ok (pen0, x0, st) -> (forall k r, In (k, r) c -> length r = length beta /\ Rdot r r = 1) -> linear_constraint beta (Some c) 0 st = Ok (pen, x, st') -> meets c x).
Proof.
  intros H. assert (E0 : linear_constraint [-1; -1] None 0 None = Ok (eu [-1; -1] [0; 0], [0; 0], Some (Sc 2 (Some [0; 0])))).
  { unfold linear_constraint. change (default_constraints (length [-1; -1])) with [(0, [1; 0]); (0, [0; 1])]. cbn [length forallb Nat.eqb andb negb map]. do 2 bnd true. rewrite bound_two. cbn [sc_pt best]. pose proof (default_candidate [-1; -1] 0 ltac:(cbn; lia) ltac:(cbn; lra)) as G0. pose proof (default_candidate [-1; -1] 1 ltac:(cbn; lia) ltac:(cbn; lra)) as G1. change (default_constraints (length [-1; -1])) with [(0, [1; 0]); (0, [0; 1])] in G0, G1. cbn [map] in G0, G1. rewrite Rmax_left in G0, G1 by lra. rewrite G0. cbn [rbind]. rewrite distance_ok by auto. cbn [rbind]. rewrite G1. cbn [rbind]. rewrite distance_ok by auto. cbn [rbind]. destruct (Rlt_dec _ _); [lra|]. cbn [bool_of or_ub rbind].
    rewrite (fold_margin_0 _ 2) by (auto; intros k r [[= <- <-]|[[= <- <-]|[]]]; auto). rewrite distance_ok by auto. reflexivity. }
  assert (E : linear_constraint [0; 0] (Some [(1, [1; 0]); (1, [0; 1])]) 0 (Some (Sc 2 (Some [0; 0]))) = Ok (eu [0; 0] [0; 0], [0; 0], Some (Sc 2 (Some [0; 0])))).
  { set (c := [(1, [1; 0]); (1, [0; 1])]).
    assert (G0 : get_candidate [0; 0] c 0 0 = Ok [1; 1]). { unfold get_candidate, c. cbn [lookup list_lookup]. near [1; 0]. cbn [candidate_loop Nat.eqb negb andb]. bnd true. near [0; 1]. near [1; 1]. rewrite distance_ok by auto. cbn [rbind]. rewrite trig0 by (unfold Rdot; cbn; lra). cbn [rbind]. assert (E1 : eu [0; 1] [1; 1] = 1). { unfold eu. cbn. replace (_ + _) with (1 * 1) by ring. apply sqrt_square. lra. } rewrite E1. unfold magnitude. rewrite ddot_dot. assert (E2 : vadd [0; 0] (vscale 1 (vscale (0 + Rdot [1; 0] [1; 0]) [1; 0])) = [1; 0]). { unfold Rdot. cbn. repeat f_equal; field. } rewrite E2. near [1; 1]. reflexivity. }
    assert (G1 : get_candidate [0; 0] c 1 0 = Ok [1; 1]). { unfold get_candidate, c. cbn [lookup list_lookup]. near [0; 1]. cbn [candidate_loop Nat.eqb negb andb]. bnd true. near [1; 0]. near [1; 1]. rewrite distance_ok by auto. cbn [rbind]. rewrite trig0 by (unfold Rdot; cbn; lra). cbn [rbind]. assert (E1 : eu [1; 0] [1; 1] = 1). { unfold eu. cbn. replace (_ + _) with (1 * 1) by ring. apply sqrt_square. lra. } rewrite E1. unfold magnitude. rewrite ddot_dot. assert (E2 : vadd [0; 0] (vscale 1 (vscale (0 + Rdot [0; 1] [0; 1]) [0; 1])) = [0; 1]). { unfold Rdot. cbn. repeat f_equal; field. } rewrite E2. near [1; 1]. reflexivity. }
    unfold linear_constraint. cbn [c length forallb Nat.eqb andb negb map sc_size]. do 2 bnd true. rewrite bound_two. fold c. cbn [sc_pt best]. rewrite G0. cbn [rbind]. rewrite !distance_ok by auto. cbn [rbind]. rewrite eu_self. pose proof (eu_nonneg [0; 0] [1; 1]). destruct (Rlt_dec _ _); [lra|]. cbn [bool_of]. rewrite G1. cbn [rbind]. rewrite !distance_ok by auto. cbn [rbind]. rewrite eu_self. destruct (Rlt_dec _ _); [lra|]. cbn [bool_of or_ub rbind]. rewrite (fold_margin_0 _ 2) by (auto; intros k r [[= <- <-]|[[= <- <-]|[]]]; auto). rewrite distance_ok by auto. cbn [rbind]. rewrite eu_self. reflexivity. }
  specialize (H _ [0; 0] [(1, [1; 0]); (1, [0; 1])] _ _ _ _ _ _ E0 ltac:(intros k r [[= <- <-]|[[= <- <-]|[]]]; (split; [auto|unfold Rdot; cbn; lra])) E 1 [1; 0] (or_introl eq_refl)). unfold Rdot in H. cbn in H. lra.
Qed.
(** the default with margin 1 from (1/2, 1/2): to (2, 1) or (1, 2), not to (1, 1) *)
Theorem C83_refuted_margin_default : ~ (forall beta margin pen x st', 0 < margin -> linear_constraint beta None margin None = Ok (pen, x, st') -> nearest (map (fun '(k, r) => (k + margin, r)) (default_constraints (length beta))) beta x).
Proof.
  intros H. specialize (H [1 / 2; 1 / 2] 1). set (c := [(0, [1; 0]); (0, [0; 1])]). set (beta := [1 / 2; 1 / 2]) in *.
  assert (G0 : get_candidate beta c 0 1 = Ok [1; 0]). { unfold get_candidate, c, beta. cbn [lookup list_lookup]. near [0; 1 / 2]. cbn [candidate_loop Nat.eqb negb andb]. bnd true. near [1 / 2; 0]. near [0; 0]. rewrite distance_ok by auto. cbn [rbind]. rewrite trig0 by (unfold Rdot; cbn; lra). cbn [rbind]. assert (E1 : eu [1 / 2; 0] [0; 0] = 1 / 2). { unfold eu. cbn. replace (_ + _) with (1 / 2 * (1 / 2)) by field. apply sqrt_square. lra. } rewrite E1. unfold magnitude. rewrite ddot_dot. assert (E2 : vadd [1 / 2; 1 / 2] (vscale (1 / 2) (vscale (0 + Rdot [1; 0] [1; 0]) [1; 0])) = [1; 1 / 2]). { unfold Rdot. cbn. repeat f_equal; field. } rewrite E2. near [1; 0]. reflexivity. }
  assert (G1 : get_candidate beta c 1 1 = Ok [0; 1]). { unfold get_candidate, c, beta. cbn [lookup list_lookup]. near [1 / 2; 0]. cbn [candidate_loop Nat.eqb negb andb]. bnd true. near [0; 1 / 2]. near [0; 0]. rewrite distance_ok by auto. cbn [rbind]. rewrite trig0 by (unfold Rdot; cbn; lra). cbn [rbind]. assert (E1 : eu [0; 1 / 2] [0; 0] = 1 / 2). { unfold eu. cbn. replace (_ + _) with (1 / 2 * (1 / 2)) by field. apply sqrt_square. lra. } rewrite E1. unfold magnitude. rewrite ddot_dot. assert (E2 : vadd [1 / 2; 1 / 2] (vscale (1 / 2) (vscale (0 + Rdot [0; 1] [0; 1]) [0; 1])) = [1 / 2; 1]). { unfold Rdot. cbn. repeat f_equal; field. } rewrite E2. near [0; 1]. reflexivity. }
  assert (E : exists pen x st', linear_constraint beta None 1 None = Ok (pen, x, st') /\ (x = [2; 1] \/ x = [1; 2])).
  { unfold linear_constraint. change (default_constraints (length beta)) with c. cbn [beta c length forallb Nat.eqb andb negb map]. do 2 bnd true. rewrite bound_two. fold c beta. cbn [sc_pt best]. rewrite G0. cbn [rbind]. rewrite distance_ok by auto. cbn [rbind]. rewrite G1. cbn [rbind]. rewrite !distance_ok by auto. cbn [rbind]. unfold magnitude.
    destruct (Rlt_dec _ _); cbn [bool_of or_ub rbind fold_left c lookup list_lookup]; rewrite !ddot_dot; (rewrite distance_ok by reflexivity); cbn [rbind]; do 3 eexists; (split; [reflexivity|]); [right|left]; unfold Rdot; cbn; repeat f_equal; ring. }
  destruct E as (pen & x & st' & E & Hx). apply H in E; [|lra]. destruct E as (_ & _ & N). specialize (N [1; 1] eq_refl). change (map _ (default_constraints (length beta))) with [(0 + 1, [1; 0]); (0 + 1, [0; 1])] in N. specialize (N ltac:(intros k r [[= <- <-]|[[= <- <-]|[]]]; unfold Rdot; cbn; lra)). assert (N2 : eu beta [1; 1] < eu beta x). { unfold eu, beta. apply sqrt_lt_1; destruct Hx as [-> | ->]; cbn; lra. } lra.
Qed.
Lemma leaves beta c m st pen x st' : linear_constraint beta c m st = Ok (pen, x, st') -> exists s, st' = Some s.
Proof.
  unfold linear_constraint. destruct (negb _); [discriminate|]. destruct (filter _ _); [intros [= E1 E2 E3]; eauto|]. match goal with |- rbind ?r _ = _ -> _ => destruct r as [[? ?]| |]; cbn [rbind]; try discriminate end. match goal with |- rbind ?r _ = _ -> _ => destruct r; cbn [rbind]; try discriminate end. intros [= E1 E2 E3]. eauto.
Qed.
(** ** a case: calls with x > 0 and (3/5) x + (4/5) y > 0, and with the default *)
Example C83_nonvacuous : -1 < Rdot [1; 0] [3 / 5; 4 / 5] < 1 /\ Rdot [1; 0] [1; 0] = 1 /\ Rdot [3 / 5; 4 / 5] [3 / 5; 4 / 5] = 1 /\ (exists st, reached (Some [(0, [1; 0]); (0, [3 / 5; 4 / 5])]) (Some st)) /\ (exists st, reached None (Some st)).
Proof.
  assert (R : -1 < Rdot [1; 0] [3 / 5; 4 / 5] < 1) by (unfold Rdot; cbn; lra). assert (U : Rdot [3 / 5; 4 / 5] [3 / 5; 4 / 5] = 1) by (unfold Rdot; cbn; field). assert (V : Rdot [1; 0] [1; 0] = 1) by (unfold Rdot; cbn; ring). split; [auto|]. split; [auto|]. split; [auto|]. split.
  - destruct (C83_two [-1; -1] [1; 0] [3 / 5; 4 / 5] 0 0 None) as (x & st' & E & _); auto using reached_first. destruct (leaves _ _ _ _ _ _ _ E) as (s & ->). exists s. eapply reached_call; [apply reached_first|exact E].
  - destruct (C83_default [-1; -1] None (reached_first _)) as (st' & E & _). destruct (leaves _ _ _ _ _ _ _ E) as (s & ->). exists s. eapply reached_call; [apply reached_first|exact E].
Qed.
Print Assumptions C83_met. Print Assumptions C83_one. Print Assumptions C83_two. Print Assumptions C83_default.
