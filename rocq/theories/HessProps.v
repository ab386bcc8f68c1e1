(** C92: numerical Hessians and covariances. *)
From Coq Require Import Reals Lra.
From Verif Require Import Base DataModel StatsSpec LinProps OlsSpec OlsProofs DiffModel DiffProps.
Local Open Scope list_scope.
Local Open Scope R_scope.

(** a quadratic log likelihood in n parameters, with second derivatives H *)
Definition quad (n : nat) (c : R) (b : nat -> R) (H : nat -> nat -> R) (p : list R) : R :=
  c + sum_to n (fun i => b i * nth i p 0) + sum_to n (fun i => nth i p 0 * sum_to n (fun j => H i j * nth j p 0)) / 2.
(** and its gradient *)
Definition qscore (n : nat) (b : nat -> R) (H : nat -> nat -> R) (p : list R) : list R := map (fun k => b k + sum_to n (fun j => H k j * nth j p 0)) (seq 0 n).

Lemma nth_mapseq n (f : nat -> R) k : (k < n)%nat -> nth k (map f (seq 0 n)) 0 = f k.
Proof. intros Hk. apply nth_lookup_Some. change (map f (seq 0 n)) with (f <$> seq 0 n). rewrite list_lookup_fmap, lookup_seq_lt by auto. auto. Qed.
Section h.
  Context (retry : R -> R -> R * R * R * R -> option (R * (R -> bool))) (Hret : steps_ok retry).
  Lemma nth_ins (p : list R) k t i : (k < length p)%nat -> nth i (<[k := t]> p) 0 = nth i p 0 + (t - nth k p 0) * delta i k.
  Proof.
    intros Hk. unfold delta. destruct (Nat.eqb_spec i k) as [->|Hn]; [rewrite nth_insert_eq by auto; ring|rewrite nth_insert_ne by auto; ring].
  Qed.
  Lemma sum_shift n (a : nat -> R) (p : list R) k t : (k < n)%nat -> length p = n ->
    sum_to n (fun i => a i * nth i (<[k := t]> p) 0) = sum_to n (fun i => a i * nth i p 0) + (t - nth k p 0) * a k.
  Proof.
    intros Hk Hl. rewrite (sum_to_ext n _ (fun i => a i * nth i p 0 + (t - nth k p 0) * (a i * delta i k))) by (intros i Hi; rewrite nth_ins by lia; ring).
    rewrite <- sum_to_plus, <- sum_to_scal. do 2 f_equal. rewrite <- (sum_delta n k a) by auto. apply sum_to_ext. intros i _. unfold delta. rewrite (Nat.eqb_sym k i). ring.
  Qed.
  Lemma quad_shift n c b H p k t : (forall i j, (i < n)%nat -> (j < n)%nat -> H i j = H j i) -> (k < n)%nat -> length p = n ->
    quad n c b H (<[k := t]> p) = quad n c b H p + (t - nth k p 0) * (b k + sum_to n (fun j => H k j * nth j p 0)) + (t - nth k p 0) ^ 2 / 2 * H k k.
  Proof.
    intros Hs Hk Hl. unfold quad. rewrite sum_shift by auto. set (s := t - nth k p 0).
    rewrite (sum_to_ext n (fun i => nth i (<[k := t]> p) 0 * _) (fun i => (sum_to n (fun j => H i j * nth j p 0) + s * H i k) * nth i (<[k := t]> p) 0)).
    2:{ intros i Hi. rewrite sum_shift by auto. unfold s. ring. }
    rewrite sum_shift by auto. fold s.
    rewrite (sum_to_ext n (fun i => (_ + s * H i k) * nth i p 0) (fun i => nth i p 0 * sum_to n (fun j => H i j * nth j p 0) + s * (H k i * nth i p 0))).
    2:{ intros i Hi. rewrite (Hs i k) by auto. ring. }
    rewrite <- sum_to_plus, <- sum_to_scal. field.
  Qed.
  (** the numerical gradient of a quadratic *)
  Lemma quad_gradient n c b H delta p : (forall i j, (i < n)%nat -> (j < n)%nat -> H i j = H j i) -> 0 < delta -> length p = n ->
    fst (numerical_gradient retry (pure (quad n c b H)) None delta p) = qscore n b H p.
  Proof.
    intros Hs Hd Hl. destruct (gradient_ok retry Hret (pure (quad n c b H)) None delta p Hd) as (r & s' & -> & Hr & Hv & _). cbn [fst].
    apply (nth_ext _ _ 0 0); [unfold qscore; rewrite map_length, seq_length; lia|]. intros k Hk. destruct (Hv k) as (h & Hh & -> & _); [lia|].
    unfold qscore. rewrite nth_mapseq by lia.
    set (x := nth k p 0). set (D := b k + sum_to n (fun j => H k j * nth j p 0)).
    rewrite (rule_quartic _ x h (quad n c b H p - x * D + x ^ 2 / 2 * H k k) (D - x * H k k) (H k k / 2) 0 0); [field|lra|].
    intros t. rewrite val_pure, quad_shift by (auto; lia). fold x D. field.
  Qed.

  (** the loop of the Hessian *)
  Lemma hess_loop f c score delta d2 (Inv : list R -> Prop) todo : forall k acc s,
    (forall k s, Inv s -> Inv (snd (numerical_gradient retry (fn_for_infomatrix retry f c score d2 k) None delta s))) -> Inv s ->
    exists R acc' s', hessian_loop retry f c score delta d2 todo k acc s = (acc', s') /\ Inv s' /\
      (forall a, (k <= a < k + todo)%nat -> exists s1, Inv s1 /\ R a = fst (numerical_gradient retry (fn_for_infomatrix retry f c score d2 a) None delta s1)) /\
      (forall a b, acc' a b = acc a b + (if (k <=? a)%nat && (a <? k + todo)%nat then nth b (R a) 0 / 2 else 0) + (if (k <=? b)%nat && (b <? k + todo)%nat then nth a (R b) 0 / 2 else 0)).
  Proof.
    induction todo as [|todo IH]; intros k acc s HI Hs; cbn [hessian_loop].
    - exists (fun _ => []), acc, s. repeat split; auto; [intros a Ha; lia|]. intros a b.
      destruct (Nat.leb_spec k a), (Nat.ltb_spec a (k + 0)), (Nat.leb_spec k b), (Nat.ltb_spec b (k + 0)); cbn [andb]; try lia; ring.
    - pose proof (HI k s Hs) as H1. destruct (numerical_gradient retry (fn_for_infomatrix retry f c score d2 k) None delta s) as [ds s1] eqn:E. cbn [snd] in H1.
      destruct (IH (S k) (fun a b => acc a b + (if (a =? k)%nat then nth b ds 0 / 2 else 0) + (if (b =? k)%nat then nth a ds 0 / 2 else 0)) s1 HI H1) as (R & acc' & s' & -> & I1 & I2 & I3).
      exists (fun a => if (a =? k)%nat then ds else R a), acc', s'. split; auto. split; auto. split.
      + intros a Ha. destruct (Nat.eqb_spec a k) as [->|Hn]; [exists s; rewrite E; auto|]. apply I2. lia.
      + intros a b. rewrite I3.
        destruct (Nat.eqb_spec a k), (Nat.leb_spec (S k) a), (Nat.ltb_spec a (S k + todo)), (Nat.leb_spec k a), (Nat.ltb_spec a (k + S todo)); try lia; cbn [andb];
          destruct (Nat.eqb_spec b k), (Nat.leb_spec (S k) b), (Nat.ltb_spec b (S k + todo)), (Nat.leb_spec k b), (Nat.ltb_spec b (k + S todo)); try lia; cbn [andb]; subst; ring.
  Qed.
  Lemma matrix_cell n a i j : (i < n)%nat -> (j < n)%nat -> cell (matrix_of n a) i j = Some (a i j).
  Proof.
    intros Hi Hj. unfold cell, matrix_of. cbn [ga].
    change (map (fun i => map (fun j => a i j) (seq 0 n)) (seq 0 n)) with ((fun i => map (fun j => a i j) (seq 0 n)) <$> seq 0 n). rewrite list_lookup_fmap, lookup_seq_lt by auto. cbn [fmap option_fmap option_map Nat.add].
    change (map (fun j => a i j) (seq 0 n)) with ((fun j => a i j) <$> seq 0 n). rewrite list_lookup_fmap, lookup_seq_lt by auto. auto.
  Qed.
End h.

(** C92: the Hessian is symmetric: for every log likelihood, whatever the likelihood and the constraint do to the parameters, whatever the steps. *)
Theorem C92_symmetric : forall retry f c score delta d2 s i j, (i < length s)%nat -> (j < length s)%nat ->
  exists x, cell (fst (hessian retry f c score delta d2 s)) i j = Some x /\ cell (fst (hessian retry f c score delta d2 s)) j i = Some x.
Proof.
  intros retry f c score delta d2 s i j Hi Hj. unfold hessian.
  destruct (hess_loop retry f c score delta d2 (fun _ => True) (length s) 0 (fun _ _ => 0) s) as (R & acc & s' & -> & _ & _ & Ha); auto.
  cbn [fst]. rewrite !matrix_cell by auto. exists (acc i j). split; auto. f_equal. rewrite !Ha. ring.
Qed.
Print Assumptions C92_symmetric.

(** [b] is [a] with the last parameter moved up, or where it was *)
Definition moved (a b : list R) : Prop :=
  length b = length a /\ nth (length a - 1) a 0 <= nth (length a - 1) b 0 /\ forall j, (j < length a - 1)%nat -> nth j b 0 = nth j a 0.
Definition moved_up (a b : list R) : Prop :=
  length b = length a /\ nth (length a - 1) a 0 < nth (length a - 1) b 0 /\ forall j, (j < length a - 1)%nat -> nth j b 0 = nth j a 0.
Lemma moved_refl a : moved a a. Proof. repeat split; auto. lra. Qed.
Lemma moved_weak a b : moved_up a b -> moved a b. Proof. intros (H1 & H2 & H3). repeat split; auto. lra. Qed.
Lemma moved_trans a b c : moved a b -> moved_up b c -> moved_up a c.
Proof. intros (H1 & H2 & H3) (G1 & G2 & G3). rewrite H1 in *. repeat split; [lia|lra|]. intros j Hj. rewrite G3 by auto. auto. Qed.
Lemma moved_insert (a : list R) x : a <> [] -> nth (length a - 1) a 0 < x -> moved_up a (<[(length a - 1)%nat := x]> a).
Proof.
  intros Hn Hx. assert (0 < length a)%nat by (destruct a; [congruence|cbn; lia]). split; [apply insert_length|]. split; [rewrite nth_insert_eq by lia; auto|].
  intros j Hj. apply nth_insert_ne. lia.
Qed.
Section d.
  Context (retry : R -> R -> R * R * R * R -> option (R * (R -> bool))) (Hret : steps_ok retry).
  Lemma gradient_moves f delta s : (forall p, moved p (snd (f p))) -> 0 < delta -> s <> [] -> moved_up s (snd (numerical_gradient retry f None delta s)).
  Proof.
    intros Hf Hd Hn. destruct (gradient_ok retry Hret f None delta s Hd) as (r & s' & -> & _ & _ & _ & H). destruct (H Hn) as (k & Hk & ->). cbn [snd]. unfold aft, pen. cbn [fst snd].
    pose proof (moved_insert s (nth (length s - 1) s 0 + k / 2) Hn ltac:(lra)) as Hm. set (s1 := <[(length s - 1)%nat := nth (length s - 1) s 0 + k / 2]> s) in *.
    destruct (Hf s1) as (F1 & F2 & F3). destruct Hm as (M1 & M2 & M3). rewrite M1 in *. repeat split; [lia|lra|]. intros j Hj. rewrite F3 by auto. auto.
  Qed.
  Lemma info_moves g score d2 k p : 0 < d2 -> moved p (snd (fn_for_infomatrix retry (pure g) None score d2 k p)).
  Proof.
    intros Hd. unfold fn_for_infomatrix. destruct score; [apply moved_refl|]. destruct p as [|x p]; [apply moved_refl|].
    pose proof (gradient_moves (pure g) d2 (x :: p) moved_refl Hd ltac:(discriminate)) as H. destruct (numerical_gradient retry (pure g) None d2 (x :: p)). cbn [snd] in *. apply moved_weak. auto.
  Qed.
  Lemma hessian_moves g score delta d2 s : 0 < delta -> 0 < d2 -> s <> [] -> moved_up s (snd (hessian retry (pure g) None score delta d2 s)).
  Proof.
    intros Hd Hd2 Hn. unfold hessian. destruct (length s) as [|n] eqn:El; [destruct s; [congruence|discriminate]|]. cbn [hessian_loop].
    pose proof (gradient_moves (fn_for_infomatrix retry (pure g) None score d2 0) delta s (fun p => info_moves g score d2 0 p Hd2) Hd Hn) as H1.
    destruct (numerical_gradient retry _ None delta s) as [ds s1]. cbn [snd] in H1.
    match goal with |- context [hessian_loop _ _ _ _ _ _ ?t ?k ?a s1] => destruct (hess_loop retry (pure g) None score delta d2 (moved_up s) t k a s1) as (R & acc & s' & -> & HI & _) end; auto.
    intros k s2 H2. eapply moved_trans; [apply moved_weak, H2|]. apply gradient_moves; auto; [intros p; apply info_moves; auto|].
    destruct H2 as (H2 & _). intros ->. rewrite El in H2. discriminate.
  Qed.
  (** element [k] of the score, evaluated at [p], when the score registered is that of the quadratic or there is none *)
  Lemma info_quad n c b H score d2 k p : (forall i j, (i < n)%nat -> (j < n)%nat -> H i j = H j i) -> 0 < d2 -> length p = n -> (k < n)%nat ->
    (score = None \/ score = Some (qscore n b H)) -> fst (fn_for_infomatrix retry (pure (quad n c b H)) None score d2 k p) = b k + sum_to n (fun j => H k j * nth j p 0).
  Proof.
    intros Hs Hd Hl Hk Hsc. assert (nth k (qscore n b H p) 0 = b k + sum_to n (fun j => H k j * nth j p 0)) as Hq by (unfold qscore; rewrite nth_mapseq by auto; auto).
    destruct Hsc as [->| ->]; cbn [fn_for_infomatrix]; [|exact Hq]. pose proof (quad_gradient retry Hret n c b H d2 p Hs Hd Hl) as Hg.
    destruct (numerical_gradient retry _ None d2 p) as [v p']. cbn [fst] in *. rewrite Hg. exact Hq.
  Qed.
  Lemma hessian_quad n c b H score delta d2 s : (forall i j, (i < n)%nat -> (j < n)%nat -> H i j = H j i) -> 0 < delta -> 0 < d2 -> length s = n ->
    (score = None \/ score = Some (qscore n b H)) ->
    forall i j, (i < n)%nat -> (j < n)%nat -> cell (fst (hessian retry (pure (quad n c b H)) None score delta d2 s)) i j = Some (H i j).
  Proof.
    intros Hs Hd Hd2 Hl Hsc i j Hi Hj. unfold hessian. rewrite Hl.
    destruct (hess_loop retry (pure (quad n c b H)) None score delta d2 (fun q => length q = n) n 0 (fun _ _ => 0) s) as (R & acc & s' & -> & _ & HR & Ha); auto.
    { intros k q Hq. destruct q as [|x q]; [destruct n; [|discriminate]|].
      - destruct (gradient_ok retry Hret (fn_for_infomatrix retry (pure (quad 0 c b H)) None score d2 k) None delta [] Hd) as (r & s' & -> & _ & _ & He & _). rewrite He; auto.
      - destruct (gradient_moves (fn_for_infomatrix retry (pure (quad n c b H)) None score d2 k) delta (x :: q)) as (HH & _); [intros p; apply info_moves; auto|auto|discriminate|]. rewrite HH. auto. }
    cbn [fst]. rewrite matrix_cell by auto. f_equal. rewrite Ha.
    assert (forall a e, (a < n)%nat -> (e < n)%nat -> nth e (R a) 0 = H a e) as HRR.
    { intros a e Ha' He. destruct (HR a) as (s1 & Hl1 & ->); [lia|]. destruct (gradient_ok retry Hret (fn_for_infomatrix retry (pure (quad n c b H)) None score d2 a) None delta s1 Hd) as (r & s2 & -> & _ & Hv & _).
      cbn [fst]. destruct (Hv e) as (h & Hh & -> & _); [lia|]. apply (rule_affine _ _ _ (b a + sum_to n (fun j => H a j * nth j s1 0) - nth e s1 0 * H a e) (H a e)); [lra|].
      intros t. unfold val, pen. cbn [fst snd]. rewrite (info_quad n c b H score d2 a (<[e := t]> s1)); auto; [|rewrite insert_length; auto]. rewrite sum_shift by auto. ring. }
    rewrite !HRR by auto. rewrite (Hs j i) by auto. cbn [Nat.add Nat.leb andb]. destruct (Nat.ltb_spec i n), (Nat.ltb_spec j n); try lia. destruct (Nat.leb_spec 0 i), (Nat.leb_spec 0 j); try lia. cbn [andb]. field.
  Qed.
End d.

(** C92: for a log likelihood that is quadratic in the parameters, the Hessian is exactly the matrix of second derivatives, with the score registered or without,
    at every point and whichever steps are taken. *)
Theorem C92_quadratic : forall retry n c b H score delta d2 s, steps_ok retry -> 0 < delta -> 0 < d2 -> length s = n ->
  (forall i j, (i < n)%nat -> (j < n)%nat -> H i j = H j i) -> (score = None \/ score = Some (qscore n b H)) ->
  forall i j, (i < n)%nat -> (j < n)%nat -> cell (fst (hessian retry (pure (quad n c b H)) None score delta d2 s)) i j = Some (H i j).
Proof. intros retry n c b H score delta d2 s Hr Hd Hd2 Hl Hs Hsc. apply hessian_quad; auto. Qed.
Print Assumptions C92_quadratic.
(** qscore is the score, H the second derivatives *)
Theorem C92_score : forall n c b H p k, (forall i j, (i < n)%nat -> (j < n)%nat -> H i j = H j i) -> (k < n)%nat -> length p = n ->
  derivable_pt_lim (fun t => quad n c b H (<[k := t]> p)) (nth k p 0) (nth k (qscore n b H p) 0) /\
  forall j, (j < n)%nat -> derivable_pt_lim (fun t => nth k (qscore n b H (<[j := t]> p)) 0) (nth j p 0) (H k j).
Proof.
  intros n c b H p k Hs Hk Hl. split.
  - unfold qscore. rewrite nth_mapseq by auto. set (D := b k + _). intros eps He. exists (mkposreal (eps / (1 + Rabs (H k k))) ltac:(apply Rdiv_lt_0_compat; [lra|pose proof (Rabs_pos (H k k)); lra])).
    intros h Hh Hhd. cbn in Hhd. rewrite !quad_shift by auto. fold D. set (x := nth k p 0) in *.
    match goal with |- Rabs ?e < _ => replace e with (h / 2 * H k k) by (field; auto) end. rewrite Rabs_mult. unfold Rdiv. rewrite Rabs_mult, (Rabs_pos_eq (/ 2)) by lra.
    pose proof (Rabs_pos (H k k)) as HP. pose proof (Rabs_pos h). apply (Rmult_lt_compat_r (1 + Rabs (H k k))) in Hhd; [|lra]. unfold Rdiv in Hhd. rewrite Rmult_assoc, Rinv_l, Rmult_1_r in Hhd by lra.
    assert (0 <= Rabs h * Rabs (H k k)) by (apply Rmult_le_pos; lra). assert (0 < Rabs h) by (apply Rabs_pos_lt; auto). nra.
  - intros j Hj eps He. exists (mkposreal 1 Rlt_0_1). intros h Hh _. unfold qscore. rewrite !nth_mapseq by auto. rewrite !sum_shift by auto.
    match goal with |- Rabs ?e < _ => replace e with 0 by (field; auto) end. rewrite Rabs_R0. auto.
Qed.
Print Assumptions C92_score.

(** C92: then the covariance returned is the inverse of the negated Hessian, and is added to the parameters as their page of covariances unless they have one, which stays. *)
Theorem C92_covariance : forall retry linv n c b H Hi score delta d2 page s, steps_ok retry -> 0 < delta -> 0 < d2 -> length s = n ->
  (forall i j, (i < n)%nat -> (j < n)%nat -> H i j = H j i) -> (score = None \/ score = Some (qscore n b H)) -> inverts linv n H Hi ->
  exists out s', numerical_covariance retry linv (pure (quad n c b H)) None score delta d2 page s = Ok (out, Some (match page with Some p => p | None => out end), s') /\
    inverse_of n (fun i j => - H i j) out.
Proof.
  intros retry linv n c b H Hi score delta d2 page s Hr Hd Hd2 Hl Hs Hsc [(Hw & Hg & Hc & HL & HR) Hinv]. unfold numerical_covariance.
  pose proof (hessian_quad retry Hr n c b H score delta d2 s Hs Hd Hd2 Hl Hsc) as Hq. assert (exists a, fst (hessian retry (pure (quad n c b H)) None score delta d2 s) = matrix_of n a) as [a Ea].
  { unfold hessian. rewrite Hl. destruct (hessian_loop _ _ _ _ _ _ _ _ _ _) as [a s']. exists a. auto. }
  destruct (hessian retry (pure (quad n c b H)) None score delta d2 s) as [h s']. cbn [fst] in *. subst h.
  rewrite (Hinv (matrix_of n a)); auto.
  2:{ unfold wf_grid, matrix_of. cbn [ga gr gc]. split; [rewrite map_length, seq_length; auto|]. apply List.Forall_forall. intros r Hr'. apply in_map_iff in Hr' as (i & <- & _). rewrite map_length, seq_length. auto. }
  eexists _, s'. split; [reflexivity|]. set (out := Gr _ _ _).
  assert (forall i j, elt out false i j = - elt Hi false i j) as Ho.
  { intros i j. unfold elt, out, cell. cbn [ga]. change (map (map (fun x => x * -1)) (ga Hi)) with (map (fun x => x * -1) <$> ga Hi). rewrite list_lookup_fmap. destruct (ga Hi !! i) as [r|]; cbn; [|lra].
    change (map (fun x => x * -1) r) with ((fun x => x * -1) <$> r). rewrite list_lookup_fmap. destruct (r !! j); cbn; lra. }
  split; [|split; [exact Hg|split; [exact Hc|]]].
  - destruct Hw as [W1 W2]. unfold wf_grid, out. cbn [ga gr gc]. split; [rewrite map_length; auto|]. apply List.Forall_forall. intros r Hr'. apply in_map_iff in Hr' as (q & <- & Hq'). rewrite map_length. rewrite List.Forall_forall in W2. auto.
  - split; intros i j Hi' Hj'; [rewrite <- HL by auto|rewrite <- HR by auto]; apply sum_to_ext; intros l _; rewrite Ho; ring.
Qed.
Print Assumptions C92_covariance.

(** C92, refuted: finding the covariance of an estimated model leaves the estimate alone. *)
Theorem C92_refuted_estimate : forall retry linv g score delta d2 page s out page' s', steps_ok retry -> 0 < delta -> 0 < d2 -> s <> [] ->
  numerical_covariance retry linv (pure g) None score delta d2 page s = Ok (out, page', s') -> moved_up s s'.
Proof.
  intros retry linv g score delta d2 page s out page' s' Hr Hd Hd2 Hn. unfold numerical_covariance. pose proof (hessian_moves retry Hr g score delta d2 s Hd Hd2 Hn) as H.
  destruct (hessian retry (pure g) None score delta d2 s) as [h s1]. cbn [snd] in H. destruct (linv h); [|discriminate]. intros [= _ _ <-]. auto.
Qed.
Print Assumptions C92_refuted_estimate.
(** refuted: the Hessian is that at the parameters given, were the derivatives exact.  log likelihood y^3, of x and y, score registered: the second derivative is
    6y, and the numerical one (the five-point rule is exact for this score) that at another place *)
Theorem C92_refuted_place : forall retry delta d2 x y, steps_ok retry -> 0 < delta ->
  exists y', y < y' /\ cell (fst (hessian retry (pure (fun p => nth 1 p 0 ^ 3)) None (Some (fun p => [0; 3 * nth 1 p 0 ^ 2])) delta d2 [x; y])) 1 1 = Some (6 * y').
Proof.
  intros retry delta d2 x y Hr Hd. unfold hessian. cbn [length hessian_loop].
  set (f0 := fn_for_infomatrix retry _ None _ d2 0). set (f1 := fn_for_infomatrix retry _ None _ d2 1).
  pose proof (gradient_moves retry Hr f0 delta [x; y] (fun p => moved_refl p) Hd ltac:(discriminate)) as Hm.
  destruct (numerical_gradient retry f0 None delta [x; y]) as [ds s1]. cbn [snd] in Hm. destruct Hm as (L & M & _). cbn [length Nat.sub nth] in *.
  destruct s1 as [|a [|y' [|]]]; try discriminate. cbn [nth] in M.
  destruct (gradient_ok retry Hr f1 None delta [a; y'] Hd) as (r & s2 & -> & _ & Hv & _). destruct (Hv 1%nat) as (k & Hk & Hk2 & _); [cbn; lia|].
  exists y'. split; auto. cbn [fst]. rewrite matrix_cell by lia. cbn [Nat.eqb]. f_equal. rewrite Hk2. cbn [nth].
  rewrite (rule_quartic _ y' k 0 0 3 0 0); [lra|lra|]. intros t. unfold val, pen, f1, fn_for_infomatrix. cbn [fst snd insert list_insert nth]. ring.
Qed.
Print Assumptions C92_refuted_place.
Example C92_nonvacuous : exists H Hi, (forall i j, (i < 2)%nat -> (j < 2)%nat -> H i j = H j i) /\ inverts (fun _ => Some Hi) 2 H Hi /\ H 0%nat 1%nat = 1.
Proof.
  exists (fun i j => if (i =? j)%nat then -2 else 1), (Gr 2 2 [[-2/3; -1/3]; [-1/3; -2/3]]). split; [|split; [|reflexivity]].
  - intros i j _ _. cbn beta. rewrite (Nat.eqb_sym i j). auto.
  - split; [|auto]. split; [split; [reflexivity|cbn; repeat (apply List.Forall_cons || apply List.Forall_nil); reflexivity]|]. split; [reflexivity|]. split; [reflexivity|].
    split; intros [|[|i]] [|[|j]] Hi Hj; try lia; unfold sum_to, Rsum, delta, elt, cell; cbn; lra.
Qed.
