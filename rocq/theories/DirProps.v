(** C121: the Dirichlet model. *)
From Coq Require Import Reals Lra Lia.
From Coquelicot Require Import Coquelicot.
From Verif Require Import DataModel StatsModel StatsSpec StatsProofs ConvModel LikeModel LikeProps DirModel.
Local Open Scope list_scope.
Local Open Scope R_scope.
Local Arguments Rsum : simpl never.

Definition positive (l : list R) : Prop := Forall (fun x => 0 < x) l.
(** the log density of a row, written with sums over the places *)
Definition log_density (lg : R -> R) (al th : list R) : R :=
  Rsumf (fun '(a, t) => (a - 1) * ln t) (combine al th) + lg (Rsum al) - Rsumf lg al.
(** each row of the matrix has one number for each parameter *)
Definition fits (al : list R) (m : grid R) : Prop := wf_grid m /\ gc m = length al.

Lemma vsum l : vector_sum l = Rsum l.
Proof. unfold vector_sum. rewrite fold_left_Rplus. lra. Qed.
Lemma powers_R al : forall th, powers al th = Rsumf (fun '(a, t) => (a - 1) * ln t) (combine al th).
Proof. induction al as [|a al IH]; intros [|t th]; auto. cbn [powers combine]. rewrite Rsumf_cons, IH. auto. Qed.
Lemma dir_rows_R lg al rows : Forall (fun r => length r = length al) rows -> dir_rows lg al rows = Ok (Rsumf (log_density lg al) rows).
Proof.
  induction 1 as [|r rows H HF IH]; [reflexivity|]. cbn [dir_rows]. unfold dir_row. rewrite H, Nat.ltb_irrefl, IH. rewrite Rsumf_cons. unfold log_density at 2. rewrite !vsum, powers_R. auto.
Qed.
Section Thm.
Context (lg psi : R -> R).
(** the log likelihood is the sum of the rows' log densities, unless the parameters' sum is within 1e-5 of zero: NaN *)
Theorem C121_likelihood : forall al m, fits al m ->
  (1 / 100000 <= Rabs (Rsum al) -> dir_ll lg al m = Ok (Some (Rsumf (log_density lg al) (ga m)))) /\
  (Rabs (Rsum al) < 1 / 100000 -> dir_ll lg al m = Ok None).
Proof.
  intros al m [[H1 H2] H3]. unfold dir_ll. rewrite vsum. split; intros H; destruct (Rlt_dec _ _); try lra; auto. rewrite dir_rows_R; [auto|]. rewrite <- H3. auto.
Qed.
(** ---------- the score ---------- *)
Lemma insert_powers al : forall th i a t x, length th = length al -> al !! i = Some a -> th !! i = Some x ->
  Rsumf (fun '(a, t) => (a - 1) * ln t) (combine (<[i := t]> al) th) = Rsumf (fun '(a, t) => (a - 1) * ln t) (combine al th) + (t - a) * ln x.
Proof.
  induction al as [|b al IH]; intros [|y th] i a t x HL Ha Hx; try discriminate. destruct i as [|i]; cbn in Ha, Hx, HL.
  - injection Ha as ->. injection Hx as ->. change (<[0%nat := t]> (a :: al)) with (t :: al). cbn [combine]. rewrite !Rsumf_cons. lra.
  - change (<[S i := t]> (b :: al)) with (b :: <[i := t]> al). cbn [combine]. rewrite !Rsumf_cons, (IH th i a t x); auto. lra.
Qed.
Lemma insert_sumf (f : R -> R) al : forall i a t, al !! i = Some a -> Rsumf f (<[i := t]> al) = Rsumf f al + (f t - f a).
Proof.
  induction al as [|b al IH]; intros i a t Ha; [destruct i; discriminate|]. destruct i as [|i]; cbn in Ha.
  - injection Ha as ->. change (<[0%nat := t]> (a :: al)) with (t :: al). rewrite !Rsumf_cons. lra.
  - change (<[S i := t]> (b :: al)) with (b :: <[i := t]> al). rewrite !Rsumf_cons, (IH i a t); auto. lra.
Qed.
Lemma Rsum_id l : Rsum l = Rsumf (fun x => x) l. Proof. unfold Rsumf. rewrite map_id. auto. Qed.
Lemma rows_insert al i a t rows : Forall (fun r => length r = length al) rows -> al !! i = Some a ->
  Rsumf (log_density lg (<[i := t]> al)) rows =
  Rsumf (fun th => Rsumf (fun '(a, t) => (a - 1) * ln t) (combine al th)) rows + (t - a) * Rsum (map ln (omap (fun r : list R => r !! i) rows))
  + INR (length rows) * lg (Rsum al + (t - a)) - INR (length rows) * (Rsumf lg al + (lg t - lg a)).
Proof.
  intros HF Ha. assert (Li := lookup_lt_Some _ _ _ Ha). induction HF as [|r rows H HF IH].
  - unfold Rsumf, Rsum; cbn. lra.
  - rewrite Rsumf_cons, IH, Rsumf_cons. unfold log_density at 1. destruct (lookup_lt_is_Some_2 r i) as [x Hx]; [lia|].
    rewrite (insert_powers al r i a t x), (insert_sumf lg al i a t) by auto. rewrite !Rsum_id, (insert_sumf _ al i a t) by auto. rewrite <- !Rsum_id.
    cbn [omap list_omap]. rewrite Hx. cbn [map]. rewrite Rsum_cons. cbn [length]. rewrite S_INR. lra.
Qed.
Lemma score_from total m al : forall k, (k + length al <= gc m)%nat -> exists s, dir_score_from psi total m k al = Ok s /\ length s = length al /\
  forall i a g, al !! i = Some a -> s !! i = Some g -> g = Rsum (map ln (colv m (k + i))) + INR (gr m) * psi total - INR (gr m) * psi a.
Proof.
  induction al as [|a al IH]; intros k H.
  - exists []. split; [reflexivity|]. split; auto. intros i x g Hx; destruct i; discriminate.
  - cbn [dir_score_from]. cbn in H. destruct (k <? gc m)%nat eqn:Ek; [|apply Nat.ltb_ge in Ek; lia]. destruct (IH (S k)) as (s & E & L & G); [lia|]. rewrite E. cbn.
    eexists. split; [reflexivity|]. split; [cbn; auto|]. intros [|i] x g Hx Hg; cbn in *.
    + injection Hx as ->. injection Hg as <-. rewrite vsum, Nat.add_0_r. auto.
    + rewrite (G i x g Hx Hg). replace (k + S i)%nat with (S k + i)%nat by lia. auto.
Qed.
(** each component of the score is the derivative of the log likelihood in that parameter *)
Theorem C121_score : (forall x, 0 < x -> derivable_pt_lim lg x (psi x)) -> forall al m, fits al m -> positive al -> 1 / 100000 < Rsum al ->
  exists s, dir_score psi al m = Ok s /\ length s = length al /\
  forall i a g, al !! i = Some a -> s !! i = Some g ->
    exists lo : R -> R, (forall t, Rabs (t - a) < Rsum al - 1 / 100000 -> dir_ll lg (<[i := t]> al) m = Ok (Some (lo t))) /\ derivable_pt_lim lo a g.
Proof.
  intros Hlg al m [[H1 H2] H3] HP HS. unfold dir_score. destruct (score_from (vector_sum al) m al 0) as (s & E & L & G); [lia|]. exists s. split; auto. split; auto.
  intros i a g Ha Hg. specialize (G i a g Ha Hg). rewrite vsum in G. cbn [Nat.add] in G. rewrite H3 in H2. exists (fun t => Rsumf (log_density lg (<[i := t]> al)) (ga m)). split.
  - intros t Ht. unfold dir_ll. rewrite vsum, Rsum_id, (insert_sumf _ al i a t), <- Rsum_id by auto. destruct (Rlt_dec _ _) as [B|B].
    + exfalso. apply Rabs_def2 in B. apply Rabs_def2 in Ht. lra.
    + rewrite dir_rows_R; auto. rewrite insert_length. auto.
  - assert (P : 0 < a). { unfold positive in HP. rewrite Forall_lookup in HP. eauto. }
    apply is_derive_Reals. eapply is_derive_ext; [intros t; symmetry; apply rows_insert; eauto|].
    pose proof (Hlg a P) as Da. apply is_derive_Reals in Da. assert (Ds : is_derive lg (Rsum al + (a - a)) (psi (Rsum al))).
    { replace (Rsum al + (a - a)) with (Rsum al) by ring. apply is_derive_Reals, Hlg. lra. }
    assert (X1 : ex_derive lg a) by (eexists; eauto). assert (X2 : ex_derive lg (Rsum al + (a - a))) by (eexists; eauto).
    unfold colv in G. set (C := Rsum (map ln (omap (fun r : list R => r !! i) (ga m)))) in *. rewrite G, <- H1.
    auto_derive; [repeat split; auto|]. replace (Derive (fun x => lg x) (Rsum al + (a + - a))) with (psi (Rsum al)) by (symmetry; apply is_derive_unique; exact Ds).
    replace (Derive (fun x => lg x) a) with (psi a) by (symmetry; apply is_derive_unique; exact Da). ring.
Qed.
(** two parameters: the Beta model's likelihood of the first column *)
Theorem C121_beta : forall a b m xs, 0 < a -> 0 < b -> 1 / 100000 <= a + b -> Forall (fun x => 0 < x < 1) xs -> wf_grid m -> gc m = 2%nat ->
  ga m = map (fun x => [x; 1 - x]) xs -> dir_ll lg [a; b] m = Ok (Some (beta_ll lg a b (Pg (Some xs) None None None name_alloc None))).
Proof.
  intros a b m xs Pa Pb Hs HF Hw Hg E. assert (S : Rsum [a; b] = a + b) by (unfold Rsum; cbn; lra). destruct (C121_likelihood [a; b] m (conj Hw Hg)) as [H _].
  rewrite H by (rewrite S, Rabs_pos_eq; lra). do 2 f_equal. rewrite E. clear - HF S. unfold beta_ll. rewrite mapsum_R. unfold tsize, cells, vcells, mcells, vsz, msz1, msz2; cbn [vect mat]. rewrite app_nil_r.
  replace (length xs + 0 * 0)%nat with (length xs) by lia. induction HF as [|x xs Hx HF IH]; [unfold Rsumf, Rsum; cbn; lra|].
  cbn [map length]. rewrite !Rsumf_cons, IH, S_INR. unfold log_density at 1. rewrite S. unfold beta_one, lnbeta. destruct (Rlt_dec x 0); [lra|]. destruct (Rlt_dec 1 x); [lra|].
  unfold Rsumf, Rsum; cbn. lra.
Qed.
End Thm.
(** deviation: parameters that are proper but small give NaN, though the density is there *)
Theorem C121_refuted_small : exists al m, positive al /\ fits al m /\ Forall positive (ga m) /\ forall lg, dir_ll lg al m = Ok None.
Proof.
  exists [4 / 1000000; 4 / 1000000], (Gr 1 2 [[1 / 2; 1 / 2]]). split; [repeat constructor; lra|]. split; [repeat split; repeat constructor|]. split; [repeat constructor; lra|].
  intros lg. apply C121_likelihood; [repeat split; repeat constructor|]. unfold Rsum; cbn. rewrite Rabs_pos_eq; lra.
Qed.
Example C121_nonvacuous : exists al m, fits al m /\ positive al /\ 1 / 100000 < Rsum al /\ Forall positive (ga m) /\ (2 <= length (ga m))%nat /\ (3 <= length al)%nat.
Proof.
  exists [1; 2; 3], (Gr 2 3 [[1 / 2; 1 / 4; 1 / 4]; [1 / 3; 1 / 3; 1 / 3]]). split; [repeat split; repeat constructor|]. split; [repeat constructor; lra|].
  split; [unfold Rsum; cbn; lra|]. split; [repeat constructor; lra|]. cbn. lia.
Qed.
Print Assumptions C121_likelihood. Print Assumptions C121_score. Print Assumptions C121_beta. Print Assumptions C121_refuted_small.
