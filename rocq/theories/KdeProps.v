(** C102, C103: the density of a kernel density estimate and its distribution function. *)
From Coq Require Import Reals Lra.
From Coquelicot Require Import Coquelicot.
From Verif Require Import Base StatsSpec StatsProofs SearchModel PmfModel KdeModel.
Local Open Scope list_scope.
Local Open Scope R_scope.

(** a density from its logarithm *)
Definition dens (l : xr) : R := match l with Fin y => exp y | _ => 0 end.
Definition log_of_density (l : xr) : Prop := (exists y, l = Fin y) \/ l = NInf.
(** the weights of the points, one each if none are given *)
Definition weights {D X P} (k : kde D X P) : list R := match k_wts k with Some w => w | None => map (fun _ => 1) (k_rows k) end.
(** points, and weights for them that are not negative and not all zero *)
Definition proper {D X P} (k : kde D X P) : Prop := length (weights k) = length (k_rows k) /\ Forall (Rle 0) (weights k) /\ 0 < Rsum (weights k).
(** the kernel's parameters are what set_fn last set, whatever it set before (so for the default one, which sets the first parameter) *)
Definition last_wins {D X P} (k : kde D X P) : Prop := forall r r' p, k_set k r (k_set k r' p) = k_set k r p.
(** the kernels' log likelihoods are logarithms of densities *)
Definition kernels_ok {D X P} (k : kde D X P) (p : P) (d : list X) : Prop := forall r x, In r (k_rows k) -> In x d -> log_of_density (k_ll k (k_set k r p) x).
(** the estimate's density: the weighted mean of the densities of the kernels, each set at its point *)
Definition mean_by (w f : list R) : R := Rdot w f / Rsum w.
Definition density {D X P} (k : kde D X P) (p : P) (x : X) : R := mean_by (weights k) (map (fun r => dens (k_ll k (k_set k r p) x)) (k_rows k)).
Definition left_at {D X P} (k : kde D X P) (p : P) : P := match list.last (k_rows k) with Some r => k_set k r p | None => p end.

Section proofs.
  Context {D X P : Type}.
  Implicit Types k : kde D X P.
  Definition same k (q p : P) : Prop := forall r, k_set k r q = k_set k r p.

  Lemma row_lls_ok k x p : last_wins k -> forall rows q acc, same k q p ->
    fold_left (fun '(lls, p) r => let p := k_set k r p in (lls ++ [k_ll k p x], p)) rows (acc, q) = (acc ++ map (fun r => k_ll k (k_set k r p) x) rows, match list.last rows with Some r => k_set k r p | None => q end).
  Proof.
    intros Hk. induction rows as [|r rows IH]; intros q acc Hq; cbn [fold_left map]; [rewrite app_nil_r; auto|]. cbv zeta.
    rewrite IH; [|intros r'; rewrite Hk; auto]. rewrite <- app_assoc. cbn [app]. rewrite Hq. f_equal. destruct rows; [auto|]. destruct (list.last (d :: rows)) eqn:E; [rewrite last_cons, E; auto|apply last_None in E; discriminate].
  Qed.
  Lemma row_lls_same k x p q : last_wins k -> same k q p -> row_lls k x q = (map (fun r => k_ll k (k_set k r p) x) (k_rows k), match list.last (k_rows k) with Some r => k_set k r p | None => q end).
  Proof. intros Hk Hq. unfold row_lls. rewrite (row_lls_ok k x p); auto. Qed.
  Lemma getwt_ok k j y : proper k -> weights k !! j = Some y -> getwt k j = y.
  Proof.
    intros [Hl _] Hj. unfold getwt, weights in *. destruct (k_wts k) as [w|]; [apply (nth_lookup_Some _ _ _ _ Hj)|]. apply elem_of_list_lookup_2, elem_of_list_In, in_map_iff in Hj as (? & <- & _). auto.
  Qed.
  Lemma weight_ok k : proper k -> weight k = Rsum (weights k).
  Proof.
    intros _. unfold weight, weights. destruct (k_wts k) as [w|]; [rewrite fold_left_Rplus; lra|]. induction (k_rows k) as [|r l IH]; cbn [length map]; rewrite ?Rsum_nil, ?Rsum_cons, ?S_INR, ?IH; [reflexivity|lra].
  Qed.
  Lemma wts_ok_ok k : proper k -> wts_ok k = true.
  Proof. intros [Hl _]. unfold wts_ok, weights in *. destruct (k_wts k); auto. rewrite Hl. apply Nat.leb_refl. Qed.
  Lemma max_ok l : forall m, Forall log_of_density l -> log_of_density m -> 
    (exists y, fold_left (fun m l => if xgt l m then l else m) l m = Fin y) \/ (fold_left (fun m l => if xgt l m then l else m) l m = NInf /\ m = NInf /\ Forall (fun l => l = NInf) l).
  Proof.
    induction l as [|a l IH]; intros m Hl Hm; cbn [fold_left].
    - destruct Hm as [[y ->]| ->]; [left; eauto|right; auto].
    - inversion Hl as [|? ? Ha Hl']; subst. destruct Ha as [[y ->]| ->].
      + left. destruct Hm as [[z ->]| ->]; cbn [xgt].
        * destruct (Rlt_dec z y); [destruct (IH (Fin y) Hl' ltac:(left; eauto)) as [H|(_ & H & _)]|destruct (IH (Fin z) Hl' ltac:(left; eauto)) as [H|(_ & H & _)]]; try discriminate; exact H.
        * destruct (IH (Fin y) Hl' ltac:(left; eauto)) as [H|(_ & H & _)]; [exact H|discriminate].
      + assert ((if xgt NInf m then NInf else m) = m) as -> by (destruct Hm as [[z ->]| ->]; reflexivity). destruct (IH m Hl' Hm) as [H|(H1 & H2 & H3)]; [left; auto|right; auto].
  Qed.
  Lemma terms_ok k M : forall lls w i t, length w = length lls -> (forall j y, w !! j = Some y -> getwt k (i + j) = y) -> Forall log_of_density lls ->
    fold_left xadd (map (fun '(i, l) => xscale (getwt k i) (xexp (xsub l (Fin M)))) (combine (seq i (length lls)) lls)) (Fin t) = Fin (t + exp (- M) * Rdot w (map dens lls)).
  Proof.
    induction lls as [|l lls IH]; intros [|y w] i t Hl Hw HF; try discriminate; cbn [length seq combine map fold_left]; [unfold Rdot; cbn; f_equal; lra|]. inversion HF as [|? ? Hd HF']; subst.
    pose proof (Hw 0%nat y eq_refl) as E. rewrite Nat.add_0_r in E. rewrite E.
    assert (xscale y (xexp (xsub l (Fin M))) = Fin (exp (- M) * (y * dens l))) as ->. { destruct Hd as [[z ->]| ->]; cbn; f_equal; [|lra]. rewrite exp_plus. lra. }
    cbn [xadd]. rewrite (IH w (S i)); auto; [|intros j z Hj; replace (S i + j)%nat with (i + S j)%nat by lia; apply Hw; auto]. f_equal. unfold Rdot. cbn [zip_with map]. rewrite Rsum_cons. lra.
  Qed.
  Lemma dot_ninf w : forall lls, Forall (fun l => l = NInf) lls -> Rdot w (map dens lls) = 0.
  Proof. unfold Rdot. induction w as [|y w IH]; intros lls H; [reflexivity|]. destruct H as [|l lls -> H]; [reflexivity|]. cbn [map zip_with dens]. rewrite Rsum_cons, IH by auto. lra. Qed.
  Lemma dot_nonneg w : forall lls, Forall (Rle 0) w -> 0 <= Rdot w (map dens lls).
  Proof.
    unfold Rdot. intros lls H. revert lls. induction H as [|y w Hy H IH]; intros lls; [apply Rle_refl|]. destruct lls as [|l lls]; [apply Rle_refl|]. cbn [map zip_with]. rewrite Rsum_cons. specialize (IH lls).
    assert (0 <= dens l) by (destruct l; cbn; try lra; apply Rlt_le, exp_pos). nra.
  Qed.
  (** what one observation adds *)
  Lemma point_ok k lls : proper k -> length lls = length (k_rows k) -> Forall log_of_density lls ->
    (0 < Rdot (weights k) (map dens lls) -> point_ll k lls = Some (Fin (ln (Rdot (weights k) (map dens lls))))) /\ (Rdot (weights k) (map dens lls) = 0 -> point_ll k lls = None \/ point_ll k lls = Some NInf).
  Proof.
    intros Hp Hl HF. unfold point_ll. pose proof (dot_nonneg (weights k) lls (proj1 (proj2 Hp))) as Hnn.
    destruct (max_ok lls NInf HF ltac:(right; auto)) as [[M ->]|(-> & _ & Hall)].
    - rewrite (terms_ok k M lls (weights k) 0 0); auto; [|rewrite Hl; apply Hp|intros j y Hj; apply getwt_ok; auto]. rewrite Rplus_0_l. pose proof (exp_pos (- M)). split.
      + intros Hpos. f_equal. assert (0 < exp (- M) * Rdot (weights k) (map dens lls)) as H1 by (apply Rmult_lt_0_compat; auto). cbn [xlog]. destruct (Rlt_dec _ 0); [lra|]. destruct (Rlt_dec 0 _); [|lra]. cbn [xadd]. f_equal.
        rewrite ln_mult, ln_exp by auto. lra.
      + intros ->. right. rewrite Rmult_0_r. cbn [xlog]. destruct (Rlt_dec 0 0); [lra|]. reflexivity.
    - split; [|auto]. rewrite dot_ninf by auto. lra.
  Qed.
  Definition ll_spec k p d (a : xr) (l : xr) : Prop :=
    (Forall (fun x => 0 < density k p x) d -> forall y, a = Fin y -> l = Fin (y + Rsum (map (fun x => ln (density k p x)) d) + INR (length d) * ln (Rsum (weights k)))) /\
    (a = NInf \/ Exists (fun x => density k p x = 0) d -> l = NInf) /\ log_of_density l.
  Lemma density_pos k p x : proper k -> 0 <= density k p x.
  Proof. intros (Hl & Hw & Hs). unfold density, mean_by. rewrite <- map_map with (g := dens). apply Rmult_le_pos; [apply dot_nonneg; auto|apply Rlt_le, Rinv_0_lt_compat; auto]. Qed.
  Lemma loop_ok k p : proper k -> last_wins k -> forall d q a, kernels_ok k p d -> same k q p -> log_of_density a -> exists l, ll_loop k d (a, q) = (l, match d with [] => q | _ => left_at k p end) /\ ll_spec k p d a l.
  Proof.
    intros Hp Hk. assert (k_rows k <> []) as Hne. { intros E. destruct Hp as (Hl & _ & Hs). rewrite E in Hl. destruct (weights k); [rewrite Rsum_nil in Hs; lra|discriminate]. }
    induction d as [|x d IH]; intros q a Hd Hq Ha.
    - exists a. split; [reflexivity|]. split; [|split; auto]; [intros _ y ->; cbn; f_equal; lra|]. intros [->|H]; auto. inversion H.
    - unfold ll_loop. cbn [fold_left]. rewrite (row_lls_same k x p q) by auto. fold (left_at k p).
      assert (match list.last (k_rows k) with Some r => k_set k r p | None => q end = left_at k p) as ->. { unfold left_at. destruct (list.last (k_rows k)) eqn:E; auto. apply last_None in E. congruence. }
      set (lls := map (fun r => k_ll k (k_set k r p) x) (k_rows k)). assert (density k p x = Rdot (weights k) (map dens lls) / Rsum (weights k)) as Ed by (unfold density, mean_by, lls; rewrite map_map; auto).
      assert (Forall log_of_density lls) as HF. { apply List.Forall_forall. intros l Hl. apply in_map_iff in Hl as (r & <- & Hr). apply Hd; cbn; auto. }
      destruct (point_ok k lls Hp ltac:(unfold lls; apply map_length) HF) as [Pp Pz]. pose proof (dot_nonneg (weights k) lls (proj1 (proj2 Hp))) as Hnn. pose proof (proj2 (proj2 Hp)) as Hs.
      assert (same k (left_at k p) p) as Hsame. { unfold left_at. intros r. destruct (list.last (k_rows k)); auto. }
      assert (kernels_ok k p d) as Hd' by (intros r y Hr Hy; apply Hd; cbn; auto).
      set (a' := match point_ll k lls with None => NInf | Some l => xadd a l end).
      assert (log_of_density a' /\ (0 < density k p x -> forall y, a = Fin y -> a' = Fin (y + ln (density k p x) + ln (Rsum (weights k)))) /\ (a = NInf \/ density k p x = 0 -> a' = NInf)) as (H1 & H2 & H3).
      { unfold a'. destruct (Rle_lt_or_eq_dec _ _ Hnn) as [Hpos|Hz].
        - rewrite (Pp Hpos). split; [destruct Ha as [[y ->]| ->]; [left; cbn; eauto|right; auto]|]. split.
          + intros _ y ->. cbn [xadd]. f_equal. rewrite Ed. rewrite ln_div by auto. lra.
          + intros [->|H0]; [reflexivity|]. exfalso. rewrite Ed in H0. assert (0 < Rdot (weights k) (map dens lls) / Rsum (weights k)) by (apply Rdiv_lt_0_compat; auto). lra.
        - assert (density k p x = 0) as H0 by (rewrite Ed, <- Hz; unfold Rdiv; lra). split; [destruct (Pz (eq_sym Hz)) as [-> | ->]; [right; auto|right; destruct Ha as [[y ->]| ->]; reflexivity]|]. split; [lra|]. intros _. destruct (Pz (eq_sym Hz)) as [-> | ->]; auto. destruct Ha as [[y ->]| ->]; reflexivity. }
      destruct (IH (left_at k p) a' Hd' Hsame H1) as (l & El & S1 & S2 & S3). exists l. split; [unfold ll_loop in El; rewrite El; destruct d; auto|]. split; [|split; auto].
      + intros HFx y Ey. inversion HFx; subst. rewrite (S1 ltac:(auto) _ (H2 ltac:(auto) y eq_refl)). f_equal. cbn [map length]. rewrite Rsum_cons, S_INR. lra.
      + intros [->|HE]; [apply S2; left; auto|]. inversion HE; subst; [apply S2; left; auto|apply S2; right; auto].
  Qed.
End proofs.

(** C102: the log likelihood of data under the estimate is the sum of the logarithms of its density, minus infinity if that is zero at one of them; and the kernel is left set at the last point. *)
Theorem C102_density : forall D X P (k : kde D X P) d p, proper k -> last_wins k -> kernels_ok k p d ->
  (Forall (fun x => 0 < density k p x) d -> kernel_ll k d p = Ok (Fin (Rsum (map (fun x => ln (density k p x)) d)), match d with [] => p | _ => left_at k p end)) /\
  (Exists (fun x => density k p x = 0) d -> kernel_ll k d p = Ok (NInf, left_at k p)) /\
  (forall x, 0 <= density k p x).
Proof.
  intros D X P k d p Hp Hk Hd. unfold kernel_ll. rewrite wts_ok_ok by auto. destruct (loop_ok k p Hp Hk d p (Fin 0) Hd ltac:(intros r; auto) ltac:(left; eauto)) as (l & -> & S1 & S2 & S3).
  pose proof (proj2 (proj2 Hp)) as Hs. rewrite (weight_ok k Hp). cbn [xlog]. destruct (Rlt_dec (Rsum (weights k)) 0); [lra|]. destruct (Rlt_dec 0 (Rsum (weights k))); [|lra]. split; [|split; [|intros; apply density_pos; auto]].
  - intros HF. rewrite (S1 HF 0 eq_refl). cbn [xscale xsub xneg xadd]. do 3 f_equal. lra.
  - intros HE. rewrite (S2 (or_intror HE)). destruct d; [inversion HE|reflexivity].
Qed.
Print Assumptions C102_density.

(** C102: with the default kernel setting, which writes the first parameter, the last setting wins. *)
Theorem C102_default_set : forall r r' p, set_first r (set_first r' p) = set_first r p /\ (p <> [] -> head (set_first r p) = Some r /\ tail (set_first r p) = tail p).
Proof. intros r r' [|a p]; cbn; split; auto; congruence. Qed.
(** two points, with weights one and three; the kernel has its mass at the point it is set at and at the next one *)
Example C102_nonvacuous : exists k : kde nat nat nat, proper k /\ last_wins k /\ kernels_ok k 0%nat [5%nat; 6%nat] /\ Forall (fun x => 0 < density k 0%nat x) [5%nat; 6%nat] /\ density k 0%nat 5%nat = 1 / 8 /\ density k 0%nat 3%nat = 0.
Proof.
  set (lk := fun p x : nat => if (x =? p)%nat then Fin (- ln 2) else if (x =? S p)%nat then Fin (- ln 2) else NInf).
  exists (Kd [5%nat; 6%nat] (Some [1; 3]) (fun r _ => r) lk (fun _ _ => 0) (fun p _ => p)). assert (Rsum [1; 3] = 4) as E by (cbn; lra). assert (exp (- ln 2) = / 2) as E2 by (rewrite exp_Ropp, exp_ln; lra).
  split; [|split; [|split; [|split]]].
  - split; [reflexivity|]. cbn [weights k_wts]. rewrite E. split; [repeat (apply List.Forall_cons || apply List.Forall_nil); lra|lra].
  - intros r r' p. reflexivity.
  - intros r x Hr Hx. cbn in Hr, Hx. unfold log_of_density. destruct Hr as [<-|[<-|[]]]; destruct Hx as [<-|[<-|[]]]; cbn; eauto.
  - repeat (apply List.Forall_cons || apply List.Forall_nil); unfold density, mean_by, Rdot; cbn; rewrite ?E2; lra.
  - split; unfold density, mean_by, Rdot; cbn; rewrite ?E2; lra.
Qed.

(** C103: the distribution function is the weighted mean of the kernels', between zero and one and rising where they are. *)
Definition kernel_cdfs {D X P} (k : kde D X P) (p : P) (x : X) : list R := map (fun r => k_cdf k (k_set k r p) x) (k_rows k).
Lemma cdf_loop {D X P} (k : kde D X P) x p : last_wins k -> forall rows w i t q, same k q p -> length w = length rows -> (forall j y, w !! j = Some y -> getwt k (i + j) = y) ->
  fold_left (fun '(t, p) '(i, r) => let p := k_set k r p in (t + k_cdf k p x * getwt k i, p)) (combine (seq i (length rows)) rows) (t, q) = (t + Rdot w (map (fun r => k_cdf k (k_set k r p) x) rows), match list.last rows with Some r => k_set k r p | None => q end).
Proof.
  intros Hk. induction rows as [|r rows IH]; intros [|y w] i t q Hq Hl Hw; try discriminate; cbn [length seq combine fold_left map]; [unfold Rdot; cbn; f_equal; lra|]. cbv zeta.
  pose proof (Hw 0%nat y eq_refl) as E. rewrite Nat.add_0_r in E. rewrite (IH w); auto.
  - rewrite Hq, E. f_equal; [unfold Rdot; cbn [zip_with]; rewrite Rsum_cons; lra|]. destruct rows; [auto|]. destruct (list.last (d :: rows)) eqn:E2; [rewrite last_cons, E2; auto|apply last_None in E2; discriminate].
  - intros r'. rewrite Hk. auto.
  - intros j z Hj. replace (S i + j)%nat with (i + S j)%nat by lia. apply Hw. auto.
Qed.
Lemma dot_le w : forall f g, Forall (Rle 0) w -> Forall2 Rle f g -> Rdot w f <= Rdot w g.
Proof.
  intros f g Hw. revert f g. unfold Rdot. induction Hw as [|y w Hy Hw IH]; intros f g H; [apply Rle_refl|]. destruct H as [|a b f g Hab H]; [apply Rle_refl|]. cbn [zip_with]. rewrite !Rsum_cons. specialize (IH f g H). nra.
Qed.
Lemma dot_const w : forall c l, length l = length w -> Forall (fun x => x = c) l -> Rdot w l = c * Rsum w.
Proof. unfold Rdot. induction w as [|y w IH]; intros c [|x l] Hl H; try discriminate; cbn [zip_with]; rewrite ?Rsum_nil, ?Rsum_cons; [lra|]. inversion H; subst. rewrite (IH c) by (auto; cbn in Hl; lia). lra. Qed.
Theorem C103_cdf : forall D X P (k : kde D X P) x p, proper k -> last_wins k -> kernel_cdf k x p = Ok (Fin (mean_by (weights k) (kernel_cdfs k p x)), left_at k p).
Proof.
  intros D X P k x p Hp Hk. unfold kernel_cdf. rewrite wts_ok_ok by auto. rewrite (cdf_loop k x p Hk (k_rows k) (weights k)); [|intros r; auto|apply Hp|intros j y Hj; apply getwt_ok; auto].
  rewrite weight_ok by auto. destruct Hp as (_ & _ & Hs). unfold xquot. destruct (Req_EM_T _ 0); [lra|]. rewrite Rplus_0_l. reflexivity.
Qed.
Print Assumptions C103_cdf.
Theorem C103_is_cdf : forall D X P (k : kde D X P) x y p, proper k ->
  (Forall (fun f => 0 <= f <= 1) (kernel_cdfs k p x) -> 0 <= mean_by (weights k) (kernel_cdfs k p x) <= 1) /\
  (Forall2 Rle (kernel_cdfs k p x) (kernel_cdfs k p y) -> mean_by (weights k) (kernel_cdfs k p x) <= mean_by (weights k) (kernel_cdfs k p y)).
Proof.
  intros D X P k x y p (Hl & Hw & Hs). unfold mean_by. assert (forall a b, a <= b -> a / Rsum (weights k) <= b / Rsum (weights k)) as Hdiv by (intros a b H; apply Rmult_le_compat_r; auto; apply Rlt_le, Rinv_0_lt_compat; auto). split.
  - intros H. set (f := kernel_cdfs k p x) in *. assert (length f = length (weights k)) as Hf by (unfold f, kernel_cdfs; rewrite map_length; auto).
    pose proof (dot_const (weights k) 0 (replicate (length f) 0) ltac:(rewrite replicate_length; auto) ltac:(clear; induction f; constructor; auto)) as E0.
    pose proof (dot_const (weights k) 1 (replicate (length f) 1) ltac:(rewrite replicate_length; auto) ltac:(clear; induction f; constructor; auto)) as E1.
    assert (Forall2 Rle (replicate (length f) 0) f /\ Forall2 Rle f (replicate (length f) 1)) as [A B]. { clear - H. induction H as [|a l Ha Hl [A B]]; cbn [length replicate]; split; constructor; auto; lra. }
    apply (dot_le (weights k)) in A; auto. apply (dot_le (weights k)) in B; auto. rewrite E0 in A. rewrite E1 in B. apply Hdiv in A, B. unfold Rdiv in *. rewrite Rmult_0_l, Rmult_0_l in A. rewrite Rmult_1_l, Rinv_r in B by lra. auto.
  - intros H. apply Hdiv. apply dot_le; auto.
Qed.
Print Assumptions C103_is_cdf.
(** C103: the density has total mass one if the kernels' have: summed over finitely many values, and integrated over any interval. *)
Theorem C103_mass : forall D X P (k : kde D X P) p (xs : list X), proper k -> (forall r, In r (k_rows k) -> Rsum (map (fun x => dens (k_ll k (k_set k r p) x)) xs) = 1) -> Rsum (map (density k p) xs) = 1.
Proof.
  intros D X P k p xs (Hl & _ & Hs) H1. assert (Rsum (map (density k p) xs) = mean_by (weights k) (map (fun r => Rsum (map (fun x => dens (k_ll k (k_set k r p) x)) xs)) (k_rows k))) as ->.
  { clear H1. unfold mean_by. induction xs as [|x xs IH]; cbn [map].
    - rewrite Rsum_nil, (dot_const _ 0); [field; lra|rewrite map_length; auto|]. apply List.Forall_forall. intros y Hy. apply in_map_iff in Hy as (? & <- & _). auto.
    - rewrite Rsum_cons, IH.
      assert (forall w rows, Rdot w (map (fun r => Rsum (dens (k_ll k (k_set k r p) x) :: map (fun x => dens (k_ll k (k_set k r p) x)) xs)) rows) = Rdot w (map (fun r => dens (k_ll k (k_set k r p) x)) rows) + Rdot w (map (fun r => Rsum (map (fun x => dens (k_ll k (k_set k r p) x)) xs)) rows)) as E.
      { unfold Rdot. induction w as [|y w IHw]; intros [|r rows]; cbn [map zip_with]; rewrite ?Rsum_nil; try lra. rewrite !Rsum_cons, IHw. lra. }
      rewrite E. unfold density, mean_by. field. lra. }
  unfold mean_by. rewrite (dot_const _ 1); [field; lra|rewrite map_length; auto|]. apply List.Forall_forall. intros y Hy. apply in_map_iff in Hy as (r & <- & Hr). auto.
Qed.
Print Assumptions C103_mass.
Theorem C103_integral : forall D P (k : kde D R P) p a b (I : D -> R), proper k -> (forall r, In r (k_rows k) -> is_RInt (fun x => dens (k_ll k (k_set k r p) x)) a b (I r)) -> is_RInt (density k p) a b (mean_by (weights k) (map I (k_rows k))).
Proof.
  intros D P k p a b I (Hl & _ & Hs) HI. unfold density, mean_by.
  assert (is_RInt (fun x => Rdot (weights k) (map (fun r => dens (k_ll k (k_set k r p) x)) (k_rows k))) a b (Rdot (weights k) (map I (k_rows k)))) as H.
  { assert (is_RInt (fun _ : R => 0) a b 0) as Z. { refine (eq_rect _ (fun v => is_RInt (fun _ : R => 0) a b v) (is_RInt_const (V := R_NormedModule) a b 0) 0 _). apply Rmult_0_r. }
    clear Hl Hs. revert HI. generalize (weights k) as w. generalize (k_rows k) as rows. unfold Rdot. induction rows as [|r rows IH]; intros w HI.
    - assert (forall w : list R, zip_with Rmult w [] = []) as E by (intros []; auto). cbn [map]. rewrite E. exact Z.
    - destruct w as [|y w]; cbn [map zip_with].
      + exact Z.
      + rewrite Rsum_cons. apply (is_RInt_ext (fun x => y * dens (k_ll k (k_set k r p) x) + Rsum (zip_with Rmult w (map (fun r => dens (k_ll k (k_set k r p) x)) rows)))); [intros; rewrite Rsum_cons; reflexivity|].
        exact (is_RInt_plus (V := R_NormedModule) _ _ a b _ _ (is_RInt_scal (V := R_NormedModule) _ a b y _ (HI r (or_introl eq_refl))) (IH w (fun r' Hr => HI r' (or_intror Hr)))). }
  apply (is_RInt_ext (fun x => / Rsum (weights k) * Rdot (weights k) (map (fun r => dens (k_ll k (k_set k r p) x)) (k_rows k)))); [intros; apply Rmult_comm|].
  replace (Rdot (weights k) (map I (k_rows k)) / Rsum (weights k)) with (/ Rsum (weights k) * Rdot (weights k) (map I (k_rows k))) by (field; lra). exact (is_RInt_scal (V := R_NormedModule) _ a b _ _ H).
Qed.
Print Assumptions C103_integral.
Example C103_nonvacuous : exists k : kde nat nat nat, proper k /\ last_wins k /\ (forall r, In r (k_rows k) -> Rsum (map (fun x => dens (k_ll k (k_set k r 0%nat) x)) [5%nat; 6%nat]) = 1) /\ kernel_cdf k 5%nat 0%nat = Ok (Fin (1 / 4), 6%nat).
Proof.
  exists (Kd [5%nat; 6%nat] (Some [1; 3]) (fun r _ => r) (fun p x : nat => if (x =? p)%nat then Fin 0 else NInf) (fun p x => if (p <=? x)%nat then 1 else 0) (fun p _ => p)). assert (Rsum [1; 3] = 4) as E by (cbn; lra).
  assert (proper (Kd [5%nat; 6%nat] (Some [1; 3]) (fun r _ => r) (fun p x : nat => if (x =? p)%nat then Fin 0 else NInf) (fun p x => if (p <=? x)%nat then 1 else 0) (fun (p : nat) _ => p))) as Hp.
  { split; [reflexivity|]. cbn [weights k_wts]. rewrite E. split; [repeat (apply List.Forall_cons || apply List.Forall_nil); lra|lra]. }
  split; [exact Hp|]. split; [intros r r' p; reflexivity|]. split.
  - intros r Hr. cbn in Hr. destruct Hr as [<-|[<-|[]]]; cbn; rewrite exp_0; lra.
  - rewrite C103_cdf by (auto; intros r r' p; reflexivity). apply (f_equal (fun v => Ok (Fin v, 6%nat))). unfold mean_by. cbn [weights k_wts]. rewrite E. cbn. change (5 <=? 5)%nat with true. change (6 <=? 5)%nat with false. cbn iota. lra.
Qed.
