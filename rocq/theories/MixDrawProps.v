(** C100: the distribution function of a mixture, and its draws. *)
From Coq Require Import Reals Lra.
From Verif Require Import Base StatsModel StatsSpec StatsProofs PmfModel PmfDrawProps MixModel MixProps.
Local Open Scope list_scope.
Local Open Scope R_scope.

(** each component's distribution function at [x] *)
Definition cdfs_of {D} (s : shared D) (x : D) : list R := map (fun '(c, p) => c_cdf c (pvec p) x) (s_comps s).
Definition mean_of (w f : list R) : R := Rdot f w / Rsum w.

Lemma cdf_loop {D} (x : D) tw : tw <> 0 -> forall (cs : list (comp D * option (list R))) w t, 
  fold_left (fun t '((c, p), w) => try t <- t; try q <- cdiv (c_cdf c (pvec p) x * w) tw; Some (t + q)) (combine cs w) (Some t) = Some (t + Rdot (map (fun '(c, p) => c_cdf c (pvec p) x) cs) w / tw).
Proof.
  intros Ht. induction cs as [|[c p] cs IH]; intros w t; cbn [combine fold_left map]; [unfold Rdot; cbn; f_equal; field; auto|].
  destruct w as [|y w]; cbn [combine fold_left]; [unfold Rdot; cbn; f_equal; field; auto|]. unfold cdiv at 2. destruct (Req_EM_T tw 0); [congruence|]. rewrite IH. f_equal.
  unfold Rdot. cbn [zip_with]. rewrite Rsum_cons. field. auto.
Qed.
(** C100: the distribution function is the weighted mean of the components'. *)
Theorem C100_cdf : forall D (s : shared D) m x s', unpack s m = Ok s' -> length (s_comps s') = length (s_weights s') -> Rsum (s_weights s') <> 0 ->
  mixture_cdf s m x = Ok (Some (mean_of (s_weights s') (cdfs_of s' x)), s').
Proof.
  intros D s m x s' Hu Hl Hs. unfold mixture_cdf. rewrite Hu. cbn [rbind]. rewrite Hl, Nat.leb_refl. unfold vector_sum. rewrite fold_left_Rplus, Rplus_0_l. rewrite cdf_loop by auto. rewrite Rplus_0_l. reflexivity.
Qed.
Print Assumptions C100_cdf.
Lemma mean_mono w : forall f g, Forall (Rle 0) w -> 0 < Rsum w -> length f = length w -> Forall2 Rle f g -> mean_of w f <= mean_of w g.
Proof.
  intros f g Hw Hs Hl Hfg. unfold mean_of. apply Rmult_le_compat_r; [apply Rlt_le, Rinv_0_lt_compat; auto|]. clear Hs. revert w Hw Hl. induction Hfg as [|a b f g Hab Hfg IH]; intros [|y w] Hw Hl; try discriminate; unfold Rdot; cbn [zip_with]; rewrite ?Rsum_nil, ?Rsum_cons; [lra|].
  inversion Hw; subst. specialize (IH w ltac:(auto) ltac:(cbn in Hl; lia)). unfold Rdot in IH. nra.
Qed.
Lemma mean_const w k : Rsum w <> 0 -> mean_of w (replicate (length w) k) = k.
Proof. intros Hs. unfold mean_of. assert (Rdot (replicate (length w) k) w = k * Rsum w) as ->; [|field; auto]. clear Hs. induction w as [|y w IH]; cbn [length replicate]; unfold Rdot in *; cbn [zip_with]; rewrite ?Rsum_nil, ?Rsum_cons; [lra|]. rewrite IH. lra. Qed.
(** C100: with weights that are not negative it is between zero and one, and it rises where the components' do. *)
Theorem C100_is_cdf : forall D (s : shared D) m x y s' F G, unpack s m = Ok s' -> length (s_comps s') = length (s_weights s') -> Forall (Rle 0) (s_weights s') -> 0 < Rsum (s_weights s') ->
  mixture_cdf s m x = Ok (Some F, s') -> mixture_cdf s m y = Ok (Some G, s') ->
  (Forall (fun f => 0 <= f <= 1) (cdfs_of s' x) -> 0 <= F <= 1) /\ (Forall2 Rle (cdfs_of s' x) (cdfs_of s' y) -> F <= G).
Proof.
  intros D s m x y s' F G Hu Hl Hw Hs HF HG. rewrite (C100_cdf _ _ _ x _ Hu Hl) in HF by lra. rewrite (C100_cdf _ _ _ y _ Hu Hl) in HG by lra. injection HF as <-. injection HG as <-.
  assert (length (cdfs_of s' x) = length (s_weights s')) as Hc by (unfold cdfs_of; rewrite map_length; auto). split.
  - intros H01. pose proof (mean_const (s_weights s') 0 ltac:(lra)) as E0. pose proof (mean_const (s_weights s') 1 ltac:(lra)) as E1. rewrite <- Hc in E0, E1.
    assert (Forall2 Rle (replicate (length (cdfs_of s' x)) 0) (cdfs_of s' x) /\ Forall2 Rle (cdfs_of s' x) (replicate (length (cdfs_of s' x)) 1)) as [A B].
    { clear - H01. induction H01 as [|f l Hf Hl [A B]]; cbn [length replicate]; split; constructor; auto; lra. }
    apply (mean_mono (s_weights s')) in A; auto; [|rewrite replicate_length; auto]. apply (mean_mono (s_weights s')) in B; auto. lra.
  - intros Hle. apply mean_mono; auto.
Qed.
Print Assumptions C100_is_cdf.

(** C100: the first draw takes component [k] for just the share of the uniform draws that its weight has in all. *)
Theorem C100_draw : forall D (s : shared D) m u fuel, s_weights s <> [] -> Forall (Rle 0) (s_weights s) -> 0 < total (s_weights s) -> 0 < u <= 1 -> (length (s_weights s) <= fuel)%nat -> length (s_comps s) = length (s_weights s) ->
  m_cmf m = None -> exists k m', mixture_draw fuel s m u = Ok (Some k, m') /\ mass (s_weights s) k < u * total (s_weights s) <= mass (s_weights s) (S k) /\
    (exists x, s_weights s !! k = Some x /\ 0 < x) /\ m_pars m' = m_pars m /\ m_cmf m' = Some (s_weights s).
Proof.
  intros D s m u fuel Hne Hw Ht Hu Hf Hl Hm. destruct (C23_draw_follows_weights (s_weights s) u fuel Hne Hw Ht Hu Hf) as (k & E & Hk & Hmass & _). pose proof (C23_zero_weight_never_drawn _ _ _ _ Hne Hw Ht Hu Hf E) as Hpos.
  unfold mixture_draw. rewrite Hm, E. cbn [rbind]. destruct (Nat.ltb_spec k (length (s_comps s))); [|lia]. eexists k, _. split; [reflexivity|]. auto.
Qed.
Print Assumptions C100_draw.
(** C100, refuted: later draws follow the weights as they then are (as set by the user, or as found by an estimation).  They follow those of the first draw. *)
Theorem C100_refuted_stale : forall D (s s2 : shared D) m u u2 fuel k m', mixture_draw fuel s m u = Ok (Some k, m') -> m_cmf m = None -> length (s_comps s2) = length (s_comps s) -> (length (s_weights s) <= length (s_comps s))%nat ->
  mixture_draw fuel s2 m' u2 = mixture_draw fuel (Sh (s_comps s2) (s_weights s) (s_sizes s2)) m' u2 /\ forall w, mixture_draw fuel (Sh (s_comps s2) w (s_sizes s2)) m' u2 = mixture_draw fuel s2 m' u2.
Proof.
  intros D s s2 m u u2 fuel k m' H Hm Hl Hw. unfold mixture_draw in H. rewrite Hm in H. destruct (pmf_draw fuel (s_weights s) u) as [[j|]| |]; cbn [rbind] in H; try discriminate. destruct (_ <? _)%nat; [|discriminate]. injection H as <- <-. split; [reflexivity|]. intros w. reflexivity.
Qed.
Print Assumptions C100_refuted_stale.
(** an instance: all weight moved from the first component to the second, the first is drawn from all the same *)
Theorem C100_refuted_moved : exists (s s2 : shared R) m m' fuel, mixture_draw fuel s m (1 / 2) = Ok (Some 0%nat, m') /\ s_comps s2 = s_comps s /\ s_weights s = [1; 0] /\ s_weights s2 = [0; 1] /\ forall u, 0 < u <= 1 -> exists m2, mixture_draw fuel s2 m' u = Ok (Some 0%nat, m2).
Proof.
  set (cs := [(point, Some [0]); (point, Some [5])]). exists (Sh cs [1; 0] []), (Sh cs [0; 1] []), (Mix false None None None), (Mix false None (Some [1; 0]) None), 3%nat.
  assert (forall u, 0 < u <= 1 -> pmf_draw 3 [1; 0] u = Ok (Some 0%nat)) as H.
  { intros u Hu. assert (Forall (Rle 0) [1; 0]) as HF by (repeat (apply List.Forall_cons || apply List.Forall_nil); lra). assert (0 < total [1; 0]) as Ht by (unfold total, mass; cbn; lra).
    destruct (C23_draw_follows_weights [1; 0] u 3 ltac:(discriminate) HF Ht Hu ltac:(cbn; lia)) as (k & E & Hk & Hm & _). pose proof (C23_zero_weight_never_drawn [1; 0] u 3 k ltac:(discriminate) HF Ht Hu ltac:(cbn; lia) E) as (x & Hx & Hp).
    destruct k as [|[|k]]; auto; [change (Some 0 = Some x) in Hx; assert (x = 0) by congruence; lra|cbn in Hk; lia]. }
  split; [unfold mixture_draw; cbn [m_cmf s_weights]; rewrite H by lra; reflexivity|]. do 3 (split; [reflexivity|]). intros u Hu. unfold mixture_draw. cbn [m_cmf]. rewrite H by auto. cbn. eauto.
Qed.
Print Assumptions C100_refuted_moved.
Example C100_nonvacuous : exists (s : shared R) m s', unpack s m = Ok s' /\ length (s_comps s') = length (s_weights s') /\ Forall (Rle 0) (s_weights s') /\ 0 < Rsum (s_weights s') /\ Forall (fun f => 0 <= f <= 1) (cdfs_of s' 3) /\ mean_of (s_weights s') (cdfs_of s' 3) = 1 / 4.
Proof.
  exists (Sh [(point, Some [0]); (point, Some [5])] [1 / 4; 3 / 4] []), (Mix false None None None). eexists. split; [reflexivity|]. split; [reflexivity|]. split; [repeat (apply List.Forall_cons || apply List.Forall_nil); lra|]. split; [cbn; lra|].
  unfold cdfs_of. cbn [s_comps map point c_cdf pvec nth s_weights]. destruct (Rle_dec 0 3); [|lra]. destruct (Rle_dec 5 3); [lra|]. split; [repeat (apply List.Forall_cons || apply List.Forall_nil); lra|]. unfold mean_of, Rdot. cbn. lra.
Qed.
