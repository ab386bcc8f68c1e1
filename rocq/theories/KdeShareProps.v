(** C104, C105, C106: kernel density estimates that share a kernel: histories, threads, draws, and who frees what. *)
From Coq Require Import Reals Lra.
From Verif Require Import Base StatsSpec StatsProofs SearchModel PmfModel PmfDrawProps KdeModel KdeProps.
Local Open Scope list_scope.
Local Open Scope R_scope.

(** a use of an estimate, and what the user gets from it *)
Inductive call (D X P : Type) := CLl (k : kde D X P) (d : list X) | CCdf (k : kde D X P) (x : X) | CDraw (k : kde D X P) (fuel : nat) (u g : R).
Arguments CLl {D X P}. Arguments CCdf {D X P}. Arguments CDraw {D X P}.
Definition kde_of {D X P} (c : call D X P) : kde D X P := match c with CLl k _ => k | CCdf k _ => k | CDraw k _ _ _ => k end.
Definition do_call {D X P} (c : call D X P) (p : P) : res ((xr + option X) * P) :=
  match c with
  | CLl k d => do (v, p) <- kernel_ll k d p; Ok (inl v, p)
  | CCdf k x => do (v, p) <- kernel_cdf k x p; Ok (inl v, p)
  | CDraw k fuel u g => do (v, p) <- kernel_draw fuel k u g p; Ok (inr v, p)
  end.
(** one after another, on one kernel *)
Fixpoint history {D X P} (cs : list (call D X P)) (p : P) : res (list (xr + option X)) :=
  match cs with [] => Ok [] | c :: cs => do (v, p) <- do_call c p; do vs <- history cs p; Ok (v :: vs) end.
(** each alone, on a kernel fresh from the user *)
Fixpoint each_fresh {D X P} (cs : list (call D X P)) (p : P) : res (list (xr + option X)) :=
  match cs with [] => Ok [] | c :: cs => do (v, _) <- do_call c p; do vs <- each_fresh cs p; Ok (v :: vs) end.
(** whichever of the estimates sets the kernel last, it is as if no other had *)
Definition setters_agree {D X P} (cs : list (call D X P)) : Prop := forall c c' r r' p, In c cs -> In c' cs -> k_set (kde_of c) r (k_set (kde_of c') r' p) = k_set (kde_of c) r p.

Section proofs.
  Context {D X P : Type}.
  Implicit Types k : kde D X P.
  Lemma row_lls_two k x p q : last_wins k -> same k q p -> fst (row_lls k x q) = fst (row_lls k x p).
  Proof. intros Hk Hs. rewrite (row_lls_same k x p q) by auto. rewrite (row_lls_same k x p p) by (auto; intros r; auto). reflexivity. Qed.
  (** the state is left alone, or is a setting of the first one *)
  Definition set_from k (q q' : P) : Prop := q' = q \/ exists r, q' = k_set k r q.
  Lemma row_lls_state k x p : last_wins k -> set_from k p (snd (row_lls k x p)).
  Proof. intros Hk. rewrite (row_lls_same k x p p) by (auto; intros r; auto). cbn. unfold set_from. destruct (list.last (k_rows k)); eauto. Qed.
  Lemma loop_two k : last_wins k -> forall d a p q, same k q p -> fst (ll_loop k d (a, q)) = fst (ll_loop k d (a, p)) /\ set_from k q (snd (ll_loop k d (a, q))).
  Proof.
    intros Hk. induction d as [|x d IH]; intros a p q Hs; [cbn; split; [auto|left; auto]|]. unfold ll_loop in *. cbn [fold_left]. pose proof (row_lls_two k x p q Hk Hs) as E. pose proof (row_lls_state k x q Hk) as Sq. pose proof (row_lls_state k x p Hk) as Sp.
    destruct (row_lls k x q) as [l1 q1], (row_lls k x p) as [l2 p1]. cbn in E, Sq, Sp. subst l2.
    assert (same k q1 p1) as Hs1. { intros r. destruct Sq as [->|[rq ->]], Sp as [->|[rp ->]]; rewrite ?Hk; auto. }
    destruct (IH (match point_ll k l1 with None => NInf | Some l => xadd a l end) p1 q1 Hs1) as [F G]. split; auto.
    destruct Sq as [->|[rq ->]]; auto. destruct G as [->|[r ->]]; right; [eauto|]. exists r. apply Hk.
  Qed.
  Lemma cdf_two k x : last_wins k -> forall l t p q, same k q p -> 
    fst (fold_left (fun '(t, p) '(i, r) => let p := k_set k r p in (t + k_cdf k p x * getwt k i, p)) l (t, q)) = fst (fold_left (fun '(t, p) '(i, r) => let p := k_set k r p in (t + k_cdf k p x * getwt k i, p)) l (t, p)) /\
    set_from k q (snd (fold_left (fun '(t, p) '(i, r) => let p := k_set k r p in (t + k_cdf k p x * getwt k i, p)) l (t, q))).
  Proof.
    intros Hk. induction l as [|[i r] l IH]; intros t p q Hs; cbn [fold_left]; [split; [auto|left; auto]|]. cbv zeta. rewrite (Hs r). pose proof (IH (t + k_cdf k (k_set k r p) x * getwt k i) (k_set k r p) (k_set k r p) ltac:(intros ?; auto)) as [_ G]. cbv zeta in G.
    split; [auto|]. revert G. generalize (snd (fold_left (fun '(t, p) '(i, r) => (t + k_cdf k (k_set k r p) x * getwt k i, k_set k r p)) l (t + k_cdf k (k_set k r p) x * getwt k i, k_set k r p))). intros z [->|[r' ->]]; right; [exists r; symmetry; apply Hs|exists r'; rewrite <- (Hs r); apply Hk].
  Qed.
  Lemma call_two (c : call D X P) p q : last_wins (kde_of c) -> same (kde_of c) q p ->
    match do_call c q, do_call c p with Ok (v, q'), Ok (v', p') => v = v' /\ set_from (kde_of c) q q' | UB, UB => True | Fuel, Fuel => True | _, _ => False end.
  Proof.
    intros Hk Hs. destruct c as [k d|k x|k fuel u g]; cbn [do_call kde_of] in *.
    - unfold kernel_ll. destruct (wts_ok k); [|cbn; auto]. destruct (loop_two k Hk d (Fin 0) p q Hs) as [E S]. destruct (ll_loop k d (Fin 0, q)) as [l1 q1], (ll_loop k d (Fin 0, p)) as [l2 p1]. cbn in *. subst. auto.
    - unfold kernel_cdf. destruct (wts_ok k); [|cbn; auto]. destruct (cdf_two k x Hk (combine (seq 0 (length (k_rows k))) (k_rows k)) 0 p q Hs) as [E S].
      destruct (fold_left _ _ (0, q)) as [l1 q1]. destruct (fold_left _ _ (0, p)) as [l2 p1]. cbn in *. subst. auto.
    - unfold kernel_draw. destruct (match k_wts k with Some w => pmf_draw fuel w u | None => _ end) as [[i|]| |]; cbn [rbind]; auto; [|split; [auto|left; auto]]. destruct (k_rows k !! i) as [r|]; cbn [rbind]; auto. rewrite Hs. split; auto. right. exists r. auto.
  Qed.
End proofs.

(** C104: of any number of estimates that share a kernel, used in any order, each evaluation and draw gives what it would alone. *)
Theorem C104_history : forall D X P (cs : list (call D X P)) p, setters_agree cs -> history cs p = each_fresh cs p.
Proof.
  intros D X P cs p Ha. assert (forall q, (forall c, In c cs -> same (kde_of c) q p) -> history cs q = each_fresh cs p) as H; [|apply H; intros c _ r; auto].
  induction cs as [|c cs IH]; intros q Hs; [reflexivity|]. cbn [history each_fresh].
  assert (last_wins (kde_of c)) as Hk by (intros r r' p0; apply Ha; cbn; auto). pose proof (call_two c p q Hk (Hs c (or_introl eq_refl))) as H2.
  destruct (do_call c q) as [[v q']| |], (do_call c p) as [[v' p']| |]; try contradiction; auto. destruct H2 as [-> S]. cbn [rbind]. rewrite IH; auto.
  - intros c1 c2 r r' p0 H1 H2. apply Ha; cbn; auto.
  - intros c1 H1 r. destruct S as [->|[r' ->]]; [|rewrite Ha by (cbn; auto)]; apply Hs; cbn; auto.
Qed.
Print Assumptions C104_history.

(** threads: a trace is an interleaving of what the threads do *)
Definition of_thread {A} (t : nat) (trace : list (nat * A)) : list A := map snd (filter (fun e => fst e = t) trace).
Definition interleaves {A} (trace : list (nat * A)) (prog : nat -> list A) : Prop := forall t, of_thread t trace = prog t.
Definition is_crit {D X} (s : step D X) : Prop := match s with Crit _ _ => True | _ => False end.
Lemma of_thread_app {A} t (a b : list (nat * A)) : of_thread t (a ++ b) = of_thread t a ++ of_thread t b.
Proof. unfold of_thread. rewrite list.filter_app, map_app. auto. Qed.
(** C104: under any schedule of threads evaluating log likelihoods or distribution functions, each thread sees what it would alone. *)
Theorem C104_threads : forall D X P (k : kde D X P) (prog : nat -> list (step D X)) trace p, last_wins k -> (forall t, Forall is_crit (prog t)) -> interleaves trace prog ->
  forall t, of_thread t (snd (run k trace p)) = map (fun s => match s with Crit r x => Val (k_ll k (k_set k r p) x) | _ => Val NaN end) (prog t).
Proof.
  intros D X P k prog trace p Hk Hc Hi t. rewrite <- (Hi t). assert (forall e, In e trace -> is_crit (snd e)) as Hall.
  { intros [t' s] He. specialize (Hc t'). rewrite <- (Hi t') in Hc. rewrite List.Forall_forall in Hc. apply Hc. unfold of_thread. apply in_map_iff. exists (t', s). split; auto. apply elem_of_list_In, elem_of_list_filter. split; auto. apply elem_of_list_In. auto. }
  clear Hc Hi. unfold run. assert (forall q o, same k q p -> of_thread t (snd (fold_left (run_step k) trace (q, o))) = of_thread t o ++ map (fun s => match s with Crit r x => Val (k_ll k (k_set k r p) x) | _ => Val NaN end) (of_thread t trace)) as H.
  { induction trace as [|[t' s] trace IH]; intros q o Hq; cbn [fold_left]; [cbn; rewrite app_nil_r; auto|]. pose proof (Hall (t', s) (or_introl eq_refl)) as Hs. destruct s as [r x| |]; try contradiction. cbn [run_step].
    rewrite IH; [|intros e He; apply Hall; cbn; auto|intros r'; rewrite Hk; auto]. rewrite of_thread_app, <- app_assoc. f_equal. change ((t', Crit r x) :: trace) with ([(t', @Crit D X r x)] ++ trace). rewrite of_thread_app, map_app. f_equal. rewrite Hq.
    unfold of_thread. destruct (decide (t' = t)) as [->|Hn]; [rewrite !filter_cons_True by auto|rewrite !filter_cons_False by auto]; reflexivity. }
  rewrite H by (intros r; auto). reflexivity.
Qed.
Print Assumptions C104_threads.
(** C104, refuted: draws by several threads (as by apop_model_draws) are each from the kernel at the point that thread has picked.  Setting the kernel and drawing from it are not one step: if a second
    thread comes between, both draw from the kernel at the second's point. *)
Theorem C104_refuted_draws : forall D X P (k : kde D X P) a b g h p, last_wins k -> exists trace, interleaves trace (fun t => match t with 0%nat => [Set_ a; Draw g] | 1%nat => [Set_ b; Draw h] | _ => [] end) /\
  snd (run k trace p) = [(0%nat, Drawn (k_draw k (k_set k b p) g)); (1%nat, Drawn (k_draw k (k_set k b p) h))].
Proof.
  intros D X P k a b g h p Hk. exists [(0%nat, Set_ a); (1%nat, Set_ b); (0%nat, Draw g); (1%nat, Draw h)]. split.
  - intros [|[|t]]; reflexivity.
  - cbn. rewrite Hk. reflexivity.
Qed.
Print Assumptions C104_refuted_draws.
(** C104, refuted: the user's kernel is as it was.  It is left set at the last point (C102_density, C103_cdf). *)
Theorem C104_refuted_kernel_kept : exists (k : kde R R (list R)) d p v q, proper k /\ last_wins k /\ kernel_ll k d p = Ok (v, q) /\ q <> p.
Proof.
  set (k := Kd [3] None set_first (fun _ (_ : R) => Fin 0) (fun _ _ => 0) (fun _ (g : R) => g) : kde R R (list R)).
  assert (proper k) as Hp. { split; [reflexivity|]. cbn. split; [repeat (apply List.Forall_cons || apply List.Forall_nil); lra|lra]. }
  assert (last_wins k) as Hk by (intros r r' p; apply C102_default_set).
  exists k, [0], [0; 1], (Fin (Rsum (map (fun x => ln (density k [0; 1] x)) [0]))), [3; 1]. split; auto. split; auto.
  destruct (C102_density _ _ _ k [0] [0; 1] Hp Hk) as (H & _ & _); [intros r x _ _; left; exists 0; reflexivity|]. split.
  - rewrite H; [reflexivity|]. repeat (apply List.Forall_cons || apply List.Forall_nil). unfold density, mean_by, Rdot. cbn. rewrite exp_0. lra.
  - intros [= E]. lra.
Qed.
Print Assumptions C104_refuted_kernel_kept.
Example C104_nonvacuous : exists (cs : list (call R R (list R))), length cs = 3%nat /\ setters_agree cs /\ forall vs, each_fresh cs [0; 1] = Ok vs -> vs <> [].
Proof.
  set (k := fun rows => Kd rows None set_first (fun p (x : R) => match p with m :: _ => Fin (- (x - m) * (x - m)) | [] => NaN end) (fun _ _ => 0) (fun _ (g : R) => g) : kde R R (list R)).
  exists [CLl (k [1; 2]) [0; 3]; CCdf (k [5]) 0; CLl (k [2; 7]) [4]]. split; [reflexivity|]. split.
  - intros c c' r r' p H1 H2. cbn in H1, H2. destruct H1 as [<-|[<-|[<-|[]]]]; destruct H2 as [<-|[<-|[<-|[]]]]; cbn; apply C102_default_set.
  - cbn. intros vs [= <-]. discriminate.
Qed.

(** C105: a draw with weights is from the kernel at a point picked with the probability its weight gives it. *)
Theorem C105_draw : forall D X P (k : kde D X P) w fuel u g p, k_wts k = Some w -> proper k -> 0 < u <= 1 -> (length w <= fuel)%nat ->
  exists i r, k_rows k !! i = Some r /\ kernel_draw fuel k u g p = Ok (Some (k_draw k (k_set k r p) g), k_set k r p) /\ mass w i < u * Rsum w <= mass w (S i) /\ exists y, w !! i = Some y /\ 0 < y.
Proof.
  intros D X P k w fuel u g p Ew Hp Hu Hf. destruct Hp as (Hl & Hw & Hs). unfold weights in *. rewrite Ew in *. assert (w <> []) as Hne by (intros ->; rewrite Rsum_nil in Hs; lra).
  assert (PmfDrawProps.total w = Rsum w) as Et. { unfold PmfDrawProps.total, mass. rewrite take_ge by lia. clear. induction w as [|y w IH]; [reflexivity|]. rewrite Rsum_cons, <- IH. reflexivity. }
  destruct (C23_draw_follows_weights w u fuel Hne Hw ltac:(lra) Hu Hf) as (i & E & Hi & Hm & _). pose proof (C23_zero_weight_never_drawn _ _ _ _ Hne Hw ltac:(lra) Hu Hf E) as Hpos. unfold kernel_draw. rewrite Ew, E. cbn [rbind].
  rewrite Hl in Hi. apply lookup_lt_is_Some_2 in Hi as [r Hr]. exists i, r. rewrite Hr, <- Et. auto.
Qed.
Print Assumptions C105_draw.
(** C105, refuted: so without weights, each point having its share.  The last point is never picked, although it has its share in the density. *)
Theorem C105_refuted_last : forall D X P (k : kde D X P) fuel u g p x q, k_wts k = None -> (2 <= length (k_rows k))%nat -> 0 <= u < 1 -> kernel_draw fuel k u g p = Ok (Some x, q) ->
  exists i r, (i < length (k_rows k) - 1)%nat /\ k_rows k !! i = Some r /\ x = k_draw k (k_set k r p) g.
Proof.
  intros D X P k fuel u g p x q Ew Hn Hu H. unfold kernel_draw in H. rewrite Ew in H. cbn [rbind] in H. pose proof (C23_unweighted_last_row_refuted (length (k_rows k)) u Hn Hu) as Hi. destruct (k_rows k !! _) as [r|] eqn:E; [|discriminate].
  injection H as <- _. eauto.
Qed.
Print Assumptions C105_refuted_last.
Example C105_nonvacuous : exists k : kde nat nat nat, k_wts k = Some [1; 3] /\ proper k.
Proof.
  exists (Kd [5%nat; 6%nat] (Some [1; 3]) (fun r _ => r) (fun _ _ => Fin 0) (fun _ _ => 0) (fun p _ => p)). split; auto. assert (Rsum [1; 3] = 4) as E by (cbn; lra). split; [reflexivity|]. cbn [weights k_wts]. rewrite E. split; [repeat (apply List.Forall_cons || apply List.Forall_nil); lra|lra].
Qed.

(** C106: the group frees what it made, once, and nothing of the user's: of the original and its copies freed in any order. *)
Fixpoint free_all (live : list nat) (os : list owned) : res (list nat) := match os with [] => Ok live | o :: os => do live <- settings_free live o; free_all live os end.
Definition new_block (live : list nat) : nat := S (fold_right Nat.max 0%nat live).
Lemma new_fresh live b : b ∈ live -> (b < new_block live)%nat.
Proof. unfold new_block. induction live as [|a l IH]; intros H; [inversion H|]. apply elem_of_cons in H as [->|H]; cbn; [lia|]. specialize (IH H). lia. Qed.
Lemma filter_none (l : list nat) b : b ∉ l -> filter (fun x => x <> b) l = l.
Proof. induction l as [|a l IH]; intros H; [reflexivity|]. rewrite filter_cons_True by (intros ->; apply H; left). rewrite IH; auto. intros Hb. apply H. right. auto. Qed.
Lemma free_copies live o n : free_all live (replicate n (settings_copy o)) = Ok live.
Proof. induction n as [|n IH]; cbn; auto. Qed.
Lemma free_app live l1 l2 : free_all live (l1 ++ l2) = rbind (free_all live l1) (fun live => free_all live l2).
Proof. revert live. induction l1 as [|o l1 IH]; intros live; cbn; auto. destruct (settings_free live o); cbn; auto. Qed.
Theorem C106_freed_once : forall live pmf kernel live' o n m, (forall b, pmf = Some b -> b ∈ live) -> (forall b, kernel = Some b -> b ∈ live) -> settings_init live pmf kernel = (live', o) ->
  free_all live' (replicate n (settings_copy o) ++ o :: replicate m (settings_copy o)) = Ok live /\ use live' o = Ok tt /\ use live' (settings_copy o) = Ok tt.
Proof.
  intros live pmf kernel live' o n m Hp Hk H. rewrite free_app, free_copies. cbn [rbind free_all]. unfold settings_init in H. fold (new_block live) in H.
  assert (forall l b, b ∉ l -> mfree (b :: l) b = Ok l) as Hfree. { intros l b Hb. unfold mfree. rewrite bool_decide_eq_true_2 by left. rewrite filter_cons_False by auto. rewrite filter_none; auto. }
  assert (new_block live ∉ live) as F1 by (intros X; apply new_fresh in X; lia).
  destruct pmf as [bp|], kernel as [bk|]; cbn zeta iota in H; injection H as <- <-; unfold settings_free, use; cbn [own_pmf own_kernel o_pmf o_kernel settings_copy rbind].
  - split; [apply free_copies|]. rewrite !bool_decide_eq_true_2 by auto. auto.
  - fold (new_block live). rewrite (Hfree live _ F1). cbn [rbind]. split; [apply free_copies|]. rewrite !bool_decide_eq_true_2 by (split; [right; auto|left]). auto.
  - rewrite (Hfree live _ F1). cbn [rbind]. split; [apply free_copies|]. rewrite !bool_decide_eq_true_2 by (split; [left|right; auto]). auto.
  - set (b := new_block live) in *. change (S (b `max` foldr Nat.max 0%nat live)) with (new_block (b :: live)). assert (new_block (b :: live) ∉ b :: live) as F2 by (intros X; apply new_fresh in X; lia).
    assert (b <> new_block (b :: live)) as Hd by (intros E; apply F2; rewrite <- E; left).
    assert (mfree (new_block (b :: live) :: b :: live) b = Ok (new_block (b :: live) :: live)) as ->. { unfold mfree. rewrite bool_decide_eq_true_2 by (right; left). rewrite filter_cons_True by auto. rewrite filter_cons_False by auto. rewrite filter_none; auto. }
    cbn [rbind]. rewrite Hfree by (intros X; apply F2; right; auto). cbn [rbind]. split; [apply free_copies|]. rewrite !bool_decide_eq_true_2 by (split; [right; left|left]). auto.
Qed.
Print Assumptions C106_freed_once.
(** C106, refuted: a copy outlives the original.  If the group made its PMF or kernel, as it does for an estimate from data, the copy points to freed memory once the original is freed. *)
Theorem C106_refuted_copy : forall live pmf kernel live' o, (forall b, pmf = Some b -> b ∈ live) -> (forall b, kernel = Some b -> b ∈ live) -> settings_init live pmf kernel = (live', o) -> pmf = None \/ kernel = None ->
  exists live'', settings_free live' o = Ok live'' /\ use live'' (settings_copy o) = UB.
Proof.
  intros live pmf kernel live' o Hp Hk H Hn. destruct (C106_freed_once live pmf kernel live' o 0 0 Hp Hk H) as (F & _ & _). cbn [replicate app free_all] in F. destruct (settings_free live' o) as [l| |] eqn:E; try discriminate. cbn in F. injection F as ->.
  exists live. split; auto. unfold use. rewrite bool_decide_eq_false_2; auto. cbn [settings_copy o_pmf o_kernel]. unfold settings_init in H. fold (new_block live) in H. intros [A B].
  assert (forall l b, b ∈ live -> l = live \/ l = new_block live :: live -> b <> new_block l) as Hnew. { intros l b Hb Hl ->. destruct Hl as [-> | ->]; [apply new_fresh in Hb; lia|]. assert (new_block (new_block live :: live) ∈ new_block live :: live) as X by (right; auto). apply new_fresh in X. lia. }
  destruct pmf as [bp|], kernel as [bk|]; cbn zeta iota in H; injection H as <- <-; cbn in A, B.
  - destruct Hn; discriminate.
  - apply (Hnew live _ B); auto.
  - apply (Hnew live _ A); auto.
  - apply (Hnew live _ A); auto.
Qed.
Print Assumptions C106_refuted_copy.
(** C106, refuted: estimating an estimate again with new data uses the new data.  The copy has the group with the first data, and that is kept. *)
Theorem C106_refuted_reestimate : forall D (d d' : list D), d <> d' -> kernel_estimate None d = d /\ kernel_estimate (Some (kernel_estimate None d)) d' = d /\ kernel_estimate (Some (kernel_estimate None d)) d' <> d'.
Proof. auto. Qed.
Print Assumptions C106_refuted_reestimate.
Example C106_nonvacuous : exists live' o, settings_init [7%nat; 3%nat] (Some 3%nat) None = (live', o) /\ own_kernel o = true /\ live' = [8%nat; 7%nat; 3%nat].
Proof. eexists _, _. split; [reflexivity|]. split; reflexivity. Qed.
