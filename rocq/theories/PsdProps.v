(** C128: the test of covariance matrices and their repair. *)
From mathcomp Require Import all_ssreflect all_algebra.
From Verif Require Import PsdModel.
Import Order.TTheory GRing.Theory Num.Theory.
Local Open Scope ring_scope.

Section spec.
Context {F : realFieldType}.
(** the variance of the sum of x's multiples, if m were the covariance matrix *)
Definition form (n : nat) (m : nat -> nat -> F) (x : nat -> F) : F := \sum_(i < n) \sum_(j < n) x i * m i j * x j.
Definition symmetric (n : nat) (m : nat -> nat -> F) : Prop := forall i j, (i < n)%N -> (j < n)%N -> m i j = m j i.
Definition semidefinite (n : nat) (m : nat -> nat -> F) : Prop := forall x, 0 <= form n m x.
Definition definite (n : nat) (m : nat -> nat -> F) : Prop := forall x, (exists2 i, (i < n)%N & x i != 0) -> 0 < form n m x.
End spec.

Section proofs.
Context {F : realFieldType}.
Definition pd (n : nat) (A : 'M[F]_n) : Prop := forall x : 'rV_n, x != 0 -> 0 < (x *m A *m x^T) 0 0.
Lemma definite_pd n (m : nat -> nat -> F) : definite n m <-> pd n (upper_left m n).
Proof.
  have E (x : 'rV_n) (y : nat -> F) : (forall i : 'I_n, x 0 i = y i) -> form n m y = (x *m upper_left m n *m x^T) 0 0.
  { move=> e. rewrite /form mxE exchange_big /=. apply: eq_bigr => j _. rewrite !mxE mulr_suml. apply: eq_bigr => i _. by rewrite !mxE !e. }
  split.
  - move=> H x /rV0Pn [i Hi]. pose y k := if insub k is Some i then x 0 i else 0 : F.
    have Hy (k : 'I_n) : x 0 k = y k by rewrite /y valK.
    rewrite -(E x y Hy). apply: H. exists (nat_of_ord i) => //. by rewrite -Hy.
  - move=> H y [i Hi Hn]. rewrite (E (\row_i y i)); last by move=> k; rewrite mxE.
    apply: H. apply/rV0Pn. exists (Ordinal Hi). by rewrite mxE.
Qed.
Lemma ul_step (m : nat -> nat -> F) k : upper_left m (k + 1) = block_mx (upper_left m k) (\col_i m i k) (\row_j m k j) (\matrix_(i, j) m k k).
Proof.
  apply/matrixP => i j. rewrite !mxE. case: splitP => i' Ei; rewrite !mxE; case: splitP => j' Ej; rewrite !mxE Ei Ej ?(ord1 i') ?(ord1 j') ?addn0 //.
Qed.
(** completing the square: b the new column, c the new corner *)
Section step.
Context (k : nat) (B : 'M[F]_k) (b : 'cV[F]_k) (c : 'M[F]_1).
Hypothesis symB : B^T = B.
Hypothesis unitB : B \in unitmx.
Let A := block_mx B b b^T c.
Let s := c - b^T *m invmx B *m b.
Let L : 'M[F]_(k + 1) := block_mx 1%:M 0 (b^T *m invmx B) 1%:M.
Let symI : (invmx B)^T = invmx B. Proof. by rewrite trmx_inv symB. Qed.
Lemma factor : A = L *m block_mx B 0 0 s *m L^T.
Proof.
  rewrite /A /L tr_block_mx !mulmx_block !trmx1 trmx0 trmx_mul trmxK symI !(mul1mx, mulmx1, mul0mx, mulmx0, addr0, add0r).
  rewrite mulmxA mulmxV // mul1mx -mulmxA mulVmx // mulmx1. congr block_mx.
  by rewrite /s mulmxA addrC subrK.
Qed.
Lemma det_L : \det L = 1. Proof. by rewrite det_lblock !det1 mulr1. Qed.
Lemma det_step : \det A = \det B * s 0 0.
Proof. by rewrite factor !det_mulmx det_tr det_L mul1r mulr1 det_ublock det_mx11. Qed.
Lemma pd_step : pd _ A <-> pd _ B /\ 0 < s 0 0.
Proof.
  have uL : L \in unitmx by rewrite unitmxE det_L unitr1.
  have Q (x : 'rV_(k + 1)) : (x *m A *m x^T) 0 0 = ((x *m L) *m block_mx B 0 0 s *m (x *m L)^T) 0 0 by rewrite factor trmx_mul !mulmxA.
  have D (y : 'rV_k) (t : 'rV_1) : (row_mx y t *m block_mx B 0 0 s *m (row_mx y t)^T) 0 0 = (y *m B *m y^T) 0 0 + t 0 0 * s 0 0 * t 0 0.
  { rewrite tr_row_mx mul_row_block mul_row_col !(mulmx0, addr0, add0r) mxE. congr (_ + _). clear. move: s => u. by rewrite mxE big_ord1 mxE big_ord1 mxE. }
  have S (x : 'rV_(k + 1)) : x = (x *m invmx L) *m L by rewrite -mulmxA mulVmx // mulmx1.
  have Z : (0 : 'rV[F]_1) 0 0 = 0 by rewrite mxE.
  have Z1 : (1%:M : 'rV[F]_1) 0 0 = 1 by rewrite mxE.
  split.
  - move=> H. split.
    + move=> y Hy. have := H (row_mx y 0 *m invmx L). rewrite Q mulmxKV // D Z !mul0r addr0. apply. apply/negP => /eqP E. move/negP: Hy; apply.
      have : row_mx y (0 : 'rV_1) = 0 by rewrite (S (row_mx y 0)) E mul0mx. by rewrite -row_mx0 => /eq_row_mx [-> _].
    + pose w : 'rV_(k + 1) := row_mx (0 : 'rV[F]_k) (1%:M : 'rV[F]_1). have := H (w *m invmx L). rewrite Q mulmxKV // /w D mul0mx mul0mx Z1 mxE mul1r mulr1 add0r. apply. apply/negP => /eqP E.
      have : w = 0 by rewrite (S w) /w E mul0mx. rewrite /w -row_mx0 => /eq_row_mx [_ /matrixP /(_ 0 0)]. by rewrite Z Z1 => /eqP; rewrite oner_eq0.
  - move=> [HB Hs] x Hx. rewrite Q -[x *m L]hsubmxK D. set y := lsubmx _. set t := rsubmx _.
    have P : 0 <= (y *m B *m y^T) 0 0. { case: (eqVneq y 0) => [->|N]; last by apply/ltW/HB. by rewrite !mul0mx mxE. }
    have R : 0 <= t 0 0 * s 0 0 * t 0 0 by rewrite mulrAC -expr2 mulr_ge0 ?sqr_ge0 // ltW.
    case: (eqVneq y 0) => [E|N]; last by rewrite ltr_paddr // HB.
    rewrite ltr_paddl // mulrAC -expr2 mulr_gt0 // lt_def sqr_ge0 andbT sqrf_eq0. apply/negP => /eqP E0. move/negP: Hx; apply; apply/eqP.
    have : x *m L = 0. { rewrite -[x *m L]hsubmxK -/y -/t E. have -> : t = 0 by apply/matrixP => i j; rewrite !ord1 E0 mxE. by rewrite row_mx0. }
    move=> ZZ. have : x *m L *m invmx L = 0 by rewrite ZZ mul0mx. by rewrite mulmxK.
Qed.
End step.
Lemma pd_lead (m : nat -> nat -> F) k : pd _ (upper_left m (k + 1)) -> pd _ (upper_left m k).
Proof.
  move=> H y Hy. have := H (row_mx y 0). rewrite ul_step tr_row_mx mul_row_block mul_row_col !trmx0 !(mul0mx, mulmx0, addr0). apply.
  apply/negP => /eqP E. move/negP: Hy; apply. move: E. by rewrite -row_mx0 => /eq_row_mx [-> _].
Qed.
Lemma sylvester (m : nat -> nat -> F) n : symmetric n m -> (forall k, (0 < k <= n)%N -> 0 < \det (upper_left m k)) <-> pd n (upper_left m n).
Proof.
  elim: n => [|n IH] Sy.
  { split; [|by move=> _ [|k]]. move=> _ x /rV0Pn [[]] //. }
  have Sn : symmetric n m by move=> i j Hi Hj; apply: Sy; exact: ltnW.
  have {IH} := IH Sn. set U := upper_left m n. move=> IH.
  have symU : U^T = U by apply/matrixP => i j; rewrite !mxE Sn.
  have row : \row_j m n j = (\col_(i < n) m i n)^T.
  { apply/matrixP => i j; rewrite !mxE. apply: Sy => //. exact: ltnW (ltn_ord j). }
  have dp : pd _ U -> 0 < \det U. { move/IH => H. case: (posnP n) => [E|P]; last by apply: H; rewrite P /=. clear -E. rewrite /U. clear U. by rewrite {n}E det_mx00 ltr01. }
  split.
  - move=> H. rewrite -addn1 ul_step row. have PU : pd _ U by apply/IH => k /andP [P Q]; apply: H; rewrite P /= ltnW.
    have D := dp PU. have unU : U \in unitmx by rewrite unitmxE unitfE gt_eqF.
    apply/pd_step => //. split=> //. have := H n.+1. rewrite ltnSn => /(_ isT). rewrite -addn1 ul_step row det_step //. by rewrite pmulr_rgt0.
  - rewrite -addn1 => H k /andP [P]. have PU := pd_lead _ _ H. have D := dp PU. have unU : U \in unitmx by rewrite unitmxE unitfE gt_eqF.
    rewrite addn1 leq_eqVlt => /orP [/eqP ->|Q]; last by move/IH: PU; apply; rewrite P.
    rewrite -addn1 ul_step row det_step //. move: H. rewrite ul_step row => /pd_step [] // _ Hs. by rewrite mulr_gt0.
Qed.
Lemma minors_from_ok semi_d (m : nat -> nat -> F) i left : minors_from semi_d m i left = if [forall k : 'I_left, 0 < \det (upper_left m (i + k)%N)] then 1%N else 0%N.
Proof.
  elim: left i => [|l IH] i /=. { case: forallP => // [[]] [] //. }
  set d := \det _. have -> : (semi_d && (d < 0)) || (d <= 0) = (d <= 0). { case: (leP d 0) => H; rewrite ?orbT // orbF. apply/negP => /andP [_ L]. by have := lt_trans H L; rewrite ltxx. }
  rewrite IH. case: (leP d 0) => H.
  - case: forallP => // /(_ ord0). by rewrite addn0 -/d ltNge H.
  - congr (if _ then _ else _). apply/forallP/forallP => [A k|A k].
    + case: (unliftP ord0 k) => [k' ->|->]; [rewrite lift0 addnS -addSn; exact: A|by rewrite addn0].
    + have := A (lift ord0 k). by rewrite lift0 addnS -addSn.
Qed.
Lemma test_ok semi_d n (m : nat -> nat -> F) : symmetric n m -> is_positive_semidefinite (Some (n, m)) semi_d = 1%N <-> definite n m.
Proof.
  move=> Sy. rewrite /is_positive_semidefinite minors_from_ok definite_pd -(sylvester _ _ Sy). split.
  - case: forallP => // A _ k /andP [P Q]. have L : (k.-1 < n)%N by rewrite prednK. have := A (Ordinal L). by rewrite /= add1n prednK.
  - move=> A. case: forallP => // [[]] k. apply: A. by rewrite add1n /= ltn_ord.
Qed.
Lemma test_01 semi_d n (m : nat -> nat -> F) : is_positive_semidefinite (Some (n, m)) semi_d = 1%N \/ is_positive_semidefinite (Some (n, m)) semi_d = 0%N.
Proof. rewrite /is_positive_semidefinite minors_from_ok. case: forallP; auto. Qed.
End proofs.

Section theorems.
Context {F : realFieldType}.
(** C128: apop_matrix_is_positive_semidefinite of a symmetric matrix is one if the form is positive everywhere but at zero, else zero, whatever semi is; no matrix: zero *)
Theorem C128_definite : forall n (m : nat -> nat -> F) semi_d, symmetric n m ->
  (definite n m -> is_positive_semidefinite (Some (n, m)) semi_d = 1%N) /\ (~ definite n m -> is_positive_semidefinite (Some (n, m)) semi_d = 0%N).
Proof.
  move=> n m semi_d Sy. split; first by move/(test_ok semi_d _ _ Sy).
  move=> N. case: (test_01 semi_d n m) => // /(test_ok semi_d _ _ Sy) //.
Qed.
Theorem C128_none : forall semi_d, @is_positive_semidefinite F None semi_d = 0%N.
Proof. by []. Qed.
(** ... so a matrix that is semidefinite but not definite is refused, the default semi too *)
Theorem C128_refuted_semidefinite : (forall n (m : nat -> nat -> F), symmetric n m -> semidefinite n m -> (exists2 x, exists2 i, (i < n)%N & x i != 0 & form n m x = 0) -> is_positive_semidefinite (Some (n, m)) false = 0%N) /\
  exists m : nat -> nat -> F, symmetric 2 m /\ semidefinite 2 m /\ exists2 x, exists2 i, (i < 2)%N & x i != 0 & form 2 m x = 0.
Proof.
  split.
  - move=> n m Sy _ [x Hx H0]. apply C128_definite => // D. have := D x Hx. by rewrite H0 ltxx.
  - have E x : form 2 (fun _ _ => 1 : F) x = (x 0%N + x 1%N) ^+ 2.
    { rewrite /form !big_ord_recl !big_ord0 /= !addr0 !mulr1 /bump /= -mulrDr -mulrDr -mulrDl expr2 //. }
    exists (fun _ _ => 1). split; [by []|split].
    + move=> x. rewrite E. exact: sqr_ge0.
    + exists (fun i => if i is 0%N then 1 else -1); first by exists 0%N; rewrite ?oner_eq0. by rewrite E /= subrr expr0n.
Qed.

(** what a matrix is for the test: its numbers *)
Lemma ul_numbers n (m : 'M[F]_n) : upper_left (numbers m) n = m.
Proof. apply/matrixP => i j. by rewrite mxE /numbers !valK. Qed.
Lemma sym_numbers n (m : 'M[F]_n) : m^T = m <-> symmetric n (numbers m).
Proof.
  split.
  - move=> H i j Hi Hj. have := congr1 (fun A : 'M_n => A (Ordinal Hi) (Ordinal Hj)) H. by rewrite mxE /numbers !insubT.
  - move=> H. apply/matrixP => i j. rewrite mxE. have := H j i (ltn_ord j) (ltn_ord i). by rewrite /numbers !valK.
Qed.
Lemma raised_pos (v : F) : 0 < raised v.
Proof. have P : 0 < 1 / 10%:R :> F by rewrite divr_gt0 ?ltr01 ?ltr0n. rewrite /raised. case: (ltP v) => // H. exact: lt_le_trans P H. Qed.
Lemma orth n (v : 'M[F]_n) : v^T *m v = 1%:M -> v *m v^T = 1%:M.
Proof. exact: mulmx1C. Qed.
Lemma rebuilt_sym n t (vals : 'I_n -> F) vecs : (rebuilt t vals vecs)^T = rebuilt t vals vecs.
Proof. by rewrite /rebuilt !trmx_mul trmxK tr_diag_mx mulmxA. Qed.
Lemma raised_sum n (vals : 'I_n -> F) : (0 < n)%N -> 0 < \sum_k raised (vals k).
Proof.
  move=> P. rewrite (bigD1 (Ordinal P)) //= ltr_paddr ?raised_pos //. apply: sumr_ge0 => i _. exact/ltW/raised_pos.
Qed.
Lemma rebuilt_pd n t (vals : 'I_n -> F) vecs d : (0 < n)%N -> 0 < t -> eigens d vals vecs -> pd n (rebuilt t vals vecs).
Proof.
  move=> Pn Pt [/orth O _] x Hx. rewrite /rebuilt. set D := diag_mx _.
  have -> : x *m (vecs *m D *m vecs^T) *m x^T = (x *m vecs) *m D *m (x *m vecs)^T by rewrite trmx_mul !mulmxA.
  have Hy : x *m vecs != 0. { apply/negP => /eqP E. move/negP: Hx; apply. by rewrite -[x]mulmx1 -O mulmxA E mul0mx. }
  move: Hy. set y := x *m vecs => Hy. rewrite mxE.
  have T i : (y *m D) 0 i * y^T i 0 = t / (\sum_k raised (vals k)) * raised (vals i) * y 0 i ^+ 2. { by rewrite /D mul_mx_diag !mxE expr2 mulrAC mulrC mulrA. }
  have C i : 0 < t / (\sum_k raised (vals k)) * raised (vals i) by rewrite mulr_gt0 ?raised_pos // divr_gt0 // raised_sum.
  case/rV0Pn: Hy => i Hi. rewrite (bigD1 i) //= T ltr_paddr //.
  - apply: sumr_ge0 => j _. rewrite T mulr_ge0 ?sqr_ge0 //. exact/ltW/C.
  - rewrite mulr_gt0 //. by rewrite lt_def sqr_ge0 sqrf_eq0 Hi.
Qed.
Lemma rebuilt_trace n t (vals : 'I_n -> F) vecs d : (0 < n)%N -> eigens d vals vecs -> \tr (rebuilt t vals vecs) = t.
Proof.
  move=> Pn [O _]. rewrite /rebuilt mxtrace_mulC mulmxA O mul1mx mxtrace_diag.
  under eq_bigr => i _ do rewrite mxE. rewrite -mulr_sumr divfK // gt_eqF // raised_sum //.
Qed.
(** C128: of a symmetric matrix whose trace is not zero: the call does not abort; it leaves a matrix that is symmetric and definite (so a second call returns zero and leaves it alone),
    with the trace's size for trace, and returns the largest change of an element over the largest element; a definite matrix is left as it was *)
Theorem C128_repair : forall n (m : 'M[F]_n) out, m^T = m -> \tr m != 0 -> to_positive_semidefinite m out ->
  exists m' distance, out = Left_with m' distance /\ m'^T = m' /\ definite n (numbers m') /\ to_positive_semidefinite m' (Left_with m' 0) /\
  (definite n (numbers m) /\ m' = m /\ distance = 0 \/ ~ definite n (numbers m) /\ \tr m' = `|\tr m| /\ distance = biggest (m - m') / biggest m).
Proof.
  move=> n m out Sy Tr H.
  have Pn : (0 < n)%N. { case: n m out Sy Tr H => // m out _. by rewrite /mxtrace big_ord0 eqxx. }
  have Pt : 0 < `|\tr m| by rewrite normr_gt0.
  have R (d : 'M[F]_n) vals vecs : eigens d vals vecs -> definite n (numbers (rebuilt `|\tr m| vals vecs)) by move=> E; apply/definite_pd; rewrite ul_numbers; exact: rebuilt_pd E.
  have Y (q : 'M[F]_n) : q^T = q -> definite n (numbers q) -> is_positive_semidefinite (Some (n, numbers q)) false <> 0%N.
  { move=> Sq D. have K : symmetric n (numbers q) by apply sym_numbers. have -> : is_positive_semidefinite (Some (n, numbers q)) false = 1%N by apply/(test_ok false _ _ K). by []. }
  case: H => [K|d vals vecs K L E m' K'|d vals vecs K L E K'].
  - have D : definite n (numbers m). { case: (test_01 false n (numbers m)) => // J. apply/(test_ok false) => //. exact/sym_numbers. }
    exists m, 0. do 3 (split=> //). split; [by apply: already; apply: Y|by left].
  - exists m', (biggest (m - m') / biggest m). have Sm : m'^T = m' by exact: rebuilt_sym. have D : definite n (numbers m') by exact: R E.
    do 3 (split=> //). split; [by apply: already; apply: Y|]. right. split; [|split=> //; exact: rebuilt_trace E].
    move=> Dm. apply: (Y m) => //.
  - exfalso. apply: (Y _ _ _ K'); [exact: rebuilt_sym|exact: R E].
Qed.
(** a matrix with trace zero stops the program, whatever the rest is *)
Theorem C128_refuted_trace : forall n (m : 'M[F]_n) out, m^T = m -> \tr m = 0 -> ~ definite n (numbers m) -> to_positive_semidefinite m out -> out = Aborted.
Proof.
  move=> n m out Sy Tr N H.
  have Z vals (vecs : 'M[F]_n) : rebuilt `|\tr m| vals vecs = 0. { rewrite /rebuilt Tr normr0. have -> : (\row_i (0 / (\sum_k raised (vals k)) * raised (vals i))) = 0 :> 'rV[F]_n by apply/rowP => i; rewrite !mxE mul0r mul0r. by rewrite linear0 mulmx0 mul0mx. }
  have K1 : is_positive_semidefinite (Some (n, numbers m)) false = 0%N by apply C128_definite => //; exact/sym_numbers.
  case: H => [K|d vals vecs K L E m' K'|] //.
  exfalso. apply: K'. apply C128_definite. { apply/sym_numbers. exact: rebuilt_sym. }
  rewrite /m' -[\sum_i m i i]/(\tr m) Z. move=> D. case: n m {out} Sy Tr N Z K1 d vals vecs K L E m' D => [|n] m Sy Tr N Z K1 d vals vecs K L E m' D.
  { by apply: N => x [i]. }
  have := D (fun _ => 1). rewrite /form big1; last by move=> i _; rewrite big1 // => j _; rewrite /numbers !valK mxE mulr0 mul0r.
  rewrite ltxx => W. suff : false by []. apply: W. exists 0%N => //. by rewrite oner_eq0.
Qed.
(** ... and a semidefinite matrix that is not definite is not left as it is *)
Theorem C128_refuted_changed : forall n (m : 'M[F]_n) m' distance, m^T = m -> \tr m != 0 -> semidefinite n (numbers m) -> ~ definite n (numbers m) -> to_positive_semidefinite m (Left_with m' distance) -> m' != m.
Proof.
  move=> n m m' distance Sy Tr _ N H. have [q [e [[<- _] [_ [D _]]]]] := C128_repair n m _ Sy Tr H. apply/negP => /eqP E. apply: N. by rewrite -E.
Qed.
(** the distance's unit: the largest size of an element *)
Lemma bm_ub n (f : 'I_n -> F) i : f i <= \big[Num.max/0]_j f j.
Proof.
  elim: n f i => [|n IH] f i; first by case: i. rewrite big_ord_recl le_maxr. case: (unliftP ord0 i) => [j ->|->]; last by rewrite lexx.
  by rewrite (IH (fun j => f (lift ord0 j)) j) orbT.
Qed.
Lemma bm_at n (f : 'I_n -> F) : (0 < n)%N -> (forall i, 0 <= f i) -> exists i, \big[Num.max/0]_j f j = f i.
Proof.
  elim: n f => [|n IH] f // _ P. rewrite big_ord_recl. case: n IH f P => [|n] IH f P; first by exists ord0; rewrite big_ord0 max_l.
  have [//|//|i E] := IH (fun j => f (lift ord0 j)). rewrite E. case: (leP (f ord0) (f (lift ord0 i))) => H; eexists; reflexivity.
Qed.
Lemma biggest_spec n (m : 'M[F]_n) : (forall i j, `|m i j| <= biggest m) /\ ((0 < n)%N -> exists i j, biggest m = `|m i j|).
Proof.
  split.
  - move=> i j. apply: le_trans (bm_ub _ (fun j => `|m i j|) j) _. exact: (bm_ub _ (fun i => \big[Num.max/0]_j `|m i j|) i).
  - move=> P. have [//|i|i E] := bm_at n (fun i => \big[Num.max/0]_j `|m i j|).
    { have [//|j|j ->] := bm_at n (fun j => `|m i j|); exact: normr_ge0. }
    have [//|j|j E'] := bm_at n (fun j => `|m i j|); first exact: normr_ge0. exists i, j. by rewrite /biggest E.
Qed.
End theorems.
(** a matrix that needs two turns of the loop *)
Example C128_nonvacuous : exists (m : 'M[rat]_2) m', m^T = m /\ \tr m != 0 /\ to_positive_semidefinite m (Left_with m' (2%:R / 3%:R)) /\ m 1 1 = - (1 / 2%:R) /\ m' 0 0 = 1 / 3%:R /\ m' 1 1 = 1 / 6%:R.
Proof.
  pose D (a b : rat) : 'M[rat]_2 := \matrix_(i, j) if i == j then (if i == 0 then a else b) else 0.
  pose V (a b : rat) (i : 'I_2) := if i == 0 then a else b.
  have E a b : eigens (D a b) (V a b) 1%:M.
  { split; first by rewrite trmx1 mulmx1. move=> i. apply/matrixP => k l. rewrite ord1 mxE (bigD1 i) //= big1 ?addr0; last by move=> j N; rewrite !mxE (negbTE N) mulr0. rewrite !mxE eqxx mulr1 /V. case: (eqVneq k i) => [->|]; by rewrite ?mulr1 ?mulr0. }
  have Pr f c d : pruned f (V c d) 1%:M = D (f 0) (f 1).
  { apply/matrixP => i j. rewrite !mxE. case: eqP => [_|N]; first by case: i => [[|[|]]] // H; congr (f _); apply/val_inj. have Z : i == j = false by apply/eqP. have K (x y : 'I_2) : x == y = false -> kept (V c d) 1%:M x y = 0.
    { move=> H. rewrite /kept summxE big1 // => k _. rewrite !mxE big_ord1 !mxE. case: (eqVneq x k) => [Ex|]; last by rewrite /= mulr0n mul0r mulr0. by rewrite -Ex [y == x]eq_sym H /= mulr0n !mulr0. }
    by rewrite !K ?[j == i]eq_sym // addr0 mul0r. }
  have Bg a b : biggest (D a b) = Num.max `|a| `|b|.
  { rewrite /biggest !big_ord_recl !big_ord0 !mxE /= normr0. by rewrite maxxx (max_l (normr_ge0 a)) (max_l (normr_ge0 b)) (max_r (normr_ge0 b)) (max_l (normr_ge0 b)). }
  have Sb a b c d : D a b - D c d = D (a - c) (b - d) by apply/matrixP => i j; rewrite !mxE; case: eqP => _; [case: ifP|rewrite subr0].
  have R t a b : rebuilt t (V a b) 1%:M = D (t / (raised a + raised b) * raised a) (t / (raised a + raised b) * raised b).
  { rewrite /rebuilt mul1mx trmx1 mulmx1. apply/matrixP => i j. rewrite !mxE. case: eqP => // _. rewrite !big_ord_recl big_ord0 addr0 /V /=. by case: ifP. }
  pose m := D 1 (- (1 / 2%:R)).
  have Sy a b : (D a b)^T = D a b. { apply/matrixP => i j. rewrite !mxE eq_sym. case: eqP => // ->. by []. }
  have T a b : \tr (D a b) = a + b by rewrite /mxtrace !big_ord_recl big_ord0 addr0 !mxE.
  have ND : ~ definite 2 (numbers m).
  { move/definite_pd. rewrite ul_numbers => H. have := H (\row_j (if j == 1 then 1 else 0)). rewrite mxE !big_ord_recl big_ord0 !mxE !big_ord_recl !big_ord0 !mxE /=. move=> W. suff: false by []. apply: W. apply/rV0Pn. exists 1. by rewrite mxE. }
  have K0 : is_positive_semidefinite (Some (2%N, numbers m)) false = 0%N by apply C128_definite => //; apply sym_numbers; exact: Sy.
  have L : looped (fun i => `|m i i|) m (D 1 (1 / 2%:R)).
  { have F0 : `|m 0 0| = 1 by rewrite mxE. have F1 : `|m 1 1| = 1 / 2%:R by rewrite mxE.
    apply: (next_turn _ _ _ _ _ (E 1 (- (1 / 2%:R)))); rewrite ?Pr ?F0 ?F1 ?Sb ?Bg //; first by exists 0.
    have := last_turn (fun i => `|m i i|) _ _ _ (E 1 (1 / 2%:R)). rewrite ?Pr ?F0 ?F1 ?Sb ?Bg => X. apply: X => //. by exists 0. }
  have Tm : `|\sum_i m i i| = 1 / 2%:R by rewrite -[\sum_i m i i]/(\tr m) T.
  have O : to_positive_semidefinite m (Left_with (D (1 / 3%:R) (1 / 6%:R)) (2%:R / 3%:R)).
  { have Rb : rebuilt `|\sum_i m i i| (V 1 (1 / 2%:R)) 1%:M = D (1 / 3%:R) (1 / 6%:R) by rewrite Tm R.
    have := repaired m _ _ _ K0 L (E 1 (1 / 2%:R)). cbv zeta. rewrite Rb Sb !Bg => X. have -> : 2%:R / 3%:R = Num.max `|1 - 1 / 3%:R| `|- (1 / 2%:R) - 1 / 6%:R| / Num.max `|1| `|- (1 / 2%:R)| :> rat by [].
    apply: X. have [P _] := C128_definite 2 (numbers (D (1 / 3%:R) (1 / 6%:R))) false (proj1 (sym_numbers _ _) (Sy _ _)). rewrite P //. apply/definite_pd. rewrite ul_numbers -Rb. apply: (rebuilt_pd _ _ _ _ (D 1 (1 / 2%:R))) => //. by rewrite Tm. }
  exists m, (D (1 / 3%:R) (1 / 6%:R)). rewrite T. split; first exact: Sy. split=> //. split; first exact: O. by rewrite !mxE.
Qed.
Print Assumptions C128_definite. Print Assumptions C128_repair. Print Assumptions C128_refuted_trace. Print Assumptions C128_refuted_semidefinite.
