(** Model of the tests and repairs of covariance matrices (apop_stats.m4.c:785-958).  Doubles are an ordered field (no rounding, NaN or infinities).
    The LU determinant (apop_matrix_determinant) is the determinant, and gsl_eigen_symmv gives any orthonormal eigenvectors with their eigenvalues. *)
From mathcomp Require Import all_ssreflect all_algebra.
Import GRing.Theory Num.Theory.
Local Open Scope ring_scope.

Section psd.
Context {F : realFieldType}.
(** apop_stats.m4.c:849 gsl_matrix_submatrix(m, 0, 0, i, i) *)
Definition upper_left (m : nat -> nat -> F) (i : nat) : 'M[F]_i := \matrix_(a < i, b < i) m a b.
(** 848-854, the turns of the loop from [i] on, [left] of them; the letter [semi_d] says that semi is 'd' *)
Fixpoint minors_from (semi_d : bool) (m : nat -> nat -> F) (i left : nat) : nat :=
  match left with
  | 0 => 1%N
  | left'.+1 => let det := \det (upper_left m i) in
      if (semi_d && (det < 0)) || (det <= 0) then 0%N else minors_from semi_d m i.+1 left'
  end.
(** 843-855 apop_matrix_is_positive_semidefinite of an n by n matrix; no matrix: 0 *)
Definition is_positive_semidefinite (m : option (nat * (nat -> nat -> F))) (semi_d : bool) : nat :=
  if m is Some (n, m) then minors_from semi_d m 1 n else 0%N.

(** ---------- apop_matrix_to_positive_semidefinite, 869-958, of an n by n matrix ---------- *)
Context {n : nat}.
(** 812-817 find_eigens (gsl_eigen_symmv): eigenvalues and, in columns, eigenvectors of length one at right angles *)
Definition eigens (d : 'M[F]_n) (vals : 'I_n -> F) (vecs : 'M[F]_n) : Prop :=
  vecs^T *m vecs = 1%:M /\ forall i, d *m col i vecs = vals i *: col i vecs.
(** 830-832 biggest_elmt: that the largest and the smallest element's sizes are compared is simplified to the largest size of all *)
Definition biggest (d : 'M[F]_n) : F := \big[Num.max/0]_i \big[Num.max/0]_j `|d i j|.
(** 899-918 Q D Q' of the eigenvalues that are kept, symmetrized, with the sizes of the old diagonal put in *)
Definition kept (vals : 'I_n -> F) (vecs : 'M[F]_n) : 'M[F]_n := \sum_(k | ~~ (vals k <= 0)) vals k *: (col k vecs *m (col k vecs)^T).
Definition pruned (diag : 'I_n -> F) (vals : 'I_n -> F) (vecs : 'M[F]_n) : 'M[F]_n :=
  let q := kept vals vecs in \matrix_(i, j) if i == j then diag i else (q i j + q j i) / 2%:R.
(** 880-931 the loop: [looped diag d d'], from [d] it ends with [d'].  897: no positive eigenvalue, no columns: break.  931: diffsize/dsize > 1e-3 (NaN: the end) *)
Inductive looped (diag : 'I_n -> F) : 'M[F]_n -> 'M[F]_n -> Prop :=
  | no_columns d vals vecs : eigens d vals vecs -> (forall i, vals i <= 0) -> looped diag d d
  | last_turn d vals vecs : eigens d vals vecs -> (exists i, 0 < vals i) -> biggest (d - pruned diag vals vecs) / biggest d <= 1 / 1000%:R -> looped diag d (pruned diag vals vecs)
  | next_turn d vals vecs d' : eigens d vals vecs -> (exists i, 0 < vals i) -> 1 / 1000%:R < biggest (d - pruned diag vals vecs) / biggest d ->
      looped diag (pruned diag vals vecs) d' -> looped diag d d'.
(** 938-944: eigenvalues under a tenth are a tenth *)
Definition raised (v : F) : F := if v < 1 / 10%:R then 1 / 10%:R else v.
(** 948-953: scaled to the old trace *)
Definition rebuilt (trace : F) (vals : 'I_n -> F) (vecs : 'M[F]_n) : 'M[F]_n :=
  vecs *m diag_mx (\row_i (trace / (\sum_k raised (vals k)) * raised (vals i))) *m vecs^T.
(** the numbers of a matrix by row and column *)
Definition numbers (m : 'M[F]_n) (i j : nat) : F := match insub i, insub j with Some i, Some j => m i j | _, _ => 0 end.
(** what becomes of the call: the matrix left and the distance returned, or that the assertion of 956 fails *)
Inductive outcome := Left_with (m : 'M[F]_n) (distance : F) | Aborted.
Inductive to_positive_semidefinite (m : 'M[F]_n) : outcome -> Prop :=
  | already : is_positive_semidefinite (Some (n, numbers m)) false <> 0%N -> to_positive_semidefinite m (Left_with m 0)
  | repaired d vals vecs : is_positive_semidefinite (Some (n, numbers m)) false = 0%N -> looped (fun i => `|m i i|) m d -> eigens d vals vecs ->
      let m' := rebuilt `|\sum_i m i i| vals vecs in is_positive_semidefinite (Some (n, numbers m')) false <> 0%N ->
      to_positive_semidefinite m (Left_with m' (biggest (m - m') / biggest m))
  | failed d vals vecs : is_positive_semidefinite (Some (n, numbers m)) false = 0%N -> looped (fun i => `|m i i|) m d -> eigens d vals vecs ->
      is_positive_semidefinite (Some (n, numbers (rebuilt `|\sum_i m i i| vals vecs))) false = 0%N -> to_positive_semidefinite m Aborted.
End psd.
Arguments outcome {F} n.
