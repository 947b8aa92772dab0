(* Specification vocabulary for the LU factorization. *)
From Coq Require Import ZArith List.
From Verif Require Import Base NumModel FieldModel TaskModel TaskSpec DescModel DescSpec MatSpec GuardSpec SwpSpec GetrfModel.
Import ListNotations.
Open Scope Z_scope.

Section Spec.
  Context {F : fields}.
  Local Open Scope num_scope.

  (* the tile matrix A in block b, the user's matrix at p, and the array ipiv at pI *)
  Definition lel (M : mem (cell F)) (b : Z) (A : desc) (i j : Z) : F := fst (el M b A i j).
  Definition lul (M : mem (cell F)) (p : loc) (ld i j : Z) : F := fst (ul M p ld i j).
  Definition pivots (M : mem (cell F)) (pI : loc) (t : Z) : Z := snd (M (fst pI, snd pI + t)%Z).

  (* the factors stored in X: L unit lower triangular (trapezoidal), U upper triangular
     (trapezoidal) *)
  Definition factor_L (X : Z -> Z -> F) (i l : Z) : F :=
    if (i =? l)%Z then n1 else if (l <? i)%Z then X i l else n0.
  Definition factor_U (X : Z -> Z -> F) (l j : Z) : F :=
    if (l <=? j)%Z then X l j else n0.

  (* P*A = L*U: ipiv holds row numbers, and row i of L*U is the row of A that the
     interchanges bring to place i *)
  Definition factored (m n : Z) (A X : Z -> Z -> F) (ipiv : Z -> Z) : Prop :=
    (forall t, (0 <= t < Z.min m n)%Z -> (t + 1 <= ipiv t <= m)%Z) /\
    (forall i j, in_matrix m n i j ->
       A (source (interchanges ipiv (Z.to_nat (Z.min m n))) i) j =
       nsum (fun l => factor_L X i l * factor_U X l j) 0 (Z.min m n)).

  (* no diagonal element of U is zero *)
  Definition U_regular (m n : Z) (X : Z -> Z -> F) : Prop :=
    forall t, (0 <= t < Z.min m n)%Z -> factor_U X t t <> n0.

  (* what one may expect of a comparison of absolute values *)
  Record comparison (bigger : F -> F -> bool) : Prop := {
    cmp_irr : forall a, bigger a a = false;
    cmp_trans : forall a b c, bigger a b = true -> bigger b c = true -> bigger a c = true;
    cmp_weak : forall a b c, bigger a c = true -> bigger a b = true \/ bigger b c = true;
    cmp_zero : forall a, a <> n0 -> bigger a n0 = true }.

  (* partial pivoting: in no column t is an element that was a candidate for the pivot, which
     is L(i,t)*U(t,t) now, bigger than the pivot U(t,t) *)
  Definition well_pivoted (bigger : F -> F -> bool) (m n : Z) (X : Z -> Z -> F) : Prop :=
    forall i t, (0 <= t < Z.min m n)%Z -> (t < i < m)%Z ->
      bigger (factor_L X i t * factor_U X t t) (factor_U X t t) = false.

  (* column k of A is a combination of the columns before it *)
  Definition column_depends (m : Z) (A : Z -> Z -> F) (k : Z) : Prop :=
    exists x : Z -> F, forall i, (0 <= i < m)%Z -> A i k = nsum (fun j => A i j * x j) 0 k.

  (* What the factorization of A does: st is the status, X the matrix and ipiv the pivots
     afterwards. *)
  Definition lu_outcome (bigger : F -> F -> bool) (m n : Z) (A X : Z -> Z -> F) (ipiv : Z -> Z) (st : Z) : Prop :=
    (0 <= st <= Z.min m n)%Z /\
    (st = 0%Z -> factored m n A X ipiv /\ U_regular m n X /\ (comparison bigger -> well_pivoted bigger m n X)) /\
    (st <> 0%Z -> comparison bigger -> column_depends m A (st - 1)).

  (* What plasma_zgetrf does with the matrix at pA and the array ipiv at pI, b being the block
     of the tile matrix: the code is 0 and the matrix holds the factors, or the code is
     min(m,n) plus the number of a dependent column and the matrix is unchanged. *)
  Definition getrf_result (bigger : F -> F -> bool) (m n : Z) (pA : loc) (lda : Z) (pI : loc) (b : Z)
      (M M' : mem (cell F)) (code : Z) : Prop :=
    exists st, code = (if (st =? 0)%Z then 0%Z else (Z.min m n + st)%Z) /\
      lu_outcome bigger m n (lul M pA lda) (lul M' pA lda) (pivots M' pI) st /\
      (forall l, fst l <> b -> (st = 0%Z -> ~ in_user pA lda m n l) ->
         (forall t, (0 <= t < Z.min m n)%Z -> l <> (fst pI, (snd pI + t)%Z)) -> M' l = M l).
End Spec.

Section Threads.
  Context {F : fields}.

  (* row i is in one of the tiles of the thread: core_blas/core_zgetrf.c:109, 192 *)
  Definition rank_row (A : desc) (rank size i : Z) : Prop := In (i / d_mb A) (rank_tiles rank size (d_mt A)).
  (* the elements of the panel a thread reads in core_blas/core_zgetrf.c:109-153 with p = j
     (192-217 with p = k+kb-1): those of its tiles and those of the rows 0, ..., p *)
  Definition thread_reads (b : Z) (A : desc) (rank size p : Z) (l : loc) : Prop :=
    exists i c, 0 <= i < d_m A /\ 0 <= c < d_n A /\ (rank_row A rank size i \/ i <= p) /\ l = (b, elem_off A i c).
  (* and those it writes, core_blas/core_zgetrf.c:109-153 (192-217): of its tiles, below row p *)
  Definition thread_writes (b : Z) (A : desc) (rank size p : Z) (l : loc) : Prop :=
    exists i c, 0 <= i < d_m A /\ 0 <= c < d_n A /\ (rank_row A rank size i /\ p < i) /\ l = (b, elem_off A i c).
  (* core_blas/core_zgetrf.c:106-154: the threads between two barriers, as tasks without any
     dependency *)
  Definition update_threads (b : Z) (A : desc) (size info k kb j : Z) : list (ktask (cell F)) :=
    map (fun rank => mkktask [] (on_nums (fun M => update_rank b A size info k kb j M rank))
                       (thread_reads b A rank size j) (thread_writes b A rank size j)) (zrange 0 size).
  (* core_blas/core_zgetrf.c:185-218: likewise for the gemm *)
  Definition gemm_threads (b : Z) (A : desc) (size k kb : Z) : list (ktask (cell F)) :=
    map (fun rank => mkktask [] (on_nums (fun M => gemm_rank b A size k kb M rank))
                       (thread_reads b A rank size (k + kb - 1)) (thread_writes b A rank size (k + kb - 1)))
      (zrange 0 size).

End Threads.

(* The routine ends, on every schedule of its two regions, and Q holds of the final memory
   and the code returned. *)
Definition rdriver_ensures {V} (d : rdriver V) (M : mem V) (Q : mem V -> Z -> Prop) : Prop :=
  match d with
  | RReturns code => Q M code
  | RRuns first second fcode =>
      gregion_ensures first M (fun M1 st =>
        if st =? 0 then region_ensures second M1 (fun M' => Q M' 0) else Q M1 (fcode st))
  end.
