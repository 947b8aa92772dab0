(* C42 to C46: the LQ factorization, its unitary factor, minimum norm solutions and zgels. *)
From Coq Require Import Reals ZArith List Bool Lia.
From Verif Require Import Base NumModel FieldModel FieldInstances ComplexInstances
  TaskModel TaskSpec DescModel DescDriverModel DescSpec MatModel MatSpec DriverModel DriverSpec TriModel TriSpec
  RankDriverProofs QrModel QrSpec QrInstances LsModel LsSpec LsNormSpec LsNormProofs LsRefProofs
  LqModel LqSpec LqDriverProofs LqSolve2Proofs LqGelsProofs LqGlqProofs LqRefProofs PropertiesQr.
Import ListNotations.
Open Scope Z_scope.

(* For legal arguments, every tile size nb, inner block size ib and every schedule: plasma_zgelqf
   leaves in the lower trapezoid of A the factor L of A = L*Q for a unitary matrix Q, and changes
   nothing outside A and the array of T. lg is LAPACK zlarfg. *)
Theorem C42_zgelqf_factors : forall (N : numbers) (lg : N -> list N -> N * N * list N), larfg_ok lg ->
  forall nb ib m n pA lda bA bT M,
  0 < nb -> 0 < ib -> 0 <= m -> 0 <= n -> Z.max 1 m <= lda -> NoDup [fst pA; bA; bT] ->
  driver_ensures (zgelqf lg nb ib m n pA lda bA bT) M (fun M' =>
    (exists Q, is_unitary n Q /\
      forall i j, 0 <= i < m -> 0 <= j < n ->
        ul M pA lda i j = nsum (fun l => nmul (if l <=? i then ul M' pA lda i l else n0) (Q l j)) 0 n) /\
    (forall l, fst l <> bA -> fst l <> bT -> ~ in_user pA lda m n l -> M' l = M l)).
Proof. exact @zgelqf_factors. Qed.
Print Assumptions C42_zgelqf_factors.

(* For legal arguments and every schedule: plasma_zgelqf factors A = L*Q with a unitary Q such
   that plasma_zunmlq, called later (memory M2) with the min(m,n) reflectors in A and the
   descriptor T that plasma_zgelqf returned, the array of T unchanged, on any matrix C of fitting
   shape, replaces C by Q*C, Q^H*C, C*Q or C*Q^H, on every schedule, and changes nothing else. *)
Theorem C43_zunmlq_applies_Q : forall (N : numbers) (lg : N -> list N -> N * N * list N), larfg_ok lg ->
  forall nb ib m n pA lda bA bT M,
  0 < nb -> 0 < ib -> 0 <= m -> 0 <= n -> Z.max 1 m <= lda -> NoDup [fst pA; bA; bT] ->
  driver_ensures (zgelqf lg nb ib m n pA lda bA bT) M (fun M' => exists Q,
    is_unitary n Q /\
    (forall i j, 0 <= i < m -> 0 <= j < n ->
       ul M pA lda i j = nsum (fun l => nmul (if l <=? i then ul M' pA lda i l else n0) (Q l j)) 0 n) /\
    (forall l, fst l <> bA -> fst l <> bT -> ~ in_user pA lda m n l -> M' l = M l) /\
    forall T size side trans cm cn pV ldv pC ldc bV bC M2,
      gelqf_T nb ib m n = CrOk T size ->
      side = PlasmaLeft \/ side = PlasmaRight -> trans = PlasmaNoTrans \/ trans = PlasmaConjTrans ->
      0 <= cm -> 0 <= cn -> (if side =? PlasmaLeft then cm else cn) = n -> Z.max 1 (Z.min m n) <= ldv -> Z.max 1 cm <= ldc ->
      NoDup [bT; bV; bC] -> (forall b, In b [fst pV; fst pC] -> ~ In b [bT; bV; bC]) ->
      apart pV ldv (Z.min m n) n pC ldc cm cn ->
      (forall i j, 0 <= i < Z.min m n -> 0 <= j < n -> ul M2 pV ldv i j = ul M' pA lda i j) ->
      (forall l, fst l = bT -> M2 l = M' l) ->
      driver_ensures (zunmlq nb side trans cm cn (Z.min m n) pV ldv bT T pC ldc bV bC) M2 (fun M3 =>
        (forall i j, 0 <= i < cm -> 0 <= j < cn -> ul M3 pC ldc i j = q_times side trans n Q (ul M2 pC ldc) i j) /\
        (forall l, fst l <> bV -> fst l <> bC -> ~ in_user pC ldc cm cn l -> M3 l = M2 l))).
Proof. exact @zgelqf_main. Qed.
Print Assumptions C43_zunmlq_applies_Q.

(* For an m x n matrix A with 0 < m <= n whose rows are independent, every tile size, inner block
   size and schedule: after plasma_zgelqf, plasma_zgelqs called later (memory M2) with the factored
   A, the T that plasma_zgelqf returned and any n x nrhs matrix B leaves in each column of B the
   minimum norm solution x of A*x = b, b the first m rows of the column, and changes nothing else. *)
Theorem C44_zgelqs_minimum_norm : forall (F : fields) (lg : F -> list F -> F * F * list F),
  larfg_ok lg -> (n1 : F) <> n0 ->
  forall nb ib m n pA lda bA bT M,
  0 < nb -> 0 < ib -> 0 <= m <= n -> Z.max 1 m <= lda -> NoDup [fst pA; bA; bT] ->
  full_row_rank m n (ul M pA lda) ->
  driver_ensures (zgelqf lg nb ib m n pA lda bA bT) M (fun M' =>
    forall T size nrhs pV ldv pB ldb bV bB M2,
      gelqf_T nb ib m n = CrOk T size ->
      0 < m -> 0 <= nrhs -> Z.max 1 m <= ldv -> Z.max 1 n <= ldb ->
      NoDup [bT; bV; bB] -> (forall b, In b [fst pV; fst pB] -> ~ In b [bT; bV; bB]) ->
      apart pV ldv m n pB ldb n nrhs ->
      (forall i j, 0 <= i < m -> 0 <= j < n -> ul M2 pV ldv i j = ul M' pA lda i j) ->
      (forall l, fst l = bT -> M2 l = M' l) ->
      driver_ensures (zgelqs (F := F) nb m n nrhs pV ldv bT T pB ldb bV bB) M2 (fun M3 =>
        (forall j, 0 <= j < nrhs ->
           minimum_norm m n (ul M pA lda) (fun i => ul M2 pB ldb i j) (fun i => ul M3 pB ldb i j)) /\
        (forall l, fst l <> bV -> fst l <> bB -> ~ in_user pB ldb n nrhs l -> M3 l = M2 l))).
Proof. exact @zgelqs_main. Qed.
Print Assumptions C44_zgelqs_minimum_norm.

(* Over the complex numbers such an x has the least norm of all solutions. *)
Theorem C44_minimum_norm_minimises : forall m n (A : Z -> Z -> C_fields) b x, minimum_norm m n A b x ->
  forall y, (forall i, 0 <= i < m -> mat_vec n A y i = b i) -> (norm2 x n <= norm2 y n)%R.
Proof. exact mn_minimises. Qed.
Print Assumptions C44_minimum_norm_minimises.

(* With m = 0 every vector is a solution and the one of minimum norm is zero: plasma_zgelqs
   returns success and leaves B as it was. *)
Theorem C44_zgelqs_empty_refuted : exists nb m n nrhs pA lda bT T pB ldb bA bB (M : mem C_fields),
  0 < nb /\ 0 <= m <= n /\ 0 < nrhs /\ Z.max 1 m <= lda /\ Z.max 1 n <= ldb /\
  full_row_rank m n (ul M pA lda) /\
  driver_ensures (zgelqs (F := C_fields) nb m n nrhs pA lda bT T pB ldb bA bB) M (fun M' =>
    ~ minimum_norm m n (ul M pA lda) (fun i => ul M pB ldb i 0) (fun i => ul M' pB ldb i 0)).
Proof. exact zgelqs_empty. Qed.
Print Assumptions C44_zgelqs_empty_refuted.

(* For legal arguments and every schedule: plasma_zgelqf factors A = L*Q with a unitary Q such
   that plasma_zunglq, called later (memory M2) with the min(m,n) reflectors in A and the T that
   plasma_zgelqf returned, writes the first min(m,n) rows of Q, and changes nothing else. *)
Theorem C45_zunglq_generates_Q : forall (N : numbers) (lg : N -> list N -> N * N * list N), larfg_ok lg ->
  forall nb ib m n pA lda bA bT M,
  0 < nb -> 0 < ib -> 0 <= m -> 0 <= n -> Z.max 1 m <= lda -> NoDup [fst pA; bA; bT] ->
  driver_ensures (zgelqf lg nb ib m n pA lda bA bT) M (fun M' => exists Q,
    is_unitary n Q /\
    (forall i j, 0 <= i < m -> 0 <= j < n ->
       ul M pA lda i j = nsum (fun l => nmul (if l <=? i then ul M' pA lda i l else n0) (Q l j)) 0 n) /\
    forall T size qm pV ldv pQ ldq bV bQ M2,
      gelqf_T nb ib m n = CrOk T size ->
      Z.min m n <= qm <= n -> Z.max 1 qm <= ldv -> Z.max 1 qm <= ldq ->
      NoDup [bT; bV; bQ] -> (forall b, In b [fst pV; fst pQ] -> ~ In b [bT; bV; bQ]) ->
      apart pV ldv (Z.min m n) n pQ ldq (Z.min m n) n ->
      (forall i j, 0 <= i < Z.min m n -> 0 <= j < n -> ul M2 pV ldv i j = ul M' pA lda i j) ->
      (forall l, fst l = bT -> M2 l = M' l) ->
      driver_ensures (zunglq nb qm n (Z.min m n) pV ldv bT T pQ ldq bV bQ) M2 (fun M3 =>
        (forall i j, 0 <= i < Z.min m n -> 0 <= j < n -> ul M3 pQ ldq i j = Q i j) /\
        (forall l, fst l <> bV -> fst l <> bQ -> ~ in_user pQ ldq (Z.min m n) n l -> M3 l = M2 l))).
Proof. exact @zunglq_main. Qed.
Print Assumptions C45_zunglq_generates_Q.

(* plasma_zunglq is documented to generate m orthonormal rows from k <= m reflectors. With k < m
   it does not: a legal call whose Q is not orthonormal, on any schedule. *)
Theorem C45_zunglq_m_rows_refuted : exists nb ib m n k pA lda bA bT M pQ ldq bV bQ,
  0 < nb /\ 0 < ib /\ 0 <= k <= m /\ m <= n /\ Z.max 1 m <= lda /\ Z.max 1 m <= ldq /\
  NoDup [fst pA; bA; bT; fst pQ; bV; bQ] /\
  driver_ensures (zgelqf larfg_C nb ib k n pA lda bA bT) M (fun M' => forall T size, gelqf_T nb ib k n = CrOk T size ->
    driver_ensures (zunglq nb m n k pA lda bT T pQ ldq bV bQ) M' (fun M3 => ~ orthonormal_rows m n (ul M3 pQ ldq))).
Proof. exact zunglq_incomplete. Qed.
Print Assumptions C45_zunglq_m_rows_refuted.

(* For an m x n matrix A of full rank, every tile size, inner block size and schedule, plasma_zgels
   leaves in each column of B: for m >= n the least squares solution of A*x = b, with a vector as
   long as the residual below it (0 < n), or with conjugate transposition the minimum norm solution
   of A^H*x = b; for m < n the minimum norm solution of A*x = b, or the least squares solution of
   A^H*x = b with the residual below it (0 < m). A holds the R or L of its factorization, and
   nothing outside A, B and the array of T changes. *)
Theorem C46_zgels_solves : forall (F : fields) (lg : F -> list F -> F * F * list F), larfg_ok lg -> (n1 : F) <> n0 ->
  forall nb ib trans m n nrhs pA lda pB ldb bA bB bT (M : mem F),
  0 < nb -> 0 < ib -> trans = PlasmaNoTrans \/ trans = PlasmaConjTrans ->
  0 <= m -> 0 <= n -> 0 <= nrhs -> Z.max 1 m <= lda -> Z.max 1 (Z.max m n) <= ldb ->
  NoDup [bT; bA; bB] -> (forall b, In b [fst pA; fst pB] -> ~ In b [bT; bA; bB]) ->
  apart pA lda m n pB ldb (Z.max m n) nrhs ->
  (n <= m -> full_column_rank m n (ul M pA lda)) -> (m < n -> full_row_rank m n (ul M pA lda)) ->
  driver_ensures (zgels lg nb ib trans m n nrhs pA lda pB ldb bA bB bT) M (fun M' =>
    (forall j, 0 <= j < nrhs ->
       let A := ul M pA lda in let AH := fun r c => nconj (A c r) in
       let b := fun i => ul M pB ldb i j in let x := fun i => ul M' pB ldb i j in
       (trans = PlasmaNoTrans -> n <= m -> least_squares m n A b x /\
          (0 < n -> sum_squares (fun i => nsub (b i) (mat_vec n A x i)) 0 m = sum_squares x n m)) /\
       (trans = PlasmaNoTrans -> m < n -> minimum_norm m n A b x) /\
       (trans = PlasmaConjTrans -> n <= m -> minimum_norm n m AH b x) /\
       (trans = PlasmaConjTrans -> m < n -> least_squares n m AH b x /\
          (0 < m -> sum_squares (fun i => nsub (b i) (mat_vec m AH x i)) 0 n = sum_squares x m n))) /\
    (0 < nrhs -> n <= m -> exists Q, is_unitary m Q /\ forall i j, 0 <= i < m -> 0 <= j < n ->
       ul M pA lda i j = nsum (fun l => nmul (Q i l) (if l <=? j then ul M' pA lda l j else n0)) 0 m) /\
    (0 < nrhs -> m < n -> exists Q, is_unitary n Q /\ forall i j, 0 <= i < m -> 0 <= j < n ->
       ul M pA lda i j = nsum (fun l => nmul (if l <=? i then ul M' pA lda i l else n0) (Q l j)) 0 n) /\
    (forall l, fst l <> bA -> fst l <> bB -> fst l <> bT -> ~ in_user pA lda m n l -> ~ in_user pB ldb (Z.max m n) nrhs l -> M' l = M l)).
Proof. exact @zgels_main. Qed.
Print Assumptions C46_zgels_solves.

(* With n = 0 < m the residual of A*x = b is b itself: the quick return of plasma_zgels zeroes B,
   and the rows that should hold a vector as long as the residual are lost. *)
Theorem C46_zgels_empty_residual_refuted : exists nb ib m n nrhs pA lda pB ldb bA bB bT (M : mem C_fields),
  0 < nb /\ 0 < ib /\ 0 <= n <= m /\ 0 < nrhs /\ Z.max 1 m <= lda /\ Z.max 1 m <= ldb /\
  full_column_rank m n (ul M pA lda) /\
  driver_ensures (zgels larfg_C nb ib PlasmaNoTrans m n nrhs pA lda pB ldb bA bB bT) M (fun M' =>
    sum_squares (fun i => nsub (ul M pB ldb i 0) (mat_vec n (ul M pA lda) (fun i => ul M' pB ldb i 0) i)) 0 m
    <> sum_squares (fun i => ul M' pB ldb i 0) n m).
Proof. exact zgels_empty. Qed.
Print Assumptions C46_zgels_empty_residual_refuted.

(* What is assumed of zlarfg holds of zlarfg on the complex numbers: every complex matrix. *)
Example C42_complex : forall nb ib m n pA lda bA bT M,
  0 < nb -> 0 < ib -> 0 <= m -> 0 <= n -> Z.max 1 m <= lda -> NoDup [fst pA; bA; bT] ->
  driver_ensures (zgelqf larfg_C nb ib m n pA lda bA bT) M (fun M' => exists Q, is_unitary n Q /\
    forall i j, 0 <= i < m -> 0 <= j < n ->
      ul M pA lda i j = nsum (fun l => nmul (if l <=? i then ul M' pA lda i l else n0) (Q l j)) 0 n).
Proof.
  intros. eapply RankDriverProofs.driver_mono; [|apply (C42_zgelqf_factors C_fields larfg_C larfg_C_ok); assumption].
  intros M' [X _]. exact X.
Qed.

(* Computed cases: the conjugate transpose of the matrix of C38, 2 x 3, leading dimension 3,
   surrounded by sevens, with its L. Array 5 holds L, or the right hand side (2,6,5). *)
Definition lq_A (i j : Z) : QI_fields := nconj (qr_A j i).
Definition lq_L (i j : Z) : QI_fields := nconj (qr_R j i).
Definition lq_mem (l : loc) : QI_fields :=
  if (fst l =? 0) && (snd l mod 3 <? 2) && (snd l / 3 <? 3) then lq_A (snd l mod 3) (snd l / 3) else qi 7 0.
Definition lq_fill (M : mem QI_fields) (l : loc) : QI_fields :=
  if fst l =? 5 then if (snd l mod 2 <? 2) && (snd l / 2 <? 3) then lq_L (snd l mod 2) (snd l / 2) else qi 7 0 else M l.
Definition lq_rhs (M : mem QI_fields) (l : loc) : QI_fields :=
  if fst l =? 5 then nth (Z.to_nat (snd l)) [qi 2 0; qi 6 0; qi 5 0] (qi 7 0) else M l.
Definition lq_same (m n : Z) (X Y : Z -> Z -> QI_fields) : bool :=
  forallb (fun i => forallb (fun j => neqb (X i j) (Y i j)) (zrange 0 n)) (zrange 0 m).

(* zgelqf leaves L; zunmlq maps L to A; zunglq gives Q with orthonormal rows and L*Q = A. *)
Example C42_zgelqf_case : exists T size ks us gs,
  gelqf_T 2 1 2 3 = CrOk T size /\
  zgelqf larfg_Q 2 1 2 3 (0, 0) 3 1 2 = Runs ks /\ length ks = 6%nat /\
  zunmlq 2 PlasmaRight PlasmaNoTrans 2 3 2 (0, 0) 3 2 T (5, 0) 2 3 4 = Runs us /\
  zunglq 2 2 3 2 (0, 0) 3 2 T (5, 0) 2 3 4 = Runs gs /\
  let M' := krun ks lq_mem in
  let Q := ul (krun gs (lq_fill M')) (5, 0) 2 in
  lq_same 2 3 (fun i j => if j <=? i then ul M' (0, 0) 3 i j else n0) lq_L = true /\
  lq_same 2 3 (ul (krun us (lq_fill M')) (5, 0) 2) lq_A = true /\
  lq_same 2 2 (fun r c => nsum (fun i => nmul (Q r i) (nconj (Q c i))) 0 3) (fun r c => if r =? c then n1 else n0) = true /\
  lq_same 2 3 (fun i j => nsum (fun l => nmul (lq_L i l) (Q l j)) 0 2) lq_A = true.
Proof.
  do 5 eexists. split; [reflexivity|]. split; [reflexivity|]. split; [reflexivity|]. split; [reflexivity|]. split; [reflexivity|].
  cbv zeta. split; [lazy; reflexivity|]. split; [lazy; reflexivity|]. split; lazy; reflexivity.
Qed.

(* zgelqs solves A*x = (2,6) *)
Example C44_zgelqs_case : exists T size ks us,
  gelqf_T 2 1 2 3 = CrOk T size /\
  zgelqf larfg_Q 2 1 2 3 (0, 0) 3 1 2 = Runs ks /\
  zgelqs (F := QI_fields) 2 2 3 1 (0, 0) 3 2 T (5, 0) 3 3 4 = Runs us /\
  let x := ul (krun us (lq_rhs (krun ks lq_mem))) (5, 0) 3 in
  neqb (mat_vec 3 lq_A (fun i => x i 0) 0) (qi 2 0) = true /\
  neqb (mat_vec 3 lq_A (fun i => x i 0) 1) (qi 6 0) = true /\
  neqb (x 2 0) (n0 : QI_fields) = false.
Proof.
  do 4 eexists. split; [reflexivity|]. split; [reflexivity|]. split; [reflexivity|].
  cbv zeta. split; [lazy; reflexivity|]. split; lazy; reflexivity.
Qed.

(* zgels: A*x = (2,6) with A the 2 x 3 matrix, and the least squares problem A^H*x = (2,6,5) *)
Example C46_zgels_case : exists ks us,
  zgels larfg_Q 2 1 PlasmaNoTrans 2 3 1 (0, 0) 3 (5, 0) 3 1 3 2 = Runs ks /\
  zgels larfg_Q 2 1 PlasmaConjTrans 2 3 1 (0, 0) 3 (5, 0) 3 1 3 2 = Runs us /\
  let x := ul (krun ks (lq_rhs lq_mem)) (5, 0) 3 in
  let y := ul (krun us (lq_rhs lq_mem)) (5, 0) 3 in
  let b := ul (lq_rhs lq_mem) (5, 0) 3 in
  neqb (mat_vec 3 lq_A (fun i => x i 0) 0) (qi 2 0) = true /\
  neqb (mat_vec 3 lq_A (fun i => x i 0) 1) (qi 6 0) = true /\
  forallb (fun r => neqb (nsum (fun i => nmul (nconj (qr_A i r)) (nsub (b i 0) (mat_vec 2 qr_A (fun l => y l 0) i))) 0 3) (n0 : QI_fields)) [0; 1] = true.
Proof.
  do 2 eexists. split; [reflexivity|]. split; [reflexivity|].
  cbv zeta. split; [lazy; reflexivity|]. split; lazy; reflexivity.
Qed.

(* The hypotheses of C46 hold of a complex matrix: the first two rows of the identity. *)
Example C46_complex : forall nb ib pA pB bA bB bT M, 0 < nb -> 0 < ib ->
  NoDup [bT; bA; bB] -> (forall b, In b [fst pA; fst pB] -> ~ In b [bT; bA; bB]) -> fst pA <> fst pB ->
  (forall i j, 0 <= i < 2 -> 0 <= j < 3 -> ul M pA 4 i j = if i =? j then n1 else n0) ->
  driver_ensures (zgels larfg_C nb ib PlasmaNoTrans 2 3 1 pA 4 pB 3 bA bB bT) M (fun M' =>
    minimum_norm 2 3 (ul M pA 4) (fun i => ul M pB 3 i 0) (fun i => ul M' pB 3 i 0)).
Proof.
  intros nb ib pA pB bA bB bT M Hnb Hib HND HF HD HM.
  assert (RK : full_row_rank 2 3 (ul M pA 4)).
  { exists (fun r c => if r =? c then n1 else n0). intros r c Hr Hc.
    transitivity (nsum (fun i => nmul (if r =? i then n1 else n0) (if i =? c then n1 else n0) : C_fields) 0 3).
    - apply NumProofs.nsum_ext. intros i Hi. rewrite HM by lia. reflexivity.
    - apply (LsAlgProofs.sum_delta 3 (fun i => if i =? c then n1 else n0) r). lia. }
  eapply driver_mono; [|apply (C46_zgels_solves C_fields larfg_C larfg_C_ok C_nontrivial nb ib PlasmaNoTrans 2 3 1 pA 4 pB 3 bA bB bT M); try assumption; try lia].
  - intros M' [H _]. exact (proj1 (proj2 (H 0 ltac:(lia))) eq_refl ltac:(lia)).
  - intros l (i & j & _ & _ & ->) (i' & j' & _ & _ & E). injection E as E _. exact (HD E).
  - intros _. exact RK.
Qed.

(* Illegal arguments are reported by their position, and nothing is touched; zgels reports an
   illegal trans by PlasmaErrorIllegalValue. *)
Example C42_zgelqf_arguments :
  zgelqf larfg_Q 2 1 (-1) 2 (0, 0) 4 1 2 = Returns (-1) /\ zgelqf larfg_Q 2 1 3 (-1) (0, 0) 4 1 2 = Returns (-2) /\
  zgelqf larfg_Q 2 1 3 2 (0, 0) 2 1 2 = Returns (-4).
Proof. repeat split. Qed.
Example C43_zunmlq_arguments : forall T,
  zunmlq (N := QI_fields) 2 0 PlasmaNoTrans 3 2 2 (0, 0) 4 2 T (5, 0) 3 3 4 = Returns (-1) /\
  zunmlq (N := QI_fields) 2 PlasmaLeft PlasmaTrans 3 2 2 (0, 0) 4 2 T (5, 0) 3 3 4 = Returns (-2) /\
  zunmlq (N := QI_fields) 2 PlasmaRight PlasmaNoTrans 2 (-3) 2 (0, 0) 4 2 T (5, 0) 3 3 4 = Returns (-4) /\
  zunmlq (N := QI_fields) 2 PlasmaLeft PlasmaNoTrans 3 2 4 (0, 0) 4 2 T (5, 0) 3 3 4 = Returns (-5) /\
  zunmlq (N := QI_fields) 2 PlasmaLeft PlasmaNoTrans 3 2 2 (0, 0) 1 2 T (5, 0) 3 3 4 = Returns (-7) /\
  zunmlq (N := QI_fields) 2 PlasmaLeft PlasmaNoTrans 3 2 2 (0, 0) 4 2 T (5, 0) 2 3 4 = Returns (-10).
Proof. intros T. repeat split. Qed.
Example C44_zgelqs_arguments : forall T,
  zgelqs (F := QI_fields) 2 (-1) 2 1 (0, 0) 4 2 T (5, 0) 3 3 4 = Returns (-1) /\
  zgelqs (F := QI_fields) 2 3 2 1 (0, 0) 4 2 T (5, 0) 3 3 4 = Returns (-2) /\
  zgelqs (F := QI_fields) 2 2 3 (-1) (0, 0) 4 2 T (5, 0) 3 3 4 = Returns (-3) /\
  zgelqs (F := QI_fields) 2 2 3 1 (0, 0) 1 2 T (5, 0) 3 3 4 = Returns (-5) /\
  zgelqs (F := QI_fields) 2 2 3 1 (0, 0) 4 2 T (5, 0) 2 3 4 = Returns (-8).
Proof. intros T. repeat split. Qed.
Example C45_zunglq_arguments : forall T,
  zunglq (N := QI_fields) 2 (-1) 2 1 (0, 0) 4 2 T (5, 0) 3 3 4 = Returns (-1) /\
  zunglq (N := QI_fields) 2 3 2 1 (0, 0) 4 2 T (5, 0) 3 3 4 = Returns (-2) /\
  zunglq (N := QI_fields) 2 2 3 3 (0, 0) 4 2 T (5, 0) 3 3 4 = Returns (-3) /\
  zunglq (N := QI_fields) 2 2 3 2 (0, 0) 1 2 T (5, 0) 3 3 4 = Returns (-5) /\
  zunglq (N := QI_fields) 2 2 3 2 (0, 0) 4 2 T (5, 0) 1 3 4 = Returns (-8).
Proof. intros T. repeat split. Qed.
Example C46_zgels_arguments :
  zgels larfg_Q 2 1 PlasmaTrans 2 3 1 (0, 0) 3 (5, 0) 3 1 3 2 = Returns PlasmaErrorIllegalValue /\
  zgels larfg_Q 2 1 PlasmaNoTrans (-1) 3 1 (0, 0) 3 (5, 0) 3 1 3 2 = Returns (-2) /\
  zgels larfg_Q 2 1 PlasmaNoTrans 2 (-1) 1 (0, 0) 3 (5, 0) 3 1 3 2 = Returns (-3) /\
  zgels larfg_Q 2 1 PlasmaNoTrans 2 3 (-1) (0, 0) 3 (5, 0) 3 1 3 2 = Returns (-4) /\
  zgels larfg_Q 2 1 PlasmaNoTrans 2 3 1 (0, 0) 1 (5, 0) 3 1 3 2 = Returns (-6) /\
  zgels larfg_Q 2 1 PlasmaNoTrans 2 3 1 (0, 0) 3 (5, 0) 2 1 3 2 = Returns (-9).
Proof. repeat split. Qed.
