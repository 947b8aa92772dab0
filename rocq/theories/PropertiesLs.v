(* C40, C41: least squares solutions from the QR factorization, and its unitary factor. *)
From Coq Require Import Reals ZArith List Bool Lia.
From Verif Require Import Base NumModel FieldModel FieldInstances ComplexInstances
  TaskModel TaskSpec DescModel DescDriverModel DescSpec MatModel MatSpec DriverModel DriverSpec TriModel TriSpec
  RankDriverProofs QrModel QrSpec QrInstances LsModel LsSpec LsNormSpec LsNormProofs LsGqrProofs LsRefProofs PropertiesQr.
Import ListNotations.
Open Scope Z_scope.

(* For an m x n matrix A with n <= m whose columns are independent, every tile size, inner block
   size and schedule: after plasma_zgeqrf, plasma_zgeqrs called later (memory M2) with the factored
   A, the T that plasma_zgeqrf returned and any m x nrhs matrix B leaves in the first n rows of
   each column of B the least squares solution x of A*x = b. The rows below hold a vector as long
   as the residual, and nothing else changes. *)
Theorem C40_zgeqrs_least_squares : forall (F : fields) (lg : F -> list F -> F * F * list F),
  larfg_ok lg -> (n1 : F) <> n0 ->
  forall nb ib m n pA lda bA bT M,
  0 < nb -> 0 < ib -> 0 <= n <= m -> Z.max 1 m <= lda -> NoDup [fst pA; bA; bT] ->
  full_column_rank m n (ul M pA lda) ->
  driver_ensures (zgeqrf lg nb ib m n pA lda bA bT) M (fun M' =>
    forall T size nrhs pV ldv pB ldb bV bB M2,
      geqrf_T nb ib m n = CrOk T size ->
      0 <= nrhs -> Z.max 1 m <= ldv -> Z.max 1 m <= ldb ->
      NoDup [bT; bV; bB] -> (forall b, In b [fst pV; fst pB] -> ~ In b [bT; bV; bB]) ->
      apart pV ldv m n pB ldb m nrhs ->
      (forall i j, 0 <= i < m -> 0 <= j < n -> ul M2 pV ldv i j = ul M' pA lda i j) ->
      (forall l, fst l = bT -> M2 l = M' l) ->
      driver_ensures (zgeqrs (F := F) nb m n nrhs pV ldv bT T pB ldb bV bB) M2 (fun M3 =>
        (forall j, 0 <= j < nrhs ->
           least_squares m n (ul M pA lda) (fun i => ul M2 pB ldb i j) (fun i => ul M3 pB ldb i j) /\
           sum_squares (fun i => nsub (ul M2 pB ldb i j) (mat_vec n (ul M pA lda) (fun i => ul M3 pB ldb i j) i)) 0 m
           = sum_squares (fun i => ul M3 pB ldb i j) n m) /\
        (forall l, fst l <> bV -> fst l <> bB -> ~ in_user pB ldb m nrhs l -> M3 l = M2 l))).
Proof. exact @zgeqrs_main. Qed.
Print Assumptions C40_zgeqrs_least_squares.

(* Over the complex numbers such an x gives the residual of least norm of all vectors. *)
Theorem C40_least_squares_minimises : forall m n (A : Z -> Z -> C_fields) b x, least_squares m n A b x ->
  forall y, (norm2 (fun i => nsub (b i) (mat_vec n A x i)) m <= norm2 (fun i => nsub (b i) (mat_vec n A y i)) m)%R.
Proof. exact ls_minimises. Qed.
Print Assumptions C40_least_squares_minimises.

(* For legal arguments and every schedule: plasma_zgeqrf factors A = Q*R with a unitary Q such
   that plasma_zungqr, called later (memory M2) with the min(m,n) reflectors in A and the T that
   plasma_zgeqrf returned, writes the first min(m,n) columns of Q, and changes nothing else. *)
Theorem C41_zungqr_generates_Q : forall (N : numbers) (lg : N -> list N -> N * N * list N), larfg_ok lg ->
  forall nb ib m n pA lda bA bT M,
  0 < nb -> 0 < ib -> 0 <= m -> 0 <= n -> Z.max 1 m <= lda -> NoDup [fst pA; bA; bT] ->
  driver_ensures (zgeqrf lg nb ib m n pA lda bA bT) M (fun M' => exists Q,
    is_unitary m Q /\
    (forall i j, 0 <= i < m -> 0 <= j < n ->
       ul M pA lda i j = nsum (fun l => nmul (Q i l) (if l <=? j then ul M' pA lda l j else n0)) 0 m) /\
    forall T size qn pV ldv pQ ldq bV bQ M2,
      geqrf_T nb ib m n = CrOk T size ->
      Z.min m n <= qn <= m -> Z.max 1 m <= ldv -> Z.max 1 m <= ldq ->
      NoDup [bT; bV; bQ] -> (forall b, In b [fst pV; fst pQ] -> ~ In b [bT; bV; bQ]) ->
      apart pV ldv m (Z.min m n) pQ ldq m (Z.min m n) ->
      (forall i j, 0 <= i < m -> 0 <= j < Z.min m n -> ul M2 pV ldv i j = ul M' pA lda i j) ->
      (forall l, fst l = bT -> M2 l = M' l) ->
      driver_ensures (zungqr nb m qn (Z.min m n) pV ldv bT T pQ ldq bV bQ) M2 (fun M3 =>
        (forall i j, 0 <= i < m -> 0 <= j < Z.min m n -> ul M3 pQ ldq i j = Q i j) /\
        (forall l, fst l <> bV -> fst l <> bQ -> ~ in_user pQ ldq m (Z.min m n) l -> M3 l = M2 l))).
Proof. exact @zungqr_main. Qed.
Print Assumptions C41_zungqr_generates_Q.

(* plasma_zungqr is documented to generate n orthonormal columns from k <= n reflectors. With
   k < n it does not: a legal call whose Q is not orthonormal, on any schedule. *)
Theorem C41_zungqr_n_columns_refuted : exists nb ib m n k pA lda bA bT M pQ ldq bV bQ,
  0 < nb /\ 0 < ib /\ 0 <= k <= n /\ n <= m /\ Z.max 1 m <= lda /\ Z.max 1 m <= ldq /\
  NoDup [fst pA; bA; bT; fst pQ; bV; bQ] /\
  driver_ensures (zgeqrf larfg_C nb ib m k pA lda bA bT) M (fun M' => forall T size, geqrf_T nb ib m k = CrOk T size ->
    driver_ensures (zungqr nb m n k pA lda bT T pQ ldq bV bQ) M' (fun M3 => ~ orthonormal_columns m n (ul M3 pQ ldq))).
Proof. exact zungqr_incomplete. Qed.
Print Assumptions C41_zungqr_n_columns_refuted.

(* A computed case: the 3 x 2 matrix of C38 and the right hand side (2,6,-5). *)
Definition ls_fill (M : mem QI_fields) (l : loc) : QI_fields :=
  if fst l =? 5 then nth (Z.to_nat (snd l)) [qi 2 0; qi 6 0; qi (-5) 0] (qi 7 0) else M l.
Example C40_zgeqrs_case : exists T size ks us gs,
  geqrf_T 2 1 3 2 = CrOk T size /\
  zgeqrf larfg_Q 2 1 3 2 (0, 0) 4 1 2 = Runs ks /\
  zgeqrs (F := QI_fields) 2 3 2 1 (0, 0) 4 2 T (5, 0) 3 3 4 = Runs us /\
  zungqr (N := QI_fields) 2 3 2 2 (0, 0) 4 2 T (5, 0) 3 3 4 = Runs gs /\
  let M' := krun ks qr_mem in
  let x := ul (krun us (ls_fill M')) (5, 0) 3 in
  let Q := ul (krun gs (ls_fill M')) (5, 0) 3 in
  let b := ul (ls_fill M') (5, 0) 3 in
  forallb (fun r => neqb (nsum (fun i => nmul (nconj (qr_A i r)) (nsub (b i 0) (mat_vec 2 qr_A (fun l => x l 0) i))) 0 3) (n0 : QI_fields)) [0; 1] = true /\
  neqb (x 0 0) (n0 : QI_fields) = false /\
  forallb (fun r => forallb (fun c => neqb (nsum (fun i => nmul (nconj (Q i r)) (Q i c)) 0 3) (if r =? c then n1 else n0 : QI_fields)) [0; 1]) [0; 1] = true /\
  qr_same 3 (fun i j => nsum (fun l => nmul (Q i l) (qr_R l j)) 0 2) qr_A = true.
Proof.
  do 5 eexists. split; [reflexivity|]. split; [reflexivity|]. split; [reflexivity|]. split; [reflexivity|].
  cbv zeta. split; [lazy; reflexivity|]. split; [lazy; reflexivity|]. split; lazy; reflexivity.
Qed.

(* The hypotheses of C40 hold of a complex matrix: the first two columns of the identity. *)
Example C40_complex : forall nb ib pA bA bT M, 0 < nb -> 0 < ib -> NoDup [fst pA; bA; bT] ->
  (forall i j, 0 <= i < 3 -> 0 <= j < 2 -> ul M pA 4 i j = if i =? j then n1 else n0) ->
  full_column_rank 3 2 (ul M pA 4) /\
  driver_ensures (zgeqrf larfg_C nb ib 3 2 pA 4 bA bT) M (fun M' =>
    exists T size, geqrf_T nb ib 3 2 = CrOk T size).
Proof.
  intros nb ib pA bA bT M Hnb Hib HND HM.
  assert (RK : full_column_rank 3 2 (ul M pA 4)).
  { exists (fun r c => if r =? c then n1 else n0). intros r c Hr Hc.
    transitivity (nsum (fun i => nmul (if r =? i then n1 else n0) (if i =? c then n1 else n0) : C_fields) 0 3).
    - apply NumProofs.nsum_ext. intros i Hi. rewrite HM by lia. reflexivity.
    - apply (LsAlgProofs.sum_delta 3 (fun i => if i =? c then n1 else n0) r). lia. }
  split; [exact RK|].
  eapply driver_mono; [|apply (C40_zgeqrs_least_squares C_fields larfg_C larfg_C_ok C_nontrivial nb ib 3 2 pA 4 bA bT M); try assumption; lia].
  intros M' _. destruct (QrDrvProofs.geqrf_T_ok nb ib 3 2 Hnb Hib ltac:(lia) ltac:(lia)) as (T & size & E & _). exists T, size. exact E.
Qed.

(* Illegal arguments are reported by their position, and nothing is touched. *)
Example C40_zgeqrs_arguments : forall T,
  zgeqrs (F := QI_fields) 2 (-1) 2 1 (0, 0) 4 2 T (5, 0) 3 3 4 = Returns (-1) /\
  zgeqrs (F := QI_fields) 2 3 4 1 (0, 0) 4 2 T (5, 0) 3 3 4 = Returns (-2) /\
  zgeqrs (F := QI_fields) 2 3 2 (-1) (0, 0) 4 2 T (5, 0) 3 3 4 = Returns (-3) /\
  zgeqrs (F := QI_fields) 2 3 2 1 (0, 0) 2 2 T (5, 0) 3 3 4 = Returns (-5) /\
  zgeqrs (F := QI_fields) 2 3 2 1 (0, 0) 4 2 T (5, 0) 2 3 4 = Returns (-8).
Proof. intros T. repeat split. Qed.
Example C41_zungqr_arguments : forall T,
  zungqr (N := QI_fields) 2 (-1) 2 1 (0, 0) 4 2 T (5, 0) 3 3 4 = Returns (-1) /\
  zungqr (N := QI_fields) 2 3 4 1 (0, 0) 4 2 T (5, 0) 3 3 4 = Returns (-2) /\
  zungqr (N := QI_fields) 2 3 2 3 (0, 0) 4 2 T (5, 0) 3 3 4 = Returns (-3) /\
  zungqr (N := QI_fields) 2 3 2 2 (0, 0) 2 2 T (5, 0) 3 3 4 = Returns (-5) /\
  zungqr (N := QI_fields) 2 3 2 2 (0, 0) 4 2 T (5, 0) 2 3 4 = Returns (-8).
Proof. intros T. repeat split. Qed.
