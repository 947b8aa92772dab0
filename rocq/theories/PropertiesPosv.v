(* C35: systems with a Hermitian positive definite matrix. *)
From Coq Require Import ZArith List Bool Lia Reals Lra.
From Verif Require Import Base NumModel NumInstances FieldModel FieldInstances RootInstances ComplexInstances
  TaskModel TaskSpec DescModel DescSpec MatModel MatSpec DriverModel DriverSpec TriModel TriSpec
  GuardModel GuardSpec PotrfModel PotrfSpec PosvModel PosvProofs.
Import ListNotations.
Open Scope Z_scope.

(* For legal arguments, every tile size and every schedule: if the triangle uplo of A holds a
   triangular matrix T without zeros on its diagonal, plasma_zpotrs returns success and
   replaces B by X with (T*T^H)*X = B (lower) or (T^H*T)*X = B (upper). Nothing else changes,
   and the other triangle of A does not matter. *)
Theorem C35_zpotrs_solves : forall (F : fields) (T : Z -> Z -> F) nb uplo n nrhs pA lda pB ldb bA bB M,
  0 < nb -> valid_uplo uplo -> 0 <= n -> 0 <= nrhs -> Z.max 1 n <= lda -> Z.max 1 n <= ldb ->
  NoDup [bA; bB] -> (forall b, In b [fst pA; fst pB] -> ~ In b [bA; bB]) ->
  apart pA lda n n pB ldb n nrhs ->
  is_triangle M uplo PlasmaNonUnit pA lda n T -> (forall i, 0 <= i < n -> T i i <> n0) ->
  driver_ensures (zpotrs nb uplo n nrhs pA lda pB ldb bA bB) M (fun M' =>
    (forall i j, in_matrix n nrhs i j ->
       nsum (fun l => nmul (factor_product uplo n T i l) (ul M' pB ldb l j)) 0 n = ul M pB ldb i j) /\
    (forall l, ~ In (fst l) [bA; bB] -> ~ in_user pB ldb n nrhs l -> M' l = M l)).
Proof. exact (@zpotrs_main). Qed.
Print Assumptions C35_zpotrs_solves.

(* For legal arguments with at least one right hand side, every tile size and every schedule:
   if plasma_zposv returns 0, B holds X with S*X = B, S being the Hermitian matrix whose
   triangle uplo was in A, and that triangle holds the Cholesky factor of S; the other triangle
   of A is unchanged. Whatever is returned, nothing outside the two matrices changed. *)
Theorem C35_zposv_solves : forall (F : fields) (R : roots F) (rp : F -> F) S nb uplo n nrhs pA lda pB ldb bA bB M,
  (forall x, nconj x = x -> rp x = x) ->
  0 < nb -> valid_uplo uplo -> 0 <= n -> 0 < nrhs -> Z.max 1 n <= lda -> Z.max 1 n <= ldb ->
  NoDup [bA; bB] -> (forall b, In b [fst pA; fst pB] -> ~ In b [bA; bB]) ->
  apart pA lda n n pB ldb n nrhs ->
  is_hermitian M uplo pA lda n S ->
  gdriver_ensures (zposv R rp nb uplo n nrhs pA lda pB ldb bA bB) M (fun M' st =>
    (st = 0 ->
      (exists T, is_triangle M' uplo PlasmaNonUnit pA lda n T /\
         (forall i, 0 <= i < n -> exists d, rt R d = Some (T i i)) /\
         (forall i j, in_matrix n n i j -> factor_product uplo n T i j = S i j)) /\
      (forall i j, in_matrix n nrhs i j ->
         nsum (fun l => nmul (S i l) (ul M' pB ldb l j)) 0 n = ul M pB ldb i j) /\
      (forall l, ~ In (fst l) [bA; bB] -> ~ in_triangle uplo pA lda n l -> ~ in_user pB ldb n nrhs l -> M' l = M l)) /\
    (forall l, ~ In (fst l) [bA; bB] -> ~ in_user pA lda n n l -> ~ in_user pB ldb n nrhs l -> M' l = M l)).
Proof. exact zposv_solves. Qed.
Print Assumptions C35_zposv_solves.

(* If every positive number has a square root, plasma_zposv with at least one right hand side
   returns 0 when S is positive definite and otherwise the order of the smallest leading matrix
   of S that is not, for every tile size and every schedule. *)
Theorem C35_zposv_status : forall (F : fields) (R : roots F) (rp : F -> F) (P : positivity F)
    S nb uplo n nrhs pA lda pB ldb bA bB M,
  (forall x, nconj x = x -> rp x = x) -> has_roots P R ->
  0 < nb -> valid_uplo uplo -> 0 <= n -> 0 < nrhs -> Z.max 1 n <= lda -> Z.max 1 n <= ldb ->
  NoDup [bA; bB] -> (forall b, In b [fst pA; fst pB] -> ~ In b [bA; bB]) ->
  apart pA lda n n pB ldb n nrhs ->
  is_hermitian M uplo pA lda n S ->
  gdriver_ensures (zposv R rp nb uplo n nrhs pA lda pB ldb bA bB) M (fun M' st =>
    (st = 0 /\ pos_def P n S) \/
    (0 < st <= n /\ pos_def P (st - 1) S /\ ~ pos_def P st S)).
Proof. exact zposv_status. Qed.
Print Assumptions C35_zposv_status.

(* Without right hand sides plasma_zposv returns 0 and leaves A as it was, although the
   documentation promises the factor of A on exit (compute/zposv.c:59-61); the returned code
   says nothing about A. *)
Theorem C35_zposv_no_rhs_refuted : exists (S : Z -> Z -> C_fields) n M,
  0 < n /\ is_hermitian M PlasmaLower (0, 0) n n S /\
  ~ pos_def C_positivity n S /\
  forall rp nb, 0 < nb ->
    gdriver_ensures (zposv C_roots rp nb PlasmaLower n 0 (0, 0) n (1, 0) n 2 3) M (fun M' st =>
      st = 0 /\ M' = M /\ ~ exists T, is_triangle M' PlasmaLower PlasmaNonUnit (0, 0) n n T /\
        forall i j, in_matrix n n i j -> factor_product PlasmaLower n T i j = S i j).
Proof. exact zposv_no_rhs. Qed.
Print Assumptions C35_zposv_no_rhs_refuted.

(* A case with two tile rows and two right hand sides: the lower triangle of S = T*T^H, with
   rows (2), (1+i, 1), (i, 2, 3) of T, and B = S*X. *)
Definition ex_T (i j : Z) : QI_fields :=
  nth (Z.to_nat (3 * i + j)) [qi 2 0; qi 0 0; qi 0 0; qi 1 1; qi 1 0; qi 0 0; qi 0 1; qi 2 0; qi 3 0] n0.
Definition ex_S (i j : Z) : QI_fields := nsum (fun l => nmul (ex_T i l) (nconj (ex_T j l))) 0 3.
Definition ex_X (i j : Z) : QI_fields := qi (i + 1) (j - i).
Definition ex_B (i j : Z) : QI_fields := nsum (fun l => nmul (ex_S i l) (ex_X l j)) 0 3.
(* block 0 holds A, its other triangle 7s; block 1 holds B *)
Definition ex_mem (A : Z -> Z -> QI_fields) (l : loc) : QI_fields :=
  let j := snd l / 4 in let i := snd l mod 4 in
  if fst l =? 1 then (if i <? 3 then ex_B i j else qi 9 0)
  else if (j <=? i) && (i <? 3) then A i j else qi 7 0.

Example C35_zposv_case :
  is_hermitian (ex_mem ex_S) PlasmaLower (0, 0) 4 3 ex_S /\
  apart (0, 0) 4 3 3 (1, 0) 4 3 2 /\
  exists ks, zposv QI_roots qre 2 PlasmaLower 3 2 (0, 0) 4 (1, 0) 4 5 6 = GRuns ks /\
    snd (gseq ks (ex_mem ex_S)) = 0 /\
    forallb (fun i => forallb (fun j => neqb (fst (gseq ks (ex_mem ex_S)) (1, i + 4 * j)) (ex_X i j))
      (zrange 0 2)) (zrange 0 3) = true.
Proof.
  split; [|split].
  - split; intros i j [Hi Hj]; [intros HS|];
      assert (Ei : i = 0 \/ i = 1 \/ i = 2) by lia; assert (Ej : j = 0 \/ j = 1 \/ j = 2) by lia;
      (destruct Ei as [->|[->| ->]]; destruct Ej as [->|[->| ->]]);
      try (apply (neqb_eq QI_fields); vm_compute; reflexivity);
      exfalso; destruct HS as [[E _]|[_ E]]; [discriminate|lia|discriminate|lia|discriminate|lia].
  - intros l (i & j & _ & _ & E) (i' & j' & _ & _ & E'). rewrite E in E'. apply (f_equal fst) in E'. discriminate.
  - eexists. split; [reflexivity|]. split; vm_compute; reflexivity.
Qed.

Example C35_zpotrs_case :
  is_triangle (ex_mem ex_T) PlasmaLower PlasmaNonUnit (0, 0) 4 3 ex_T /\
  (forall i, 0 <= i < 3 -> ex_T i i <> n0) /\
  exists ks, zpotrs 2 PlasmaLower 3 2 (0, 0) 4 (1, 0) 4 5 6 = Runs ks /\
    forallb (fun i => forallb (fun j => neqb (krun ks (ex_mem ex_T) (1, i + 4 * j)) (ex_X i j))
      (zrange 0 2)) (zrange 0 3) = true.
Proof.
  split; [|split].
  - intros i j [Hi Hj]. assert (Ei : i = 0 \/ i = 1 \/ i = 2) by lia. assert (Ej : j = 0 \/ j = 1 \/ j = 2) by lia.
    split; [|split; [discriminate|]].
    + intros HS _. destruct Ei as [->|[->| ->]]; destruct Ej as [->|[->| ->]];
        try (apply (neqb_eq QI_fields); vm_compute; reflexivity);
        exfalso; destruct HS as [[E _]|[_ E]]; [discriminate|lia|discriminate|lia|discriminate|lia].
    + intros HS. destruct Ei as [->|[->| ->]]; destruct Ej as [->|[->| ->]];
        try (apply (neqb_eq QI_fields); vm_compute; reflexivity);
        exfalso; apply HS; right; split; try reflexivity; lia.
  - intros i Hi E. apply (proj2 (neqb_eq QI_fields _ _)) in E.
    assert (Ei : i = 0 \/ i = 1 \/ i = 2) by lia. destruct Ei as [->|[->| ->]]; vm_compute in E; discriminate.
  - eexists. split; [reflexivity|]. vm_compute. reflexivity.
Qed.

(* a failing run: with rows (4, 2, 2), (2, 1, 0), (2, 0, 5) the second pivot is 0 *)
Definition ex_bad (i j : Z) : QI_fields :=
  nth (Z.to_nat (3 * i + j)) [qi 4 0; qi 2 0; qi 2 0; qi 2 0; qi 1 0; qi 0 0; qi 2 0; qi 0 0; qi 5 0] n0.
Example C35_zposv_run : exists ks,
  zposv QI_roots qre 2 PlasmaLower 3 2 (0, 0) 4 (1, 0) 4 5 6 = GRuns ks /\
  snd (gseq ks (ex_mem ex_bad)) = 2.
Proof. eexists. split; [reflexivity|]. vm_compute. reflexivity. Qed.
