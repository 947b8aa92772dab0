(* C21, C22: Cholesky factorization. *)
From Coq Require Import ZArith List Bool Lia Reals Lra.
From Verif Require Import Base NumModel NumInstances FieldModel FieldInstances RootInstances ComplexInstances
  TaskModel TaskSpec DescModel DescSpec MatModel MatSpec DriverModel DriverSpec TriModel TriSpec
  GuardModel GuardSpec PotrfModel PotrfSpec PotrfDriverProofs.
Import ListNotations.
Open Scope Z_scope.

(* For legal arguments, every tile size and every schedule: if plasma_zpotrf returns 0, the
   triangle uplo of the array holds a triangular T, with diagonal elements given by the
   square root, such that T*T^H (lower) or T^H*T (upper) is the Hermitian matrix S that the
   triangle held before; nothing else changed, in particular not the other triangle. Whatever
   is returned, nothing outside the matrix changed. R says which pivots have a square root, rp
   takes the real part. *)
Theorem C21_zpotrf_factor : forall (F : fields) (R : roots F) (rp : F -> F) S nb uplo n pA lda bA M,
  (forall x, nconj x = x -> rp x = x) ->
  0 < nb -> valid_uplo uplo -> 0 <= n -> Z.max 1 n <= lda -> fst pA <> bA ->
  is_hermitian M uplo pA lda n S ->
  gdriver_ensures (zpotrf R rp nb uplo n pA lda bA) M (fun M' st =>
    (st = 0 -> exists T,
      is_triangle M' uplo PlasmaNonUnit pA lda n T /\
      (forall i, 0 <= i < n -> exists d, rt R d = Some (T i i)) /\
      (forall i j, in_matrix n n i j -> factor_product uplo n T i j = S i j) /\
      (forall l, fst l <> bA -> ~ in_triangle uplo pA lda n l -> M' l = M l)) /\
    (forall l, fst l <> bA -> ~ in_user pA lda n n l -> M' l = M l)).
Proof. exact (@zpotrf_factor). Qed.
Print Assumptions C21_zpotrf_factor.

(* If every positive number has a square root, the code returned is, for every tile size and
   every schedule, 0 when S is positive definite and otherwise the order of the smallest
   leading matrix of S that is not. *)
Theorem C22_zpotrf_status : forall (F : fields) (R : roots F) (rp : F -> F) (P : positivity F)
    S nb uplo n pA lda bA M,
  (forall x, nconj x = x -> rp x = x) -> has_roots P R ->
  0 < nb -> valid_uplo uplo -> 0 <= n -> Z.max 1 n <= lda -> fst pA <> bA ->
  is_hermitian M uplo pA lda n S ->
  gdriver_ensures (zpotrf R rp nb uplo n pA lda bA) M (fun M' st =>
    (st = 0 /\ pos_def P n S) \/
    (0 < st <= n /\ pos_def P (st - 1) S /\ ~ pos_def P st S)).
Proof. exact (@zpotrf_status). Qed.
Print Assumptions C22_zpotrf_status.

(* A case with two tile rows: A = T*T^H with rows (2), (1+i, 1), (i, 2, 3) of T. *)
Definition ex_T (i j : Z) : QI_fields :=
  nth (Z.to_nat (3 * i + j)) [qi 2 0; qi 0 0; qi 0 0; qi 1 1; qi 1 0; qi 0 0; qi 0 1; qi 2 0; qi 3 0] n0.
Definition ex_S (i j : Z) : QI_fields := nsum (fun l => nmul (ex_T i l) (nconj (ex_T j l))) 0 3.
(* the other triangle holds 7s *)
Definition ex_mem (S : Z -> Z -> QI_fields) (l : loc) : QI_fields :=
  let j := snd l / 4 in let i := snd l mod 4 in if (j <=? i) && (i <? 3) then S i j else qi 7 0.
Example C21_case :
  is_hermitian (ex_mem ex_S) PlasmaLower (0, 0) 4 3 ex_S /\
  exists ks, zpotrf QI_roots qre 2 PlasmaLower 3 (0, 0) 4 5 = GRuns ks /\ length ks = 10%nat /\
    snd (gseq ks (ex_mem ex_S)) = 0 /\
    forallb (fun i => forallb (fun j => neqb (fst (gseq ks (ex_mem ex_S)) (0, i + 4 * j))
      (if j <=? i then ex_T i j else qi 7 0)) (zrange 0 3)) (zrange 0 3) = true.
Proof.
  split.
  - split; intros i j [Hi Hj]; [intros HS|];
      assert (Ei : i = 0 \/ i = 1 \/ i = 2) by lia; assert (Ej : j = 0 \/ j = 1 \/ j = 2) by lia;
      (destruct Ei as [->|[->| ->]]; destruct Ej as [->|[->| ->]]);
      try (apply (neqb_eq QI_fields); vm_compute; reflexivity);
      exfalso; destruct HS as [[E _]|[_ E]]; [discriminate|lia|discriminate|lia|discriminate|lia].
  - eexists. split; [reflexivity|]. split; [reflexivity|]. split; vm_compute; reflexivity.
Qed.

(* the matrix with rows (1, 2), (2, 1) over the complex numbers meets the hypotheses of C22
   and is not positive definite, its leading element is *)
Definition ex_C (i j : Z) : C_fields := if i =? j then (1, 0)%R else (2, 0)%R.
Example C22_case :
  has_roots C_positivity C_roots /\
  (forall M : mem C_fields, M (0, 0) = (1, 0)%R -> M (0, 1) = (2, 0)%R -> M (0, 3) = (1, 0)%R ->
     is_hermitian M PlasmaLower (0, 0) 2 2 ex_C) /\
  ~ pos_def C_positivity 2 ex_C.
Proof.
  split; [apply C_has_roots|]. split.
  - intros M H0 H1 H3. split; intros i j [Hi Hj]; [intros HS|];
      assert (Ei : i = 0 \/ i = 1) by lia; assert (Ej : j = 0 \/ j = 1) by lia;
      destruct Ei as [->| ->]; destruct Ej as [->| ->]; cbn;
      try (symmetry; first [exact H0|exact H1|exact H3]);
      try (exfalso; destruct HS as [[E _]|[_ E]]; [discriminate|lia]);
      unfold ex_C, cconj; cbn; f_equal; lra.
  - intros H. specialize (H (fun i => if i =? 0 then (1, 0)%R else (-1, 0)%R)).
    destruct H as [H _].
    + exists 0. split; [lia|]. intros E. apply (f_equal fst) in E. cbn in E. lra.
    + unfold nsum in H. change (zrange 0 2) with [0; 1] in H. cbn [fold_right] in H.
      unfold ex_C in H. cbn in H. lra.
Qed.

(* a failing run: with rows (4, 2, 2), (2, 1, 0), (2, 0, 5) the second pivot is 0 *)
Definition ex_bad (i j : Z) : QI_fields :=
  nth (Z.to_nat (3 * i + j)) [qi 4 0; qi 2 0; qi 2 0; qi 2 0; qi 1 0; qi 0 0; qi 2 0; qi 0 0; qi 5 0] n0.
Example C22_run : exists ks1 ks2,
  zpotrf QI_roots qre 2 PlasmaLower 3 (0, 0) 4 5 = GRuns ks1 /\
  zpotrf QI_roots qre 1 PlasmaLower 3 (0, 0) 4 5 = GRuns ks2 /\
  snd (gseq ks1 (ex_mem ex_bad)) = 2 /\ snd (gseq ks2 (ex_mem ex_bad)) = 2.
Proof.
  eexists. eexists. split; [reflexivity|]. split; [reflexivity|]. split; vm_compute; reflexivity.
Qed.
