(* C49: Cholesky factorization of band matrices. *)
From Coq Require Import ZArith List Bool Lia Reals Lra.
From Verif Require Import Base NumModel NumInstances FieldModel FieldInstances RootInstances ComplexInstances
  TaskModel TaskSpec DescModel DescSpec MatModel MatSpec DriverModel DriverSpec
  GuardModel GuardSpec PotrfModel PotrfSpec BandModel BandSpec PbtrfMainProofs PbtrfRefProofs.
Import ListNotations.
Open Scope Z_scope.

(* For every tile size and every schedule: if plasma_zpbtrf returns 0, the band of the array
   holds a triangular band matrix T, with diagonal elements given by the square root, such that
   T*T^H (lower) or T^H*T (upper) is the Hermitian band matrix S that it held before. Whatever
   is returned, nothing outside the band changed. The band must be narrower than the matrix. *)
Theorem C49_zpbtrf_factor : forall (F : fields) (R : roots F) (rp : F -> F) S nb uplo n kd pA ld bA M,
  (forall x, nconj x = x -> rp x = x) ->
  0 < nb -> valid_uplo uplo -> 0 <= n -> 0 <= kd -> (0 < n -> kd < n) -> kd < ld -> fst pA <> bA ->
  is_hermitian_band M uplo kd pA ld n S ->
  gdriver_ensures (zpbtrf R rp nb uplo n kd pA ld bA) M (fun M' st =>
    (st = 0 -> exists T,
      is_band_triangle M' uplo kd pA ld n T /\
      (forall i, 0 <= i < n -> exists d, rt R d = Some (T i i)) /\
      (forall i j, in_matrix n n i j -> factor_product uplo n T i j = S i j)) /\
    (forall l, fst l <> bA -> ~ in_user_band uplo kd pA ld n l -> M' l = M l)).
Proof. exact (@zpbtrf_factor). Qed.
Print Assumptions C49_zpbtrf_factor.

(* If every positive number has a square root and there is at least one diagonal beside the
   main one, the code returned is, for every tile size and every schedule, 0 when S is positive
   definite and otherwise the order of the smallest leading matrix of S that is not. *)
Theorem C49_zpbtrf_status : forall (F : fields) (R : roots F) (rp : F -> F) (P : positivity F)
    S nb uplo n kd pA ld bA M,
  (forall x, nconj x = x -> rp x = x) -> has_roots P R ->
  0 < nb -> valid_uplo uplo -> 0 <= n -> 0 < kd -> (0 < n -> kd < n) -> kd < ld -> fst pA <> bA ->
  is_hermitian_band M uplo kd pA ld n S ->
  gdriver_ensures (zpbtrf R rp nb uplo n kd pA ld bA) M (fun M' st =>
    (st = 0 /\ pos_def P n S) \/
    (0 < st <= n /\ pos_def P (st - 1) S /\ ~ pos_def P st S)).
Proof. exact (@zpbtrf_status). Qed.
Print Assumptions C49_zpbtrf_status.

(* The same for every band, but the leading matrix need not be the smallest. *)
Theorem C49_zpbtrf_status_any : forall (F : fields) (R : roots F) (rp : F -> F) (P : positivity F)
    S nb uplo n kd pA ld bA M,
  (forall x, nconj x = x -> rp x = x) -> has_roots P R -> @n1 F <> n0 ->
  0 < nb -> valid_uplo uplo -> 0 <= n -> 0 <= kd -> (0 < n -> kd < n) -> kd < ld -> fst pA <> bA ->
  is_hermitian_band M uplo kd pA ld n S ->
  gdriver_ensures (zpbtrf R rp nb uplo n kd pA ld bA) M (fun M' st =>
    (st = 0 /\ pos_def P n S) \/ (0 < st <= n /\ ~ pos_def P st S)).
Proof. exact (@zpbtrf_status_any). Qed.
Print Assumptions C49_zpbtrf_status_any.

(* With kd = 0 the factorizations of different diagonal tiles are not ordered: on the diagonal
   matrix S some schedule reports an element that is not the first without square root. *)
Theorem C49_zpbtrf_first_minor_refuted : exists nb uplo n kd pA ld bA M (S : Z -> Z -> QI_fields),
  0 < nb /\ valid_uplo uplo /\ 0 <= kd < n /\ kd < ld /\ fst pA <> bA /\
  is_hermitian_band M uplo kd pA ld n S /\
  (forall i j, in_matrix n n i j -> i <> j -> S i j = n0) /\
  ~ gdriver_ensures (zpbtrf QI_roots qre nb uplo n kd pA ld bA) M (fun _ st =>
      st <> 0 -> forall i, 0 <= i < st - 1 -> rt QI_roots (S i i) <> None).
Proof. exact zpbtrf_first_minor. Qed.
Print Assumptions C49_zpbtrf_first_minor_refuted.

(* The documentation allows every kd >= 0 and the arguments are accepted, but a band as wide as
   the matrix is refused. *)
Theorem C49_zpbtrf_wide_band_refuted : exists nb uplo n kd ld, 0 < nb /\ valid_uplo uplo /\ 0 < n /\ 0 <= kd /\ kd + 1 <= ld /\
  forall (F : fields) (R : roots F) (rp : F -> F) pA bA,
    zpbtrf R rp nb uplo n kd pA ld bA = GReturns PlasmaErrorIllegalValue.
Proof. exact zpbtrf_wide_band. Qed.
Print Assumptions C49_zpbtrf_wide_band_refuted.

(* A case with three tile rows, kd = 1: S = T*T^H with T having 2, 3, 1, 2, 1 on the diagonal and
   1+i, 2, i, 3 below. The lower triangle is kept in an array with three rows, unused elements 7. *)
Definition pb_T (i j : Z) : QI_fields :=
  if i =? j then nth (Z.to_nat i) [qi 2 0; qi 3 0; qi 1 0; qi 2 0; qi 1 0] n0
  else if i =? j + 1 then nth (Z.to_nat j) [qi 1 1; qi 2 0; qi 0 1; qi 3 0] n0 else n0.
Definition pb_S (i j : Z) : QI_fields := nsum (fun l => nmul (pb_T i l) (nconj (pb_T j l))) 0 5.
Definition pb_mem (uplo : Z) (S : Z -> Z -> QI_fields) (l : loc) : QI_fields :=
  let j := snd l / 3 in let r := snd l mod 3 in
  if uplo =? PlasmaLower then (if (r <? 2) && (j + r <? 5) then S (j + r) j else qi 7 0)
  else (if (r <? 2) && (0 <=? j + r - 1) then S (j + r - 1) j else qi 7 0).
Definition pb_hermitian (uplo : Z) : bool :=
  forallb (fun i => forallb (fun j =>
    neqb (pb_S j i) (nconj (pb_S i j)) &&
    (if if uplo =? PlasmaLower then (j <=? i) && (i - j <=? 1) else (i <=? j) && (j - i <=? 1)
     then neqb (pb_S i j) (bel (pb_mem uplo pb_S) uplo 1 (0, 0) 3 i j) else true) &&
    (if (-1 <=? i - j) && (i - j <=? 1) then true else neqb (pb_S i j) n0)) (zrange 0 5)) (zrange 0 5).

Lemma pb_hermitian_spec : forall uplo, valid_uplo uplo -> pb_hermitian uplo = true ->
  is_hermitian_band (pb_mem uplo pb_S) uplo 1 (0, 0) 3 5 pb_S.
Proof.
  intros uplo Hu H.
  assert (G : forall i j, in_matrix 5 5 i j -> _) by
    (intros i j [Hi Hj]; exact (proj1 (forallb_forall _ _) (proj1 (forallb_forall _ _) H i (proj2 (in_zrange 0 5 i) Hi)) j (proj2 (in_zrange 0 5 j) Hj))).
  split; [|split]; intros i j HM; specialize (G i j HM); cbv beta in G; apply andb_true_iff in G; destruct G as [G G3];
    apply andb_true_iff in G; destruct G as [G1 G2].
  - intros HB. apply (neqb_eq QI_fields). destruct HB as [[-> HB]|[-> HB]].
    + replace (i <=? j) with true in G2 by (symmetry; apply Z.leb_le; lia).
      replace (j - i <=? 1) with true in G2 by (symmetry; apply Z.leb_le; lia). exact G2.
    + replace (j <=? i) with true in G2 by (symmetry; apply Z.leb_le; lia).
      replace (i - j <=? 1) with true in G2 by (symmetry; apply Z.leb_le; lia). exact G2.
  - intros HB. apply (neqb_eq QI_fields). destruct (Z.leb_spec (-1) (i - j)), (Z.leb_spec (i - j) 1); cbn [andb] in G3; try exact G3.
    exfalso. apply HB. change (- (1)) with (-1). lia.
  - apply (neqb_eq QI_fields). exact G1.
Qed.

Example C49_case :
  is_hermitian_band (pb_mem PlasmaLower pb_S) PlasmaLower 1 (0, 0) 3 5 pb_S /\
  exists ks, zpbtrf QI_roots qre 2 PlasmaLower 5 1 (0, 0) 3 5 = GRuns ks /\
    snd (gseq ks (pb_mem PlasmaLower pb_S)) = 0 /\
    forallb (fun o => neqb (fst (gseq ks (pb_mem PlasmaLower pb_S)) (0, o)) (pb_mem PlasmaLower pb_T (0, o))) (zrange 0 15) = true.
Proof.
  split; [apply pb_hermitian_spec; [right; reflexivity|lazy; reflexivity]|].
  eexists. split; [reflexivity|]. split; lazy; reflexivity.
Qed.

Example C49_case_upper :
  is_hermitian_band (pb_mem PlasmaUpper pb_S) PlasmaUpper 1 (0, 0) 3 5 pb_S /\
  exists ks, zpbtrf QI_roots qre 2 PlasmaUpper 5 1 (0, 0) 3 5 = GRuns ks /\
    snd (gseq ks (pb_mem PlasmaUpper pb_S)) = 0 /\
    forallb (fun o => neqb (fst (gseq ks (pb_mem PlasmaUpper pb_S)) (0, o))
      (pb_mem PlasmaUpper (fun i j => nconj (pb_T j i)) (0, o))) (zrange 0 15) = true.
Proof.
  split; [apply pb_hermitian_spec; [left; reflexivity|lazy; reflexivity]|].
  eexists. split; [reflexivity|]. split; lazy; reflexivity.
Qed.

(* The other hypotheses of the status theorems: see C22_case; a run that fails in the second
   tile. *)
Definition pb_bad (i j : Z) : QI_fields := if (i =? 3) && (j =? 3) then qi 1 0 else pb_S i j.
Example C49_run : exists ks, zpbtrf QI_roots qre 2 PlasmaLower 5 1 (0, 0) 3 5 = GRuns ks /\
  snd (gseq ks (pb_mem PlasmaLower pb_bad)) = 4.
Proof. eexists. split; [reflexivity|]. lazy. reflexivity. Qed.

(* the matrix with rows (1, 2), (2, 1) over the complex numbers as a band matrix with kd = 1 *)
Definition pb_C (i j : Z) : C_fields := if i =? j then (1, 0)%R else (2, 0)%R.
Example C49_status_case :
  has_roots C_positivity C_roots /\
  (forall M : mem C_fields, M (0, 0) = (1, 0)%R -> M (0, 1) = (2, 0)%R -> M (0, 2) = (1, 0)%R ->
     is_hermitian_band M PlasmaLower 1 (0, 0) 2 2 pb_C) /\
  ~ pos_def C_positivity 2 pb_C.
Proof.
  split; [apply C_has_roots|]. split.
  - intros M H0 H1 H3. split; [|split]; intros i j [Hi Hj]; [intros HS|intros HS|];
      assert (Ei : i = 0 \/ i = 1) by lia; assert (Ej : j = 0 \/ j = 1) by lia;
      destruct Ei as [->| ->]; destruct Ej as [->| ->]; cbn;
      try (symmetry; first [exact H0|exact H1|exact H3]);
      try (exfalso; lia);
      try (exfalso; destruct HS as [[E _]|[_ E]]; [discriminate|lia]);
      unfold pb_C, cconj; cbn; f_equal; lra.
  - intros H. specialize (H (fun i => if i =? 0 then (1, 0)%R else (-1, 0)%R)).
    destruct H as [H _].
    + exists 0. split; [lia|]. intros E. apply (f_equal fst) in E. cbn in E. lra.
    + unfold nsum in H. change (zrange 0 2) with [0; 1] in H. cbn [fold_right] in H.
      unfold pb_C in H. cbn in H. lra.
Qed.
