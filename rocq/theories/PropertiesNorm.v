(* C26: matrix norms and the entries of largest magnitude. *)
From Coq Require Import Reals ZArith List Lia.
From Verif Require Import Base NumModel FieldModel TaskModel TaskSpec DescModel DescSpec DescDriverModel MatModel MatSpec
  LayoutModel DriverModel DriverSpec SwpModel NormModel NormTriModel NormSpec NormInstances
  NormZlangeProofs NormTriProofs NormSyDriverProofs NormTrDriverProofs NormWorkProofs NormFacts.
Import ListNotations.
Open Scope Z_scope.

(* Throughout: every tile size nb, every size, every schedule, exact arithmetic. bA is the
   temporary tile matrix, bW the workspace, value the variable the result is put in. *)

(* The value returned is the norm of the m x n matrix asked for: the largest absolute value,
   the largest column sum, the largest row sum or the Euclidean norm; nothing of the user's is
   changed. *)
Theorem C26_zlange : forall (N : normed) lassq nsqrt nb norm m n pA lda bA bW (value : loc) (M : mem N),
  0 < nb -> valid_norm norm -> 0 <= m -> 0 <= n -> Z.max 1 m <= lda ->
  fst pA <> bA -> fst pA <> bW -> bA <> bW -> fst value <> bA -> fst value <> bW ->
  lassq_ok lassq ->
  valued_ensures (zlange lassq nsqrt nb norm m n pA lda bA bW value) M
    (fun v M' => is_norm nsqrt norm m n (ul M pA lda) v /\
                 (forall l, fst l <> bA -> fst l <> bW -> l <> value -> M' l = M l)).
Proof. exact @zlange_norm. Qed.
Print Assumptions C26_zlange.

(* The matrix (1 -4 7; 2 5 -8; -3 6 0) in four tiles of size 2, leading dimension 4: Max 8,
   One 15 (third column), Inf 15 (second row). The sum of squares is 204; with scale 8 this is
   64 * 51/16, and with doubling in place of the square root the result is 8 * 51/8 = 51. *)
Example C26_case :
  lassq_ok (@lassq_ref Q_normed) /\
  is_q (result (zlange lassq_ref (fun x => x) 2 PlasmaMaxNorm 3 3 (0, 0) 4 1 2 (3, 0)) M26) 8 = true /\
  is_q (result (zlange lassq_ref (fun x => x) 2 PlasmaOneNorm 3 3 (0, 0) 4 1 2 (3, 0)) M26) 15 = true /\
  is_q (result (zlange lassq_ref (fun x => x) 2 PlasmaInfNorm 3 3 (0, 0) 4 1 2 (3, 0)) M26) 15 = true /\
  is_q (result (zlange lassq_ref (fun x => nadd x x) 2 PlasmaFrobeniusNorm 3 3 (0, 0) 4 1 2 (3, 0)) M26) 51 = true.
Proof. split; [apply lassq_ref_ok|]. vm_compute. auto. Qed.

(* Over the complex numbers, with the real square root, the Frobenius norm is the square root
   of the sum of the squares. *)
Theorem C26_zlange_frobenius_complex : forall lassq nb m n pA lda bA bW (value : loc) (M : mem C_normed),
  0 < nb -> 0 <= m -> 0 <= n -> Z.max 1 m <= lda ->
  fst pA <> bA -> fst pA <> bW -> bA <> bW -> fst value <> bA -> fst value <> bW ->
  lassq_ok lassq ->
  valued_ensures (zlange lassq real_sqrt nb PlasmaFrobeniusNorm m n pA lda bA bW value) M
    (fun v _ => (0 <= fst v)%R /\ snd v = 0%R /\
       nmul v v = nsum (fun j => nsum (fun i => nmul (ul M pA lda i j) (nconj (ul M pA lda i j))) 0 m) 0 n).
Proof. exact zlange_frobenius_complex. Qed.
Print Assumptions C26_zlange_frobenius_complex.

(* plasma_dzamax: values[j] (values[i]) is the largest |Re| + |Im| of the column (row). *)
Theorem C26_dzamax : forall (N : normed) nb colrow m n pA lda bA bW (values : loc) (M : mem N),
  0 < nb -> colrow = PlasmaColumnwise \/ colrow = PlasmaRowwise -> 0 < m -> 0 < n -> m <= lda ->
  fst pA <> bA -> fst pA <> bW -> bA <> bW -> fst values <> bA -> fst values <> bW ->
  valued_ensures (dzamax nb colrow m n pA lda bA bW values) M
    (fun _ M' =>
       (colrow = PlasmaColumnwise -> forall j, 0 <= j < n ->
          largest (fun i => 0 <= i < m) (fun i => ncabs1 (ul M pA lda i j)) (M' (fst values, snd values + j))) /\
       (colrow = PlasmaRowwise -> forall i, 0 <= i < m ->
          largest (fun j => 0 <= j < n) (fun j => ncabs1 (ul M pA lda i j)) (M' (fst values, snd values + i))) /\
       (forall l, fst l <> bA -> fst l <> bW ->
          ~ seg values (if colrow =? PlasmaColumnwise then n else m) l -> M' l = M l)).
Proof. exact @dzamax_largest. Qed.
Print Assumptions C26_dzamax.

Example C26_dzamax_case : exists ph, dzamax 2 PlasmaColumnwise 3 3 (0, 0) 4 1 2 (3, 0) = VRuns ph (3, 0) /\
  map (fun ks => List.length ks) ph = [8; 1]%nat /\
  map (fun j => neqb (runs ph M26 (3, j)) (q (nth (Z.to_nat j) [3; 6; 8] 0))) [0; 1; 2] = [true; true; true].
Proof. eexists. split; [reflexivity|]. vm_compute. auto. Qed.

(* plasma_zlansy: the norm of the symmetric matrix whose upper or lower triangle is stored. *)
Theorem C26_zlansy : forall (N : normed) lassq nsqrt nb norm uplo n pA lda bA bW (value : loc) (M : mem N),
  0 < nb -> valid_norm norm -> valid_uplo uplo -> 0 <= n -> Z.max 1 n <= lda ->
  fst pA <> bA -> fst pA <> bW -> bA <> bW -> fst value <> bA -> fst value <> bW ->
  lassq_ok lassq ->
  valued_ensures (zlansy lassq nsqrt nabs nb norm uplo n pA lda bA bW value) M
    (fun v M' => is_norm nsqrt norm n n (sym uplo (ul M pA lda)) v /\
                 (forall l, fst l <> bA -> fst l <> bW -> l <> value -> M' l = M l)).
Proof. exact @zlansy_norm. Qed.
Print Assumptions C26_zlansy.

(* the upper triangle of the matrix above: (1 -4 7; -4 5 -8; 7 -8 0), squares 284 = 64 * 71/16 *)
Example C26_zlansy_case : valid_uplo PlasmaUpper /\
  is_q (result (zlansy lassq_ref (fun x => x) nabs 2 PlasmaMaxNorm PlasmaUpper 3 (0, 0) 4 1 2 (3, 0)) M26) 8 = true /\
  is_q (result (zlansy lassq_ref (fun x => x) nabs 2 PlasmaOneNorm PlasmaUpper 3 (0, 0) 4 1 2 (3, 0)) M26) 17 = true /\
  is_q (result (zlansy lassq_ref (fun x => x) nabs 2 PlasmaInfNorm PlasmaUpper 3 (0, 0) 4 1 2 (3, 0)) M26) 17 = true /\
  is_q (result (zlansy lassq_ref (fun x => nadd x x) nabs 2 PlasmaFrobeniusNorm PlasmaUpper 3 (0, 0) 4 1 2 (3, 0)) M26) 71 = true.
Proof. split; [left; reflexivity|]. vm_compute. auto. Qed.

(* plasma_zlanhe: the norm of the Hermitian matrix whose upper or lower triangle is stored; the
   imaginary parts on the diagonal are taken to be zero. *)
Theorem C26_zlanhe : forall (N : normed) lassq nsqrt nb norm uplo n pA lda bA bW (value : loc) (M : mem N),
  0 < nb -> valid_norm norm -> valid_uplo uplo -> 0 <= n -> Z.max 1 n <= lda ->
  fst pA <> bA -> fst pA <> bW -> bA <> bW -> fst value <> bA -> fst value <> bW ->
  lassq_ok lassq ->
  valued_ensures (zlansy lassq nsqrt (fun z => nabs (nre z)) nb norm uplo n pA lda bA bW value) M
    (fun v M' => is_norm nsqrt norm n n (herm uplo (ul M pA lda)) v /\
                 (forall l, fst l <> bA -> fst l <> bW -> l <> value -> M' l = M l)).
Proof. exact @zlanhe_norm. Qed.
Print Assumptions C26_zlanhe.

(* the lower triangle: (1 2 -3; 2 5 6; -3 6 0) *)
Example C26_zlanhe_case : valid_uplo PlasmaLower /\
  is_q (result (zlansy lassq_ref (fun x => x) (fun z => nabs (nre z)) 2 PlasmaMaxNorm PlasmaLower 3 (0, 0) 4 1 2 (3, 0)) M26) 6 = true /\
  is_q (result (zlansy lassq_ref (fun x => x) (fun z => nabs (nre z)) 2 PlasmaOneNorm PlasmaLower 3 (0, 0) 4 1 2 (3, 0)) M26) 13 = true.
Proof. split; [right; reflexivity|]. vm_compute. auto. Qed.

(* plasma_zlantr: the norm of the m x n upper or lower trapezoidal matrix, with the stored
   diagonal or with ones on it. *)
Theorem C26_zlantr : forall (N : normed) lassq nsqrt nb norm uplo diag m n pA lda bA bW (value : loc) (M : mem N),
  0 < nb -> valid_norm norm -> valid_uplo uplo -> diag = PlasmaUnit \/ diag = PlasmaNonUnit ->
  0 <= m -> 0 <= n -> Z.max 1 m <= lda ->
  fst pA <> bA -> fst pA <> bW -> bA <> bW -> fst value <> bA -> fst value <> bW ->
  lassq_ok lassq ->
  valued_ensures (zlantr lassq nsqrt nb norm uplo diag m n pA lda bA bW value) M
    (fun v M' => is_norm nsqrt norm m n (tri uplo diag (ul M pA lda)) v /\
                 (forall l, fst l <> bA -> fst l <> bW -> l <> value -> M' l = M l)).
Proof. exact @zlantr_norm. Qed.
Print Assumptions C26_zlantr.

(* (1 -4 7; 0 1 -8; 0 0 1), squares 132 = 64 * 33/16; workspace filled with ones before *)
Example C26_zlantr_case : valid_uplo PlasmaUpper /\
  is_q (result (zlantr lassq_ref (fun x => x) 2 PlasmaMaxNorm PlasmaUpper PlasmaUnit 3 3 (0, 0) 4 1 2 (3, 0)) M26) 8 = true /\
  is_q (result (zlantr lassq_ref (fun x => x) 2 PlasmaOneNorm PlasmaUpper PlasmaUnit 3 3 (0, 0) 4 1 2 (3, 0)) M26) 16 = true /\
  is_q (result (zlantr lassq_ref (fun x => x) 2 PlasmaInfNorm PlasmaUpper PlasmaUnit 3 3 (0, 0) 4 1 2 (3, 0)) M26) 12 = true /\
  is_q (result (zlantr lassq_ref (fun x => nadd x x) 2 PlasmaFrobeniusNorm PlasmaUpper PlasmaUnit 3 3 (0, 0) 4 1 2 (3, 0)) M26) 33 = true.
Proof. split; [left; reflexivity|]. vm_compute. auto. Qed.

(* No task of these routines, on any arguments, touches the workspace outside of what the
   driver allocated. *)
Theorem C26_zlange_workspace : forall (N : normed) lassq nsqrt nb norm m n pA lda bA bW (value : loc) A sz,
  0 < nb -> fst pA <> bW -> bA <> bW -> fst value <> bW -> ge_create nb m n = CrOk A sz ->
  all_within bW (zlange_work norm A) (@zlange N lassq nsqrt nb norm m n pA lda bA bW value).
Proof. exact @zlange_workspace. Qed.
Print Assumptions C26_zlange_workspace.

(* sizes that occur: a 3 x 3 matrix in tiles of size 2 *)
Example C26_workspace_case : exists A sz, ge_create 2 3 3 = CrOk A sz /\
  map (fun norm => zlange_work norm A) [PlasmaMaxNorm; PlasmaOneNorm; PlasmaInfNorm; PlasmaFrobeniusNorm] = [4; 9; 9; 8].
Proof. do 2 eexists. split; [reflexivity|]. reflexivity. Qed.

Theorem C26_zlansy_workspace : forall (N : normed) lassq nsqrt dg nb norm uplo n pA lda bA bW (value : loc) A sz,
  0 < nb -> fst pA <> bW -> bA <> bW -> fst value <> bW -> ge_create nb n n = CrOk A sz ->
  all_within bW (zlansy_work norm A) (@zlansy N lassq nsqrt dg nb norm uplo n pA lda bA bW value).
Proof. exact @zlansy_workspace. Qed.
Print Assumptions C26_zlansy_workspace.

Theorem C26_zlantr_workspace : forall (N : normed) lassq nsqrt nb norm uplo diag m n pA lda bA bW (value : loc) A sz,
  0 < nb -> fst pA <> bW -> bA <> bW -> fst value <> bW -> ge_create nb m n = CrOk A sz ->
  all_within bW (zlantr_work norm A) (@zlantr N lassq nsqrt nb norm uplo diag m n pA lda bA bW value).
Proof. exact @zlantr_workspace. Qed.
Print Assumptions C26_zlantr_workspace.

Theorem C26_dzamax_workspace : forall (N : normed) nb colrow m n pA lda bA bW (values : loc) A sz,
  0 < nb -> fst pA <> bW -> bA <> bW -> fst values <> bW -> ge_create nb m n = CrOk A sz ->
  all_within bW (dzamax_work colrow A) (@dzamax N nb colrow m n pA lda bA bW values).
Proof. exact @dzamax_workspace. Qed.
Print Assumptions C26_dzamax_workspace.
