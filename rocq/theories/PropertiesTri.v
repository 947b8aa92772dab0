(* C19, C20: triangular multiply and triangular solve. *)
From Coq Require Import ZArith List Bool Lia.
From Coq Require Import Floats.SpecFloat.
From Verif Require Import Base NumModel NumInstances FieldModel FieldInstances TaskModel TaskSpec DescModel DescSpec
  MatModel MatSpec DriverModel DriverSpec TriModel TriSpec TrmmDriverProofs TrsmDriverProofs.
Import ListNotations.
Open Scope Z_scope.

(* For legal arguments, every tile size and every schedule: B := alpha*op(S)*B (side left) or
   alpha*B*op(S) (right), where S is the triangular matrix stored in the triangle uplo of A, with
   ones on the diagonal if diag is Unit. The rest of the array A is arbitrary. No other user
   memory changes. *)
Theorem C19_ztrmm : forall (N : numbers) (S : Z -> Z -> N) nb side uplo trans diag m n (alpha : N)
    pA lda pB ldb bA bB M,
  0 < nb -> side = PlasmaLeft \/ side = PlasmaRight -> valid_uplo uplo -> valid_trans trans ->
  diag = PlasmaUnit \/ diag = PlasmaNonUnit -> 0 <= m -> 0 <= n ->
  let k := if side =? PlasmaLeft then m else n in
  Z.max 1 k <= lda -> Z.max 1 m <= ldb ->
  NoDup [bA; bB] -> (forall b, In b [fst pA; fst pB] -> ~ In b [bA; bB]) ->
  apart pA lda k k pB ldb m n ->
  is_triangle M uplo diag pA lda k S ->
  driver_ensures (ztrmm nb side uplo trans diag m n alpha pA lda pB ldb bA bB) M (fun M' =>
    (forall i j, in_matrix m n i j -> ul M' pB ldb i j
       = nmul alpha (if side =? PlasmaLeft
                     then nsum (fun l => nmul (op_of trans S i l) (ul M pB ldb l j)) 0 m
                     else nsum (fun l => nmul (ul M pB ldb i l) (op_of trans S l j)) 0 n)) /\
    (forall l, ~ In (fst l) [bA; bB] -> ~ in_user pB ldb m n l -> M' l = M l)).
Proof. exact (@ztrmm_main). Qed.
Print Assumptions C19_ztrmm.

(* For legal arguments, nonsingular S, every tile size and every schedule: B is overwritten with
   the X of op(S)*X = alpha*B (side left) or X*op(S) = alpha*B (right).
   Missing from the full claim: the case side right, trans not NoTrans, more than one tile column
   and alpha = 0, in which the claim is false (C20_zero_scalar_refuted). *)
Theorem C20_ztrsm_partial : forall (F : fields) (S : Z -> Z -> F) nb side uplo trans diag m n (alpha : F)
    pA lda pB ldb bA bB M,
  0 < nb -> side = PlasmaLeft \/ side = PlasmaRight -> valid_uplo uplo -> valid_trans trans ->
  diag = PlasmaUnit \/ diag = PlasmaNonUnit -> 0 <= m -> 0 <= n ->
  let k := if side =? PlasmaLeft then m else n in
  Z.max 1 k <= lda -> Z.max 1 m <= ldb ->
  NoDup [bA; bB] -> (forall b, In b [fst pA; fst pB] -> ~ In b [bA; bB]) ->
  apart pA lda k k pB ldb m n ->
  is_triangle M uplo diag pA lda k S ->
  (forall i, 0 <= i < k -> S i i <> n0) ->
  (side = PlasmaRight -> trans <> PlasmaNoTrans -> nb < n -> alpha <> n0) ->
  exists d, ztrsm nb side uplo trans diag m n alpha pA lda pB ldb bA bB = Some d /\
  driver_ensures d M (fun M' =>
    (forall i j, in_matrix m n i j ->
       (if side =? PlasmaLeft
        then nsum (fun l => nmul (op_of trans S i l) (ul M' pB ldb l j)) 0 m
        else nsum (fun l => nmul (ul M' pB ldb i l) (op_of trans S l j)) 0 n)
       = nmul alpha (ul M pB ldb i j)) /\
    (forall l, ~ In (fst l) [bA; bB] -> ~ in_user pB ldb m n l -> M' l = M l)).
Proof. exact (@ztrsm_main). Qed.
Print Assumptions C20_ztrsm_partial.

(* In the remaining case the routine divides by zero, whatever A and B hold, although X = 0 is
   the solution. *)
Theorem C20_zero_scalar_refuted : exists nb side uplo trans diag m n,
  0 < nb /\ side = PlasmaRight /\ valid_uplo uplo /\ valid_trans trans /\
  (diag = PlasmaUnit \/ diag = PlasmaNonUnit) /\ 0 < m /\ 0 < n /\
  forall (F : fields) pA lda pB ldb bA bB, n <= lda -> m <= ldb ->
    ztrsm nb side uplo trans diag m n (n0 : F) pA lda pB ldb bA bB = None.
Proof. exact ztrsm_zero_scalar. Qed.
Print Assumptions C20_zero_scalar_refuted.

(* In IEEE double precision the scalar of the gemm tasks is then -1.0/0.0 and multiplies a
   zero tile: the result is NaN *)
Example C20_zero_scalar_double :
  SFmul 53 1024 (SFdiv 53 1024 (S754_finite true 4503599627370496 (-52)) (S754_zero false)) (S754_zero false) = S754_nan.
Proof. reflexivity. Qed.

(* multiply: 3 x 2 in 2 x 2 tiles, side left, lower triangle, conjugate transposed, non-unit;
   the strictly upper triangle of the array holds other numbers *)
Definition ex_S (i j : Z) : G_numbers := if i <? j then (0, 0) else (i + j + 1, i + 2 * j).
Definition ex_mem : mem G_numbers := fun l =>
  if fst l =? 0 then
    (if snd l <? 12 then (if (snd l) / 4 <=? (snd l) mod 4 then ex_S ((snd l) mod 4) ((snd l) / 4) else (77, 77))
     else (snd l, 1))
  else (0, 0).
Definition ex_trmm : driver G_numbers :=
  ztrmm 2 PlasmaLeft PlasmaLower PlasmaConjTrans PlasmaNonUnit 3 2 ((2, 1) : G_numbers) (0, 0) 4 (0, 20) 3 1 2.
Example C19_case :
  apart (0, 0) 4 3 3 (0, 20) 3 3 2 /\
  is_triangle ex_mem PlasmaLower PlasmaNonUnit (0, 0) 4 3 ex_S /\
  exists ks, ex_trmm = Runs ks /\ length ks = 10%nat /\
    krun ks ex_mem (0, 20)
    = nmul ((2, 1) : G_numbers) (nadd (nmul (nconj (ex_S 0 0)) (20, 1))
        (nadd (nmul (nconj (ex_S 1 0)) (21, 1)) (nmul (nconj (ex_S 2 0)) (22, 1)))).
Proof.
  split; [|split].
  - intros l (i & j & H1 & H2 & ->) (i' & j' & H1' & H2' & E). injection E as E. cbn in E. lia.
  - intros i j [Hi Hj].
    assert (Ei : i = 0 \/ i = 1 \/ i = 2) by lia. assert (Ej : j = 0 \/ j = 1 \/ j = 2) by lia.
    split; [|split].
    + intros [[E _]|[_ HL]]; [discriminate|]. intros _.
      destruct Ei as [->|[->| ->]]; destruct Ej as [->|[->| ->]]; try lia; reflexivity.
    + discriminate.
    + intros HN. unfold ex_S. destruct (Z.ltb_spec i j); [reflexivity|]. exfalso. apply HN. right. split; [reflexivity|lia].
  - eexists. split; [reflexivity|]. split; vm_compute; reflexivity.
Qed.

(* solve: X*A^H = alpha*B, 2 x 3 in 2 x 2 tiles, upper triangle, unit diagonal; the rest of the
   array A holds other numbers *)
Definition ex_T (i j : Z) : QI_fields := if i =? j then qi 1 0 else if j <? i then qi 0 0 else qi (i + j) (i + 2 * j).
Definition ex_memq : mem QI_fields := fun l =>
  if fst l =? 0 then
    (if snd l <? 12 then (if (snd l) mod 4 <? (snd l) / 4 then ex_T ((snd l) mod 4) ((snd l) / 4) else qi 77 77)
     else qi (snd l) 1)
  else qi 0 0.
Definition ex_trsm : option (driver QI_fields) :=
  ztrsm 2 PlasmaRight PlasmaUpper PlasmaConjTrans PlasmaUnit 2 3 (qi 2 1) (0, 0) 4 (0, 20) 2 1 2.
Example C20_case :
  apart (0, 0) 4 3 3 (0, 20) 2 2 3 /\
  is_triangle ex_memq PlasmaUpper PlasmaUnit (0, 0) 4 3 ex_T /\
  (forall i, 0 <= i < 3 -> ex_T i i <> n0) /\ qi 2 1 <> n0 /\
  exists ks, ex_trsm = Some (Runs ks) /\ length ks = 11%nat /\
    neqb (nsum (fun l => nmul (ul (krun ks ex_memq) (0, 20) 2 1 l) (nconj (ex_T 0 l))) 0 3)
         (nmul (qi 2 1) (qi 21 1)) = true.
Proof.
  split; [|split; [|split; [|split]]].
  - intros l (i & j & H1 & H2 & ->) (i' & j' & H1' & H2' & E). injection E as E. cbn in E. lia.
  - intros i j [Hi Hj].
    assert (Ei : i = 0 \/ i = 1 \/ i = 2) by lia. assert (Ej : j = 0 \/ j = 1 \/ j = 2) by lia.
    split; [|split].
    + intros [[_ HL]|[E _]]; [|discriminate]. intros [HD|E]; [|discriminate].
      destruct Ei as [->|[->| ->]]; destruct Ej as [->|[->| ->]]; try lia; reflexivity.
    + intros -> _. unfold ex_T. rewrite Z.eqb_refl. reflexivity.
    + intros HN. unfold ex_T. destruct (Z.eqb_spec i j) as [->|E].
      * exfalso. apply HN. left. split; [reflexivity|lia].
      * destruct (Z.ltb_spec j i); [reflexivity|]. exfalso. apply HN. left. split; [reflexivity|lia].
  - intros i Hi. unfold ex_T. rewrite Z.eqb_refl. discriminate.
  - discriminate.
  - eexists. split; [reflexivity|]. split; vm_compute; reflexivity.
Qed.
