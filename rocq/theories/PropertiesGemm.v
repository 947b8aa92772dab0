(* C15: matrix multiply. *)
From Coq Require Import ZArith List Lia.
From Verif Require Import Base NumModel NumInstances TaskModel TaskSpec DescModel DescSpec MatModel MatSpec
  DriverModel DriverSpec GemmModel GemmDriverProofs.
Import ListNotations.
Open Scope Z_scope.

(* For legal arguments, every tile size nb and every schedule: C := alpha*op(A)*op(B)+beta*C,
   and no other user memory changes. bA, bB, bC are the three temporary tile matrices.
   A and B may overlap each other, and C's block, as long as they share no element with C. *)
Theorem C15_zgemm : forall (N : numbers) nb ta tb m n k (alpha : N) pA lda pB ldb beta pC ldc bA bB bC M,
  0 < nb -> valid_trans ta -> valid_trans tb -> 0 <= m -> 0 <= n -> 0 <= k ->
  let am := if ta =? PlasmaNoTrans then m else k in
  let an := if ta =? PlasmaNoTrans then k else m in
  let bm := if tb =? PlasmaNoTrans then k else n in
  let bn := if tb =? PlasmaNoTrans then n else k in
  Z.max 1 am <= lda -> Z.max 1 bm <= ldb -> Z.max 1 m <= ldc ->
  NoDup [bA; bB; bC] ->
  (forall b, In b [fst pA; fst pB; fst pC] -> ~ In b [bA; bB; bC]) ->
  apart pA lda am an pC ldc m n -> apart pB ldb bm bn pC ldc m n ->
  driver_ensures (zgemm nb ta tb m n k alpha pA lda pB ldb beta pC ldc bA bB bC) M (fun M' =>
    (forall i j, in_matrix m n i j ->
       ul M' pC ldc i j
       = nadd (nmul alpha (nsum (fun l => nmul (op_ul M ta pA lda i l) (op_ul M tb pB ldb l j)) 0 k))
              (nmul beta (ul M pC ldc i j))) /\
    (forall l, ~ In (fst l) [bA; bB; bC] -> ~ in_user pC ldc m n l -> M' l = M l)).
Proof. exact zgemm_main. Qed.
Print Assumptions C15_zgemm.

(* 3 x 2 := 3 x 3 times 3 x 2 in 2 x 2 tiles, A conjugate-transposed, all three matrices in
   one block: 14 tasks, and the value of one element of the result *)
Definition ex_mem : mem G_numbers := fun l => (snd l, fst l - 1).
Definition ex_gemm : driver G_numbers :=
  zgemm 2 PlasmaConjTrans PlasmaNoTrans 3 2 3 ((2, 1) : G_numbers) (0, 0) 4 (0, 20) 3 ((0, 1) : G_numbers)
    (0, 40) 5 1 2 3.
Example C15_case : apart (0, 0) 4 3 3 (0, 40) 5 3 2 /\ apart (0, 20) 3 3 2 (0, 40) 5 3 2 /\
  exists ks, ex_gemm = Runs ks /\ length ks = 14%nat /\
    krun ks ex_mem (0, 47) = (1262, 790).
Proof.
  split; [|split].
  - intros l (i & j & H1 & H2 & ->) (i' & j' & H1' & H2' & E). injection E as E. cbn in E. lia.
  - intros l (i & j & H1 & H2 & ->) (i' & j' & H1' & H2' & E). injection E as E. cbn in E. lia.
  - eexists. split; [reflexivity|]. split; reflexivity.
Qed.
