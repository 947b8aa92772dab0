(* C17: symmetric and Hermitian matrix multiply. *)
From Coq Require Import ZArith List Bool Lia.
From Verif Require Import Base NumModel NumInstances TaskModel TaskSpec DescModel DescSpec MatModel MatSpec
  DriverModel DriverSpec SymmModel SymmDriverProofs.
Import ListNotations.
Open Scope Z_scope.

(* For legal arguments, every tile size and every schedule: C := alpha*S*B + beta*C (side left)
   or alpha*B*S + beta*C (right), where S is the symmetric matrix whose triangle uplo is in A.
   The other triangle of A is arbitrary. No other user memory changes. *)
Theorem C17_zsymm : forall (N : numbers) (S : Z -> Z -> N) nb side uplo m n (alpha : N) pA lda pB ldb beta
    pC ldc bA bB bC M,
  0 < nb -> side = PlasmaLeft \/ side = PlasmaRight -> valid_uplo uplo -> 0 <= m -> 0 <= n ->
  let am := if side =? PlasmaLeft then m else n in
  Z.max 1 am <= lda -> Z.max 1 m <= ldb -> Z.max 1 m <= ldc ->
  NoDup [bA; bB; bC] -> (forall b, In b [fst pA; fst pB; fst pC] -> ~ In b [bA; bB; bC]) ->
  apart pA lda am am pC ldc m n -> apart pB ldb m n pC ldc m n ->
  (forall i j, in_matrix am am i j -> selects uplo i j -> S i j = ul M pA lda i j) ->
  (forall i j, in_matrix am am i j -> S i j = S j i) ->
  driver_ensures (zsymm nb side uplo m n alpha pA lda pB ldb beta pC ldc bA bB bC) M (fun M' =>
    (forall i j, in_matrix m n i j -> ul M' pC ldc i j
       = nadd (nmul alpha (if side =? PlasmaLeft
                           then nsum (fun l => nmul (S i l) (ul M pB ldb l j)) 0 m
                           else nsum (fun l => nmul (ul M pB ldb i l) (S l j)) 0 n))
              (nmul beta (ul M pC ldc i j))) /\
    (forall l, ~ In (fst l) [bA; bB; bC] -> ~ in_user pC ldc m n l -> M' l = M l)).
Proof. exact (@zsymm_main). Qed.
Print Assumptions C17_zsymm.

(* S Hermitian. rp is what the BLAS uses of a diagonal element (the real part). *)
Theorem C17_zhemm : forall (N : numbers) (rp : N -> N) (S : Z -> Z -> N) nb side uplo m n (alpha : N)
    pA lda pB ldb beta pC ldc bA bB bC M,
  0 < nb -> side = PlasmaLeft \/ side = PlasmaRight -> valid_uplo uplo -> 0 <= m -> 0 <= n ->
  let am := if side =? PlasmaLeft then m else n in
  Z.max 1 am <= lda -> Z.max 1 m <= ldb -> Z.max 1 m <= ldc ->
  NoDup [bA; bB; bC] -> (forall b, In b [fst pA; fst pB; fst pC] -> ~ In b [bA; bB; bC]) ->
  apart pA lda am am pC ldc m n -> apart pB ldb m n pC ldc m n ->
  (forall x : N, nconj x = x -> rp x = x) ->
  (forall i j, in_matrix am am i j -> selects uplo i j -> S i j = ul M pA lda i j) ->
  (forall i j, in_matrix am am i j -> S i j = nconj (S j i)) ->
  driver_ensures (zhemm rp nb side uplo m n alpha pA lda pB ldb beta pC ldc bA bB bC) M (fun M' =>
    (forall i j, in_matrix m n i j -> ul M' pC ldc i j
       = nadd (nmul alpha (if side =? PlasmaLeft
                           then nsum (fun l => nmul (S i l) (ul M pB ldb l j)) 0 m
                           else nsum (fun l => nmul (ul M pB ldb i l) (S l j)) 0 n))
              (nmul beta (ul M pC ldc i j))) /\
    (forall l, ~ In (fst l) [bA; bB; bC] -> ~ in_user pC ldc m n l -> M' l = M l)).
Proof. exact (@zhemm_main). Qed.
Print Assumptions C17_zhemm.

(* 3 x 2 in 2 x 2 tiles, lower triangle stored, the upper one filled with other numbers *)
Definition ex_S (i j : Z) : G_numbers := (i + j + 1, if i =? j then 0 else if j <? i then i + 2 * j else - (j + 2 * i)).
Definition ex_mem : mem G_numbers := fun l =>
  if fst l =? 0 then
    (if snd l <? 12 then (if (snd l) / 4 <=? (snd l) mod 4 then ex_S ((snd l) mod 4) ((snd l) / 4) else (77, 77))
     else (snd l, 1))
  else (0, 0).
Definition ex_re (x : G_numbers) : G_numbers := (fst x, 0).
Definition ex_hemm : driver G_numbers :=
  zhemm ex_re 2 PlasmaLeft PlasmaLower 3 2 ((2, 1) : G_numbers) (0, 0) 4 (0, 20) 3 ((0, 1) : G_numbers) (0, 40) 5 1 2 3.
Example C17_case :
  apart (0, 0) 4 3 3 (0, 40) 5 3 2 /\ apart (0, 20) 3 3 2 (0, 40) 5 3 2 /\
  (forall x : G_numbers, nconj x = x -> ex_re x = x) /\
  (forall i j, in_matrix 3 3 i j -> selects PlasmaLower i j -> ex_S i j = ul ex_mem (0, 0) 4 i j) /\
  (forall i j, in_matrix 3 3 i j -> ex_S i j = nconj (ex_S j i)) /\
  exists ks, ex_hemm = Runs ks /\ length ks = 14%nat /\
    krun ks ex_mem (0, 40)
    = nadd (nmul ((2, 1) : G_numbers) (nadd (nmul (ex_S 0 0) (20, 1)) (nadd (nmul (ex_S 0 1) (21, 1)) (nmul (ex_S 0 2) (22, 1)))))
           (nmul ((0, 1) : G_numbers) (40, 1)).
Proof.
  split; [|split; [|split; [|split; [|split]]]].
  - intros l (i & j & H1 & H2 & ->) (i' & j' & H1' & H2' & E). injection E as E. cbn in E. lia.
  - intros l (i & j & H1 & H2 & ->) (i' & j' & H1' & H2' & E). injection E as E. cbn in E. lia.
  - intros [a b] E. cbn in *. unfold gconj in E. cbn in E. injection E as E. unfold ex_re. cbn. f_equal. lia.
  - intros i j [Hi Hj] [[E _]|[_ HL]]; [discriminate|].
    assert (Ei : i = 0 \/ i = 1 \/ i = 2) by lia. assert (Ej : j = 0 \/ j = 1 \/ j = 2) by lia.
    destruct Ei as [->|[->| ->]]; destruct Ej as [->|[->| ->]]; try lia; reflexivity.
  - intros i j [Hi Hj].
    assert (Ei : i = 0 \/ i = 1 \/ i = 2) by lia. assert (Ej : j = 0 \/ j = 1 \/ j = 2) by lia.
    destruct Ei as [->|[->| ->]]; destruct Ej as [->|[->| ->]]; reflexivity.
  - eexists. split; [reflexivity|]. split; vm_compute; reflexivity.
Qed.
