(* C16, C18: rank-k and rank-2k updates. *)
From Coq Require Import ZArith List Bool Lia.
From Verif Require Import Base NumModel NumInstances TaskModel TaskSpec DescModel DescSpec MatModel MatSpec
  DriverModel DriverSpec RankModel RankDriverProofs.
Import ListNotations.
Open Scope Z_scope.

(* For legal arguments with k > 0 (or beta = 1), every tile size and every schedule: the
   selected triangle of C becomes alpha*op(A)*op(A)^T + beta*C, the other triangle and all
   other user memory keep their values *)
Theorem C16_zsyrk : forall (N : numbers) nb uplo trans n k (alpha : N) pA lda beta pC ldc bA bC M,
  0 < nb -> valid_uplo uplo -> trans = PlasmaNoTrans \/ trans = PlasmaTrans -> 0 <= n -> 0 <= k ->
  0 < k \/ beta = n1 ->
  let am := if trans =? PlasmaNoTrans then n else k in
  let an := if trans =? PlasmaNoTrans then k else n in
  Z.max 1 am <= lda -> Z.max 1 n <= ldc ->
  NoDup [bA; bC] -> (forall b, In b [fst pA; fst pC] -> ~ In b [bA; bC]) ->
  apart pA lda am an pC ldc n n ->
  driver_ensures (zsyrk nb uplo trans n k alpha pA lda beta pC ldc bA bC) M (fun M' =>
    (forall i j, in_matrix n n i j -> selects uplo i j ->
       ul M' pC ldc i j
       = nadd (nmul alpha (nsum (fun l => nmul (op_ul M trans pA lda i l) (op_ul M trans pA lda j l)) 0 k))
              (nmul beta (ul M pC ldc i j))) /\
    (forall i j, in_matrix n n i j -> ~ selects uplo i j -> ul M' pC ldc i j = ul M pC ldc i j) /\
    (forall l, ~ In (fst l) [bA; bC] -> ~ in_user pC ldc n n l -> M' l = M l)).
Proof. exact (@zsyrk_main). Qed.
Print Assumptions C16_zsyrk.

(* Hermitian version: alpha*op(A)*op(A)^H + beta*C. rp is what the BLAS does to diagonal
   elements (it drops the imaginary part); alpha, beta and the diagonal of C are real *)
Theorem C16_zherk : forall (N : numbers) (rp : N -> N) nb uplo trans n k (alpha : N) pA lda beta pC ldc bA bC M,
  0 < nb -> valid_uplo uplo -> trans = PlasmaNoTrans \/ trans = PlasmaConjTrans -> 0 <= n -> 0 <= k ->
  0 < k \/ beta = n1 ->
  let am := if trans =? PlasmaNoTrans then n else k in
  let an := if trans =? PlasmaNoTrans then k else n in
  Z.max 1 am <= lda -> Z.max 1 n <= ldc ->
  NoDup [bA; bC] -> (forall b, In b [fst pA; fst pC] -> ~ In b [bA; bC]) ->
  apart pA lda am an pC ldc n n ->
  (forall x : N, nconj x = x -> rp x = x) ->
  nconj alpha = alpha -> nconj beta = beta ->
  (forall i, 0 <= i < n -> nconj (ul M pC ldc i i) = ul M pC ldc i i) ->
  driver_ensures (zherk rp nb uplo trans n k alpha pA lda beta pC ldc bA bC) M (fun M' =>
    (forall i j, in_matrix n n i j -> selects uplo i j ->
       ul M' pC ldc i j
       = nadd (nmul alpha (nsum (fun l => nmul (op_ul M trans pA lda i l) (nconj (op_ul M trans pA lda j l))) 0 k))
              (nmul beta (ul M pC ldc i j))) /\
    (forall i j, in_matrix n n i j -> ~ selects uplo i j -> ul M' pC ldc i j = ul M pC ldc i j) /\
    (forall l, ~ In (fst l) [bA; bC] -> ~ in_user pC ldc n n l -> M' l = M l)).
Proof. exact (@zherk_main). Qed.
Print Assumptions C16_zherk.

(* C := alpha*op(A)*op(B)^T + alpha*op(B)*op(A)^T + beta*C on one triangle *)
Theorem C18_zsyr2k : forall (N : numbers) nb uplo trans n k (alpha : N) pA lda pB ldb beta pC ldc bA bB bC M,
  0 < nb -> valid_uplo uplo -> trans = PlasmaNoTrans \/ trans = PlasmaTrans -> 0 <= n -> 0 <= k ->
  0 < k \/ beta = n1 ->
  let am := if trans =? PlasmaNoTrans then n else k in
  let an := if trans =? PlasmaNoTrans then k else n in
  Z.max 1 am <= lda -> Z.max 1 am <= ldb -> Z.max 1 n <= ldc ->
  NoDup [bA; bB; bC] -> (forall b, In b [fst pA; fst pB; fst pC] -> ~ In b [bA; bB; bC]) ->
  apart pA lda am an pC ldc n n -> apart pB ldb am an pC ldc n n ->
  driver_ensures (zsyr2k nb uplo trans n k alpha pA lda pB ldb beta pC ldc bA bB bC) M (fun M' =>
    (forall i j, in_matrix n n i j -> selects uplo i j ->
       ul M' pC ldc i j
       = nadd (nadd (nmul alpha (nsum (fun l => nmul (op_ul M trans pA lda i l) (op_ul M trans pB ldb j l)) 0 k))
                    (nmul alpha (nsum (fun l => nmul (op_ul M trans pB ldb i l) (op_ul M trans pA lda j l)) 0 k)))
              (nmul beta (ul M pC ldc i j))) /\
    (forall i j, in_matrix n n i j -> ~ selects uplo i j -> ul M' pC ldc i j = ul M pC ldc i j) /\
    (forall l, ~ In (fst l) [bA; bB; bC] -> ~ in_user pC ldc n n l -> M' l = M l)).
Proof. exact (@zsyr2k_main). Qed.
Print Assumptions C18_zsyr2k.

(* C := alpha*op(A)*op(B)^H + conj(alpha)*op(B)*op(A)^H + beta*C on one triangle *)
Theorem C18_zher2k : forall (N : numbers) (rp : N -> N) nb uplo trans n k (alpha : N) pA lda pB ldb beta pC ldc bA bB bC M,
  0 < nb -> valid_uplo uplo -> trans = PlasmaNoTrans \/ trans = PlasmaConjTrans -> 0 <= n -> 0 <= k ->
  0 < k \/ beta = n1 ->
  let am := if trans =? PlasmaNoTrans then n else k in
  let an := if trans =? PlasmaNoTrans then k else n in
  Z.max 1 am <= lda -> Z.max 1 am <= ldb -> Z.max 1 n <= ldc ->
  NoDup [bA; bB; bC] -> (forall b, In b [fst pA; fst pB; fst pC] -> ~ In b [bA; bB; bC]) ->
  apart pA lda am an pC ldc n n -> apart pB ldb am an pC ldc n n ->
  (forall x : N, nconj x = x -> rp x = x) ->
  nconj beta = beta ->
  (forall i, 0 <= i < n -> nconj (ul M pC ldc i i) = ul M pC ldc i i) ->
  driver_ensures (zher2k rp nb uplo trans n k alpha pA lda pB ldb beta pC ldc bA bB bC) M (fun M' =>
    (forall i j, in_matrix n n i j -> selects uplo i j ->
       ul M' pC ldc i j
       = nadd (nadd (nmul alpha (nsum (fun l => nmul (op_ul M trans pA lda i l) (nconj (op_ul M trans pB ldb j l))) 0 k))
                    (nmul (nconj alpha)
                       (nsum (fun l => nmul (op_ul M trans pB ldb i l) (nconj (op_ul M trans pA lda j l))) 0 k)))
              (nmul beta (ul M pC ldc i j))) /\
    (forall i j, in_matrix n n i j -> ~ selects uplo i j -> ul M' pC ldc i j = ul M pC ldc i j) /\
    (forall l, ~ In (fst l) [bA; bB; bC] -> ~ in_user pC ldc n n l -> M' l = M l)).
Proof. exact (@zher2k_main). Qed.
Print Assumptions C18_zher2k.

(* k = 0: the routine leaves C as it is whatever beta is. (BLAS, and the statement of C16,
   say beta*C.) *)
Theorem C16_zsyrk_k0_unchanged : forall (N : numbers) nb uplo trans n (alpha : N) pA lda beta pC ldc bA bC M,
  0 < nb -> valid_uplo uplo -> trans = PlasmaNoTrans \/ trans = PlasmaTrans -> 0 <= n ->
  Z.max 1 (if trans =? PlasmaNoTrans then n else 0) <= lda -> Z.max 1 n <= ldc ->
  NoDup [bA; bC] -> (forall b, In b [fst pA; fst pC] -> ~ In b [bA; bC]) ->
  driver_ensures (zsyrk nb uplo trans n 0 alpha pA lda beta pC ldc bA bC) M (fun M' =>
    forall i j, in_matrix n n i j -> ul M' pC ldc i j = ul M pC ldc i j).
Proof. exact (@zsyrk_k0). Qed.
Print Assumptions C16_zsyrk_k0_unchanged.

(* C16 fails for k = 0: legal arguments, beta = 3, and after every schedule C is still 5 *)
Theorem C16_k0_refuted : exists nb n (alpha beta : Z_numbers) pA lda pC ldc bA bC (M : mem Z_numbers),
  0 < nb /\ Z.max 1 n <= lda /\ Z.max 1 n <= ldc /\ NoDup [bA; bC] /\
  (forall b, In b [fst pA; fst pC] -> ~ In b [bA; bC]) /\ in_matrix n n 0 0 /\
  driver_ensures (zsyrk nb PlasmaLower PlasmaNoTrans n 0 alpha pA lda beta pC ldc bA bC) M (fun M' =>
    ul M' pC ldc 0 0
    <> nadd (nmul alpha (nsum (fun l => nmul (op_ul M PlasmaNoTrans pA lda 0 l) (op_ul M PlasmaNoTrans pA lda 0 l)) 0 0))
            (nmul beta (ul M pC ldc 0 0))).
Proof. exact zsyrk_k0_bad. Qed.
Print Assumptions C16_k0_refuted.

(* the same for rank-2k updates *)
Theorem C18_zsyr2k_k0_unchanged : forall (N : numbers) nb uplo trans n (alpha : N) pA lda pB ldb beta pC ldc bA bB bC M,
  0 < nb -> valid_uplo uplo -> trans = PlasmaNoTrans \/ trans = PlasmaTrans -> 0 <= n ->
  Z.max 1 (if trans =? PlasmaNoTrans then n else 0) <= lda ->
  Z.max 1 (if trans =? PlasmaNoTrans then n else 0) <= ldb -> Z.max 1 n <= ldc ->
  NoDup [bA; bB; bC] -> (forall b, In b [fst pA; fst pB; fst pC] -> ~ In b [bA; bB; bC]) ->
  driver_ensures (zsyr2k nb uplo trans n 0 alpha pA lda pB ldb beta pC ldc bA bB bC) M (fun M' =>
    forall i j, in_matrix n n i j -> ul M' pC ldc i j = ul M pC ldc i j).
Proof. exact (@zsyr2k_k0). Qed.
Print Assumptions C18_zsyr2k_k0_unchanged.

Theorem C18_k0_refuted : exists nb n (alpha beta : Z_numbers) pA lda pB ldb pC ldc bA bB bC (M : mem Z_numbers),
  0 < nb /\ Z.max 1 n <= lda /\ Z.max 1 n <= ldb /\ Z.max 1 n <= ldc /\ NoDup [bA; bB; bC] /\
  (forall b, In b [fst pA; fst pB; fst pC] -> ~ In b [bA; bB; bC]) /\ in_matrix n n 0 0 /\
  driver_ensures (zsyr2k nb PlasmaLower PlasmaNoTrans n 0 alpha pA lda pB ldb beta pC ldc bA bB bC) M (fun M' =>
    ul M' pC ldc 0 0
    <> nadd (nadd (nmul alpha (nsum (fun l => nmul (op_ul M PlasmaNoTrans pA lda 0 l) (op_ul M PlasmaNoTrans pB ldb 0 l)) 0 0))
                  (nmul alpha (nsum (fun l => nmul (op_ul M PlasmaNoTrans pB ldb 0 l) (op_ul M PlasmaNoTrans pA lda 0 l)) 0 0)))
            (nmul beta (ul M pC ldc 0 0))).
Proof. exact zsyr2k_k0_bad. Qed.
Print Assumptions C18_k0_refuted.

(* n = 3, k = 3 in 2 x 2 tiles, A and C in one block; real alpha, beta and diagonal of C *)
Definition ex_mem : mem G_numbers := fun l =>
  if (snd l =? 40) || (snd l =? 46) || (snd l =? 52) then (snd l, 0) else (snd l, fst l - 1).
Definition ex_re (x : G_numbers) : G_numbers := (fst x, 0).
Definition ex_herk : driver G_numbers :=
  zherk ex_re 2 PlasmaLower PlasmaConjTrans 3 3 ((2, 0) : G_numbers) (0, 0) 4 ((3, 0) : G_numbers) (0, 40) 5 1 2.
Example C16_case : apart (0, 0) 4 3 3 (0, 40) 5 3 3 /\
  (forall x : G_numbers, nconj x = x -> ex_re x = x) /\
  (forall i, 0 <= i < 3 -> nconj (ul ex_mem (0, 40) 5 i i) = ul ex_mem (0, 40) 5 i i) /\
  exists ks, ex_herk = Runs ks /\ length ks = 18%nat /\
    map (krun ks ex_mem) [(0, 40); (0, 41); (0, 45); (0, 46)] = [(136, 0); (163, -27); (45, -1); (298, 0)].
Proof.
  split; [|split; [|split]].
  - intros l (i & j & H1 & H2 & ->) (i' & j' & H1' & H2' & E). injection E as E. cbn in E. lia.
  - intros [a b] E. cbn in *. unfold gconj in E. cbn in E. injection E as E. unfold ex_re. cbn. f_equal. lia.
  - intros i Hi. assert (E : i = 0 \/ i = 1 \/ i = 2) by lia. destruct E as [->|[->| ->]]; reflexivity.
  - eexists. split; [reflexivity|]. split; vm_compute; reflexivity.
Qed.
Definition ex_her2k : driver G_numbers :=
  zher2k ex_re 2 PlasmaUpper PlasmaNoTrans 3 3 ((2, 1) : G_numbers) (0, 0) 4 (0, 20) 3 ((3, 0) : G_numbers) (0, 40) 5 1 2 3.
Example C18_case : apart (0, 0) 4 3 3 (0, 40) 5 3 3 /\ apart (0, 20) 3 3 3 (0, 40) 5 3 3 /\
  exists ks, ex_her2k = Runs ks /\ length ks = 24%nat /\
    map (krun ks ex_mem) [(0, 40); (0, 41); (0, 45); (0, 46)] = [(1446, 0); (41, -1); (1623, -72); (1800, 0)].
Proof.
  split; [|split].
  - intros l (i & j & H1 & H2 & ->) (i' & j' & H1' & H2' & E). injection E as E. cbn in E. lia.
  - intros l (i & j & H1 & H2 & ->) (i' & j' & H1' & H2' & E). injection E as E. cbn in E. lia.
  - eexists. split; [reflexivity|]. split; vm_compute; reflexivity.
Qed.
