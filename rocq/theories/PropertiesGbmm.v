(* C58: multiplication with a band matrix. *)
From Coq Require Import ZArith List Bool Lia.
From Verif Require Import Base NumModel NumInstances TaskModel TaskSpec DescModel DescSpec MatModel MatSpec
  DriverModel DriverSpec GbmmModel GbmmDriverProofs GbmmRefProofs.
Import ListNotations.
Open Scope Z_scope.

(* A (am-by-an, in full column-major storage) is zero more than kl elements below and more than ku
   elements above the diagonal. For every tile size nb and every schedule:
   C := alpha*op(A)*op(B)+beta*C, and no other user memory changes. Partial: the documented domain
   has no bounds on kl and ku and admits m = 0 and k = 0, see the refutations below. *)
Theorem C58_zgbmm_partial : forall (N : numbers) nb ta tb m n k kl ku (alpha : N) pA lda pB ldb beta pC ldc bA bB bC M,
  0 < nb -> valid_trans ta -> valid_trans tb -> 0 <= n ->
  0 <= kl < m -> 0 <= ku < k ->
  let am := if ta =? PlasmaNoTrans then m else k in
  let an := if ta =? PlasmaNoTrans then k else m in
  let bm := if tb =? PlasmaNoTrans then k else n in
  let bn := if tb =? PlasmaNoTrans then n else k in
  kl < am -> ku < an ->
  Z.max 1 am <= lda -> Z.max 1 bm <= ldb -> Z.max 1 m <= ldc ->
  NoDup [bA; bB; bC] ->
  (forall b, In b [fst pA; fst pB; fst pC] -> ~ In b [bA; bB; bC]) ->
  apart pA lda am an pC ldc m n -> apart pB ldb bm bn pC ldc m n ->
  (forall i j, in_matrix am an i j -> kl < i - j \/ ku < j - i -> ul M pA lda i j = n0) ->
  driver_ensures (zgbmm nb ta tb m n k kl ku alpha pA lda pB ldb beta pC ldc bA bB bC) M (fun M' =>
    (forall i j, in_matrix m n i j ->
       ul M' pC ldc i j
       = nadd (nmul alpha (nsum (fun l => nmul (op_ul M ta pA lda i l) (op_ul M tb pB ldb l j)) 0 k))
              (nmul beta (ul M pC ldc i j))) /\
    (forall l, ~ In (fst l) [bA; bB; bC] -> ~ in_user pC ldc m n l -> M' l = M l)).
Proof. exact zgbmm_main. Qed.
Print Assumptions C58_zgbmm_partial.

(* 5 x 2 := 5 x 7 band matrix (1 below, 2 above the diagonal) times 7 x 2 in 2 x 2 tiles, A
   transposed: tiles (0,2), (0,3), (1,3), (2,0) of op(A) are left out; and the value of one element of the result *)
Definition ex_gb_mem : mem G_numbers := fun l =>
  if fst l =? 0 then
    let i := snd l mod 8 in let j := snd l / 8 in
    if (1 <? i - j) || (2 <? j - i) then (0, 0) else (snd l, 1)
  else (snd l, fst l - 1).
Definition ex_gbmm : driver G_numbers :=
  zgbmm 2 PlasmaTrans PlasmaNoTrans 5 2 7 1 2 ((2, 1) : G_numbers) (0, 0) 8 (4, 0) 7 ((0, 1) : G_numbers)
    (4, 40) 5 1 2 3.
Example C58_case : apart (0, 0) 8 7 5 (4, 40) 5 5 2 /\ apart (4, 0) 7 7 2 (4, 40) 5 5 2 /\
  (forall i j, in_matrix 7 5 i j -> 1 < i - j \/ 2 < j - i -> ul ex_gb_mem (0, 0) 8 i j = n0) /\
  ul ex_gb_mem (0, 0) 8 3 2 <> n0 /\
  exists ks, ex_gbmm = Runs ks /\ length ks = 26%nat /\
    krun ks ex_gb_mem (4, 49)
    = nadd (nmul ((2, 1) : G_numbers) (nsum (fun l => nmul (op_ul ex_gb_mem PlasmaTrans (0, 0) 8 4 l) (op_ul ex_gb_mem PlasmaNoTrans (4, 0) 7 l 1)) 0 7))
           (nmul ((0, 1) : G_numbers) (49, 3)).
Proof.
  split; [|split; [|split; [|split]]].
  - intros l (i & j & H1 & H2 & ->) (i' & j' & H1' & H2' & E). injection E as E1 E2. discriminate E1.
  - intros l (i & j & H1 & H2 & ->) (i' & j' & H1' & H2' & E). injection E as E. cbn in E. lia.
  - intros i j [Hi Hj] H. unfold ul, ex_gb_mem. cbn [fst snd at_]. 
    replace (0 + i + j * 8) with (i + j * 8) by lia. rewrite Z.mod_add, Z.div_add, Z.mod_small, Z.div_small by lia.
    rewrite Z.add_0_l. replace ((1 <? i - j) || (2 <? j - i)) with true; [reflexivity|].
    symmetry. rewrite orb_true_iff, !Z.ltb_lt. exact H.
  - discriminate.
  - eexists. split; [reflexivity|]. split; [reflexivity|]. vm_compute. reflexivity.
Qed.

(* Documented as legal: k >= 0, and the formula is C := beta*C for k = 0. The code refuses every
   such call, because no ku satisfies 0 <= ku <= k-1. *)
Theorem C58_zgbmm_empty_sum_refuted : exists k, 0 <= k /\
  forall (N : numbers) nb ta tb m n kl ku (alpha : N) pA lda pB ldb beta pC ldc bA bB bC M Q,
  ~ driver_ensures (zgbmm nb ta tb m n k kl ku alpha pA lda pB ldb beta pC ldc bA bB bC) M Q.
Proof. exact zgbmm_k0. Qed.
Print Assumptions C58_zgbmm_empty_sum_refuted.

(* Documented as legal: m >= 0. The code refuses every call with m = 0, plasma_zgemm accepts them. *)
Theorem C58_zgbmm_empty_result_refuted : exists m, 0 <= m /\
  forall (N : numbers) nb ta tb n k kl ku (alpha : N) pA lda pB ldb beta pC ldc bA bB bC M Q,
  ~ driver_ensures (zgbmm nb ta tb m n k kl ku alpha pA lda pB ldb beta pC ldc bA bB bC) M Q.
Proof. exact zgbmm_m0. Qed.
Print Assumptions C58_zgbmm_empty_result_refuted.

(* kl and ku are the bandwidths of A, which is k-by-m when transposed; the code compares them with
   the size of op(A). A 4-by-2 matrix A with three subdiagonals is refused with -6. *)
Theorem C58_zgbmm_transposed_refuted : exists nb m n k kl ku lda ldb ldc,
  0 < nb /\ 0 <= m /\ 0 <= n /\ 0 <= kl < k /\ 0 <= ku < m /\ k <= lda /\ k <= ldb /\ m <= ldc /\
  forall (N : numbers) (alpha : N) pA pB beta pC bA bB bC M Q,
  ~ driver_ensures (zgbmm nb PlasmaTrans PlasmaNoTrans m n k kl ku alpha pA lda pB ldb beta pC ldc bA bB bC) M Q.
Proof. exact zgbmm_trans. Qed.
Print Assumptions C58_zgbmm_transposed_refuted.
