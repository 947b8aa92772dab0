(* C36: systems with a general matrix, from its LU factorization. *)
From Coq Require Import ZArith List Bool Lia.
From Verif Require Import Base NumModel NumInstances FieldModel FieldInstances
  TaskModel TaskSpec DescModel DescSpec MatModel MatSpec DriverModel DriverSpec TriModel TriSpec
  SwpModel SwpSpec GetrfModel GetrfSpec GetrsModel GetrsProofs.
Import ListNotations.
Open Scope Z_scope.

(* For legal arguments, every tile size and every schedule: if the array at pA holds factors L
   and U (U without zeros on its diagonal) and ipiv interchanges with P*A0 = L*U, plasma_zgetrs
   returns success and replaces B by X with op(A0)*X = B, op being the identity, the
   transposition or the conjugate transposition. Nothing else changes. *)
Theorem C36_zgetrs_solves : forall (F : fields) (A0 : Z -> Z -> F) nb trans n nrhs pA lda pI ipiv pB ldb bA bB (M : mem F),
  0 < nb -> trans = PlasmaNoTrans \/ trans = PlasmaTrans \/ trans = PlasmaConjTrans ->
  0 <= n -> 0 <= nrhs -> Z.max 1 n <= lda -> Z.max 1 n <= ldb ->
  NoDup [bA; bB] -> (forall b, In b [fst pA; fst pB] -> ~ In b [bA; bB]) ->
  apart pA lda n n pB ldb n nrhs ->
  legal_pivots ipiv n ->
  (forall i, 0 <= i < n -> factor_U (ul M pA lda) i i <> n0) ->
  (forall i j, in_matrix n n i j ->
     A0 (source (interchanges ipiv (Z.to_nat n)) i) j
     = nsum (fun l => nmul (factor_L (ul M pA lda) i l) (factor_U (ul M pA lda) l j)) 0 n) ->
  driver_ensures (zgetrs nb trans n nrhs pA lda pI ipiv pB ldb bA bB) M (fun M' =>
    (forall i j, in_matrix n nrhs i j ->
       nsum (fun l => nmul (op_of trans A0 i l) (ul M' pB ldb l j)) 0 n = ul M pB ldb i j) /\
    (forall l, ~ In (fst l) [bA; bB] -> ~ in_user pB ldb n nrhs l -> M' l = M l)).
Proof. exact zgetrs_main. Qed.
Print Assumptions C36_zgetrs_solves.

(* A case with three tile rows: A0 with rows (1, 2, i), (4i, 0, 3), (2, 1+i, 0) and the factors
   of its rows in the order 3, 1, 2. *)
Definition gs_X (i j : Z) : QI_fields :=
  nth (Z.to_nat (3 * i + j)) [qi 2 0; qi 1 1; qi 0 0; nmul (finv (qi 2 0)) (qi 1 0); nmul (finv (qi 2 0)) (qi 3 (-1)); qi 0 1;
     qi 0 2; nmul (qi 2 (-2)) (finv (nmul (finv (qi 2 0)) (qi 3 (-1)))); nsub (qi 3 0) (nmul (qi 0 1) (nmul (qi 2 (-2)) (finv (nmul (finv (qi 2 0)) (qi 3 (-1))))))] n0.
Definition gs_A (i j : Z) : QI_fields :=
  nth (Z.to_nat (3 * i + j)) [qi 1 0; qi 2 0; qi 0 1; qi 0 4; qi 0 0; qi 3 0; qi 2 0; qi 1 1; qi 0 0] n0.
Definition gs_ipiv (i : Z) : Z := nth (Z.to_nat i) [3; 3; 3] 0.
Definition gs_sol (i j : Z) : QI_fields := qi (i + 1) (j - i).
Definition gs_B (trans i j : Z) : QI_fields := nsum (fun l => nmul (op_of trans gs_A i l) (gs_sol l j)) 0 3.
(* block 0 holds the factors, block 1 the right hand sides *)
Definition gs_mem (trans : Z) (l : loc) : QI_fields :=
  let j := snd l / 4 in let i := snd l mod 4 in
  if 3 <=? i then qi 7 0 else if fst l =? 1 then gs_B trans i j else gs_X i j.

Example C36_zgetrs_case : forall trans, In trans [PlasmaNoTrans; PlasmaTrans; PlasmaConjTrans] ->
  legal_pivots gs_ipiv 3 /\
  (forall i, 0 <= i < 3 -> factor_U (ul (gs_mem trans) (0, 0) 4) i i <> n0) /\
  (forall i j, in_matrix 3 3 i j ->
     gs_A (source (interchanges gs_ipiv 3) i) j
     = nsum (fun l => nmul (factor_L (ul (gs_mem trans) (0, 0) 4) i l) (factor_U (ul (gs_mem trans) (0, 0) 4) l j)) 0 3) /\
  exists ks, zgetrs 1 trans 3 2 (0, 0) 4 (2, 0) gs_ipiv (1, 0) 4 5 6 = Runs ks /\
    forallb (fun i => forallb (fun j => neqb (krun ks (gs_mem trans) (1, i + 4 * j)) (gs_sol i j))
      (zrange 0 2)) (zrange 0 3) = true.
Proof.
  intros trans HT. split; [|split; [|split]].
  - intros i Hi. assert (Ei : i = 0 \/ i = 1 \/ i = 2) by lia. destruct Ei as [->|[->| ->]]; vm_compute; split; discriminate.
  - intros i Hi E. apply (proj2 (neqb_eq QI_fields _ _)) in E.
    assert (Ei : i = 0 \/ i = 1 \/ i = 2) by lia. destruct Ei as [->|[->| ->]]; vm_compute in E; discriminate.
  - intros i j [Hi Hj]. assert (Ei : i = 0 \/ i = 1 \/ i = 2) by lia. assert (Ej : j = 0 \/ j = 1 \/ j = 2) by lia.
    apply (neqb_eq QI_fields).
    destruct Ei as [->|[->| ->]]; destruct Ej as [->|[->| ->]]; vm_compute; reflexivity.
  - destruct HT as [<-|[<-|[<-|[]]]]; (eexists; split; [reflexivity|vm_compute; reflexivity]).
Qed.
