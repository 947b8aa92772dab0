(* C53: the inverse of a general matrix from its LU factorization. *)
From Coq Require Import ZArith List Bool Lia.
From Verif Require Import Base NumModel NumInstances FieldModel FieldInstances
  TaskModel TaskSpec GuardModel GuardSpec DescModel DescSpec MatModel MatSpec DriverModel DriverSpec PotrfModel PotrfSpec
  TriModel TriSpec InvSpec SwpModel SwpSpec GetrfModel GetrfSpec GuardProofs GuardProofs2 GetriModel GetriDriverProofs.
Import ListNotations.
Open Scope Z_scope.

(* For legal arguments, every tile size and every schedule: if the array at pA holds factors L
   and U and ipiv interchanges with P*A0 = L*U, plasma_zgetri returns success exactly if U has
   no zero on its diagonal, and then the array holds the inverse of A0. Otherwise it returns
   the number of a zero diagonal element, the first one in its tile. Nothing outside the n x n
   part of the array changes. *)
Theorem C53_zgetri_inverts : forall (F : fields) (A0 : Z -> Z -> F) nb n pA lda pI ipiv bA bW (M : mem F),
  @n1 F <> n0 -> 0 < nb -> 0 <= n -> Z.max 1 n <= lda ->
  bA <> bW -> fst pA <> bA -> fst pA <> bW -> legal_pivots ipiv n ->
  (forall i j, in_matrix n n i j ->
     A0 (source (interchanges ipiv (Z.to_nat n)) i) j
     = nsum (fun l => nmul (factor_L (ul M pA lda) i l) (factor_U (ul M pA lda) l j)) 0 n) ->
  gdriver_ensures (zgetri nb n pA lda pI ipiv bA bW) M (fun M' st =>
    (st = 0 <-> forall i, 0 <= i < n -> factor_U (ul M pA lda) i i <> n0) /\
    (st = 0 -> is_inverse n A0 (ul M' pA lda)) /\
    (st <> 0 -> 0 < st <= n /\ factor_U (ul M pA lda) (st - 1) (st - 1) = n0 /\
      forall i, (st - 1) / nb * nb <= i < st - 1 -> factor_U (ul M pA lda) i i <> n0) /\
    (forall l, fst l <> bA -> fst l <> bW -> ~ in_user pA lda n n l -> M' l = M l)).
Proof. intros F. exact zgetri_main. Qed.
Print Assumptions C53_zgetri_inverts.

(* The auxiliary routine: if the upper triangle of the array holds the inverse of U and the
   strictly lower triangle the factor L, plasma_zgetri_aux returns success and leaves the
   inverse of L*U. *)
Theorem C53_zgetri_aux_inverts : forall (F : fields) (U : Z -> Z -> F) nb n pA lda bA bW (M : mem F),
  @n1 F <> n0 -> 0 < nb -> 0 <= n -> Z.max 1 n <= lda ->
  bA <> bW -> fst pA <> bA -> fst pA <> bW ->
  is_inverse n U (factor_U (ul M pA lda)) ->
  driver_ensures (zgetri_aux nb n pA lda bA bW) M (fun M' =>
    is_inverse n (fun i j => nsum (fun l => nmul (factor_L (ul M pA lda) i l) (U l j)) 0 n) (ul M' pA lda) /\
    (forall l, fst l <> bA -> fst l <> bW -> ~ in_user pA lda n n l -> M' l = M l)).
Proof. intros F. exact zgetri_aux_main. Qed.
Print Assumptions C53_zgetri_aux_inverts.

(* A case with three tile rows: A0 with rows (1, 2, i), (4i, 0, 3), (2, 1+i, 0) and the factors
   of its rows in the order 3, 1, 2. *)
Definition gi_X (i j : Z) : QI_fields :=
  nth (Z.to_nat (3 * i + j)) [qi 2 0; qi 1 1; qi 0 0; nmul (finv (qi 2 0)) (qi 1 0); nmul (finv (qi 2 0)) (qi 3 (-1)); qi 0 1;
     qi 0 2; nmul (qi 2 (-2)) (finv (nmul (finv (qi 2 0)) (qi 3 (-1)))); nsub (qi 3 0) (nmul (qi 0 1) (nmul (qi 2 (-2)) (finv (nmul (finv (qi 2 0)) (qi 3 (-1))))))] n0.
Definition gi_A (i j : Z) : QI_fields :=
  nth (Z.to_nat (3 * i + j)) [qi 1 0; qi 2 0; qi 0 1; qi 0 4; qi 0 0; qi 3 0; qi 2 0; qi 1 1; qi 0 0] n0.
Definition gi_ipiv (i : Z) : Z := nth (Z.to_nat i) [3; 3; 3] 0.
(* block 0 holds the factors; with z, the second pivot is replaced by zero *)
Definition gi_mem (z : bool) (l : loc) : QI_fields :=
  let j := snd l / 4 in let i := snd l mod 4 in
  if 3 <=? i then qi 7 0 else if z && (i =? 1) && (j =? 1) then n0 else gi_X i j.
Definition gi_one (X Y : Z -> Z -> QI_fields) : bool :=
  forallb (fun i => forallb (fun j => neqb (nsum (fun l => nmul (X i l) (Y l j)) 0 3) (if i =? j then n1 else n0))
    (zrange 0 3)) (zrange 0 3).

Example C53_zgetri_case : forall nb, In nb [1; 2; 3] ->
  legal_pivots gi_ipiv 3 /\
  (forall i j, in_matrix 3 3 i j ->
     gi_A (source (interchanges gi_ipiv 3) i) j
     = nsum (fun l => nmul (factor_L (ul (gi_mem false) (0, 0) 4) i l) (factor_U (ul (gi_mem false) (0, 0) 4) l j)) 0 3) /\
  exists ks, zgetri nb 3 (0, 0) 4 (2, 0) gi_ipiv 5 6 = GRuns ks /\
    (let R := ul (krun (map ck_task ks) (gi_mem false)) (0, 0) 4 in gi_one gi_A R && gi_one R gi_A = true) /\
    first_code (kcodes ks (gi_mem true)) = 2.
Proof.
  intros nb HB. split; [|split].
  - intros i Hi. assert (Ei : i = 0 \/ i = 1 \/ i = 2) by lia. destruct Ei as [->|[->| ->]]; vm_compute; split; discriminate.
  - intros i j [Hi Hj]. assert (Ei : i = 0 \/ i = 1 \/ i = 2) by lia. assert (Ej : j = 0 \/ j = 1 \/ j = 2) by lia.
    apply (neqb_eq QI_fields).
    destruct Ei as [->|[->| ->]]; destruct Ej as [->|[->| ->]]; vm_compute; reflexivity.
  - destruct HB as [<-|[<-|[<-|[]]]]; (eexists; split; [reflexivity|split; vm_compute; reflexivity]).
Qed.

(* the auxiliary routine: L with 2, 3, i below its diagonal, the inverse of U given *)
Definition ga_mem (l : loc) : QI_fields :=
  let j := snd l / 4 in let i := snd l mod 4 in
  if i =? j then n1 else if j <? i then qi (i + 1) j else if j =? i + 1 then qi 0 (-1) else n0.
(* the inverse of the upper triangle with ones on its diagonal and -i next to it *)
Definition ga_U (i j : Z) : QI_fields :=
  if i =? j then n1 else if j =? i + 1 then qi 0 1 else if j =? i + 2 then qi (-1) 0 else n0.

Example C53_zgetri_aux_case :
  is_inverse 3 ga_U (factor_U (ul ga_mem (0, 0) 4)) /\
  exists ks, zgetri_aux 2 3 (0, 0) 4 5 6 = Runs ks /\
    gi_one (fun i j => nsum (fun l => nmul (factor_L (ul ga_mem (0, 0) 4) i l) (ga_U l j)) 0 3)
      (ul (krun ks ga_mem) (0, 0) 4) = true.
Proof.
  split.
  - intros i j [Hi Hj]. assert (Ei : i = 0 \/ i = 1 \/ i = 2) by lia. assert (Ej : j = 0 \/ j = 1 \/ j = 2) by lia.
    split; apply (neqb_eq QI_fields);
      destruct Ei as [->|[->| ->]]; destruct Ej as [->|[->| ->]]; vm_compute; reflexivity.
  - eexists. split; [reflexivity|vm_compute; reflexivity].
Qed.
