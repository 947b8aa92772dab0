(* C37: inverses of triangular matrices, and of Hermitian positive definite ones. *)
From Coq Require Import ZArith List Bool Lia.
From Verif Require Import Base NumModel NumInstances FieldModel FieldInstances RootInstances
  TaskModel TaskSpec GuardModel GuardSpec DescModel DescSpec MatModel MatSpec DriverModel DriverSpec TriModel TriSpec
  PotrfModel PotrfSpec InvSpec TrtriModel TrtriDriverProofs TrtriRaceProofs InvDriverProofs InvDriverProofs2 InvDriverProofs3.
Import ListNotations.
Open Scope Z_scope.

(* For legal arguments, every tile size and every schedule: with the triangular matrix S stored
   at pA, plasma_ztrtri returns zero exactly if no diagonal element of S is zero, and then the
   same triangle of the array holds the inverse of S; the other triangle (and the diagonal of a
   unit triangular matrix) and everything else keep their contents. A nonzero return value i is
   positive, at most n, and names a zero diagonal element; those before it in the same tile are
   not zero. *)
Theorem C37_ztrtri_inverts : forall (F : fields) (S : Z -> Z -> F) nb uplo diag n pA lda bA (M : mem F), @n1 F <> n0 ->
  0 < nb -> valid_uplo uplo -> valid_diag diag -> 0 <= n -> Z.max 1 n <= lda -> fst pA <> bA ->
  is_triangle M uplo diag pA lda n S ->
  gdriver_ensures (ztrtri nb uplo diag n pA lda bA) M (fun M' st =>
    (st = 0 <-> forall i, 0 <= i < n -> S i i <> n0) /\
    (st = 0 -> exists X, is_triangle M' uplo diag pA lda n X /\ is_inverse n S X /\
      forall l, fst l <> bA -> ~ in_stored_triangle uplo diag pA lda n l -> M' l = M l) /\
    (st <> 0 -> 0 < st <= n /\ S (st - 1) (st - 1) = n0 /\
      forall i, (st - 1) / nb * nb <= i < st - 1 -> S i i <> n0) /\
    (forall l, fst l <> bA -> ~ in_user pA lda n n l -> M' l = M l)).
Proof. exact @ztrtri_main. Qed.
Print Assumptions C37_ztrtri_inverts.

(* LAPACK reports the first zero on the diagonal. plasma_ztrtri does not on every schedule:
   the tasks that test different diagonal tiles are not ordered. *)
Theorem C37_ztrtri_first_zero_refuted : exists nb uplo diag n pA lda bA M (S : Z -> Z -> QI_fields),
  0 < nb /\ valid_uplo uplo /\ valid_diag diag /\ 0 <= n /\ Z.max 1 n <= lda /\ fst pA <> bA /\
  is_triangle M uplo diag pA lda n S /\
  ~ gdriver_ensures (ztrtri nb uplo diag n pA lda bA) M (fun _ st =>
      st <> 0 -> forall i, 0 <= i < st - 1 -> S i i <> n0).
Proof. exact ztrtri_first_zero. Qed.
Print Assumptions C37_ztrtri_first_zero_refuted.

(* A case with two tile rows, the second of one row: the lower triangular matrix with rows
   (2), (i, 1+i), (3, 4, 5) stored in its triangle, its transpose in the other. *)
Definition iv_S (i j : Z) : QI_fields :=
  if j <=? i then nth (Z.to_nat (i * (i + 1) / 2 + j)) [qi 2 0; qi 0 1; qi 1 1; qi 3 0; qi 4 0; qi 5 0] n0 else n0.
Definition iv_op (uplo i j : Z) : QI_fields := if uplo =? PlasmaLower then iv_S i j else iv_S j i.
Definition iv_mem (l : loc) : QI_fields :=
  let j := snd l / 4 in let i := snd l mod 4 in
  if (3 <=? i) || negb (fst l =? 0) then qi 7 0 else if j <=? i then iv_S i j else iv_S j i.
(* the triangular matrix with a one on the diagonal *)
Definition iv_tri (uplo diag i j : Z) : QI_fields :=
  if (i =? j) && (diag =? PlasmaUnit) then n1 else iv_op uplo i j.
Definition iv_read (uplo diag : Z) (M : mem QI_fields) (i j : Z) : QI_fields :=
  if (i =? j) && (diag =? PlasmaUnit) then n1
  else if if uplo =? PlasmaLower then j <=? i else i <=? j then ul M (0, 0) 4 i j else n0.

Example C37_ztrtri_case : forall uplo diag, In uplo [PlasmaLower; PlasmaUpper] -> In diag [PlasmaUnit; PlasmaNonUnit] ->
  is_triangle iv_mem uplo diag (0, 0) 4 3 (iv_tri uplo diag) /\
  (forall i, 0 <= i < 3 -> iv_tri uplo diag i i <> n0) /\
  exists ks, ztrtri 2 uplo diag 3 (0, 0) 4 1 = GRuns ks /\
    let M' := krun (map ck_task ks) iv_mem in
    forallb (fun i => forallb (fun j =>
      neqb (nsum (fun l => nmul (iv_tri uplo diag i l) (iv_read uplo diag M' l j)) 0 3) (if i =? j then n1 else n0))
      (zrange 0 3)) (zrange 0 3) = true.
Proof.
  intros uplo diag Hu Hd. split; [|split].
  - intros i j [Hi Hj]. assert (Ei : i = 0 \/ i = 1 \/ i = 2) by lia. assert (Ej : j = 0 \/ j = 1 \/ j = 2) by lia.
    destruct Hu as [<-|[<-|[]]]; destruct Hd as [<-|[<-|[]]];
    destruct Ei as [->|[->| ->]]; destruct Ej as [->|[->| ->]];
    (repeat split; intros;
     first [reflexivity
           |exfalso; match goal with H : PlasmaUnit = PlasmaNonUnit |- _ => discriminate H
                     | H : PlasmaNonUnit = PlasmaUnit |- _ => discriminate H | H : _ = _ :> Z |- _ => discriminate H end
           |exfalso; match goal with H : _ \/ _ |- _ => destruct H as [H|H]; [apply H; reflexivity|discriminate H] end
           |exfalso; match goal with H : selects _ _ _ |- _ =>
              unfold selects in H; destruct H as [[H1 H2]|[H1 H2]]; first [discriminate H1|lia] end
           |exfalso; match goal with H : ~ selects _ _ _ |- _ => apply H; first [left; split; [reflexivity|lia]|right; split; [reflexivity|lia]] end]).
  - intros i Hi E. apply (proj2 (neqb_eq QI_fields _ _)) in E. assert (Ei : i = 0 \/ i = 1 \/ i = 2) by lia.
    destruct Hu as [<-|[<-|[]]]; destruct Hd as [<-|[<-|[]]];
    destruct Ei as [->|[->| ->]]; vm_compute in E; discriminate.
  - destruct Hu as [<-|[<-|[]]]; destruct Hd as [<-|[<-|[]]]; (eexists; split; [reflexivity|lazy; reflexivity]).
Qed.

(* Illegal arguments are reported by their position, and nothing is touched. *)
Example C37_ztrtri_arguments :
  ztrtri (F := QI_fields) 2 0 PlasmaUnit 3 (0, 0) 4 1 = GReturns (-1) /\
  ztrtri (F := QI_fields) 2 PlasmaLower 0 3 (0, 0) 4 1 = GReturns (-2) /\
  ztrtri (F := QI_fields) 2 PlasmaLower PlasmaUnit (-1) (0, 0) 4 1 = GReturns (-3) /\
  ztrtri (F := QI_fields) 2 PlasmaLower PlasmaUnit 3 (0, 0) 2 1 = GReturns (-5).
Proof. repeat split. Qed.

(* For legal arguments, every tile size and every schedule: plasma_zlauum replaces the triangle
   uplo of the triangular matrix S, whose diagonal is real as that of a Cholesky factor is, by
   that triangle of S^H*S (lower) or S*S^H (upper), and changes nothing else. rp is the real part. *)
Theorem C37_zlauum_product : forall (F : fields) (rp : F -> F), (forall x, nconj x = x -> rp x = x) ->
  forall (S : Z -> Z -> F) nb uplo n pA lda bA M,
  0 < nb -> valid_uplo uplo -> 0 <= n -> Z.max 1 n <= lda -> fst pA <> bA ->
  is_triangle M uplo PlasmaNonUnit pA lda n S -> (forall i, 0 <= i < n -> nconj (S i i) = S i i) ->
  driver_ensures (zlauum rp nb uplo n pA lda bA) M (fun M' =>
    (forall i j, in_matrix n n i j -> selects uplo i j -> ul M' pA lda i j = reverse_product uplo n S i j) /\
    (forall l, fst l <> bA -> ~ in_triangle uplo pA lda n l -> M' l = M l)).
Proof. exact @zlauum_main. Qed.
Print Assumptions C37_zlauum_product.

(* For legal arguments, every tile size and every schedule: with a triangular matrix S with real
   diagonal stored at pA, plasma_zpotri returns zero exactly if no diagonal element of S is zero,
   and then the triangle holds that of the Hermitian inverse of S*S^H (lower) or S^H*S (upper),
   nothing else being changed. A nonzero return value names a zero diagonal element of S. *)
Theorem C37_zpotri_inverts : forall (F : fields) (rp : F -> F), (forall x, nconj x = x -> rp x = x) ->
  forall (S : Z -> Z -> F) nb uplo n pA lda bA M, @n1 F <> n0 ->
  0 < nb -> valid_uplo uplo -> 0 <= n -> Z.max 1 n <= lda -> fst pA <> bA ->
  is_triangle M uplo PlasmaNonUnit pA lda n S -> (forall i, 0 <= i < n -> nconj (S i i) = S i i) ->
  gdriver_ensures (zpotri rp nb uplo n pA lda bA) M (fun M' st =>
    (st = 0 <-> forall i, 0 <= i < n -> S i i <> n0) /\
    (st = 0 -> exists X, is_hermitian M' uplo pA lda n X /\ is_inverse n (factor_product uplo n S) X /\
      forall l, fst l <> bA -> ~ in_triangle uplo pA lda n l -> M' l = M l) /\
    (st <> 0 -> 0 < st <= n /\ S (st - 1) (st - 1) = n0 /\
      forall i, (st - 1) / nb * nb <= i < st - 1 -> S i i <> n0) /\
    (forall l, fst l <> bA -> ~ in_user pA lda n n l -> M' l = M l)).
Proof. exact @zpotri_main. Qed.
Print Assumptions C37_zpotri_inverts.

(* For legal arguments, every tile size and every schedule: if plasma_zpoinv returns 0, the
   triangle uplo of A holds that of the inverse of the Hermitian matrix S it held on entry, and
   nothing else is changed. Whatever is returned, nothing outside the matrix changed. *)
Theorem C37_zpoinv_inverts : forall (F : fields) (R : roots F) (rp : F -> F) S nb uplo n pA lda bA M,
  (forall x, nconj x = x -> rp x = x) ->
  0 < nb -> valid_uplo uplo -> 0 <= n -> Z.max 1 n <= lda -> fst pA <> bA ->
  is_hermitian M uplo pA lda n S ->
  gdriver_ensures (zpoinv rp R nb uplo n pA lda bA) M (fun M' st =>
    (st = 0 -> (exists X, is_hermitian M' uplo pA lda n X /\ is_inverse n S X) /\
               (forall l, fst l <> bA -> ~ in_triangle uplo pA lda n l -> M' l = M l)) /\
    (forall l, fst l <> bA -> ~ in_user pA lda n n l -> M' l = M l)).
Proof. exact zpoinv_inverts. Qed.
Print Assumptions C37_zpoinv_inverts.

(* If every positive number has a square root, plasma_zpoinv returns 0 when S is positive
   definite and otherwise the order of the smallest leading matrix of S that is not. *)
Theorem C37_zpoinv_status : forall (F : fields) (R : roots F) (rp : F -> F) (P : positivity F) S nb uplo n pA lda bA M,
  (forall x, nconj x = x -> rp x = x) -> has_roots P R ->
  0 < nb -> valid_uplo uplo -> 0 <= n -> Z.max 1 n <= lda -> fst pA <> bA ->
  is_hermitian M uplo pA lda n S ->
  gdriver_ensures (zpoinv rp R nb uplo n pA lda bA) M (fun M' st =>
    (st = 0 /\ pos_def P n S) \/
    (0 < st <= n /\ pos_def P (st - 1) S /\ ~ pos_def P st S)).
Proof. exact zpoinv_status. Qed.
Print Assumptions C37_zpoinv_status.

(* A case with two tile rows: the factor T with rows (2), (1+i, 1), (i, 2, 3), lower triangle
   stored, 7 elsewhere; and the Hermitian matrix T*T^H. *)
Definition iv_T (i j : Z) : QI_fields :=
  nth (Z.to_nat (3 * i + j)) [qi 2 0; qi 0 0; qi 0 0; qi 1 1; qi 1 0; qi 0 0; qi 0 1; qi 2 0; qi 3 0] n0.
Definition iv_H (i j : Z) : QI_fields := nsum (fun l => nmul (iv_T i l) (nconj (iv_T j l))) 0 3.
Definition iv_low (A : Z -> Z -> QI_fields) (l : loc) : QI_fields :=
  let j := snd l / 4 in let i := snd l mod 4 in
  if (fst l =? 0) && (j <=? i) && (i <? 3) then A i j else qi 7 0.
(* the Hermitian matrix stored in the lower triangle of M *)
Definition iv_her (M : mem QI_fields) (i j : Z) : QI_fields :=
  if j <=? i then ul M (0, 0) 4 i j else nconj (ul M (0, 0) 4 j i).

Example C37_zpotri_case :
  is_triangle (iv_low iv_T) PlasmaLower PlasmaNonUnit (0, 0) 4 3 iv_T /\
  (forall i, 0 <= i < 3 -> nconj (iv_T i i) = iv_T i i) /\
  (forall i, 0 <= i < 3 -> iv_T i i <> n0) /\
  exists ks, zpotri qre 2 PlasmaLower 3 (0, 0) 4 1 = GRuns ks /\
    let M' := krun (map ck_task ks) (iv_low iv_T) in
    forallb (fun i => forallb (fun j =>
      neqb (nsum (fun l => nmul (iv_H i l) (iv_her M' l j)) 0 3) (if i =? j then n1 else n0))
      (zrange 0 3)) (zrange 0 3) = true.
Proof.
  split; [|split; [|split]].
  - intros i j [Hi Hj]. assert (Ei : i = 0 \/ i = 1 \/ i = 2) by lia. assert (Ej : j = 0 \/ j = 1 \/ j = 2) by lia.
    split; [|split; [discriminate|]].
    + intros HS _. destruct Ei as [->|[->| ->]]; destruct Ej as [->|[->| ->]];
        try (apply (neqb_eq QI_fields); vm_compute; reflexivity);
        exfalso; destruct HS as [[E _]|[_ E]]; [discriminate|lia|discriminate|lia|discriminate|lia].
    + intros HS. destruct Ei as [->|[->| ->]]; destruct Ej as [->|[->| ->]];
        try (apply (neqb_eq QI_fields); vm_compute; reflexivity);
        exfalso; apply HS; right; split; try reflexivity; lia.
  - intros i Hi. assert (Ei : i = 0 \/ i = 1 \/ i = 2) by lia. destruct Ei as [->|[->| ->]];
      apply (neqb_eq QI_fields); vm_compute; reflexivity.
  - intros i Hi E. apply (proj2 (neqb_eq QI_fields _ _)) in E.
    assert (Ei : i = 0 \/ i = 1 \/ i = 2) by lia. destruct Ei as [->|[->| ->]]; vm_compute in E; discriminate.
  - eexists. split; [reflexivity|]. lazy. reflexivity.
Qed.

Example C37_zlauum_case : exists ks, zlauum qre 2 PlasmaLower 3 (0, 0) 4 1 = Runs ks /\
  forallb (fun i => forallb (fun j => neqb (ul (krun ks (iv_low iv_T)) (0, 0) 4 i j)
    (nsum (fun l => nmul (nconj (iv_T l i)) (iv_T l j)) 0 3)) (zrange 0 (i + 1))) (zrange 0 3) = true.
Proof. eexists. split; [reflexivity|]. lazy. reflexivity. Qed.

Example C37_zpoinv_case :
  is_hermitian (iv_low iv_H) PlasmaLower (0, 0) 4 3 iv_H /\
  exists ks, zpoinv qre QI_roots 2 PlasmaLower 3 (0, 0) 4 1 = GRuns ks /\
    snd (gseq ks (iv_low iv_H)) = 0 /\
    let M' := fst (gseq ks (iv_low iv_H)) in
    forallb (fun i => forallb (fun j =>
      neqb (nsum (fun l => nmul (iv_H i l) (iv_her M' l j)) 0 3) (if i =? j then n1 else n0))
      (zrange 0 3)) (zrange 0 3) = true.
Proof.
  split.
  - split; intros i j [Hi Hj]; [intros HS|];
      assert (Ei : i = 0 \/ i = 1 \/ i = 2) by lia; assert (Ej : j = 0 \/ j = 1 \/ j = 2) by lia;
      (destruct Ei as [->|[->| ->]]; destruct Ej as [->|[->| ->]]);
      try (apply (neqb_eq QI_fields); vm_compute; reflexivity);
      exfalso; destruct HS as [[E _]|[_ E]]; [discriminate|lia|discriminate|lia|discriminate|lia].
  - eexists. split; [reflexivity|]. split; [lazy; reflexivity|]. lazy. reflexivity.
Qed.

Example C37_po_arguments :
  zlauum (F := QI_fields) qre 2 0 3 (0, 0) 4 1 = Returns (-1) /\
  zlauum (F := QI_fields) qre 2 PlasmaLower (-1) (0, 0) 4 1 = Returns (-2) /\
  zlauum (F := QI_fields) qre 2 PlasmaLower 3 (0, 0) 2 1 = Returns (-4) /\
  zpotri (F := QI_fields) qre 2 0 3 (0, 0) 4 1 = GReturns (-1) /\
  zpotri (F := QI_fields) qre 2 PlasmaLower (-1) (0, 0) 4 1 = GReturns (-2) /\
  zpotri (F := QI_fields) qre 2 PlasmaLower 3 (0, 0) 2 1 = GReturns (-4) /\
  zpoinv (F := QI_fields) qre QI_roots 2 0 3 (0, 0) 4 1 = GReturns (-1) /\
  zpoinv (F := QI_fields) qre QI_roots 2 PlasmaLower (-1) (0, 0) 4 1 = GReturns (-2) /\
  zpoinv (F := QI_fields) qre QI_roots 2 PlasmaLower 3 (0, 0) 2 1 = GReturns (-4).
Proof. repeat split. Qed.
