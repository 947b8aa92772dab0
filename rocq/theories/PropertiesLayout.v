(* C05, C06: translation between LAPACK and tile layout. *)
From Coq Require Import ZArith List Lia.
From Verif Require Import Base NumModel TaskModel TaskSpec DescModel DescSpec DescDriverModel
  MatModel MatSpec LayoutModel LayoutProofs2.
Import ListNotations.
Open Scope Z_scope.

(* ---------------------------------------------------------------- C05 *)
(* LAPACK to tiles: tile element (i,j) is array element (i,j), nothing outside the tile
   matrix changes; for every schedule of the copy tasks. A may describe a submatrix. *)
Theorem C05_ge2desc : forall V prec mb nb lm ln i0 j0 m n A size pA lda b M,
  0 <= i0 -> 0 <= j0 -> general_create prec mb nb lm ln i0 j0 m n = CrOk A size -> fst pA <> b ->
  region_ensures (@pzge2desc V pA lda b A) M (fun M' =>
    (forall i j, in_matrix m n i j -> el M' b A i j = ul M pA lda i j) /\
    (forall l, fst l <> b -> M' l = M l)).
Proof. exact ge2desc_main. Qed.
Print Assumptions C05_ge2desc.

(* tiles to LAPACK: exactly the m x n elements of the array change; its padding, the tile
   matrix and all other memory do not *)
Theorem C05_desc2ge : forall V prec mb nb lm ln i0 j0 m n A size pA lda b M,
  0 <= i0 -> 0 <= j0 -> general_create prec mb nb lm ln i0 j0 m n = CrOk A size -> fst pA <> b ->
  m <= lda ->
  region_ensures (@pzdesc2ge V b A pA lda) M (fun M' =>
    (forall i j, in_matrix m n i j -> ul M' pA lda i j = el M b A i j) /\
    (forall l, ~ in_user pA lda m n l -> M' l = M l)).
Proof. exact desc2ge_main. Qed.
Print Assumptions C05_desc2ge.

(* both in one region, as the drivers submit them: all user memory is as before *)
Theorem C05_round_trip : forall V prec mb nb lm ln i0 j0 m n A size pA lda b M,
  0 <= i0 -> 0 <= j0 -> general_create prec mb nb lm ln i0 j0 m n = CrOk A size -> fst pA <> b ->
  m <= lda ->
  region_ensures (@pzge2desc V pA lda b A ++ pzdesc2ge b A pA lda) M
    (fun M' => forall l, fst l <> b -> M' l = M l).
Proof. exact ge_round_trip_main. Qed.
Print Assumptions C05_round_trip.

Example C05_case : exists A,
  general_create PlasmaComplexDouble 3 2 7 5 3 2 4 3 = CrOk A 35 /\ in_matrix 4 3 3 2 /\
  4 <= 6 /\ length (@pzge2desc Z (0, 10) 6 1 A) = 4%nat /\
  krun (@pzge2desc Z (0, 10) 6 1 A) (fun l => snd l) (1, elem_off A 3 2) = 10 + 3 + 2 * 6.
Proof. eexists. split; [reflexivity|]. split; [unfold in_matrix; lia|]. split; [lia|]. split; reflexivity. Qed.

(* ---------------------------------------------------------------- C06 *)
(* selected triangle to packed tiles: every element of the stored tiles is the array's *)
Theorem C06_tr2desc : forall V upper nb n A size pA lda b M,
  tr_create (if upper : bool then PlasmaUpper else PlasmaLower) nb n = CrOk A size -> fst pA <> b ->
  region_ensures (@pztr2desc V pA lda b A) M (fun M' =>
    (forall i j, in_stored_tile upper nb n i j -> el M' b A i j = ul M pA lda i j) /\
    (forall l, fst l <> b -> M' l = M l)).
Proof. exact tr2desc_main. Qed.
Print Assumptions C06_tr2desc.

(* packed tiles to array: only elements of the stored tiles change *)
Theorem C06_desc2tr : forall V upper nb n A size pA lda b M,
  tr_create (if upper : bool then PlasmaUpper else PlasmaLower) nb n = CrOk A size -> fst pA <> b ->
  n <= lda ->
  region_ensures (@pzdesc2tr V b A pA lda) M (fun M' =>
    (forall i j, in_stored_tile upper nb n i j -> ul M' pA lda i j = el M b A i j) /\
    (forall l, (forall i j, in_stored_tile upper nb n i j -> l <> (fst pA, snd pA + i + j * lda)) ->
       M' l = M l)).
Proof. exact desc2tr_main. Qed.
Print Assumptions C06_desc2tr.

(* there and back: all user memory, the other triangle and the padding included, is as
   before *)
Theorem C06_round_trip : forall V upper nb n A size pA lda b M,
  tr_create (if upper : bool then PlasmaUpper else PlasmaLower) nb n = CrOk A size -> fst pA <> b ->
  n <= lda ->
  region_ensures (@pztr2desc V pA lda b A ++ pzdesc2tr b A pA lda) M
    (fun M' => forall l, fst l <> b -> M' l = M l).
Proof. exact tr_round_trip_main. Qed.
Print Assumptions C06_round_trip.

Example C06_case : exists A,
  tr_create PlasmaLower 2 5 = CrOk A 17 /\ in_stored_tile false 2 5 4 1 /\
  length (@pztr2desc Z (0, 0) 5 1 A) = 6%nat /\
  krun (@pztr2desc Z (0, 0) 5 1 A) (fun l => snd l) (1, elem_off A 4 1) = 4 + 1 * 5.
Proof.
  eexists. split; [reflexivity|]. split; [|split; reflexivity].
  unfold in_stored_tile. split; [lia|]. split; [lia|]. cbv. discriminate.
Qed.

(* The whole of a diagonal tile is written back, not only the selected triangle: with tile
   contents other than the user's, elements on the other side of the diagonal change. *)
Theorem C06_other_triangle_refuted : exists upper nb n A size pA lda b M,
  tr_create (if upper : bool then PlasmaUpper else PlasmaLower) nb n = CrOk A size /\
  fst pA <> b /\ n <= lda /\
  exists i j, 0 <= i < n /\ 0 <= j < n /\ (if upper then j < i else i < j) /\
    ul (krun (@pzdesc2tr Z b A pA lda) M) pA lda i j <> ul M pA lda i j.
Proof. exact other_triangle_refuted. Qed.
Print Assumptions C06_other_triangle_refuted.
