(* C65: the single precision matrix that plasma_zcgbsv factors. *)
From Coq Require Import ZArith List Bool Lia.
From Verif Require Import Base NumModel NumInstances FieldModel FieldInstances
  TaskModel TaskSpec DescModel DescSpec DescDriverModel MatModel MatSpec GuardModel GuardSpec
  GetrfModel GetrfInstances GbtrfModel LagModel LagBandModel LagBandSpec GuardProofs LagBandDriverProofs.
Import ListNotations.
Open Scope Z_scope.

(* For every tile size, shape, band and schedule: plasma_pzlag2c on band matrices returns 0 if every
   element in a tile near the band is in the range of single precision and 1 otherwise. In the first
   case all these elements are converted. Nothing else changes. *)
Theorem C65_band_conversion : forall (V : Type) (narrow : V -> V) (fits : V -> bool) nb m n kl ku A size bA bS (M : mem V),
  0 <= kl -> 0 <= ku -> gb_create nb m n kl ku = CrOk A size -> bA <> bS ->
  gregion_ensures (pzlag2c_band narrow fits bA A bS A) M (fun M' st =>
    (st = 0 \/ st = 1) /\
    (st = 0 <-> forall i j, in_matrix m n i j -> near_band nb kl ku i j -> fits (el M bA A i j) = true) /\
    (st = 0 -> forall i j, in_matrix m n i j -> near_band nb kl ku i j -> el M' bS A i j = narrow (el M bA A i j)) /\
    (forall l, (forall i j, in_matrix m n i j -> near_band nb kl ku i j -> l <> (bS, elem_off A i j)) -> M' l = M l)).
Proof. exact band_conversion. Qed.
Print Assumptions C65_band_conversion.

(* The conversion back covers the same elements and cannot fail. *)
Theorem C65_band_conversion_back : forall (V : Type) (widen : V -> V) nb m n kl ku A size bS bA (M : mem V),
  0 <= kl -> 0 <= ku -> gb_create nb m n kl ku = CrOk A size -> bS <> bA ->
  region_ensures (pclag2z_band widen bS A bA A) M (fun M' =>
    (forall i j, in_matrix m n i j -> near_band nb kl ku i j -> el M' bA A i j = widen (el M bS A i j)) /\
    (forall l, (forall i j, in_matrix m n i j -> near_band nb kl ku i j -> l <> (bA, elem_off A i j)) -> M' l = M l)).
Proof. exact band_conversion_back. Qed.
Print Assumptions C65_band_conversion_back.

(* Every element of the band is in such a tile. *)
Theorem C65_band_is_near : forall nb kl ku i j, 0 < nb -> 0 <= kl -> 0 <= ku -> i - j <= kl -> j - i <= ku ->
  near_band nb kl ku i j.
Proof. exact band_is_near. Qed.
Print Assumptions C65_band_is_near.

(* If the fill-in needs no more tiles than the upper band, the factorization reads only elements
   that have been converted. *)
Theorem C65_used_is_converted : forall (F : fields) (bigger : F -> F -> bool) nb n kl ku A size b pI ib mpt,
  0 <= kl -> 0 <= ku -> gb_create nb n n kl ku = CrOk A size -> fst pI <> b ->
  (ku + kl + nb - 1) / nb = (ku + nb - 1) / nb ->
  forall t l, In t (pzgbtrf bigger b A pI ib mpt) -> k_reads (ck_task t) l -> fst l = b ->
  exists i j, in_matrix n n i j /\ near_band nb kl ku i j /\ l = (b, elem_off A i j).
Proof. exact converted_used. Qed.
Print Assumptions C65_used_is_converted.

(* If it needs more and the matrix has them, some task reads an element that has not. *)
Theorem C65_unconverted_is_used : forall (F : fields) (bigger : F -> F -> bool) nb n kl ku A size b pI ib mpt,
  0 <= kl -> 0 <= ku -> gb_create nb n n kl ku = CrOk A size ->
  (ku + nb - 1) / nb < (ku + kl + nb - 1) / nb -> (ku + kl + nb - 1) / nb * nb < n ->
  exists t i j, In t (pzgbtrf bigger b A pI ib mpt) /\ in_matrix n n i j /\ ~ near_band nb kl ku i j /\
    k_reads (ck_task t) (b, elem_off A i j).
Proof. exact unconverted_used. Qed.
Print Assumptions C65_unconverted_is_used.

(* The tiles that take the fill-in of the factorization are not among them, and nothing else has
   given them a value: an element of the factors within the band depends on what the memory
   obtained for As happened to contain. *)
Theorem C65_fill_in_refuted : exists (F : fields) (bigger : F -> F -> bool) (narrow : cell F -> cell F) (fits : cell F -> bool)
    nb n kl ku A size bA bS pI ib mpt (M M' : mem (cell F)) i j,
  gb_create nb n n kl ku = CrOk A size /\ NoDup [bA; bS; fst pI] /\
  (forall l, fst l <> bS -> M l = M' l) /\
  snd (gseq (zcgbsv_factor bigger narrow fits bA A bS pI ib mpt) M) = 0 /\
  snd (gseq (zcgbsv_factor bigger narrow fits bA A bS pI ib mpt) M') = 0 /\
  in_matrix n n i j /\ i - j <= kl /\ j - i <= ku /\
  el (fst (gseq (zcgbsv_factor bigger narrow fits bA A bS pI ib mpt) M)) bS A i j
  <> el (fst (gseq (zcgbsv_factor bigger narrow fits bA A bS pI ib mpt) M')) bS A i j.
Proof. exact fill_in_uninitialised. Qed.
Print Assumptions C65_fill_in_refuted.

(* A matrix of order 5 with two subdiagonals and one superdiagonal and tiles of order 2: the
   conversion takes 7 tiles and leaves out tile (0,2), into which the factorization may fill. *)
Definition lb_mem : mem Z := fun l => if fst l =? 1 then snd l * 11 else 7.
Definition lb_narrow (x : Z) : Z := x / 10 * 10.
Definition lb_fits (x : Z) : bool := x <? 10000.
Example C65_case : exists A size, gb_create 2 5 5 2 1 = CrOk A size /\
  (forall i j, in_matrix 5 5 i j -> near_band 2 2 1 i j -> lb_fits (el lb_mem 1 A i j) = true) /\
  length (pzlag2c_band lb_narrow lb_fits 1 A 2 A) = 7%nat /\
  near_band 2 2 1 3 4 /\ ~ near_band 2 2 1 0 4 /\
  el (krun (map ck_task (pzlag2c_band lb_narrow lb_fits 1 A 2 A)) lb_mem) 2 A 3 4 = lb_narrow (el lb_mem 1 A 3 4) /\
  el lb_mem 1 A 3 4 <> lb_narrow (el lb_mem 1 A 3 4) /\
  el (krun (map ck_task (pzlag2c_band lb_narrow lb_fits 1 A 2 A)) lb_mem) 2 A 0 4 = 7 /\
  el (krun (pclag2z_band (fun x => x * 3) 2 A 1 A) lb_mem) 1 A 3 4 = 21.
Proof.
  eexists. eexists. split; [reflexivity|]. split.
  - assert (E5 : forall i, 0 <= i < 5 -> i = 0 \/ i = 1 \/ i = 2 \/ i = 3 \/ i = 4) by (intros; lia).
    intros i j [Hi Hj] _. apply E5 in Hi. apply E5 in Hj.
    destruct Hi as [->|[->|[->|[->| ->]]]]; destruct Hj as [->|[->|[->|[->| ->]]]]; reflexivity.
  - split; [reflexivity|]. split; [vm_compute; split; discriminate|].
    split; [vm_compute; intros [_ H]; apply H; reflexivity|].
    split; [reflexivity|]. split; [vm_compute; discriminate|]. split; reflexivity.
Qed.

(* the hypotheses of C65_band_is_near *)
Example C65_near_case : near_band 2 1 3 1 4 /\ ~ near_band 2 1 3 0 6.
Proof. split; [apply C65_band_is_near; lia|]. vm_compute. intros [_ H]. apply H. reflexivity. Qed.

(* one element too large makes the conversion fail with code 1 *)
Example C65_case_fails : exists A size, gb_create 2 5 5 2 1 = CrOk A size /\
  filter (fun c => negb (c =? 0)) (kcodes (pzlag2c_band lb_narrow lb_fits 1 A 2 A)
    (fun l => if loc_eqb l (1, elem_off A 3 4) then 99999 else lb_mem l)) = [1].
Proof. eexists. eexists. split; [reflexivity|]. vm_compute. reflexivity. Qed.

(* shapes of either kind *)
Example C65_shapes :
  (exists A size, gb_create 2 5 5 1 1 = CrOk A size) /\ (1 + 1 + 2 - 1) / 2 = (1 + 2 - 1) / 2 /\
  (exists A size, gb_create 2 5 5 2 1 = CrOk A size) /\ (1 + 2 - 1) / 2 < (1 + 2 + 2 - 1) / 2 /\ (1 + 2 + 2 - 1) / 2 * 2 < 5.
Proof.
  split; [eexists; eexists; reflexivity|]. split; [reflexivity|]. split; [eexists; eexists; reflexivity|]. split; reflexivity.
Qed.
