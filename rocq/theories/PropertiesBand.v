(* C48: translation between LAPACK's band storage and band tile storage. *)
From Coq Require Import ZArith List Bool.
From Verif Require Import Base NumModel NumInstances TaskModel TaskSpec DescModel DescSpec DescDriverModel
  DriverSpec MatModel MatSpec LayoutModel BandModel BandSpec BandRegionProofs BandGbProofs BandWideProofs.
Import ListNotations.
Open Scope Z_scope.

(* Into tiles: every element of every tile of the tile band is assigned, the elements of the
   band from the user's array and the others zero; nothing else changes. *)
Theorem C48_band_translation_in : forall (N : numbers) uplo nb n kd A size p ld b (M : mem N),
  valid_uplo uplo -> 0 <= kd -> pb_create uplo nb n kd = CrOk A size -> kd < ld -> fst p <> b ->
  region_ensures (pzpb2desc p ld b A) M (fun M' =>
    (forall i j, in_tile_band A i j ->
       (in_band uplo kd i j -> M' (b, band_elem_off A i j) = bel M uplo kd p ld i j) /\
       (~ in_band uplo kd i j -> M' (b, band_elem_off A i j) = n0)) /\
    (forall l, fst l <> b -> M' l = M l)).
Proof. exact @pb_in_region. Qed.
Print Assumptions C48_band_translation_in.

(* Out of tiles: the band of the user's array is assigned from the tiles, and nothing else is. *)
Theorem C48_band_translation_out : forall (N : numbers) uplo nb n kd A size p ld b (M : mem N),
  valid_uplo uplo -> 0 <= kd -> pb_create uplo nb n kd = CrOk A size -> kd < ld -> fst p <> b ->
  region_ensures (pzdesc2pb b A p ld) M (fun M' =>
    (forall i j, in_matrix n n i j -> in_band uplo kd i j ->
       bel M' uplo kd p ld i j = M (b, band_elem_off A i j)) /\
    (forall l, ~ in_user_band uplo kd p ld n l -> M' l = M l)).
Proof. exact @pb_out_region. Qed.
Print Assumptions C48_band_translation_out.

(* In one region, without a barrier between them: the user sees no change. *)
Theorem C48_band_translation_round_trip : forall (N : numbers) uplo nb n kd A size p ld b (M : mem N),
  valid_uplo uplo -> 0 <= kd -> pb_create uplo nb n kd = CrOk A size -> kd < ld -> fst p <> b ->
  region_ensures (pzpb2desc p ld b A ++ pzdesc2pb b A p ld) M (fun M' => forall l, fst l <> b -> M' l = M l).
Proof. exact @pb_roundtrip. Qed.
Print Assumptions C48_band_translation_round_trip.

(* a band of 4 diagonals in tiles of order 2, the last one smaller *)
Example C48_case : exists A size, valid_uplo PlasmaLower /\ 0 <= 3 /\
  pb_create PlasmaLower 2 7 3 = CrOk A size /\
  (in_tile_band A 6 3 /\ in_band PlasmaLower 3 6 3) /\ (in_tile_band A 5 1 /\ ~ in_band PlasmaLower 3 5 1).
Proof.
  eexists. eexists. split; [right; reflexivity|]. split; [discriminate|]. split; [reflexivity|].
  split; split.
  - repeat split; discriminate.
  - right. split; [reflexivity|]. split; discriminate.
  - repeat split; discriminate.
  - intros [[H _]|[_ [_ H]]]; [discriminate|]. apply H. reflexivity.
Qed.

Example C48_case_upper : exists A size, pb_create PlasmaUpper 3 8 4 = CrOk A size /\
  in_tile_band A 1 5 /\ in_band PlasmaUpper 4 1 5.
Proof. eexists. eexists. split; [reflexivity|]. split; [repeat split; discriminate|]. left. split; [reflexivity|]. split; discriminate. Qed.

(* General band matrices (zgbtrf, zgbsv) in an array with the leading dimension 2*kl+ku+1 of
   LAPACK, which the drivers accept: the same claim is false. Element (3,0), which is outside
   the band and should be zero, receives element (1,1). *)
Theorem C48_general_band_translation_refuted : forall N : numbers,
  exists nb n kl ku A size i j, let ld := 2 * kl + ku + 1 in
    gb_create nb n n kl ku = CrOk A size /\ in_tile_band A i j /\ kl < i - j /\
    forall (p : loc) b (M : mem N), fst p <> b ->
      region_ensures (pzpb2desc p ld b A) M (fun M' =>
        M' (b, band_elem_off A i j) = M (fst p, snd p + (ku + kl) + 1 * ld)).
Proof. exact gb_refuted. Qed.
Print Assumptions C48_general_band_translation_refuted.

(* With more rows than columns the translation reads and writes behind the user's array of
   ld * n elements. *)
Theorem C48_general_band_bounds_refuted : forall N : numbers,
  exists nb m n kl ku A size, let ld := 2 * kl + ku + 1 in
    gb_create nb m n kl ku = CrOk A size /\
    forall (p : loc) b, exists (k k' : ktask N) o, ld * n <= o /\
      In k (pzpb2desc p ld b A) /\ k_reads k (fst p, snd p + o) /\
      In k' (pzdesc2pb b A p ld) /\ k_writes k' (fst p, snd p + o).
Proof. exact gb_bounds_refuted. Qed.
Print Assumptions C48_general_band_bounds_refuted.

(* With more columns than rows the task that fills a tile also writes before that tile: here
   tile (mt,nt) holds element (i,j), which lies outside the band, and both the task k of that
   tile and the task k' of another tile assign it, k from the user's array and k' zero, with no
   dependence between the two. What the tile holds afterwards depends on which of them is last. *)
Theorem C48_general_band_copy_race_refuted : forall N : numbers, exists nb m n kl ku A size i j mt nt mt' nt',
  gb_create nb m n kl ku = CrOk A size /\ in_matrix m n i j /\ ku + kl < j - i /\
  i / nb = mt /\ j / nb = nt /\ (mt', nt') <> (mt, nt) /\
  forall (p : loc) ld b, exists k k' : ktask N,
    In k (pzpb2desc p ld b A) /\ k_deps k = [dep_in (bandA p ld A mt nt); dep_out (tptr b A mt nt)] /\
    In k' (pzpb2desc p ld b A) /\ k_deps k' = [dep_in (bandA p ld A mt' nt'); dep_out (tptr b A mt' nt')] /\
    forall M : mem N,
      k_fun k' M (b, band_elem_off A i j) = n0 /\
      (fst p <> b -> ~ deps_order (k_deps k) (k_deps k') /\
        k_fun k M (b, band_elem_off A i j) = M (fst p, snd p + (ku + kl + i - j) + j * ld) /\
        k_fun k (k_fun k' M) (b, band_elem_off A i j) = M (fst p, snd p + (ku + kl + i - j) + j * ld)).
Proof. exact gb_wide_write. Qed.
Print Assumptions C48_general_band_copy_race_refuted.
