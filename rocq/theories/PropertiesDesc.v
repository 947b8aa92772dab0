(* C01-C04, C07, C08, C31, C32: descriptors. *)
From Coq Require Import ZArith Lia List Bool.
From Verif Require Import Base DescModel DescSpec DescDriverModel DescProofs DescPackProofs DescProofs3 DescProofs4 DescTProofs.
Open Scope Z_scope.

(* ---------------------------------------------------------------- C01 *)
(* Whole matrix: inside the allocation, no two elements share an address, nothing wasted *)
Theorem C01_general_storage : forall prec mb nb lm ln A size,
  general_create prec mb nb lm ln 0 0 lm ln = CrOk A size ->
  stored_within (elem_off A) (in_matrix lm ln) size /\
  stored_apart (elem_off A) (in_matrix lm ln) /\
  stored_onto (elem_off A) (in_matrix lm ln) size.
Proof. exact general_storage_main. Qed.
Print Assumptions C01_general_storage.

(* Descriptor of a submatrix of a larger matrix *)
Theorem C01_general_storage_submatrix : forall prec mb nb lm ln i j m n A size,
  0 <= i -> 0 <= j ->
  general_create prec mb nb lm ln i j m n = CrOk A size ->
  stored_within (elem_off A) (in_matrix m n) size /\
  stored_apart (elem_off A) (in_matrix m n).
Proof. exact general_storage_sub. Qed.
Print Assumptions C01_general_storage_submatrix.

Example C01_case : exists A, general_create PlasmaComplexDouble 3 2 7 5 0 0 7 5 = CrOk A 35 /\
  elem_off A 6 4 = 34 /\ elem_off A 4 3 = 22.
Proof. eexists. split; [reflexivity|]. split; reflexivity. Qed.
Example C01_case_submatrix : exists A,
  general_create PlasmaComplexDouble 3 2 7 5 3 2 4 3 = CrOk A 35 /\ in_matrix 4 3 3 2.
Proof. eexists. split; [reflexivity|]. unfold in_matrix; lia. Qed.

(* ---------------------------------------------------------------- C02 *)
Theorem C02_triangular_storage : forall upper nb n A size,
  tr_create (if upper : bool then PlasmaUpper else PlasmaLower) nb n = CrOk A size ->
  stored_within (elem_off A) (in_stored_tile upper nb n) size /\
  stored_apart (elem_off A) (in_stored_tile upper nb n).
Proof. exact triangular_storage_main. Qed.
Print Assumptions C02_triangular_storage.

Example C02_case : exists A,
  tr_create PlasmaLower 2 5 = CrOk A 17 /\
  in_stored_tile false 2 5 4 1 /\ elem_off A 4 1 = 13 /\ elem_off A 4 4 = 16.
Proof.
  eexists. split; [reflexivity|]. split; [|split; reflexivity].
  unfold in_stored_tile. split; [lia|]. split; [lia|]. cbv. discriminate.
Qed.

(* A matrix that is not square is accepted, although its tiles then overlap or leave the
   allocation (descriptor.c:221-223 only prints a message). *)
Theorem C02_nonsquare_accepted_refuted : exists mb nb lm ln A size,
  triangular_create PlasmaComplexDouble PlasmaLower mb nb lm ln 0 0 lm ln = CrOk A size /\
  exists i j, in_matrix lm ln i j /\ j / nb <= i / mb /\ size <= elem_off A i j.
Proof. exact triangular_nonsquare_refuted. Qed.
Print Assumptions C02_nonsquare_accepted_refuted.

(* ---------------------------------------------------------------- C03 *)
(* general band matrices (gbtrf, gbsv, gbtrs, langb): kl sub- and kl+ku superdiagonals *)
Theorem C03_general_band_storage : forall nb m n kl ku A size,
  0 <= kl -> 0 <= ku ->
  gb_create nb m n kl ku = CrOk A size ->
  stored_within (band_elem_off A) (in_tile_band A) size /\
  stored_apart (band_elem_off A) (in_tile_band A) /\
  (forall i j, in_matrix m n i j -> - (kl + ku) <= i - j <= kl -> in_tile_band A i j).
Proof. exact gb_storage_main. Qed.
Print Assumptions C03_general_band_storage.

(* Hermitian band matrices (pbtrf, pbtrs, pbsv): one triangle with kd diagonals *)
Theorem C03_hermitian_band_storage : forall uplo nb n kd A size,
  uplo = PlasmaUpper \/ uplo = PlasmaLower -> 0 <= kd ->
  pb_create uplo nb n kd = CrOk A size ->
  stored_within (band_elem_off A) (in_tile_band A) size /\
  stored_apart (band_elem_off A) (in_tile_band A) /\
  (forall i j, in_matrix n n i j ->
     (if uplo =? PlasmaUpper then 0 <= j - i <= kd else 0 <= i - j <= kd) ->
     in_tile_band A i j).
Proof. exact pb_storage_main. Qed.
Print Assumptions C03_hermitian_band_storage.

Example C03_case : exists A, gb_create 3 8 8 2 1 = CrOk A 72 /\ band_elem_off A 7 7 = 64.
Proof. eexists. split; reflexivity. Qed.
Example C03_case_pb : exists A,
  pb_create PlasmaUpper 3 8 4 = CrOk A 72 /\ band_elem_off A 3 7 = 63.
Proof. eexists. split; reflexivity. Qed.

(* ---------------------------------------------------------------- C04 *)
Theorem C04_tiles_partition : forall prec mb nb lm ln i j m n A size, 0 <= i -> 0 <= j ->
  general_create prec mb nb lm ln i j m n = CrOk A size ->
  (forall k, 0 <= k < d_mt A -> 1 <= tile_mview A k <= tile_mmain A k /\ tile_mmain A k <= mb) /\
  (forall k, 0 <= k < d_nt A -> 1 <= tile_nview A k <= tile_nmain A k /\ tile_nmain A k <= nb) /\
  zsum (tile_mview A) (d_mt A) = m /\ zsum (tile_nview A) (d_nt A) = n /\
  (forall r, 0 <= r < m -> exists! t, 0 <= t < d_mt A /\ t * mb <= r < t * mb + tile_mview A t) /\
  (forall c, 0 <= c < n -> exists! t, 0 <= t < d_nt A /\ t * nb <= c < t * nb + tile_nview A t).
Proof. exact partition_main. Qed.
Print Assumptions C04_tiles_partition.

(* the same for a tile-aligned view of a created matrix *)
Theorem C04_tiles_partition_view : forall prec mb nb lm ln A0 size i j m n A,
  general_create prec mb nb lm ln 0 0 lm ln = CrOk A0 size ->
  0 <= i -> 0 <= j -> 0 <= m -> 0 <= n -> i mod mb = 0 -> j mod nb = 0 ->
  desc_view_opt A0 i j m n = Some A ->
  (forall k, 0 <= k < d_mt A -> 1 <= tile_mview A k <= tile_mmain A k /\ tile_mmain A k <= mb) /\
  (forall k, 0 <= k < d_nt A -> 1 <= tile_nview A k <= tile_nmain A k /\ tile_nmain A k <= nb) /\
  zsum (tile_mview A) (d_mt A) = m /\ zsum (tile_nview A) (d_nt A) = n /\
  (forall r, 0 <= r < m -> exists! t, 0 <= t < d_mt A /\ t * mb <= r < t * mb + tile_mview A t) /\
  (forall c, 0 <= c < n -> exists! t, 0 <= t < d_nt A /\ t * nb <= c < t * nb + tile_nview A t).
Proof. exact partition_view_main. Qed.
Print Assumptions C04_tiles_partition_view.

Example C04_case : exists A, general_create PlasmaComplexDouble 3 2 10 5 3 0 5 5 = CrOk A 50 /\
  d_mt A = 2 /\ map (tile_mview A) (zrange 0 2) = 3 :: 2 :: nil /\
  d_nt A = 3 /\ map (tile_nview A) (zrange 0 3) = 2 :: 2 :: 1 :: nil.
Proof. eexists. repeat split; reflexivity. Qed.

(* ---------------------------------------------------------------- C07 *)
Theorem C07_create_passes_check : forall prec mb nb lm ln i j m n,
  valid_precision prec = true -> 0 < mb -> 0 < nb ->
  0 <= i -> 0 <= j -> 0 <= m -> 0 <= n ->
  i + m <= lm -> j + n <= ln -> (0 < i -> i < lm) -> (0 < j -> j < ln) ->
  i mod mb = 0 -> j mod nb = 0 ->
  exists A, general_create prec mb nb lm ln i j m n = CrOk A (lm * ln) /\
    desc_check A = PlasmaSuccess /\
    d_mb A = mb /\ d_nb A = nb /\ d_gm A = lm /\ d_gn A = ln /\
    d_i A = i /\ d_j A = j /\ d_m A = m /\ d_n A = n.
Proof. exact create_passes_check_main. Qed.
Print Assumptions C07_create_passes_check.

Theorem C07_checked_is_inside : forall A,
  d_type A = PlasmaGeneral \/ d_type A = PlasmaUpper \/ d_type A = PlasmaLower ->
  desc_check A = PlasmaSuccess ->
  0 < d_mb A /\ 0 < d_nb A /\ 0 <= d_m A /\ 0 <= d_n A /\
  d_i A + d_m A <= d_gm A /\ d_j A + d_n A <= d_gn A /\
  d_i A mod d_mb A = 0 /\ d_j A mod d_nb A = 0.
Proof. exact checked_inside. Qed.
Print Assumptions C07_checked_is_inside.

(* plasma_desc_check does not test that the corner is not negative, so a descriptor that
   starts above its matrix passes *)
Theorem C07_negative_corner_refuted : exists A,
  desc_check A = PlasmaSuccess /\ d_i A < 0 /\ elem_off A 0 0 < 0.
Proof. exact negative_corner_refuted. Qed.
Print Assumptions C07_negative_corner_refuted.

Theorem C07_view_same_memory : forall prec mb nb lm ln A size i j m n,
  general_create prec mb nb lm ln 0 0 lm ln = CrOk A size ->
  0 <= i -> 0 <= j -> 0 <= m -> 0 <= n -> i mod mb = 0 -> j mod nb = 0 ->
  i + m <= lm -> j + n <= ln -> (0 < i -> i < lm) -> (0 < j -> j < ln) ->
  exists B, desc_view_opt A i j m n = Some B /\ desc_check B = PlasmaSuccess /\
    d_m B = m /\ d_n B = n /\
    (forall r c, in_matrix m n r c -> elem_off B r c = elem_off A (i + r) (j + c)).
Proof. exact view_main. Qed.
Print Assumptions C07_view_same_memory.

Example C07_case : exists A B, general_create PlasmaComplexDouble 3 2 10 5 0 0 10 5 = CrOk A 50 /\
  desc_view_opt A 6 2 4 3 = Some B /\ desc_check B = PlasmaSuccess /\ elem_off B 3 2 = elem_off A 9 4.
Proof. do 2 eexists. repeat split; reflexivity. Qed.

(* ---------------------------------------------------------------- C08 *)
(* The check accepts, for each of the three kinds of band storage, a descriptor with an
   element of the band outside its allocation. *)
Theorem C08_band_check_too_weak_refuted : forall uplo,
  uplo = PlasmaGeneral \/ uplo = PlasmaUpper \/ uplo = PlasmaLower ->
  exists nb lm n kl ku A size,
    general_band_create PlasmaComplexDouble uplo nb nb lm n 0 0 n n kl ku = CrOk A size /\
    desc_check A = PlasmaSuccess /\
    exists i j, in_matrix n n i j /\ - ku <= i - j <= kl /\
      (uplo = PlasmaUpper -> i <= j) /\ (uplo = PlasmaLower -> j <= i) /\
      ~ (0 <= band_elem_off A i j < size).
Proof. exact band_check_refuted. Qed.
Print Assumptions C08_band_check_too_weak_refuted.

(* What the check does guarantee: as many rows as the LAPACK band array has, for general
   and upper storage. For lower storage even this is not checked (second theorem). *)
Theorem C08_band_check_partial : forall A, d_type A = PlasmaGeneralBand ->
  desc_check A = PlasmaSuccess ->
  (d_uplo A = PlasmaGeneral -> 2 * d_kl A + d_ku A + 1 <= d_gm A) /\
  (d_uplo A = PlasmaUpper -> d_ku A + 1 <= d_gm A) /\
  d_kl A < d_m A /\ d_ku A < d_n A.
Proof. exact band_check_rows. Qed.
Print Assumptions C08_band_check_partial.

Theorem C08_lower_rows_unchecked_refuted : exists A,
  d_type A = PlasmaGeneralBand /\ d_uplo A = PlasmaLower /\
  desc_check A = PlasmaSuccess /\ d_gm A < d_kl A + 1.
Proof. exact band_check_lower_refuted. Qed.
Print Assumptions C08_lower_rows_unchecked_refuted.

Example C08_case : exists A size, gb_create 3 8 8 2 1 = CrOk A size /\
  desc_check A = PlasmaSuccess /\ d_gm A = 9 /\ 2 * d_kl A + d_ku A + 1 = 6.
Proof. do 2 eexists. repeat split; reflexivity. Qed.

(* ---------------------------------------------------------------- C31 *)
(* Descriptors for legal arguments are always created: dense and packed operands *)
Theorem C31_dense_create_succeeds : forall nb m n, 0 < nb -> 0 <= m -> 0 <= n ->
  exists A, ge_create nb m n = CrOk A (m * n) /\ d_m A = m /\ d_n A = n.
Proof. exact ge_create_succeeds. Qed.
Print Assumptions C31_dense_create_succeeds.

Theorem C31_packed_create_succeeds : forall uplo nb n,
  uplo = PlasmaUpper \/ uplo = PlasmaLower -> 0 < nb -> 0 <= n ->
  exists A size, tr_create uplo nb n = CrOk A size /\ d_m A = n /\ d_n A = n.
Proof. exact tr_create_succeeds. Qed.
Print Assumptions C31_packed_create_succeeds.

(* band operands, when the bandwidths are smaller than the matrix *)
Theorem C31_band_create_succeeds_partial : forall nb m n kl ku, 0 < nb ->
  0 <= kl < m -> 0 <= ku < n ->
  exists A size, gb_create nb m n kl ku = CrOk A size.
Proof. exact gb_create_succeeds. Qed.
Print Assumptions C31_band_create_succeeds_partial.

(* ... but kl >= m, which is a legal argument, is refused *)
Theorem C31_wide_band_refused_refuted : exists nb m n kl ku, 0 < nb /\ 0 < m /\ 0 < n /\
  0 <= kl /\ 0 <= ku /\ gb_create nb m n kl ku = CrError PlasmaErrorIllegalValue.
Proof. exact gb_create_wide_refuted. Qed.
Print Assumptions C31_wide_band_refused_refuted.

(* plasma_zhetrf cannot factorise any matrix of order at most nb: its band descriptor is
   refused *)
Theorem C31_hetrf_small_always_refused : forall nb n ldt, 0 < nb -> n <= nb ->
  hetrf_T_create nb n ldt = CrError PlasmaErrorIllegalValue.
Proof. exact hetrf_fails. Qed.
Print Assumptions C31_hetrf_small_always_refused.

Theorem C31_hetrf_small_refuted : exists nb n ldt, 0 < nb /\ 0 < n /\ n <= ldt /\
  hetrf_T_create nb n ldt = CrError PlasmaErrorIllegalValue.
Proof. exact hetrf_small_refuted. Qed.
Print Assumptions C31_hetrf_small_refuted.

Example C31_case : exists A, ge_create 256 1000 300 = CrOk A 300000.
Proof. eexists. reflexivity. Qed.
Example C31_case_hetrf : hetrf_T_create 256 100 768 = CrError PlasmaErrorIllegalValue
  /\ exists A size, hetrf_T_create 256 1000 1024 = CrOk A size.
Proof. split; [reflexivity|]. do 2 eexists. reflexivity. Qed.

(* ---------------------------------------------------------------- C32 *)
(* the T factors of a QR or LQ factorisation of A: every kernel has its own ib x nb tile,
   T(m,n) and in tree mode also T2(m,n) *)
Theorem C32_T_slots : forall A ib mode,
  0 < ib -> 0 < d_nb A -> 0 <= d_mt A -> 0 <= d_nt A -> valid_precision (d_prec A) = true ->
  exists T size, descT_create A ib mode = CrOk T size /\
    let slot (second : bool) m n := if second then T2_addr T m n else T_addr T m n in
    let used (second : bool) m n := (second = true -> mode = PlasmaTreeHouseholder) /\
      0 <= m < d_mt A /\ 0 <= n < d_nt A in
    (forall s m n, used s m n ->
       tile_mmain T m = ib /\ 0 <= slot s m n /\ slot s m n + ib * d_nb A <= size) /\
    (forall s m n s' m' n', used s m n -> used s' m' n' -> (s, m, n) <> (s', m', n') ->
       slot s m n + ib * d_nb A <= slot s' m' n' \/ slot s' m' n' + ib * d_nb A <= slot s m n).
Proof. exact descT_slots. Qed.
Print Assumptions C32_T_slots.

Example C32_case : exists A T, ge_create 4 10 6 = CrOk A 60 /\
  descT_create A 2 PlasmaTreeHouseholder = CrOk T 96 /\
  T_addr T 2 1 = 40 /\ T2_addr T 0 0 = 48 /\ T2_addr T 2 1 = 88.
Proof. do 2 eexists. repeat split; reflexivity. Qed.
