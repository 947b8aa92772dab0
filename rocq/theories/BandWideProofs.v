(* The copy into band tiles for a matrix with more columns than rows: it writes before its tile. *)
From Coq Require Import ZArith List Bool Lia.
From Verif Require Import Base NumModel TaskModel TaskSpec TaskProofs DescModel DescSpec DescDriverModel MatModel MatSpec
  LayoutModel BandModel BandSpec.
Import ListNotations.
Open Scope Z_scope.

(* the tile (0,1) of the 1 x 8 matrix below *)
Lemma l2t_before : forall (N : numbers) P lda b o (M : mem N),
  core_lapack2tile PlasmaGeneral 0 1 1 4 4 0 1 P lda (b, o) 4 M (b, o - 4) = n0.
Proof.
  intros. unfold core_lapack2tile, loop.
  change (bj_start PlasmaGeneral 0 1 4 0) with 0. change (bj_end PlasmaGeneral 0 1 1 4 4 0 1) with (-1).
  change (zrange 0 0) with (@nil Z). change (zrange 0 (-1)) with (@nil Z).
  change (zrange (-1) 4) with [-1; 0; 1; 2; 3]. change (zrange 0 1) with [0].
  cbn [fold_left]. unfold at_. cbn [fst snd].
  rewrite !upd_other by (intros E; injection E; lia).
  replace (o + 0 + -1 * 4) with (o - 4) by lia. apply upd_same.
Qed.

Lemma l2t_foreign : forall (N : numbers) P lda b o (M : mem N) l, fst l <> b ->
  core_lapack2tile PlasmaGeneral 0 1 1 4 4 0 1 P lda (b, o) 4 M l = M l.
Proof.
  intros N P lda b o M [x y] H. unfold core_lapack2tile, loop.
  change (bj_start PlasmaGeneral 0 1 4 0) with 0. change (bj_end PlasmaGeneral 0 1 1 4 4 0 1) with (-1).
  change (zrange 0 0) with (@nil Z). change (zrange 0 (-1)) with (@nil Z).
  change (zrange (-1) 4) with [-1; 0; 1; 2; 3]. change (zrange 0 1) with [0].
  cbn [fold_left]. unfold at_. cbn [fst snd]. cbn [fst] in H.
  rewrite !upd_other by (intros E; injection E; congruence). reflexivity.
Qed.

(* its neighbour, the tile (0,0) *)
Lemma l2t_diag : forall (N : numbers) P lda b o (M : mem N), fst P <> b ->
  core_lapack2tile PlasmaGeneral 0 0 1 4 4 0 1 P lda (b, o) 4 M (b, o + 12) = M (fst P, snd P + 3 * lda).
Proof.
  intros. unfold core_lapack2tile, loop.
  change (bj_start PlasmaGeneral 0 0 4 0) with 0. change (bj_end PlasmaGeneral 0 0 1 4 4 0 1) with 4.
  change (zrange 0 0) with (@nil Z). change (zrange 4 4) with (@nil Z).
  change (zrange 0 4) with [0; 1; 2; 3]. change (zrange 0 1) with [0].
  cbn [fold_left]. unfold bi_start, bi_end.
  change (PlasmaGeneral =? PlasmaGeneral) with true. change (0 <=? 0) with true. cbv iota.
  change (zrange 0 0) with (@nil Z). change (zrange 1 1) with (@nil Z). change (zrange 0 1) with [0].
  cbn [fold_left]. unfold rd, at_. cbn [fst snd].
  replace (b, o + 12) with (b, o + 0 + 3 * 4) by (f_equal; lia). rewrite upd_same.
  rewrite !upd_other by (intros E; injection E; congruence). f_equal. f_equal. lia.
Qed.

Lemma gb_wide_write : forall N : numbers, exists nb m n kl ku A size i j mt nt mt' nt',
  gb_create nb m n kl ku = CrOk A size /\ in_matrix m n i j /\ ku + kl < j - i /\
  i / nb = mt /\ j / nb = nt /\ (mt', nt') <> (mt, nt) /\
  forall (p : loc) ld b, exists k k' : ktask N,
    In k (pzpb2desc p ld b A) /\ k_deps k = [dep_in (bandA p ld A mt nt); dep_out (tptr b A mt nt)] /\
    In k' (pzpb2desc p ld b A) /\ k_deps k' = [dep_in (bandA p ld A mt' nt'); dep_out (tptr b A mt' nt')] /\
    forall M : mem N,
      k_fun k' M (b, band_elem_off A i j) = n0 /\
      (fst p <> b -> ~ deps_order (k_deps k) (k_deps k') /\
        k_fun k M (b, band_elem_off A i j) = M (fst p, snd p + (ku + kl + i - j) + j * ld) /\
        k_fun k (k_fun k' M) (b, band_elem_off A i j) = M (fst p, snd p + (ku + kl + i - j) + j * ld)).
Proof.
  intros N. exists 4, 1, 8, 0, 1. eexists. exists 64, 0, 3, 0, 0, 0, 1.
  split; [reflexivity|]. split; [unfold in_matrix; lia|]. split; [lia|]. split; [reflexivity|].
  split; [reflexivity|]. split; [discriminate|]. intros p ld b.
  exists (pb_in p ld b (mkdesc 124 123 5 64 64 64 4 4 8 8 2 2 0 0 1 8 1 2 0 1 1 2) 0 0).
  exists (pb_in p ld b (mkdesc 124 123 5 64 64 64 4 4 8 8 2 2 0 0 1 8 1 2 0 1 1 2) 0 1).
  split; [left; reflexivity|]. split; [reflexivity|]. split; [right; left; reflexivity|]. split; [reflexivity|].
intros M. split; [|intros HP].
  - exact (l2t_before N _ _ b 32 M).
  - assert (E : forall M0 : mem N, k_fun (pb_in p ld b (mkdesc 124 123 5 64 64 64 4 4 8 8 2 2 0 0 1 8 1 2 0 1 1 2) 0 0) M0 (b, 16 + 12)
      = M0 (fst p, snd p + (1 + 0 + 0 - 3) + 3 * ld)).
    { intros M0. pose proof (l2t_diag N (bandA p ld (mkdesc 124 123 5 64 64 64 4 4 8 8 2 2 0 0 1 8 1 2 0 1 1 2) 0 0) (ld - 1) b 16 M0 HP) as E.
      etransitivity; [exact E|]. f_equal. unfold bandA, band_offset. cbn [fst snd d_uplo d_ku d_kl d_nb d_mb].
      change (123 =? PlasmaUpper) with false. change (123 =? PlasmaLower) with false. cbv iota. f_equal. lia. }
    split.
    { clear E. intros (d & d' & Hd & Hd' & EA & HT). cbn in Hd, Hd'.
      destruct Hd as [<-|[<-|[]]], Hd' as [<-|[<-|[]]].
      - apply HT. split; reflexivity.
      - apply HP. exact (f_equal fst EA).
      - apply HP. symmetry. exact (f_equal fst EA).
      - pose proof (f_equal snd EA) as C. vm_compute in C. discriminate C. }
    split; [exact (E M)|]. etransitivity; [exact (E _)|].
    exact (l2t_foreign N _ _ b 32 M (fst p, _) HP).
Qed.
