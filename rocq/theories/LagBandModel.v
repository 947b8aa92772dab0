(* Conversion between double and single precision for band matrices: the band branches of
   compute/pzlag2c.c and pclag2z.c, which only zcgbsv uses. *)
From Coq Require Import ZArith List Bool.
From Verif Require Import Base NumModel TaskModel TaskSpec DescModel DescDriverModel MatModel GuardModel GuardSpec FieldModel LagModel
  GetrfModel GbtrfModel.
Import ListNotations.
Open Scope Z_scope.

(* compute/pzlag2c.c:72 and pclag2z.c:54: the first tile row of tile column n *)
Definition lag_start (A : desc) (n : Z) : Z := Z.quot (Z.max 0 (n * d_nb A - d_ku A)) (d_nb A).
(* compute/pzlag2c.c:73 and pclag2z.c:55: the last tile row of tile column n *)
Definition lag_end (A : desc) (n : Z) : Z := Z.quot (Z.min (d_m A - 1) ((n + 1) * d_nb A + d_kl A - 1)) (d_nb A).

Section LagBand.
  Context {V : Type}.
  (* as in LagModel.v *)
  Variables (narrow widen : V -> V) (fits : V -> bool).

  (* compute/pzlag2c.c:68-84 plasma_pzlag2c for band matrices. The leading dimension of a tile of
     As is taken from A (line 75). The early return (lines 51-52) is left out, see pzpotrf in
     PotrfModel.v. *)
  Definition pzlag2c_band (bA : Z) (A : desc) (bS : Z) (As : desc) : list (cktask V) :=
    flat_map (fun n =>
      map (fun m =>
        omp_zlag2c narrow fits (tile_mview A m) (tile_nview A n) (tptr bA A m n) (tile_mmain_band A m n)
          (tptr bS As m n) (tile_mmain_band A m n)) (zrange (lag_start A n) (lag_end A n + 1)))
      (zrange 0 (d_nt A)).

  (* compute/pclag2z.c:50-66 plasma_pclag2z for band matrices *)
  Definition pclag2z_band (bS : Z) (As : desc) (bA : Z) (A : desc) : list (ktask V) :=
    flat_map (fun n =>
      map (fun m =>
        omp_clag2z widen (tile_mview A m) (tile_nview A n) (tptr bS As m n) (tile_mmain_band A m n)
          (tptr bA A m n) (tile_mmain_band A m n)) (zrange (lag_start A n) (lag_end A n + 1)))
      (zrange 0 (d_nt A)).
End LagBand.

(* compute/zcgbsv.c:432-437: the conversion of A to As and the LU factorization of As, as
   plasma_omp_zcgbsv submits them. Before them it computes the norm of A (line 427) and converts
   B (line 430), which touch neither As nor ipiv and are left out. The factorization is that of
   pzgbtrf.c in the other precision (pcgbtrf is generated from it). As has the shape of A
   (zcgbsv.c:170-171,205-206), so one descriptor stands for both; it is not given a value before. *)
Definition zcgbsv_factor {F : fields} (bigger : F -> F -> bool) (narrow : cell F -> cell F) (fits : cell F -> bool)
  (bA : Z) (A : desc) (bS : Z) (pI : loc) (ib mpt : Z) : list (cktask (cell F)) :=
  pzlag2c_band narrow fits bA A bS A ++ pzgbtrf bigger bS A pI ib mpt.
