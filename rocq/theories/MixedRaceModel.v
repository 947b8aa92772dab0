(* The tasks of compute/zcgesv.c between two taskwaits that share the workspace. (compute/zcgbsv.c has a
   taskwait between the two norms: compute/pztbsm.c:127.) *)
From Coq Require Import ZArith List Bool.
From Verif Require Import Base NumModel FieldModel TaskModel TaskSpec DescModel DescDriverModel
  MatModel SwpModel NormModel.
Import ListNotations.
Open Scope Z_scope.

Section Race.
  Context {N : normed}.

  (* compute/pzlange.c:104-109, last task of plasma_pzlange called in compute/zcgesv.c:426: it adds up
     the rows of work. It is submitted after the taskwait of plasma_pzlange and nothing waits for it
     before the taskwait in plasma_pdzamax (compute/pdzamax.c:49). *)
  Definition lange_last (A : desc) (bW : Z) (anorm : loc) : ktask N :=
    omp_dlange_inf (d_m A) (d_nt A) (bW, 0) (d_m A) (bW, d_nt A * d_m A) anorm.

  (* compute/zcgesv.c:426-458: the tasks from this one on until the first taskwait;
     mid are those of the conversions, the factorization, the solves, plasma_pzlacpy and
     plasma_pzgemm, on which the theorems make assumptions, and then come those of plasma_pdzamax for
     X before its taskwait. The taskwaits in the panel tasks of plasma_pcgetrf
     (compute/pzgetrf.c:118, 178) wait for children of these tasks only. *)
  Definition norms_phase (last : ktask N) (mid : list (ktask N)) (bX : Z) (X : desc) (bW : Z) : list (ktask N) :=
    last :: mid ++ amax_col_tiles bX X (bW, 0).
End Race.
