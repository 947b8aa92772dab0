(* C68: the storage of the Householder vectors of the bulge chasing in plasma_zgesdd. *)
From Coq Require Import ZArith List Bool Lia.
From Verif Require Import Base BulgeModel BulgeSpec BulgeProofs.
Import ListNotations.
Open Scope Z_scope.

(* Every vector that a kernel of the bulge chasing reads or writes lies, with its scalar factor and its
   diagonal entry of T, inside of the arrays that plasma_zgesdd allocates (compute/zgesdd.c:502-510):
   blkcnt*V elements for tau, ldv*blkcnt*V for the vectors, V*blkcnt*V for T. *)
Theorem C68_vectors_inside : forall N nb V, 0 < nb -> 0 < V -> forall sw st len, uses_vector N nb sw st len ->
  exists p cnt ld, findVTpos N nb V sw st = Some p /\ findVTsiz N nb V = Some (cnt, ld) /\
    0 <= p_tau p < cnt * V /\ 0 <= p_v p /\ p_v p + len <= ld * cnt * V /\ 0 <= p_t p < V * cnt * V.
Proof. exact inside. Qed.
Print Assumptions C68_vectors_inside.

(* Different vectors have different scalar factors and do not overlap. *)
Theorem C68_vectors_distinct : forall N nb V, 0 < nb -> 0 < V -> forall sw st len sw' st' len' p p',
  uses_vector N nb sw st len -> uses_vector N nb sw' st' len' ->
  findVTpos N nb V sw st = Some p -> findVTpos N nb V sw' st' = Some p' -> (sw, st) <> (sw', st') ->
  p_tau p <> p_tau p' /\ (p_v p + len <= p_v p' \/ p_v p' + len' <= p_v p).
Proof. exact distinct. Qed.
Print Assumptions C68_vectors_distinct.

(* If no singular vectors are wanted, all of them fit into arrays of 2*N elements
   (compute/zgesdd.c:520-523). *)
Theorem C68_no_vectors_inside : forall N nb sw st len, 0 < nb -> uses_vector N nb sw st len ->
  0 <= novec_pos N sw st /\ novec_pos N sw st + Z.max 1 len <= 2 * N.
Proof. exact novec_inside. Qed.
Print Assumptions C68_no_vectors_inside.

(* order 10, tiles of 4, V = 1: the second step of the first sweep uses two vectors *)
Example C68_case : uses_vector 10 4 0 1 4 /\ uses_vector 10 4 0 5 4 /\ uses_vector 10 4 8 9 1 /\
  findVTsiz 10 4 (zgesdd_vblksiz 4) = Some (13, 4) /\
  option_map p_tau (findVTpos 10 4 1 0 1) = Some 0 /\ option_map p_tau (findVTpos 10 4 1 0 5) = Some 1 /\
  option_map p_tau (findVTpos 10 4 1 8 9) = Some 12 /\ novec_pos 10 0 5 = 15.
Proof.
  assert (U : forall st, In st [1; 5] -> uses_vector 10 4 0 st 4).
  { intros st H. split; [lia|]. exists 2. split.
    - split; [lia|]. intros i Hi. assert (i = 1) by lia. subst i. lazy. reflexivity.
    - destruct H as [<-|[<-|[]]]; lazy; auto. }
  split; [apply U; left; reflexivity|]. split; [apply U; right; left; reflexivity|]. split.
  - split; [lia|]. exists 1. split; [split; [lia|]; intros i Hi; lia|]. lazy. auto.
  - repeat split; lazy; reflexivity.
Qed.

(* plasma_zgesdd takes V = nb/4, which is 0 for tiles of order less than 4: the code divides by zero. *)
Theorem C68_small_tiles_refuted : exists nb, 0 < nb /\ forall N sw st,
  findVTsiz N nb (zgesdd_vblksiz nb) = None /\ findVTpos N nb (zgesdd_vblksiz nb) sw st = None.
Proof. exact small_tiles. Qed.
Print Assumptions C68_small_tiles_refuted.
