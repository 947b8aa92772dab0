(* C69: the block reflectors of the vectors of the bulge chasing. *)
From Coq Require Import ZArith List Bool Lia.
From Verif Require Import Base BulgeModel BulgeSpec BulgeLarftProofs.
Import ListNotations.
Open Scope Z_scope.

(* Each call of zlarft has no more rows than the leading dimension of V and no more columns than that
   of T; what it reads of V and TAU and writes to T lies inside of the arrays that
   plasma_zgesdd allocates (compute/zgesdd.c:502-510). *)
Theorem C69_blocks_inside : forall N nb V, 1 < nb -> 0 < V -> forall c, In c (larft_calls N nb V) ->
  exists l cnt ld, c = Some l /\ findVTsiz N nb V = Some (cnt, ld) /\
    (0 < l_m l -> 0 < l_n l ->
     l_m l <= ld /\ l_n l <= V /\
     0 <= p_v (l_pos l) /\ p_v (l_pos l) + (l_n l - 1) * ld + l_m l <= ld * cnt * V /\
     0 <= p_tau (l_pos l) /\ p_tau (l_pos l) + l_n l <= cnt * V /\
     0 <= p_t (l_pos l) /\ p_t (l_pos l) + (l_n l - 1) * V + l_n l <= V * cnt * V).
Proof. exact larft_inside. Qed.
Print Assumptions C69_blocks_inside.

(* Every vector of the bulge chasing is in a call that is made: it is column j of the block, starts on
   the diagonal and ends within the rows of the block, and its scalar factor is entry j of TAU. *)
Theorem C69_vectors_covered : forall N nb V, 1 < nb -> 0 < V -> forall sw st len p,
  uses_vector N nb sw st len -> findVTpos N nb V sw st = Some p ->
  exists l j, In (Some l) (larft_calls N nb V) /\ 0 < l_m l /\ 0 <= j < l_n l /\ j + len <= l_m l /\
    p_tau p = p_tau (l_pos l) + j /\ p_v p = p_v (l_pos l) + j * (nb + V - 1) + j.
Proof. exact larft_covers. Qed.
Print Assumptions C69_vectors_covered.

(* Two calls, which different threads may make at the same time, write different blocks of V*V elements of T. *)
Theorem C69_blocks_disjoint : forall N nb V, 1 < nb -> 0 < V -> forall j i j' i' l l', let nt := ceildiv (N - 1) V in
  0 <= j < nt -> 0 <= i < larft_mt N nb V nt j -> 0 <= j' < nt -> 0 <= i' < larft_mt N nb V nt j' ->
  larft_at N nb V nt j i = Some l -> larft_at N nb V nt j' i' = Some l' -> (j, i) <> (j', i') ->
  p_t (l_pos l) + V * V <= p_t (l_pos l') \/ p_t (l_pos l') + V * V <= p_t (l_pos l).
Proof. exact larft_distinct. Qed.
Print Assumptions C69_blocks_disjoint.

(* order 10, tiles of 4, V = 2: rows, columns and place in TAU of each block *)
Example C69_case : map (option_map (fun l => (l_m l, l_n l, p_tau (l_pos l)))) (larft_calls 10 4 2)
  = map Some [(5, 2, 0); (5, 2, 2); (5, 2, 4); (3, 2, 6); (5, 2, 8); (3, 2, 10); (1, 1, 12)].
Proof. vm_compute. reflexivity. Qed.
