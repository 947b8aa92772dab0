(* C38, C39: the QR factorization and multiplication by its unitary factor. *)
From Coq Require Import ZArith List Bool Lia.
From Verif Require Import Base NumModel FieldModel FieldInstances ComplexInstances
  TaskModel TaskSpec DescModel DescDriverModel DescSpec MatModel MatSpec DriverModel DriverSpec TriModel TriSpec
  RankDriverProofs QrModel QrSpec QrDriverProofs QrInstances.
Import ListNotations.
Open Scope Z_scope.

(* For legal arguments, every tile size nb, inner block size ib and every schedule: plasma_zgeqrf
   leaves in the upper trapezoid of A the factor R of A = Q*R for a unitary matrix Q, and changes
   nothing outside A and the array of T. lg is LAPACK zlarfg. *)
Theorem C38_zgeqrf_factors : forall (N : numbers) (lg : N -> list N -> N * N * list N), larfg_ok lg ->
  forall nb ib m n pA lda bA bT M,
  0 < nb -> 0 < ib -> 0 <= m -> 0 <= n -> Z.max 1 m <= lda -> NoDup [fst pA; bA; bT] ->
  driver_ensures (zgeqrf lg nb ib m n pA lda bA bT) M (fun M' =>
    (exists Q, is_unitary m Q /\
      forall i j, 0 <= i < m -> 0 <= j < n ->
        ul M pA lda i j = nsum (fun l => nmul (Q i l) (if l <=? j then ul M' pA lda l j else n0)) 0 m) /\
    (forall l, fst l <> bA -> fst l <> bT -> ~ in_user pA lda m n l -> M' l = M l)).
Proof. exact @zgeqrf_factors. Qed.
Print Assumptions C38_zgeqrf_factors.

(* For legal arguments and every schedule: plasma_zgeqrf factors A = Q*R with a unitary Q such
   that plasma_zunmqr, called later (memory M2) with the min(m,n) reflectors in A and the
   descriptor T that plasma_zgeqrf returned, the array of T unchanged, on any matrix C of fitting
   shape, replaces C by Q*C, Q^H*C, C*Q or C*Q^H, on every schedule, and changes nothing else. *)
Theorem C39_zunmqr_applies_Q : forall (N : numbers) (lg : N -> list N -> N * N * list N), larfg_ok lg ->
  forall nb ib m n pA lda bA bT M,
  0 < nb -> 0 < ib -> 0 <= m -> 0 <= n -> Z.max 1 m <= lda -> NoDup [fst pA; bA; bT] ->
  driver_ensures (zgeqrf lg nb ib m n pA lda bA bT) M (fun M' => exists Q,
    is_unitary m Q /\
    (forall i j, 0 <= i < m -> 0 <= j < n ->
       ul M pA lda i j = nsum (fun l => nmul (Q i l) (if l <=? j then ul M' pA lda l j else n0)) 0 m) /\
    (forall l, fst l <> bA -> fst l <> bT -> ~ in_user pA lda m n l -> M' l = M l) /\
    forall T size side trans cm cn pV ldv pC ldc bV bC M2,
      geqrf_T nb ib m n = CrOk T size ->
      side = PlasmaLeft \/ side = PlasmaRight -> trans = PlasmaNoTrans \/ trans = PlasmaConjTrans ->
      0 <= cm -> 0 <= cn -> (if side =? PlasmaLeft then cm else cn) = m -> Z.max 1 m <= ldv -> Z.max 1 cm <= ldc ->
      NoDup [bT; bV; bC] -> (forall b, In b [fst pV; fst pC] -> ~ In b [bT; bV; bC]) ->
      apart pV ldv m (Z.min m n) pC ldc cm cn ->
      (forall i j, 0 <= i < m -> 0 <= j < Z.min m n -> ul M2 pV ldv i j = ul M' pA lda i j) ->
      (forall l, fst l = bT -> M2 l = M' l) ->
      driver_ensures (zunmqr nb side trans cm cn (Z.min m n) pV ldv bT T pC ldc bV bC) M2 (fun M3 =>
        (forall i j, 0 <= i < cm -> 0 <= j < cn -> ul M3 pC ldc i j = q_times side trans m Q (ul M2 pC ldc) i j) /\
        (forall l, fst l <> bV -> fst l <> bC -> ~ in_user pC ldc cm cn l -> M3 l = M2 l))).
Proof. exact @zgeqrf_main. Qed.
Print Assumptions C39_zunmqr_applies_Q.

(* What is assumed of zlarfg holds of zlarfg on the complex numbers: every complex matrix. *)
Example C38_complex : forall nb ib m n pA lda bA bT M,
  0 < nb -> 0 < ib -> 0 <= m -> 0 <= n -> Z.max 1 m <= lda -> NoDup [fst pA; bA; bT] ->
  driver_ensures (zgeqrf larfg_C nb ib m n pA lda bA bT) M (fun M' => exists Q, is_unitary m Q /\
    forall i j, 0 <= i < m -> 0 <= j < n ->
      ul M pA lda i j = nsum (fun l => nmul (Q i l) (if l <=? j then ul M' pA lda l j else n0)) 0 m).
Proof.
  intros. eapply RankDriverProofs.driver_mono; [|apply (C38_zgeqrf_factors C_fields larfg_C larfg_C_ok); assumption].
  intros M' [X _]. exact X.
Qed.

(* A computed case: 3 x 2, two tile rows, inner blocks of one column, leading dimension 4,
   surrounded by sevens. *)
Definition qr_A (i j : Z) : QI_fields :=
  nth (Z.to_nat (2 * i + j)) [qi 15 0; qi (-105) (-202); qi 0 20; qi (-164) (-140); qi (-60) 0; qi (-87) (-24)] n0.
Definition qr_mem (l : loc) : QI_fields :=
  if (fst l =? 0) && (snd l mod 4 <? 3) && (snd l / 4 <? 2) then qr_A (snd l mod 4) (snd l / 4) else qi 7 0.

(* R with rows (65, 13+26i), (0, 325), (0, 0); the reflectors and T go on to plasma_zunmqr, which
   maps R (array 5) to A. *)
Definition qr_R (i j : Z) : QI_fields :=
  nth (Z.to_nat (2 * i + j)) [qi 65 0; qi 13 26; qi 0 0; qi 325 0; qi 0 0; qi 0 0] n0.
Definition qr_fill (M : mem QI_fields) (l : loc) : QI_fields :=
  if fst l =? 5 then if (snd l mod 3 <? 3) && (snd l / 3 <? 2) then qr_R (snd l mod 3) (snd l / 3) else qi 7 0 else M l.
Definition qr_same (n : Z) (X Y : Z -> Z -> QI_fields) : bool :=
  forallb (fun i => forallb (fun j => neqb (X i j) (Y i j)) (zrange 0 2)) (zrange 0 n).

Example C38_zgeqrf_case : exists T size ks us,
  geqrf_T 2 1 3 2 = CrOk T size /\
  zgeqrf larfg_Q 2 1 3 2 (0, 0) 4 1 2 = Runs ks /\ length ks = 6%nat /\
  zunmqr 2 PlasmaLeft PlasmaNoTrans 3 2 2 (0, 0) 4 2 T (5, 0) 3 3 4 = Runs us /\
  let M' := krun ks qr_mem in
  let M3 := krun us (qr_fill M') in
  qr_same 3 (fun i j => if i <=? j then ul M' (0, 0) 4 i j else n0) qr_R = true /\
  qr_same 3 (ul M3 (5, 0) 3) qr_A = true.
Proof.
  do 4 eexists. split; [reflexivity|]. split; [reflexivity|]. split; [reflexivity|]. split; [reflexivity|].
  cbv zeta. split; lazy; reflexivity.
Qed.

(* Illegal arguments are reported by their position, and nothing is touched. *)
Example C38_zgeqrf_arguments :
  zgeqrf larfg_Q 2 1 (-1) 2 (0, 0) 4 1 2 = Returns (-1) /\ zgeqrf larfg_Q 2 1 3 (-1) (0, 0) 4 1 2 = Returns (-2) /\
  zgeqrf larfg_Q 2 1 3 2 (0, 0) 2 1 2 = Returns (-4).
Proof. repeat split. Qed.
Example C39_zunmqr_arguments : forall T,
  zunmqr (N := QI_fields) 2 0 PlasmaNoTrans 3 2 2 (0, 0) 4 2 T (5, 0) 3 3 4 = Returns (-1) /\
  zunmqr (N := QI_fields) 2 PlasmaLeft PlasmaTrans 3 2 2 (0, 0) 4 2 T (5, 0) 3 3 4 = Returns (-2) /\
  zunmqr (N := QI_fields) 2 PlasmaRight PlasmaNoTrans 2 (-3) 2 (0, 0) 4 2 T (5, 0) 3 3 4 = Returns (-4) /\
  zunmqr (N := QI_fields) 2 PlasmaLeft PlasmaNoTrans 3 2 4 (0, 0) 4 2 T (5, 0) 3 3 4 = Returns (-5) /\
  zunmqr (N := QI_fields) 2 PlasmaLeft PlasmaNoTrans 3 2 2 (0, 0) 2 2 T (5, 0) 3 3 4 = Returns (-7) /\
  zunmqr (N := QI_fields) 2 PlasmaLeft PlasmaNoTrans 3 2 2 (0, 0) 4 2 T (5, 0) 2 3 4 = Returns (-10).
Proof. intros T. repeat split. Qed.
