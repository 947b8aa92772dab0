(* C50 and C51: systems with a Hermitian positive definite band matrix. *)
From Coq Require Import ZArith List Bool Lia Reals Lra.
From Verif Require Import Base NumModel NumInstances FieldModel FieldInstances RootInstances ComplexInstances
  TaskModel TaskSpec DescModel DescSpec MatModel MatSpec DriverModel DriverSpec
  GuardModel GuardSpec PotrfModel PotrfSpec BandModel BandSpec PbtrsModel PbtrsDriverProofs PbsvMainProofs
  PropertiesPbtrf.
Import ListNotations.
Open Scope Z_scope.

(* For every tile size and every schedule: if the band of the array holds a triangular band
   matrix T without zeros on its diagonal, plasma_zpbtrs returns success and replaces B by X
   with (T*T^H)*X = B (lower) or (T^H*T)*X = B (upper). Nothing else changes. The array of the
   band and B may not overlap; the band must be narrower than the matrix. *)
Theorem C50_zpbtrs_solves : forall (F : fields) (T : Z -> Z -> F) nb uplo n kd nrhs pA ld pB ldb bA bB M,
  0 < nb -> valid_uplo uplo -> 0 <= kd < n -> 0 <= nrhs -> kd < ld -> n <= ldb ->
  NoDup [bA; bB] -> (forall b, In b [fst pA; fst pB] -> ~ In b [bA; bB]) ->
  (forall l, in_user_band uplo kd pA ld n l -> ~ in_user pB ldb n nrhs l) ->
  is_band_triangle M uplo kd pA ld n T -> (forall i, 0 <= i < n -> T i i <> n0) ->
  driver_ensures (zpbtrs nb uplo n kd nrhs pA ld pB ldb bA bB) M (fun M' =>
    (forall i j, in_matrix n nrhs i j ->
       nsum (fun l => nmul (factor_product uplo n T i l) (ul M' pB ldb l j)) 0 n = ul M pB ldb i j) /\
    (forall l, ~ In (fst l) [bA; bB] -> ~ in_user pB ldb n nrhs l -> M' l = M l)).
Proof. exact (@zpbtrs_main). Qed.
Print Assumptions C50_zpbtrs_solves.

(* A system without unknowns but with right hand sides passes the argument checks and is then
   refused, instead of there being nothing to do. *)
Theorem C50_zpbtrs_empty_refuted : exists nb uplo n kd nrhs ldab ldb,
  0 < nb /\ valid_uplo uplo /\ 0 <= n /\ 0 <= kd /\ 0 <= nrhs /\ Z.max 1 (1 + kd) <= ldab /\ Z.max 1 n <= ldb /\ n = 0 /\
  forall (F : fields) pA pB bA bB,
    zpbtrs (F := F) nb uplo n kd nrhs pA ldab pB ldb bA bB = Returns PlasmaErrorIllegalValue.
Proof. exact zpbtrs_empty. Qed.
Print Assumptions C50_zpbtrs_empty_refuted.

(* So is a band as wide as the matrix. *)
Theorem C50_zpbtrs_wide_band_refuted : exists nb uplo n kd nrhs ldab ldb,
  0 < nb /\ valid_uplo uplo /\ 0 < n /\ 0 <= kd /\ 0 < nrhs /\ Z.max 1 (1 + kd) <= ldab /\ Z.max 1 n <= ldb /\
  forall (F : fields) pA pB bA bB,
    zpbtrs (F := F) nb uplo n kd nrhs pA ldab pB ldb bA bB = Returns PlasmaErrorIllegalValue.
Proof. exact zpbtrs_wide_band. Qed.
Print Assumptions C50_zpbtrs_wide_band_refuted.

(* For every tile size and every schedule: if plasma_zpbsv returns 0, B holds X with S*X = B, S
   being the Hermitian band matrix whose triangle uplo was in the array, and the array holds a
   triangular band matrix T with T*T^H = S (lower) or T^H*T = S (upper). Whatever is returned,
   nothing outside the band and B changed. *)
Theorem C51_zpbsv_solves : forall (F : fields) (R : roots F) (rp : F -> F) S nb uplo n kd nrhs pA ld pB ldb bA bB M,
  (forall x, nconj x = x -> rp x = x) ->
  0 < nb -> valid_uplo uplo -> 0 <= kd < n -> 0 < nrhs -> kd < ld -> n <= ldb ->
  NoDup [bA; bB] -> (forall b, In b [fst pA; fst pB] -> ~ In b [bA; bB]) ->
  (forall l, in_user_band uplo kd pA ld n l -> ~ in_user pB ldb n nrhs l) ->
  is_hermitian_band M uplo kd pA ld n S ->
  gdriver_ensures (zpbsv R rp nb uplo n kd nrhs pA ld pB ldb bA bB) M (fun M' st =>
    (st = 0 ->
      (exists T, is_band_triangle M' uplo kd pA ld n T /\
         (forall i, 0 <= i < n -> exists d, rt R d = Some (T i i)) /\
         (forall i j, in_matrix n n i j -> factor_product uplo n T i j = S i j)) /\
      (forall i j, in_matrix n nrhs i j ->
         nsum (fun l => nmul (S i l) (ul M' pB ldb l j)) 0 n = ul M pB ldb i j)) /\
    (forall l, ~ In (fst l) [bA; bB] -> ~ in_user_band uplo kd pA ld n l -> ~ in_user pB ldb n nrhs l -> M' l = M l)).
Proof. exact (@zpbsv_solves). Qed.
Print Assumptions C51_zpbsv_solves.

(* If every positive number has a square root and there is at least one diagonal beside the
   main one, the code returned is 0 when S is positive definite and otherwise the order of the
   smallest leading matrix of S that is not. *)
Theorem C51_zpbsv_status : forall (F : fields) (R : roots F) (rp : F -> F) S nb uplo n kd nrhs pA ld pB ldb bA bB M,
  (forall x, nconj x = x -> rp x = x) ->
  0 < nb -> valid_uplo uplo -> 0 <= kd < n -> 0 < nrhs -> kd < ld -> n <= ldb ->
  NoDup [bA; bB] -> (forall b, In b [fst pA; fst pB] -> ~ In b [bA; bB]) ->
  (forall l, in_user_band uplo kd pA ld n l -> ~ in_user pB ldb n nrhs l) ->
  is_hermitian_band M uplo kd pA ld n S ->
  forall P : positivity F, has_roots P R -> 0 < kd ->
  gdriver_ensures (zpbsv R rp nb uplo n kd nrhs pA ld pB ldb bA bB) M (fun M' st =>
    (st = 0 /\ pos_def P n S) \/
    (0 < st <= n /\ pos_def P (st - 1) S /\ ~ pos_def P st S)).
Proof. exact (@zpbsv_status). Qed.
Print Assumptions C51_zpbsv_status.

(* The same for every band, but the leading matrix need not be the smallest. *)
Theorem C51_zpbsv_status_any : forall (F : fields) (R : roots F) (rp : F -> F) S nb uplo n kd nrhs pA ld pB ldb bA bB M,
  (forall x, nconj x = x -> rp x = x) ->
  0 < nb -> valid_uplo uplo -> 0 <= kd < n -> 0 < nrhs -> kd < ld -> n <= ldb ->
  NoDup [bA; bB] -> (forall b, In b [fst pA; fst pB] -> ~ In b [bA; bB]) ->
  (forall l, in_user_band uplo kd pA ld n l -> ~ in_user pB ldb n nrhs l) ->
  is_hermitian_band M uplo kd pA ld n S ->
  forall P : positivity F, has_roots P R -> @n1 F <> n0 ->
  gdriver_ensures (zpbsv R rp nb uplo n kd nrhs pA ld pB ldb bA bB) M (fun M' st =>
    (st = 0 /\ pos_def P n S) \/ (0 < st <= n /\ ~ pos_def P st S)).
Proof. exact (@zpbsv_status_any). Qed.
Print Assumptions C51_zpbsv_status_any.

(* Without right hand sides plasma_zpbsv returns 0 and leaves the array as it was, although
   the documentation promises the factor on exit (compute/zpbsv.c:63-65); the returned code says
   nothing about A. *)
Theorem C51_zpbsv_no_rhs_refuted : exists (S : Z -> Z -> C_fields) n kd M,
  0 <= kd < n /\ is_hermitian_band M PlasmaLower kd (0, 0) (kd + 1) n S /\
  ~ pos_def C_positivity n S /\
  forall rp nb, 0 < nb ->
    gdriver_ensures (zpbsv C_roots rp nb PlasmaLower n kd 0 (0, 0) (kd + 1) (1, 0) n 2 3) M (fun M' st =>
      st = 0 /\ M' = M /\ ~ exists T, is_band_triangle M' PlasmaLower kd (0, 0) (kd + 1) n T /\
        forall i j, in_matrix n n i j -> factor_product PlasmaLower n T i j = S i j).
Proof. exact zpbsv_no_rhs. Qed.
Print Assumptions C51_zpbsv_no_rhs_refuted.

(* A case with three tile rows, kd = 1 and two right hand sides: the matrices of C49_case and
   B = S*X with six rows in the array, the last unused (9). *)
Definition bs_X (i j : Z) : QI_fields := qi (i + 1) (j - i).
Definition bs_B (i j : Z) : QI_fields := nsum (fun l => nmul (pb_S i l) (bs_X l j)) 0 5.
Definition bs_mem (uplo : Z) (A : Z -> Z -> QI_fields) (B : Z -> Z -> QI_fields) (l : loc) : QI_fields :=
  if fst l =? 1 then (if snd l mod 6 <? 5 then B (snd l mod 6) (snd l / 6) else qi 9 0) else pb_mem uplo A l.
Definition bs_fac (uplo i j : Z) : QI_fields := if uplo =? PlasmaLower then pb_T i j else nconj (pb_T j i).

Lemma bs_apart : forall uplo l, in_user_band uplo 1 (0, 0) 3 5 l -> ~ in_user (1, 0) 6 5 2 l.
Proof. intros uplo l (i & j & _ & _ & ->) (i' & j' & _ & _ & E). discriminate E. Qed.

Lemma bs_hermitian : forall uplo B, is_hermitian_band (pb_mem uplo pb_S) uplo 1 (0, 0) 3 5 pb_S ->
  is_hermitian_band (bs_mem uplo pb_S B) uplo 1 (0, 0) 3 5 pb_S.
Proof. intros uplo B H. exact H. Qed.

Definition bs_triangle (uplo : Z) : bool :=
  forallb (fun i => forallb (fun j =>
    if if uplo =? PlasmaLower then (j <=? i) && (i - j <=? 1) else (i <=? j) && (j - i <=? 1)
    then neqb (bs_fac uplo i j) (bel (pb_mem uplo (bs_fac uplo)) uplo 1 (0, 0) 3 i j) else neqb (bs_fac uplo i j) n0)
    (zrange 0 5)) (zrange 0 5).

Lemma bs_triangle_spec : forall uplo B, valid_uplo uplo -> bs_triangle uplo = true ->
  is_band_triangle (bs_mem uplo (bs_fac uplo) B) uplo 1 (0, 0) 3 5 (bs_fac uplo).
Proof.
  intros uplo B Hu H i j [Hi Hj].
  assert (G := proj1 (forallb_forall _ _) (proj1 (forallb_forall _ _) H i (proj2 (in_zrange 0 5 i) Hi)) j (proj2 (in_zrange 0 5 j) Hj)).
  cbv beta in G. change (bel (bs_mem uplo (bs_fac uplo) B) uplo 1 (0, 0) 3 i j) with (bel (pb_mem uplo (bs_fac uplo)) uplo 1 (0, 0) 3 i j).
  unfold in_band. destruct Hu as [->| ->]; cbn [Z.eqb] in G.
  - change (PlasmaUpper =? PlasmaLower) with false in G. cbv iota in G.
    destruct (Z.leb_spec i j), (Z.leb_spec (j - i) 1); cbn [andb] in G; apply (neqb_eq QI_fields) in G;
      split; intros Q; try exact G; exfalso; try (apply Q; left; split; [reflexivity|lia]);
      destruct Q as [[_ Q]|[Q _]]; try discriminate Q; lia.
  - change (PlasmaLower =? PlasmaLower) with true in G. cbv iota in G.
    destruct (Z.leb_spec j i), (Z.leb_spec (i - j) 1); cbn [andb] in G; apply (neqb_eq QI_fields) in G;
      split; intros Q; try exact G; exfalso; try (apply Q; right; split; [reflexivity|lia]);
      destruct Q as [[Q _]|[_ Q]]; try discriminate Q; lia.
Qed.

Definition bs_check (uplo : Z) (A : Z -> Z -> QI_fields) (M : mem QI_fields) : bool :=
  forallb (fun o => neqb (M (0, o)) (bs_mem uplo A bs_X (0, o))) (zrange 0 15) &&
  forallb (fun o => neqb (M (1, o)) (bs_mem uplo A bs_X (1, o))) (zrange 0 12).

Definition bs_ready (uplo : Z) : Prop :=
  is_band_triangle (bs_mem uplo (bs_fac uplo) bs_B) uplo 1 (0, 0) 3 5 (bs_fac uplo) /\
  (forall i, 0 <= i < 5 -> bs_fac uplo i i <> n0) /\
  (forall l, in_user_band uplo 1 (0, 0) 3 5 l -> ~ in_user (1, 0) 6 5 2 l).

Lemma bs_diag : forall uplo, valid_uplo uplo -> forall i, 0 <= i < 5 -> bs_fac uplo i i <> n0.
Proof.
  intros uplo Hu i Hi E.
  assert (Ei : i = 0 \/ i = 1 \/ i = 2 \/ i = 3 \/ i = 4) by lia.
  destruct Hu as [->| ->]; destruct Ei as [->|[->|[->|[->| ->]]]];
    apply (f_equal (fun x => neqb x n0)) in E; lazy in E; discriminate E.
Qed.

Example C50_case : bs_ready PlasmaLower /\
  exists ks, zpbtrs 2 PlasmaLower 5 1 2 (0, 0) 3 (1, 0) 6 2 3 = Runs ks /\
    bs_check PlasmaLower (bs_fac PlasmaLower) (krun ks (bs_mem PlasmaLower (bs_fac PlasmaLower) bs_B)) = true.
Proof.
  split; [split; [|split]|].
  - apply bs_triangle_spec; [right; reflexivity|lazy; reflexivity].
  - apply bs_diag. right. reflexivity.
  - apply bs_apart.
  - eexists. split; [reflexivity|]. lazy. reflexivity.
Qed.

Example C50_case_upper : bs_ready PlasmaUpper /\
  exists ks, zpbtrs 2 PlasmaUpper 5 1 2 (0, 0) 3 (1, 0) 6 2 3 = Runs ks /\
    bs_check PlasmaUpper (bs_fac PlasmaUpper) (krun ks (bs_mem PlasmaUpper (bs_fac PlasmaUpper) bs_B)) = true.
Proof.
  split; [split; [|split]|].
  - apply bs_triangle_spec; [left; reflexivity|lazy; reflexivity].
  - apply bs_diag. left. reflexivity.
  - apply bs_apart.
  - eexists. split; [reflexivity|]. lazy. reflexivity.
Qed.

Example C51_case :
  is_hermitian_band (bs_mem PlasmaLower pb_S bs_B) PlasmaLower 1 (0, 0) 3 5 pb_S /\
  exists ks, zpbsv QI_roots qre 2 PlasmaLower 5 1 2 (0, 0) 3 (1, 0) 6 2 3 = GRuns ks /\
    snd (gseq ks (bs_mem PlasmaLower pb_S bs_B)) = 0 /\
    bs_check PlasmaLower pb_T (fst (gseq ks (bs_mem PlasmaLower pb_S bs_B))) = true.
Proof.
  split; [apply bs_hermitian, pb_hermitian_spec; [right; reflexivity|lazy; reflexivity]|].
  eexists. split; [reflexivity|]. split; lazy; reflexivity.
Qed.

Example C51_case_upper :
  is_hermitian_band (bs_mem PlasmaUpper pb_S bs_B) PlasmaUpper 1 (0, 0) 3 5 pb_S /\
  exists ks, zpbsv QI_roots qre 2 PlasmaUpper 5 1 2 (0, 0) 3 (1, 0) 6 2 3 = GRuns ks /\
    snd (gseq ks (bs_mem PlasmaUpper pb_S bs_B)) = 0 /\
    bs_check PlasmaUpper (bs_fac PlasmaUpper) (fst (gseq ks (bs_mem PlasmaUpper pb_S bs_B))) = true.
Proof.
  split; [apply bs_hermitian, pb_hermitian_spec; [left; reflexivity|lazy; reflexivity]|].
  eexists. split; [reflexivity|]. split; lazy; reflexivity.
Qed.

(* A run that fails in the second tile; for the other hypotheses of the status theorems, over
   the complex numbers with kd = 1, see C49_status_case. *)
Example C51_run : exists ks, zpbsv QI_roots qre 2 PlasmaLower 5 1 2 (0, 0) 3 (1, 0) 6 2 3 = GRuns ks /\
  snd (gseq ks (bs_mem PlasmaLower pb_bad bs_B)) = 4.
Proof. eexists. split; [reflexivity|]. lazy. reflexivity. Qed.
