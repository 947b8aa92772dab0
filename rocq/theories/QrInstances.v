(* LAPACK zlarfg in exact arithmetic meets what is assumed of it; used in examples. *)
From Coq Require Import QArith Qcanon Reals ZArith List Bool Lia Lra Ring.
From Verif Require Import Base NumModel NumProofs FieldModel PotrfModel FieldInstances RootInstances ComplexInstances QrSpec.
Import ListNotations.
Open Scope Z_scope.

Section Larfg.
  Context {F : fields}.
  Add Ring num_ring_qr_inst : (nring F).
  Local Infix "+" := nadd. Local Infix "*" := nmul. Local Infix "-" := nsub.

  (* LAPACK zlarfg for a nonzero vector: beta is real with beta^2 = |alpha|^2+|x|^2 *)
  Definition larfg_with (beta alpha : F) (x : list F) : F * F * list F :=
    (beta, (beta - alpha) * finv beta, map (fun y => y * finv (alpha - beta)) x).

  Definition norm2 (x : list F) : F :=
    nsum (fun i => nconj (nth (Z.to_nat i) x n0) * nth (Z.to_nat i) x n0) 0 (Z.of_nat (length x)).

  Lemma larfg_with_ok : forall alpha x b, nconj b = b -> b <> n0 -> alpha - b <> n0 ->
    b * b = alpha * nconj alpha + norm2 x ->
    forall beta tau v, larfg_with b alpha x = (beta, tau, v) ->
    let at_ (l : list F) (i : Z) := nth (Z.to_nat i) l n0 in
    let len := Z.of_nat (length x) in
    let vv := n1 + nsum (fun i => nconj (at_ v i) * at_ v i) 0 len in
    let vx := alpha + nsum (fun i => nconj (at_ v i) * at_ x i) 0 len in
    tau + nconj tau = tau * nconj tau * vv /\
    beta = alpha - nconj tau * vx /\
    forall i, 0 <= i < len -> at_ x i - nconj tau * vx * at_ v i = n0.
  Proof.
    intros alpha x b Rb Nb Nd E beta tau v EQ. unfold larfg_with in EQ. injection EQ as <- <- <-. cbv zeta beta.
    set (e := finv (alpha - b)). set (b' := finv b).
    assert (V : forall i, 0 <= i < Z.of_nat (length x) ->
      nth (Z.to_nat i) (map (fun y => y * e) x) n0 = nth (Z.to_nat i) x n0 * e).
    { intros i Hi. rewrite (nth_indep _ n0 (n0 * e)) by (rewrite map_length; lia).
      exact (map_nth (fun y => y * e) x n0 (Z.to_nat i)). }
    assert (Ee : e * (alpha - b) = n1) by (apply finv_l; assumption).
    assert (Eb : b' * b = n1) by (apply finv_l; assumption).
    assert (Ec : nconj e * (nconj alpha - b) = n1).
    { transitivity (nconj (e * (alpha - b))); [rewrite nconj_mul, nconj_sub, Rb; reflexivity|rewrite Ee; apply nconj_1]. }
    assert (Rb' : nconj b' = b').
    { assert (X : nconj b' * b = n1) by (transitivity (nconj (b' * b)); [rewrite nconj_mul, Rb; reflexivity|rewrite Eb; apply nconj_1]).
      transitivity (nconj b' * (b' * b)); [rewrite Eb; ring|]. transitivity ((nconj b' * b) * b'); [ring|rewrite X; ring]. }
    assert (S1 : nsum (fun i => nconj (nth (Z.to_nat i) (map (fun y => y * e) x) n0) * nth (Z.to_nat i) (map (fun y => y * e) x) n0) 0 (Z.of_nat (length x))
       = nconj e * e * norm2 x).
    { unfold norm2. rewrite <- nsum_mul_l. apply nsum_ext. intros i Hi. rewrite V by assumption. rewrite nconj_mul. ring. }
    assert (S2 : nsum (fun i => nconj (nth (Z.to_nat i) (map (fun y => y * e) x) n0) * nth (Z.to_nat i) x n0) 0 (Z.of_nat (length x))
       = nconj e * norm2 x).
    { unfold norm2. rewrite <- nsum_mul_l. apply nsum_ext. intros i Hi. rewrite V by assumption. rewrite nconj_mul. ring. }
    rewrite S1, S2. rewrite nconj_mul, nconj_sub, Rb, Rb'.
    assert (EN : norm2 x = b * b - alpha * nconj alpha) by (rewrite E; ring).
    assert (TX : (b - nconj alpha) * b' * (alpha + nconj e * norm2 x) = alpha - b).
    { transitivity (b' * (alpha * (b - nconj alpha) - nconj e * (nconj alpha - b) * norm2 x)); [ring|].
      rewrite Ec, EN. transitivity (b' * b * (alpha - b)); [ring|]. rewrite Eb. ring. }
    split; [|split].
    - symmetry. transitivity (b' * b' * ((alpha - b) * (nconj alpha - b) + (e * (alpha - b)) * (nconj e * (nconj alpha - b)) * norm2 x)); [ring|].
      rewrite Ee, Ec, EN. transitivity (b' * (b' * b) * (b - alpha) + b' * (b' * b) * (b - nconj alpha)); [ring|]. rewrite Eb. ring.
    - rewrite TX. ring.
    - intros i Hi. rewrite TX, V by assumption. transitivity (nth (Z.to_nat i) x n0 - e * (alpha - b) * nth (Z.to_nat i) x n0); [ring|].
      rewrite Ee. ring.
  Qed.
End Larfg.

(* the complex numbers *)
Open Scope R_scope.
Definition clen2 (alpha : R * R) (x : list (R * R)) : R := cnorm alpha + fold_right (fun y s => cnorm y + s) 0 x.
Definition cbeta (alpha : R * R) (x : list (R * R)) : R * R :=
  (if Rle_dec 0 (fst alpha) then - sqrt (clen2 alpha x) else sqrt (clen2 alpha x), 0).
Definition larfg_C (alpha : C_fields) (x : list C_fields) : C_fields * C_fields * list C_fields :=
  if forallb (fun y => neqb y n0) x && neqb (nconj alpha) alpha then (alpha, n0, map (fun _ => n0) x)
  else larfg_with (F := C_fields) (cbeta alpha x) alpha x.

Lemma cnorm_ge : forall x, 0 <= cnorm x.
Proof. intros [a b]. unfold cnorm. cbn [fst snd]. nra. Qed.
Lemma clen2_tail : forall x : list (R * R), 0 <= fold_right (fun y s => cnorm y + s) 0 x.
Proof. induction x as [|y x IH]; cbn; [lra|]. pose proof (cnorm_ge y). lra. Qed.

Lemma clen2_pos : forall alpha x, alpha <> (0, 0) \/ existsb (fun y => negb (ceqb y (0, 0))) x = true -> 0 < clen2 alpha x.
Proof.
  intros alpha x [H|H]; unfold clen2.
  - pose proof (cnorm_pos alpha H). pose proof (clen2_tail x). lra.
  - pose proof (cnorm_ge alpha). assert (0 < fold_right (fun y s => cnorm y + s) 0 x); [|lra].
    induction x as [|y x IH]; [discriminate|]. cbn [existsb fold_right] in *. apply orb_true_iff in H. destruct H as [H|H].
    + pose proof (clen2_tail x). assert (y <> (0, 0)).
      { intros ->. rewrite (proj2 (neqb_eq C_fields (0, 0) (0, 0)) eq_refl : ceqb (0, 0) (0, 0) = true) in H. discriminate. }
      pose proof (cnorm_pos y H2). lra.
    + pose proof (cnorm_ge y). specialize (IH H). lra.
Qed.

Lemma norm2_C : forall x : list C_fields, norm2 x = ((fold_right (fun y s => cnorm y + s) 0 x, 0) : C_fields).
Proof.
  intros x. unfold norm2. induction x as [|[a b] x IH]; [reflexivity|].
  replace (Z.of_nat (length (((a, b) : C_fields) :: x))) with (Z.of_nat (length x) + 1)%Z by (cbn [length]; lia).
  replace (0%Z) with (0 - 1 + 1)%Z at 1 by lia.
  rewrite (nsum_shift C_fields _ 1 (0 - 1) (Z.of_nat (length x))).
  rewrite nsum_cons by lia. change (0 - 1 + 1)%Z with 0%Z.
  change (nadd (nmul (nconj ((a, b) : C_fields)) ((a, b) : C_fields)) (nsum (fun i => nmul (nconj (nth (Z.to_nat (i + 1)) (((a, b) : C_fields) :: x) n0)) (nth (Z.to_nat (i + 1)) (((a, b) : C_fields) :: x) n0)) 0 (Z.of_nat (length x)))
    = ((fold_right (fun y s => cnorm y + s) 0 (((a, b) : R * R) :: x), 0) : C_fields)).
  transitivity (nadd (nmul (nconj ((a, b) : C_fields)) ((a, b) : C_fields)) ((fold_right (fun y s => cnorm y + s) 0 x, 0) : C_fields)).
  - f_equal. rewrite <- IH. apply nsum_ext. intros i Hi. replace (Z.to_nat (i + 1)) with (S (Z.to_nat i)) by lia. reflexivity.
  - cbn [fold_right]. unfold cnorm at 2. cbn [fst snd].
    change (cadd (cmul (cconj (a, b)) (a, b)) (fold_right (fun (y : R * R) (s : R) => cnorm y + s) 0 x, 0) = (a * a + b * b + fold_right (fun (y : R * R) (s : R) => cnorm y + s) 0 x, 0)).
    unfold cadd, cmul, cconj. cbn [fst snd]. f_equal; ring.
Qed.

Section CC.
  Add Ring num_ring_qr_c : (nring C_fields).

  Lemma nth_zeros : forall (x : list C_fields) k, nth k (map (fun _ => n0) x) n0 = (n0 : C_fields).
  Proof. induction x as [|y x IH]; intros [|k]; cbn; auto. Qed.

  Lemma larfg_C_ok : larfg_ok larfg_C.
  Proof.
    intros alpha x beta tau v EQ. unfold larfg_C in EQ.
    destruct (forallb (fun y => neqb y n0) x && neqb (nconj alpha) alpha) eqn:TR.
    - apply andb_true_iff in TR. destruct TR as [T1 T2]. 
      assert (E1 : beta = alpha) by congruence. assert (E2 : tau = n0) by congruence. assert (E3 : v = map (fun _ => n0) x) by congruence.
      rewrite E1, E2, E3. cbv zeta beta. clear EQ E1 E2 E3.
      rewrite (nconj_0 C_fields).
      split; [|split].
      + ring.
      + ring.
      + intros i Hi. rewrite nth_zeros. rewrite forallb_forall in T1.
        assert (X : nth (Z.to_nat i) x n0 = n0) by (apply (neqb_eq C_fields); apply T1; apply nth_In; lia).
        rewrite X. ring.
    - assert (NZ : alpha <> (0, 0) \/ existsb (fun y => negb (ceqb y (0, 0))) x = true).
      { apply andb_false_iff in TR. destruct TR as [T|T].
        - right. clear -T. induction x as [|y x IH]; [discriminate|]. cbn [forallb existsb] in *.
          apply andb_false_iff in T. destruct T as [T|T].
          + change (ceqb y (0, 0) = false) in T. rewrite T. reflexivity.
          + rewrite (IH T). apply orb_true_r.
        - left. intros ->. assert (Y : neqb (nconj ((0, 0) : C_fields)) ((0, 0) : C_fields) = true) by (apply (neqb_eq C_fields); apply nconj_0).
          rewrite Y in T. discriminate. }
      pose proof (clen2_pos alpha x NZ) as P. pose proof (sqrt_lt_R0 _ P) as P2.
      eapply larfg_with_ok; [| | | |exact EQ].
      + change (cconj (cbeta alpha x) = cbeta alpha x). unfold cconj, cbeta. cbn [fst snd]. f_equal. ring.
      + intros X. apply (f_equal fst) in X. unfold cbeta in X. cbn in X. destruct (Rle_dec 0 (fst alpha)); lra.
      + intros X. apply (f_equal fst) in X. unfold cbeta in X. cbn in X. destruct (Rle_dec 0 (fst alpha)); lra.
      + rewrite norm2_C. destruct alpha as [a b]. 
        change (cmul (cbeta (a, b) x) (cbeta (a, b) x) = cadd (cmul (a, b) (cconj (a, b))) (fold_right (fun y s => cnorm y + s) 0 x, 0)).
        assert (SS : forall r : R, r = sqrt (clen2 (a, b) x) \/ r = - sqrt (clen2 (a, b) x) -> r * r = clen2 (a, b) x).
        { intros r [->| ->]; [|rewrite Rmult_opp_opp]; apply sqrt_sqrt; lra. }
        unfold cadd, cmul, cconj, cbeta. cbn [fst snd].
        f_equal; [|ring_simplify; ring].
        rewrite (SS (if Rle_dec 0 a then - sqrt (clen2 (a, b) x) else sqrt (clen2 (a, b) x))) by (destruct (Rle_dec 0 a); auto).
        unfold clen2, cnorm at 1. cbn [fst snd]. ring.
  Qed.
End CC.

(* the same for numbers with rational parts, if the length of the vector is rational: for
   computed examples *)
Definition larfg_Q (alpha : QI_fields) (x : list QI_fields) : QI_fields * QI_fields * list QI_fields :=
  if forallb (fun y => neqb y n0) x && neqb (nconj alpha) alpha then (alpha, n0, map (fun _ => n0) x)
  else match qrt (nadd (nmul alpha (nconj alpha)) (norm2 x)) with
       | Some r => larfg_with (F := QI_fields) (if Qclt_le_dec (fst alpha) (Q2Qc (0 # 1)) then r else nopp (r : QI_fields)) alpha x
       | None => (alpha, n0, map (fun _ => n0) x)
       end.
