(* Least squares solutions minimise the residual, minimum norm solutions the norm. *)
From Coq Require Import Reals ZArith List Bool Lia Lra Ring.
From Verif Require Import Base NumModel NumProofs FieldModel ComplexInstances LsSpec LsNormSpec LsAlgProofs.
Import ListNotations.
Open Scope Z_scope.

Section Pyth.
  Context {N : numbers}.
  Add Ring num_ring_ls_norm : (nring N).

  Lemma sum_squares_add : forall (x y : Z -> N) a b,
    nsum (fun i => nmul (nconj (x i)) (y i)) a b = n0 ->
    sum_squares (fun i => nadd (x i) (y i)) a b = nadd (sum_squares x a b) (sum_squares y a b).
  Proof.
    intros x y a b H. unfold sum_squares.
    assert (H2 : nsum (fun i => nmul (nconj (y i)) (x i)) a b = n0).
    { rewrite <- (nconj_conj N (nsum _ a b)), nconj_sum. rewrite <- (nconj_0 N). f_equal. rewrite <- H.
      apply nsum_ext. intros i Hi. rewrite nconj_mul, nconj_conj. ring. }
    transitivity (nadd (nadd (nsum (fun i => nmul (nconj (x i)) (x i)) a b) (nsum (fun i => nmul (nconj (y i)) (y i)) a b))
      (nadd (nsum (fun i => nmul (nconj (x i)) (y i)) a b) (nsum (fun i => nmul (nconj (y i)) (x i)) a b))).
    - rewrite <- !nsum_add. apply nsum_ext. intros i Hi. rewrite nconj_add. ring.
    - rewrite H, H2. ring.
  Qed.

  Lemma mat_vec_sub : forall n (A : Z -> Z -> N) x y i,
    mat_vec n A (fun l => nsub (x l) (y l)) i = nsub (mat_vec n A x i) (mat_vec n A y i).
  Proof.
    intros n A x y i. unfold mat_vec.
    transitivity (nadd (nsum (fun l => nmul (A i l) (x l)) 0 n) (nmul (nopp n1) (nsum (fun l => nmul (A i l) (y l)) 0 n))); [|ring].
    rewrite <- nsum_mul_l, <- nsum_add. apply nsum_ext. intros l Hl. ring.
  Qed.

  Lemma ls_pyth : forall m n (A : Z -> Z -> N) b x y, least_squares m n A b x ->
    sum_squares (fun i => nsub (b i) (mat_vec n A y i)) 0 m
    = nadd (sum_squares (fun i => nsub (b i) (mat_vec n A x i)) 0 m)
           (sum_squares (mat_vec n A (fun l => nsub (x l) (y l))) 0 m).
  Proof.
    intros m n A b x y H. rewrite <- sum_squares_add.
    - unfold sum_squares. apply nsum_ext. intros i Hi. rewrite mat_vec_sub.
      replace (nadd (nsub (b i) (mat_vec n A x i)) (nsub (mat_vec n A x i) (mat_vec n A y i)))
        with (nsub (b i) (mat_vec n A y i)) by ring. reflexivity.
    - rewrite inner_adj. apply nsum_0. intros l Hl. rewrite (H l Hl), nconj_0. ring.
  Qed.

  Lemma mn_pyth : forall m n (A : Z -> Z -> N) b x y, minimum_norm m n A b x ->
    (forall i, 0 <= i < m -> mat_vec n A y i = b i) ->
    sum_squares y 0 n = nadd (sum_squares x 0 n) (sum_squares (fun l => nsub (y l) (x l)) 0 n).
  Proof.
    intros m n A b x y [H1 H2] Hy. rewrite <- sum_squares_add.
    - unfold sum_squares. apply nsum_ext. intros i Hi. replace (nadd (x i) (nsub (y i) (x i))) with (y i) by ring. reflexivity.
    - apply H2. intros i Hi. rewrite mat_vec_sub, (H1 i Hi), (Hy i Hi). ring.
  Qed.
End Pyth.

Lemma fst_nadd : forall x y : C_fields, (fst (nadd x y : R * R) = fst (x : R * R) + fst (y : R * R))%R.
Proof. reflexivity. Qed.

Lemma sq_pos : forall x : C_fields, (0 <= fst (nmul (nconj x) x : R * R))%R.
Proof.
  intros [a b]. change (0 <= a * a - - b * b)%R. nra.
Qed.

Lemma norm2_pos : forall x n, (0 <= norm2 x n)%R.
Proof.
  intros x n. unfold norm2, sum_squares. destruct (Z_le_gt_dec n 0).
  - rewrite nsum_nil by lia. apply Rle_refl.
  - assert (Hn : 0 <= n) by lia. clear g. revert n Hn. apply natlike_ind.
    + rewrite nsum_nil by lia. apply Rle_refl.
    + intros n Hn IH. change (Z.succ n) with (n + 1). rewrite nsum_snoc by lia.
      apply Rplus_le_le_0_compat; [exact IH|apply sq_pos].
Qed.

Lemma ls_minimises : forall m n (A : Z -> Z -> C_fields) b x, least_squares m n A b x ->
  forall y, (norm2 (fun i => nsub (b i) (mat_vec n A x i)) m <= norm2 (fun i => nsub (b i) (mat_vec n A y i)) m)%R.
Proof.
  intros m n A b x H y. unfold norm2 at 2. rewrite (ls_pyth m n A b x y H). rewrite fst_nadd.
  fold (norm2 (fun i => nsub (b i) (mat_vec n A x i)) m). fold (norm2 (mat_vec n A (fun l => nsub (x l) (y l))) m).
  pose proof (norm2_pos (mat_vec n A (fun l => nsub (x l) (y l))) m). lra.
Qed.

Lemma mn_minimises : forall m n (A : Z -> Z -> C_fields) b x, minimum_norm m n A b x ->
  forall y, (forall i, 0 <= i < m -> mat_vec n A y i = b i) -> (norm2 x n <= norm2 y n)%R.
Proof.
  intros m n A b x H y Hy. unfold norm2 at 2. rewrite (mn_pyth m n A b x y H Hy). rewrite fst_nadd.
  fold (norm2 x n). fold (norm2 (fun l => nsub (y l) (x l)) n).
  pose proof (norm2_pos (fun l => nsub (y l) (x l)) n). lra.
Qed.
