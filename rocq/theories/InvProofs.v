(* The inverse of a triangular matrix. *)
From Coq Require Import ZArith List Bool Lia Ring.
From Verif Require Import Base NumModel NumProofs FieldModel SimProofs TriModel TriVecProofs PotrfModel CholProofs.
Import ListNotations.
Open Scope Z_scope.

(* element (i,j) of the identity *)
Definition delta {N : numbers} (i j : Z) : N := if i =? j then n1 else n0.

Section Inv.
  Context {F : fields}.
  Add Ring num_ring_inv : (nring F).

  Lemma nsum_delta_l : forall (f : Z -> F) i a b, a <= i < b -> nsum (fun l => nmul (delta i l) (f l)) a b = f i.
  Proof.
    intros f i a b Hi. rewrite (nsum_app _ _ a i b) by lia. rewrite (nsum_cons _ _ i b) by lia.
    rewrite (nsum_0 _ _ a i), (nsum_0 _ _ (i + 1) b).
    - unfold delta. rewrite Z.eqb_refl. ring.
    - intros l Hl. unfold delta. replace (i =? l) with false by (symmetry; apply Z.eqb_neq; lia). ring.
    - intros l Hl. unfold delta. replace (i =? l) with false by (symmetry; apply Z.eqb_neq; lia). ring.
  Qed.
  Lemma nsum_delta_r : forall (f : Z -> F) j a b, a <= j < b -> nsum (fun l => nmul (f l) (delta l j)) a b = f j.
  Proof.
    intros f j a b Hj. rewrite <- (nsum_delta_l f j a b Hj). apply nsum_ext. intros l _. unfold delta.
    rewrite (Z.eqb_sym l j). ring.
  Qed.

  Lemma cancel_l : forall d x y : F, d <> n0 -> nmul d x = nmul d y -> x = y.
  Proof.
    intros d x y Hd E. transitivity (nmul (nmul (finv d) d) x); [rewrite finv_l by assumption; ring|].
    transitivity (nmul (finv d) (nmul d x)); [ring|]. rewrite E.
    transitivity (nmul (nmul (finv d) d) y); [ring|]. rewrite finv_l by assumption. ring.
  Qed.

  Variable n : Z.
  Variable T : Z -> Z -> F.
  Hypothesis HD : forall i, 0 <= i < n -> T i i <> n0.
  Hypothesis HL : forall i l, 0 <= i < n -> i < l < n -> T i l = n0.

  Lemma lower_zero : forall c (z : Z -> F), c <= n ->
    (forall i, 0 <= i < c -> nsum (fun l => nmul (T i l) (z l)) 0 n = n0) -> forall i, 0 <= i < c -> z i = n0.
  Proof.
    intros c z Hc HZ.
    assert (G : forall b i, 0 <= i < b -> i < c -> z i = n0).
    { intros b. pattern b. apply (zrange_ind_hi _ 0); clear b; [intros; lia|].
      intros b Hb IH i Hi Hic. pose proof (HZ i ltac:(lia)) as E.
      rewrite (nsum_app _ _ 0 i n) in E by lia. rewrite (nsum_cons _ _ i n) in E by lia.
      rewrite (nsum_0 _ _ 0 i), (nsum_0 _ _ (i + 1) n) in E.
      - apply (cancel_l (T i i)); [apply HD; lia|].
        transitivity (nadd n0 (nadd (nmul (T i i) (z i)) n0)); [ring|]. rewrite E. ring.
      - intros l Hl. rewrite HL by lia. ring.
      - intros l Hl. rewrite IH by lia. ring. }
    intros i Hi. apply (G (i + 1)); lia.
  Qed.

  Definition inverse (i j : Z) : F := solve_along T [] (zrange 0 n) (fun r => if r =? j then n1 else n0) i.

  Lemma inverse_r : forall i j, 0 <= i < n -> nsum (fun l => nmul (T i l) (inverse l j)) 0 n = delta i j.
  Proof. intros i j Hi. unfold inverse. rewrite (solve_lower T n _ i HD HL Hi). reflexivity. Qed.

  Lemma inverse_low : forall i j, 0 <= i < j -> j <= n -> inverse i j = n0.
  Proof.
    intros i j Hi Hj. apply (lower_zero j (fun l => inverse l j)); [assumption| |assumption].
    intros r Hr. rewrite inverse_r by lia. unfold delta. replace (r =? j) with false by (symmetry; apply Z.eqb_neq; lia).
    reflexivity.
  Qed.

  Lemma inverse_l : forall i j, 0 <= i < n -> 0 <= j < n -> nsum (fun l => nmul (inverse i l) (T l j)) 0 n = delta i j.
  Proof.
    intros i j Hi Hj.
    assert (G : nsub (nsum (fun l => nmul (inverse i l) (T l j)) 0 n) (delta i j) = n0).
    { apply (lower_zero n (fun r => nsub (nsum (fun l => nmul (inverse r l) (T l j)) 0 n) (delta r j))); [lia| |assumption].
      intros r Hr.
      rewrite (nsum_ext F _ (fun q => nadd (nsum (fun l => nmul (nmul (T r q) (inverse q l)) (T l j)) 0 n)
        (nmul (nopp n1) (nmul (T r q) (delta q j))))).
      2:{ intros q Hq. transitivity (nadd (nmul (T r q) (nsum (fun l => nmul (inverse q l) (T l j)) 0 n))
            (nmul (nopp n1) (nmul (T r q) (delta q j)))); [ring|]. f_equal.
          rewrite <- nsum_mul_l. apply nsum_ext. intros l _. ring. }
      rewrite nsum_add, nsum_mul_l, nsum_delta_r by assumption. rewrite nsum_swap.
      rewrite (nsum_ext F _ (fun l => nmul (delta r l) (T l j))).
      - rewrite nsum_delta_l by assumption. ring.
      - intros l Hl. rewrite nsum_mul_r. rewrite inverse_r by assumption. reflexivity. }
    transitivity (nadd (nsub (nsum (fun l => nmul (inverse i l) (T l j)) 0 n) (delta i j)) (delta i j)); [ring|].
    rewrite G. ring.
  Qed.

  Lemma inverse_unique : forall (y : Z -> Z -> F),
    (forall i j, 0 <= i < n -> 0 <= j < n -> nsum (fun l => nmul (T i l) (y l j)) 0 n = delta i j) ->
    forall i j, 0 <= i < n -> 0 <= j < n -> y i j = inverse i j.
  Proof.
    intros y HY i j Hi Hj.
    assert (G : nsub (y i j) (inverse i j) = n0).
    { apply (lower_zero n (fun r => nsub (y r j) (inverse r j))); [lia| |assumption].
      intros r Hr. transitivity (nadd (nsum (fun l => nmul (T r l) (y l j)) 0 n)
        (nmul (nopp n1) (nsum (fun l => nmul (T r l) (inverse l j)) 0 n))).
      - rewrite <- nsum_mul_l, <- nsum_add. apply nsum_ext. intros l _. ring.
      - rewrite HY, inverse_r by assumption. ring. }
    transitivity (nadd (nsub (y i j) (inverse i j)) (inverse i j)); [ring|]. rewrite G. ring.
  Qed.

  Lemma inverse_diag : forall i, 0 <= i < n -> nmul (T i i) (inverse i i) = n1.
  Proof.
    intros i Hi. pose proof (inverse_r i i Hi) as E. unfold delta in E. rewrite Z.eqb_refl in E.
    rewrite (nsum_app _ _ 0 i n) in E by lia. rewrite (nsum_cons _ _ i n) in E by lia.
    rewrite (nsum_0 _ _ 0 i), (nsum_0 _ _ (i + 1) n) in E.
    - rewrite <- E. ring.
    - intros l Hl. rewrite HL by lia. ring.
    - intros l Hl. rewrite inverse_low by lia. ring.
  Qed.
End Inv.

Section Down.
  Context {F : fields}.
  Add Ring num_ring_inv_down : (nring F).

  (* the solution of an upper triangular system is unique *)
  Lemma solve_unique_down : forall T n (b y : Z -> F), (forall i, 0 <= i < n -> T i i <> n0) ->
    (forall r l, 0 <= l < r -> r < n -> T r l = n0) ->
    (forall r, 0 <= r < n -> nsum (fun l => nmul (T r l) (y l)) r n = b r) ->
    forall r, 0 <= r < n -> solve_along T [] (zdown n) b r = y r.
  Proof.
    intros T n b y HD HT HY.
    assert (HX : forall r, 0 <= r < n ->
      nsum (fun l => nmul (T r l) (solve_along T [] (zdown n) b l)) r n = b r).
    { intros r Hr. rewrite <- (solve_upper T n b r HD) by (auto; intros; apply HT; lia).
      rewrite (nsum_app _ _ 0 r n) by lia. rewrite (nsum_0 _ _ 0 r).
      - ring.
      - intros l Hl. rewrite HT by lia. ring. }
    remember (solve_along T [] (zdown n) b) as x eqn:Ex. clear Ex.
    assert (G : forall c r, 0 <= n - 1 - r < c -> 0 <= r -> x r = y r).
    { intros c. pattern c. apply (zrange_ind_hi _ 0); clear c; [intros; lia|].
      intros c Hc IH r Hr Hn. specialize (HX r ltac:(lia)). specialize (HY r ltac:(lia)).
      rewrite nsum_cons in HX, HY by lia.
      rewrite (nsum_ext F (fun l => nmul (T r l) (x l)) (fun l => nmul (T r l) (y l))) in HX
        by (intros l Hl; rewrite IH by lia; reflexivity).
      apply (cancel_l (T r r)); [apply HD; lia|].
      transitivity (nsub (b r) (nsum (fun l => nmul (T r l) (y l)) (r + 1) n)); [rewrite <- HX|rewrite <- HY]; ring. }
    intros r Hr. apply (G (n - r)); lia.
  Qed.
End Down.
