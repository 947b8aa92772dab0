(* Least squares and minimum norm solutions from a factorization A = Q*R. *)
From Coq Require Import ZArith List Bool Lia Ring.
From Verif Require Import Base NumModel NumProofs FieldModel TaskModel QrSpec LsSpec.
Import ListNotations.
Open Scope Z_scope.

Section Alg.
  Context {N : numbers}.
  Add Ring num_ring_ls_alg : (nring N).

  (* <x, A*y> = <A^H*x, y> *)
  Lemma inner_adj : forall m n (A : Z -> Z -> N) x y,
    nsum (fun i => nmul (nconj (x i)) (mat_vec n A y i)) 0 m
    = nsum (fun l => nmul (nconj (nsum (fun i => nmul (nconj (A i l)) (x i)) 0 m)) (y l)) 0 n.
  Proof.
    intros m n A x y. unfold mat_vec.
    transitivity (nsum (fun i => nsum (fun l => nmul (nconj (x i)) (nmul (A i l) (y l))) 0 n) 0 m).
    { apply nsum_ext. intros i Hi. rewrite nsum_mul_l. reflexivity. }
    rewrite nsum_swap. apply nsum_ext. intros l Hl. rewrite nconj_sum, <- nsum_mul_r. apply nsum_ext. intros i Hi.
    rewrite nconj_mul, nconj_conj. ring.
  Qed.

  Lemma sum_delta : forall m (x : Z -> N) i, 0 <= i < m ->
    nsum (fun l => nmul (if i =? l then n1 else n0) (x l)) 0 m = x i.
  Proof.
    intros m x i Hi. rewrite (nsum_app N _ 0 i m) by lia. rewrite (nsum_cons N _ i m) by lia.
    rewrite nsum_0, nsum_0, Z.eqb_refl; [ring| |]; intros l Hl; destruct (Z.eqb_spec i l); try lia; ring.
  Qed.

  (* Q^H*x *)
  Definition qh (m : Z) (Q : Z -> Z -> N) (x : Z -> N) (l : Z) : N := nsum (fun i => nmul (nconj (Q i l)) (x i)) 0 m.

  Lemma qh_q : forall m Q x l, is_unitary m Q -> 0 <= l < m -> qh m Q (mat_vec m Q x) l = x l.
  Proof.
    intros m Q x l U Hl. unfold qh, mat_vec.
    transitivity (nsum (fun i => nsum (fun k => nmul (nmul (nconj (Q i l)) (Q i k)) (x k)) 0 m) 0 m).
    { apply nsum_ext. intros i Hi. rewrite <- nsum_mul_l. apply nsum_ext. intros k Hk. ring. }
    rewrite nsum_swap. transitivity (nsum (fun k => nmul (if l =? k then n1 else n0) (x k)) 0 m); [|apply sum_delta; assumption].
    apply nsum_ext. intros k Hk. rewrite nsum_mul_r. rewrite (proj1 (U l k Hl Hk)). reflexivity.
  Qed.

  Lemma q_qh : forall m Q x i, is_unitary m Q -> 0 <= i < m -> mat_vec m Q (qh m Q x) i = x i.
  Proof.
    intros m Q x l U Hl. unfold qh, mat_vec.
    transitivity (nsum (fun i => nsum (fun k => nmul (nmul (Q l i) (nconj (Q k i))) (x k)) 0 m) 0 m).
    { apply nsum_ext. intros i Hi. rewrite <- nsum_mul_l. apply nsum_ext. intros k Hk. ring. }
    rewrite nsum_swap. transitivity (nsum (fun k => nmul (if l =? k then n1 else n0) (x k)) 0 m); [|apply sum_delta; assumption].
    apply nsum_ext. intros k Hk. rewrite nsum_mul_r. rewrite (proj2 (U l k Hl Hk)). reflexivity.
  Qed.

  Lemma qh_inner : forall m Q x y, is_unitary m Q ->
    nsum (fun i => nmul (nconj (x i)) (y i)) 0 m = nsum (fun l => nmul (nconj (qh m Q x l)) (qh m Q y l)) 0 m.
  Proof.
    intros m Q x y U. transitivity (nsum (fun i => nmul (nconj (x i)) (mat_vec m Q (qh m Q y) i)) 0 m).
    - apply nsum_ext. intros i Hi. rewrite q_qh by assumption. reflexivity.
    - rewrite inner_adj. reflexivity.
  Qed.
End Alg.

Section Ls.
  Context {F : fields}.
  Add Ring num_ring_ls_alg2 : (nring F).
  Variables (m n : Z) (A Q R : Z -> Z -> F).
  Hypothesis Hn : 0 <= n <= m.
  Hypothesis HQ : is_unitary m Q.
  Definition rt (l j : Z) : F := if l <=? j then R l j else n0.
  Hypothesis HA : forall i j, 0 <= i < m -> 0 <= j < n -> A i j = nsum (fun l => nmul (Q i l) (rt l j)) 0 m.

  Lemma mul_nz : forall x y : F, nmul x y = n0 -> x <> n0 -> y = n0.
  Proof.
    intros x y E H. transitivity (nmul (finv x) (nmul x y)).
    - transitivity (nmul (nmul (finv x) x) y); [rewrite finv_l by assumption; ring|ring].
    - rewrite E. ring.
  Qed.

  (* A^H*x = R^H*(Q^H*x) *)
  Lemma adj_A : forall x r, 0 <= r < n ->
    nsum (fun i => nmul (nconj (A i r)) (x i)) 0 m = nsum (fun l => nmul (nconj (rt l r)) (qh m Q x l)) 0 m.
  Proof.
    intros x r Hr. unfold qh.
    transitivity (nsum (fun i => nsum (fun l => nmul (nconj (rt l r)) (nmul (nconj (Q i l)) (x i))) 0 m) 0 m).
    - apply nsum_ext. intros i Hi. rewrite HA by assumption. rewrite nconj_sum, <- nsum_mul_r. apply nsum_ext. intros l Hl. rewrite nconj_mul. ring.
    - rewrite nsum_swap. apply nsum_ext. intros l Hl. rewrite nsum_mul_l. reflexivity.
  Qed.

  Lemma A_vec : forall x i, 0 <= i < m -> mat_vec n A x i = mat_vec m Q (mat_vec n rt x) i.
  Proof.
    intros x i Hi. unfold mat_vec.
    transitivity (nsum (fun c => nsum (fun l => nmul (Q i l) (nmul (rt l c) (x c))) 0 m) 0 n).
    - apply nsum_ext. intros c Hc. rewrite HA by assumption. rewrite <- nsum_mul_r. apply nsum_ext. intros l Hl. ring.
    - rewrite nsum_swap. apply nsum_ext. intros l Hl. rewrite nsum_mul_l. reflexivity.
  Qed.

  Lemma rt_vec_low : forall x i, n <= i -> mat_vec n rt x i = n0.
  Proof. intros x i Hi. apply nsum_0. intros l Hl. unfold rt. destruct (Z.leb_spec i l); [lia|]. ring. Qed.

  Lemma rank_diag : (n1 : F) <> n0 -> full_column_rank m n A -> forall c, 0 <= c < n -> R c c <> n0.
  Proof.
    intros NT (L & HL).
    set (P := fun r l => nsum (fun i => nmul (L r i) (Q i l)) 0 m).
    assert (PR : forall r c, 0 <= r < n -> 0 <= c < n -> nsum (fun l => nmul (P r l) (rt l c)) 0 m = if r =? c then n1 else n0).
    { intros r c Hr Hc. rewrite <- (HL r c Hr Hc). unfold P.
      transitivity (nsum (fun l => nsum (fun i => nmul (L r i) (nmul (Q i l) (rt l c))) 0 m) 0 m).
      - apply nsum_ext. intros l Hl. rewrite <- nsum_mul_r. apply nsum_ext. intros i Hi. ring.
      - rewrite nsum_swap. apply nsum_ext. intros i Hi. rewrite nsum_mul_l. rewrite HA by assumption. reflexivity. }
    assert (PU : forall r c, 0 <= r < n -> 0 <= c < n -> nadd (nsum (fun l => nmul (P r l) (R l c)) 0 c) (nmul (P r c) (R c c)) = if r =? c then n1 else n0).
    { intros r c Hr Hc. rewrite <- (PR r c Hr Hc). rewrite (nsum_app F _ 0 c m) by lia. rewrite (nsum_cons F _ c m) by lia.
      rewrite (nsum_0 F _ (c + 1) m).
      2:{ intros l Hl. unfold rt. destruct (Z.leb_spec l c); [lia|]. ring. }
      unfold rt at 2. rewrite Z.leb_refl.
      rewrite (nsum_ext F (fun l => nmul (P r l) (rt l c)) (fun l => nmul (P r l) (R l c)) 0 c); [ring|].
      intros l Hl. unfold rt. destruct (Z.leb_spec l c); [reflexivity|lia]. }
    assert (IND : forall k, (forall c, 0 <= c < Z.of_nat k -> c < n -> R c c <> n0 /\ forall r, c < r < n -> P r c = n0)).
    { induction k as [|k IH]; [lia|]. intros c Hc Hcn. destruct (Z.eq_dec c (Z.of_nat k)) as [E|E]; [|apply IH; lia].
      assert (Z0 : forall r, c <= r < n -> nsum (fun l => nmul (P r l) (R l c)) 0 c = n0).
      { intros r Hr. apply nsum_0. intros l Hl. rewrite (proj2 (IH l ltac:(lia) ltac:(lia)) r) by lia. ring. }
      assert (D : nmul (P c c) (R c c) = n1).
      { pose proof (PU c c ltac:(lia) ltac:(lia)) as X. rewrite Z0, Z.eqb_refl in X by lia. rewrite <- X. ring. }
      assert (DN : R c c <> n0). { intros X. rewrite X in D. apply NT. rewrite <- D. ring. }
      split; [assumption|]. intros r Hr. pose proof (PU r c ltac:(lia) ltac:(lia)) as X. rewrite Z0 in X by lia.
      destruct (Z.eqb_spec r c); [lia|]. apply (mul_nz (R c c)); [|assumption]. rewrite <- X. ring. }
    intros c Hc. apply (IND (Z.to_nat (c + 1))); lia.
  Qed.

  Lemma ls_solution : forall b x,
    (forall c, 0 <= c < n -> mat_vec n rt x c = qh m Q b c) ->
    least_squares m n A b x /\
    sum_squares (fun i => nsub (b i) (mat_vec n A x i)) 0 m = sum_squares (qh m Q b) n m.
  Proof.
    intros b x HX. set (e := fun i => nsub (b i) (mat_vec n A x i)).
    assert (QE : forall l, 0 <= l < m -> qh m Q e l = if l <? n then n0 else qh m Q b l).
    { intros l Hl. transitivity (nsub (qh m Q b l) (mat_vec n rt x l)).
      - rewrite <- (qh_q m Q (mat_vec n rt x) l HQ Hl). unfold qh, e.
        transitivity (nadd (nsum (fun i => nmul (nconj (Q i l)) (b i)) 0 m) (nsum (fun i => nmul (nopp n1) (nmul (nconj (Q i l)) (mat_vec m Q (mat_vec n rt x) i))) 0 m)).
        + rewrite <- nsum_add. apply nsum_ext. intros i Hi. rewrite A_vec by assumption. ring.
        + rewrite nsum_mul_l. ring.
      - destruct (Z.ltb_spec l n); [rewrite HX by lia; ring|rewrite rt_vec_low by lia; ring]. }
    split.
    - intros r Hr. transitivity (nsum (fun i => nmul (nconj (A i r)) (e i)) 0 m); [reflexivity|]. rewrite (adj_A e r Hr). apply nsum_0. intros l Hl. rewrite QE by assumption.
      destruct (Z.ltb_spec l n); [ring|]. unfold rt. destruct (Z.leb_spec l r); [lia|]. rewrite nconj_0. ring.
    - unfold sum_squares. transitivity (nsum (fun i => nmul (nconj (e i)) (e i)) 0 m); [reflexivity|]. rewrite (qh_inner m Q e e HQ). rewrite (nsum_app F _ 0 n m) by lia.
      rewrite nsum_0.
      + transitivity (nsum (fun i => nmul (nconj (qh m Q e i)) (qh m Q e i)) n m); [ring|]. apply nsum_ext. intros l Hl.
        rewrite QE by lia. destruct (Z.ltb_spec l n); [lia|]. reflexivity.
      + intros l Hl. rewrite QE by lia. destruct (Z.ltb_spec l n); [|lia]. ring.
  Qed.

  (* the adjoint of A *)
  Definition adj (i j : Z) : F := nconj (A j i).

  Lemma mn_solution : forall b y x, (forall c, 0 <= c < n -> R c c <> n0) ->
    (forall c, 0 <= c < n -> nsum (fun l => nmul (nconj (rt l c)) (y l)) 0 n = b c) ->
    (forall i, 0 <= i < m -> x i = mat_vec m Q (fun l => if l <? n then y l else n0) i) ->
    minimum_norm n m adj b x.
  Proof.
    intros b y x HD HY HX.
    assert (QX : forall l, 0 <= l < m -> qh m Q x l = if l <? n then y l else n0).
    { intros l Hl. transitivity (qh m Q (mat_vec m Q (fun l => if l <? n then y l else n0)) l).
      - unfold qh. apply nsum_ext. intros i Hi. rewrite HX by assumption. reflexivity.
      - apply (qh_q m Q (fun l => if l <? n then y l else n0) l HQ Hl). }
    split.
    - intros r Hr. unfold mat_vec, adj. rewrite (adj_A x r Hr). rewrite <- (HY r Hr).
      rewrite (nsum_app F _ 0 n m) by lia. rewrite (nsum_0 F _ n m).
      + transitivity (nsum (fun l => nmul (nconj (rt l r)) (qh m Q x l)) 0 n); [ring|]. apply nsum_ext. intros l Hl.
        rewrite QX by lia. destruct (Z.ltb_spec l n); [reflexivity|lia].
      + intros l Hl. rewrite QX by lia. destruct (Z.ltb_spec l n); [lia|]. ring.
    - intros z HZ. rewrite (qh_inner m Q x z HQ). 
      assert (W : forall r, 0 <= r < n -> nsum (fun l => nmul (nconj (rt l r)) (qh m Q z l)) 0 m = n0).
      { intros r Hr. rewrite <- (adj_A z r Hr). apply (HZ r Hr). }
      assert (W0 : forall k r, 0 <= r < Z.of_nat k -> r < n -> qh m Q z r = n0).
      { induction k as [|k IH]; [lia|]. intros r Hr Hrn. destruct (Z.eq_dec r (Z.of_nat k)) as [E|E]; [|apply IH; lia].
        pose proof (W r ltac:(lia)) as X. rewrite (nsum_app F _ 0 r m), (nsum_cons F _ r m) in X by lia.
        rewrite (nsum_0 F _ 0 r), (nsum_0 F _ (r + 1) m) in X.
        2:{ intros l Hl. unfold rt. destruct (Z.leb_spec l r); [lia|]. rewrite nconj_0. ring. }
        2:{ intros l Hl. rewrite (IH l) by lia. ring. }
        apply (mul_nz (nconj (R r r))).
        - rewrite <- X. unfold rt. rewrite Z.leb_refl. ring.
        - intros Y. apply (HD r ltac:(lia)). rewrite <- (nconj_conj F (R r r)), Y. apply nconj_0. }
      apply nsum_0. intros l Hl. rewrite QX by assumption. destruct (Z.ltb_spec l n).
      + rewrite (W0 (Z.to_nat (l + 1)) l) by lia. ring.
      + rewrite nconj_0. ring.
  Qed.
End Ls.
