(* The algebra of LU factorization with row interchanges that reach different columns at
   different times. *)
From Coq Require Import ZArith List Bool Lia Ring.
From Verif Require Import Base NumModel NumProofs FieldModel SwpSpec SwpProofs.
Import ListNotations.
Open Scope Z_scope.

(* interchanges s, s+1, ..., S-1 *)
Definition perm (piv : Z -> Z) (s S i : Z) : Z := source (map (fun t => (t, piv t)) (zrange s S)) i.

Lemma perm_same : forall piv s S i, S <= s -> perm piv s S i = i.
Proof. intros piv s S i H. unfold perm. rewrite zrange_nil by lia. reflexivity. Qed.

Lemma perm_comp : forall piv s t S i, s <= t <= S -> perm piv s S i = perm piv s t (perm piv t S i).
Proof.
  intros piv s t S i H. unfold perm. rewrite (zrange_app s t S) by lia. rewrite map_app, source_app. reflexivity.
Qed.

Lemma perm_snoc : forall piv s S i, s <= S -> perm piv s (S + 1) i = perm piv s S (transposed S (piv S) i).
Proof.
  intros piv s S i H. unfold perm. rewrite zrange_snoc by lia. rewrite map_app, source_app. reflexivity.
Qed.

Lemma perm_ext : forall piv piv' s S i, (forall t, s <= t < S -> piv t = piv' t) -> perm piv s S i = perm piv' s S i.
Proof.
  intros piv piv' s S i H. unfold perm. f_equal. apply map_ext_in. intros t Ht. apply in_zrange in Ht.
  rewrite H by lia. reflexivity.
Qed.

Lemma transposed_low : forall a p b i, a <= p -> i < a -> b <= a -> transposed a p i = i.
Proof.
  intros a p b i H1 H2 _. unfold transposed. replace (i =? a) with false by (symmetry; apply Z.eqb_neq; lia).
  replace (i =? p) with false by (symmetry; apply Z.eqb_neq; lia). reflexivity.
Qed.

Lemma transposed_high : forall a p m i, a <= p < m -> a <= i < m -> a <= transposed a p i < m.
Proof. intros a p m i H1 H2. unfold transposed. destruct (i =? a); [lia|]. destruct (i =? p); lia. Qed.

Lemma perm_low : forall piv s S i, (forall t, s <= t < S -> t <= piv t) -> i < s -> perm piv s S i = i.
Proof.
  intros piv s S i HP Hi. destruct (Z.le_gt_cases S s) as [|L]; [apply perm_same; assumption|].
  revert HP. pattern S. apply (zrange_ind_hi _ s); clear S L.
  - intros S HS _. apply perm_same; assumption.
  - intros S HS IH HP. rewrite perm_snoc by lia. rewrite (transposed_low S (piv S) S) by (try apply HP; lia).
    apply IH. intros t Ht. apply HP. lia.
Qed.

Lemma perm_high : forall piv s S m i, (forall t, s <= t < S -> t <= piv t < m) -> s <= i < m ->
  s <= perm piv s S i < m.
Proof.
  intros piv s S m i HP. revert i. destruct (Z.le_gt_cases S s) as [|L]; [intros; rewrite perm_same; assumption|].
  revert HP. pattern S. apply (zrange_ind_hi _ s); clear S L.
  - intros S HS _ i Hi. rewrite perm_same; assumption.
  - intros S HS IH HP i Hi. rewrite perm_snoc by lia. apply IH; [intros; apply HP; lia|].
    pose proof (HP S ltac:(lia)). unfold transposed. destruct (i =? S); [lia|]. destruct (i =? piv S); lia.
Qed.

(* the same interchanges counted from row K *)
Lemma perm_shift : forall piv piv' K s S i, (forall t, s <= t < S -> piv' (K + t) = K + piv t) ->
  perm piv' (K + s) (K + S) (K + i) = K + perm piv s S i.
Proof.
  intros piv piv' K s S i HP. revert i. destruct (Z.le_gt_cases S s) as [|L].
  { intros i. rewrite !perm_same by lia. reflexivity. }
  revert HP. pattern S. apply (zrange_ind_hi _ s); clear S L.
  - intros S HS _ i. rewrite !perm_same by lia. reflexivity.
  - intros S HS IH HP i. replace (K + (S + 1)) with (K + S + 1) by lia. rewrite !perm_snoc by lia.
    rewrite HP by lia. rewrite <- IH by (intros; apply HP; lia). f_equal.
    unfold transposed. destruct (Z.eqb_spec i S) as [->|N1].
    + rewrite Z.eqb_refl. reflexivity.
    + replace (K + i =? K + S) with false by (symmetry; apply Z.eqb_neq; lia).
      destruct (Z.eqb_spec i (piv S)) as [->|N2].
      * rewrite Z.eqb_refl. reflexivity.
      * replace (K + i =? K + piv S) with false by (symmetry; apply Z.eqb_neq; lia). reflexivity.
Qed.

Section Lu.
  Context {F : fields}.
  Add Ring num_ring_lu : (nring F).
  Local Open Scope num_scope.
  Variables (big : F -> F -> bool) (m n : Z) (A : Z -> Z -> F).

  (* the matrix with all interchanges carried out: those from s j on are still missing in
     column j of X *)
  Definition full (X : Z -> Z -> F) piv S (s : Z -> Z) i j : F := X (perm piv (s j) S i) j.

  (* columns before c j have been eliminated from column j *)
  Definition lu_eq (X : Z -> Z -> F) piv S (s c : Z -> Z) i j : Prop :=
    A (perm piv 0 S i) j =
      nsum (fun t => full X piv S s i t * full X piv S s t j) 0 (Z.min i (c j)) +
      (if (i <=? j)%Z || (c j <=? j)%Z then full X piv S s i j else n0).

  Record lu_inv (X : Z -> Z -> F) (piv : Z -> Z) (S : Z) (s c : Z -> Z) : Prop := {
    lu_S : (0 <= S)%Z;
    lu_Sn : (S <= n)%Z;
    lu_s : forall j, (0 <= j < n)%Z -> (0 <= s j <= S)%Z;
    lu_c : forall j, (0 <= j < n)%Z -> (0 <= c j <= S /\ c j <= j + 1)%Z;
    lu_piv : forall t, (0 <= t < S)%Z -> (t <= piv t < m)%Z;
    lu_small : forall i t, (0 <= t < n)%Z -> c t = (t + 1)%Z -> (t < i < m)%Z ->
      big (full X piv S s i t * full X piv S s t t) (full X piv S s t t) = false;
    lu_nz : forall t, (0 <= t < n)%Z -> c t = (t + 1)%Z -> (t < m)%Z -> full X piv S s t t <> n0;
    lu_body : forall i j, (0 <= i < m)%Z -> (0 <= j < n)%Z -> lu_eq X piv S s c i j }.

  Lemma lu_start : (0 <= n)%Z -> lu_inv A (fun t => t) 0 (fun _ => 0%Z) (fun _ => 0%Z).
  Proof.
    intros Hn. constructor; intros; try lia. unfold lu_eq, full. rewrite !perm_same by lia.
    rewrite nsum_nil by lia. replace (0 <=? j)%Z with true by (symmetry; apply Z.leb_le; lia).
    rewrite orb_true_r. ring.
  Qed.

  (* interchanges carried out on some columns *)
  Lemma lu_swap : forall X X' piv S s s' c, lu_inv X piv S s c ->
    (forall j, (0 <= j < n)%Z -> (s j <= s' j <= S)%Z) ->
    (forall i j, (0 <= i < m)%Z -> (0 <= j < n)%Z -> X' i j = X (perm piv (s j) (s' j) i) j) ->
    lu_inv X' piv S s' c.
  Proof.
    intros X X' piv S s s' c [H1 HSn H2 H3 H4 HB HNZ H5] Hs HX.
    assert (R : forall a i, (0 <= a)%Z -> (0 <= i < m)%Z -> (0 <= perm piv a S i < m)%Z).
    { intros a i Ha Hi. destruct (Z.lt_ge_cases i a).
      - rewrite perm_low; [assumption| |assumption]. intros t Ht. apply H4. lia.
      - pose proof (perm_high piv a S m i ltac:(intros t Ht; apply H4; lia) ltac:(lia)). lia. }
    assert (E : forall i j, (0 <= i < m)%Z -> (0 <= j < n)%Z -> full X' piv S s' i j = full X piv S s i j).
    { intros i j Hi Hj. unfold full. pose proof (Hs j Hj). pose proof (H2 j Hj). rewrite HX by (try apply R; lia).
      rewrite <- perm_comp by lia. reflexivity. }
    constructor; auto.
    - intros j Hj. pose proof (Hs j Hj). pose proof (H2 j Hj). lia.
    - intros i t Ht Hct Hi. rewrite !E by lia. apply HB; assumption.
    - intros t Ht Hct Htm. rewrite E by lia. apply HNZ; assumption.
    - intros i j Hi Hj. unfold lu_eq. rewrite E by assumption. pose proof (H3 j Hj).
      rewrite (H5 i j Hi Hj). apply f_equal2; [|reflexivity]. apply nsum_ext. intros t Ht.
      rewrite !E by lia. reflexivity.
  Qed.

  (* a new interchange of rows that have not been used yet; no column is changed *)
  Lemma full_snoc : forall X piv S s i j, (s j <= S)%Z ->
    full X piv (S + 1) s i j = full X piv S s (transposed S (piv S) i) j.
  Proof. intros. unfold full. rewrite perm_snoc by lia. reflexivity. Qed.

  Lemma lu_pivot : forall X piv S s c, lu_inv X piv S s c -> (S < n)%Z -> (S <= piv S < m)%Z ->
    lu_inv X piv (S + 1) s c.
  Proof.
    intros X piv S s c [H1 HSn H2 H3 H4 HB HNZ H5] HS HP. constructor; try lia.
    - intros j Hj. pose proof (H2 j Hj). lia.
    - intros j Hj. pose proof (H3 j Hj). lia.
    - intros t Ht. destruct (Z.eq_dec t S) as [->|]; [assumption|apply H4; lia].
    - intros i t Ht Hct Hi. pose proof (H3 t Ht). pose proof (H2 t Ht). rewrite !full_snoc by lia.
      rewrite (transposed_low S (piv S) S t) by lia. apply HB; try assumption.
      destruct (Z.lt_ge_cases i S); [rewrite (transposed_low S (piv S) S) by lia; lia|].
      pose proof (transposed_high S (piv S) m i ltac:(lia) ltac:(lia)). lia.
    - intros t Ht Hct Htm. pose proof (H3 t Ht). pose proof (H2 t Ht). rewrite !full_snoc by lia.
      rewrite (transposed_low S (piv S) S t) by lia. apply HNZ; assumption.
    - intros i j Hi Hj. pose proof (H3 j Hj) as Hc. pose proof (H2 j Hj) as Hsj. unfold lu_eq.
      rewrite perm_snoc by lia. rewrite full_snoc by lia.
      pose proof (transposed_range S (piv S) i m ltac:(lia) ltac:(lia) ltac:(lia)) as TR.
      rewrite (H5 _ j TR Hj).
      assert (MN : Z.min (transposed S (piv S) i) (c j) = Z.min i (c j)).
      { destruct (Z.lt_ge_cases i S).
        - rewrite (transposed_low S (piv S) S) by lia. reflexivity.
        - pose proof (transposed_high S (piv S) m i ltac:(lia) ltac:(lia)). lia. }
      rewrite MN. apply f_equal2.
      + apply nsum_ext. intros t Ht. rewrite !full_snoc by (try (pose proof (H2 t ltac:(lia))); lia).
        rewrite (transposed_low S (piv S) S t) by lia. reflexivity.
      + destruct (Z.leb_spec (c j) j) as [|L]; [rewrite !orb_true_r; reflexivity|]. rewrite !orb_false_r.
        destruct (Z.lt_ge_cases i S).
        * rewrite (transposed_low S (piv S) S) by lia. reflexivity.
        * pose proof (transposed_high S (piv S) m i ltac:(lia) ltac:(lia)).
          replace (i <=? j)%Z with false by (symmetry; apply Z.leb_gt; lia).
          replace (_ <=? j)%Z with false by (symmetry; apply Z.leb_gt; lia). reflexivity.
  Qed.

  (* column J is divided by its pivot *)
  Lemma lu_scale : forall X X' piv J s c, lu_inv X piv (J + 1) s c -> (0 <= J < n)%Z -> (J < m)%Z ->
    s J = (J + 1)%Z -> c J = J -> (forall j, (0 <= j < n)%Z -> (c j <= J)%Z \/ (j < J)%Z /\ (c j <= J)%Z) ->
    X J J <> n0 -> (forall i, (J < i < m)%Z -> big (X i J) (X J J) = false) ->
    (forall i j, (0 <= i < m)%Z -> (0 <= j < n)%Z ->
       X' i j = if (j =? J)%Z && (J <? i)%Z then finv (X J J) * X i j else X i j) ->
    lu_inv X' piv (J + 1) s (fun j => if (j =? J)%Z then (J + 1)%Z else c j).
  Proof.
    intros X X' piv J s c [H1 HSn H2 H3 H4 HB HNZ H5] HJ HJm HsJ HcJ Hc HX0 HXB HX.
    assert (R : forall a i, (0 <= a)%Z -> (0 <= i < m)%Z -> (0 <= perm piv a (J + 1) i < m)%Z).
    { intros a i Ha Hi. destruct (Z.lt_ge_cases i a).
      - rewrite perm_low; [assumption| |assumption]. intros t Ht. apply H4. lia.
      - pose proof (perm_high piv a (J + 1) m i ltac:(intros t Ht; apply H4; lia) ltac:(lia)). lia. }
    assert (E : forall i j, (0 <= i < m)%Z -> (0 <= j < n)%Z -> j <> J -> full X' piv (J + 1) s i j = full X piv (J + 1) s i j).
    { intros i j Hi Hj NJ. unfold full. pose proof (H2 j Hj). rewrite HX by (try apply R; lia).
      replace (j =? J)%Z with false by (symmetry; apply Z.eqb_neq; lia). reflexivity. }
    assert (EJ : forall i, (0 <= i < m)%Z -> full X' piv (J + 1) s i J = if (J <? i)%Z then finv (X J J) * X i J else X i J).
    { intros i Hi. unfold full. rewrite HsJ. rewrite perm_same by lia. rewrite HX by lia. rewrite Z.eqb_refl. reflexivity. }
    assert (EJ0 : forall i, full X piv (J + 1) s i J = X i J).
    { intros i. unfold full. rewrite HsJ. rewrite perm_same by lia. reflexivity. }
    constructor; auto.
    - intros j Hj. pose proof (H3 j Hj). destruct (Z.eqb_spec j J); lia.
    - intros i t Ht Hct Hi. destruct (Z.eqb_spec t J) as [->|NJ].
      + rewrite !EJ by lia. replace (J <? i)%Z with true by (symmetry; apply Z.ltb_lt; lia). rewrite Z.ltb_irrefl.
        replace (finv (X J J) * X i J * X J J) with (finv (X J J) * X J J * X i J) by ring.
        rewrite (finv_l F (X J J) HX0). replace (n1 * X i J) with (X i J) by ring. apply HXB. assumption.
      + rewrite !E by lia. apply HB; assumption.
    - intros t Ht Hct Htm. destruct (Z.eqb_spec t J) as [->|NJ].
      + rewrite EJ by lia. rewrite Z.ltb_irrefl. assumption.
      + rewrite E by lia. apply HNZ; assumption.
    - intros i j Hi Hj. pose proof (H5 i j Hi Hj) as H0. unfold lu_eq in *. cbv beta.
      destruct (Z.eqb_spec j J) as [->|NJ].
      + rewrite HcJ in H0. rewrite Z.leb_refl, orb_true_r in H0.
        replace (J + 1 <=? J)%Z with false by (symmetry; apply Z.leb_gt; lia). rewrite orb_false_r, H0.
        destruct (Z.leb_spec i J) as [L|L].
        * rewrite !Z.min_l by lia. rewrite EJ by lia. rewrite EJ0. replace (J <? i)%Z with false by (symmetry; apply Z.ltb_ge; lia).
          apply f_equal2; [|reflexivity]. apply nsum_ext. intros t Ht. rewrite E by lia. rewrite (EJ t) by lia. rewrite EJ0.
          replace (J <? t)%Z with false by (symmetry; apply Z.ltb_ge; lia). reflexivity.
        * rewrite !Z.min_r by lia. rewrite nsum_snoc by lia. rewrite EJ0. rewrite !EJ by lia.
          replace (J <? i)%Z with true by (symmetry; apply Z.ltb_lt; lia). rewrite Z.ltb_irrefl.
          replace (finv (X J J) * X i J * X J J) with (finv (X J J) * X J J * X i J) by ring.
          rewrite (finv_l F (X J J) HX0).
          rewrite (nsum_ext F (fun t => full X' piv (J + 1) s i t * full X' piv (J + 1) s t J)
            (fun t => full X piv (J + 1) s i t * full X piv (J + 1) s t J)); [ring|].
          intros t Ht. rewrite E by lia. rewrite (EJ t) by lia. rewrite EJ0.
          replace (J <? t)%Z with false by (symmetry; apply Z.ltb_ge; lia). reflexivity.
      + rewrite E by assumption. rewrite H0. apply f_equal2; [|reflexivity]. apply nsum_ext. intros t Ht.
        destruct (Hc j Hj); rewrite !E by lia; reflexivity.
  Qed.

  (* columns k, ..., e-1, which are complete, are eliminated from the columns D *)
  Lemma lu_elim : forall X X' piv e s c (D : Z -> bool) k, lu_inv X piv e s c -> (0 <= k <= e)%Z ->
    (forall t, (k <= t < e)%Z -> s t = e) ->
    (forall j, (0 <= j < n)%Z -> D j = true -> (e <= j)%Z /\ s j = e /\ c j = k) ->
    (forall i j, (0 <= i < m)%Z -> (0 <= j < n)%Z -> D j = false \/ (i < k)%Z -> X' i j = X i j) ->
    (forall i j, (k <= i < m)%Z -> (0 <= j < n)%Z -> D j = true ->
       X i j = nsum (fun t => X i t * X' t j) k (Z.min i e) + X' i j) ->
    lu_inv X' piv e s (fun j => if D j then e else c j).
  Proof.
    intros X X' piv e s c D k [H1 HSn H2 H3 H4 HB HNZ H5] Hk Hs HD HX HE.
    assert (R : forall a i, (0 <= a)%Z -> (0 <= i < m)%Z -> (0 <= perm piv a e i < m)%Z).
    { intros a i Ha Hi. destruct (Z.lt_ge_cases i a).
      - rewrite perm_low; [assumption| |assumption]. intros t Ht. apply H4. lia.
      - pose proof (perm_high piv a e m i ltac:(intros t Ht; apply H4; lia) ltac:(lia)). lia. }
    assert (E : forall i j, (0 <= i < m)%Z -> (0 <= j < n)%Z -> D j = false -> full X' piv e s i j = full X piv e s i j).
    { intros i j Hi Hj NJ. unfold full. pose proof (H2 j Hj). rewrite HX; [reflexivity|apply R; lia|assumption|auto]. }
    assert (NS : forall t, (0 <= t < e)%Z -> D t = false).
    { intros t Ht. destruct (D t) eqn:Et; [|reflexivity]. destruct (HD t ltac:(lia) Et). lia. }
    constructor; auto.
    - intros j Hj. pose proof (H3 j Hj). destruct (D j) eqn:Ej; [|assumption]. destruct (HD j Hj Ej). lia.
    - intros i t Ht Hct Hi. destruct (D t) eqn:Et.
      + destruct (HD t Ht Et). lia.
      + rewrite !E by (auto; lia). apply HB; assumption.
    - intros t Ht Hct Htm. destruct (D t) eqn:Et.
      + destruct (HD t Ht Et). lia.
      + rewrite E by (auto; lia). apply HNZ; assumption.
    - intros i j Hi Hj. pose proof (H5 i j Hi Hj) as H0. pose proof (H3 j Hj) as Hcj. unfold lu_eq in *. cbv beta.
      destruct (D j) eqn:Ej.
      + destruct (HD j Hj Ej) as (D1 & D2 & D3). rewrite D3 in H0, Hcj.
        replace (k <=? j)%Z with true in H0 by (symmetry; apply Z.leb_le; lia).
        replace (e <=? j)%Z with true by (symmetry; apply Z.leb_le; lia). rewrite orb_true_r in *.
        assert (FJ : forall i, full X piv e s i j = X i j) by (intros; unfold full; rewrite D2, perm_same by lia; reflexivity).
        assert (FJ' : forall i, full X' piv e s i j = X' i j) by (intros; unfold full; rewrite D2, perm_same by lia; reflexivity).
        rewrite H0, FJ, FJ'. destruct (Z.lt_ge_cases i k) as [L|L].
        * rewrite !Z.min_l by lia. rewrite HX by (auto; lia). apply f_equal2; [|reflexivity].
          apply nsum_ext. intros t Ht. rewrite E by (try apply NS; lia). rewrite FJ, FJ'.
          rewrite HX by (auto; lia). reflexivity.
        * rewrite Z.min_r by lia. rewrite (HE i j) by (auto; lia). rewrite (nsum_app F _ 0 k (Z.min i e)) by lia.
          rewrite (nsum_ext F (fun t => full X' piv e s i t * full X' piv e s t j)
            (fun t => full X piv e s i t * full X piv e s t j) 0 k).
          2:{ intros t Ht. rewrite E by (try apply NS; lia). rewrite FJ, FJ'. rewrite HX by (auto; lia). reflexivity. }
          rewrite (nsum_ext F (fun t => full X' piv e s i t * full X' piv e s t j)
            (fun t => X i t * X' t j) k (Z.min i e)).
          2:{ intros t Ht. rewrite E by (try apply NS; lia). rewrite FJ'. unfold full. rewrite Hs by lia. rewrite perm_same by lia. reflexivity. }
          ring.
      + rewrite E by assumption. rewrite H0. apply f_equal2; [|reflexivity]. apply nsum_ext. intros t Ht.
        rewrite E by (try apply NS; lia). rewrite (E t j) by (auto; lia). reflexivity.
  Qed.
End Lu.

Section Embed.
  Context {F : fields}.
  Add Ring num_ring_lu2 : (nring F).
  Local Open Scope num_scope.
  Variables (big : F -> F -> bool) (m n : Z) (A : Z -> Z -> F).

  (* the panel with rows K, K+1, ..., m-1 and columns K, ..., K+w-1 is factored *)
  Lemma lu_embed : forall X X' X1 piv piv' pl K w q s c cl, lu_inv big m n A X piv K s c ->
    (0 <= w)%Z -> (K + w <= n)%Z -> (0 <= q <= m - K)%Z ->
    (forall j, (K <= j < K + w)%Z -> s j = K /\ c j = K) ->
    lu_inv big (m - K) w (fun i j => X (K + i) (K + j))%Z X1 pl q (fun _ => q) cl ->
    (forall i j, (0 <= i < m)%Z -> (0 <= j < n)%Z ->
       X' i j = if (K <=? i)%Z && (K <=? j)%Z && (j <? K + w)%Z then X1 (i - K)%Z (j - K)%Z else X i j) ->
    (forall t, (0 <= t < K)%Z -> piv' t = piv t) ->
    (forall t, (0 <= t < q)%Z -> piv' (K + t)%Z = (K + pl t)%Z) ->
    lu_inv big m n A X' piv' (K + q)
      (fun j => if (K <=? j)%Z && (j <? K + w)%Z then (K + q)%Z else s j)
      (fun j => if (K <=? j)%Z && (j <? K + w)%Z then (K + cl (j - K))%Z else c j).
  Proof.
    intros X X' X1 piv piv' pl K w q s c cl [H1 HSn H2 H3 H4 HB HNZ H5] Hw HKw Hq HC [L1 LSn L2 L3 L4 LB LNZ L5] HX HP1 HP2.
    assert (P4 : forall t, (0 <= t < K + q)%Z -> (t <= piv' t < m)%Z).
    { intros t Ht. destruct (Z.lt_ge_cases t K).
      - rewrite HP1 by lia. apply H4. lia.
      - replace t with (K + (t - K))%Z by lia. rewrite HP2 by lia. pose proof (L4 (t - K)%Z ltac:(lia)). lia. }
    remember (fun j => if (K <=? j)%Z && (j <? K + w)%Z then (K + q)%Z else s j) as s' eqn:Es.
    assert (SI : forall j, (K <= j < K + w)%Z -> s' j = (K + q)%Z).
    { intros j Hj. rewrite Es. replace (K <=? j)%Z with true by (symmetry; apply Z.leb_le; lia).
      replace (j <? K + w)%Z with true by (symmetry; apply Z.ltb_lt; lia). reflexivity. }
    assert (SO : forall j, (j < K \/ K + w <= j)%Z -> s' j = s j).
    { intros j Hj. rewrite Es. destruct (Z.leb_spec K j); cbn [andb]; [|reflexivity].
      destruct (Z.ltb_spec j (K + w)); [lia|reflexivity]. }
    remember (perm piv' K (K + q)) as rho eqn:ER.
    assert (RL : forall i, (i < K)%Z -> rho i = i).
    { intros i Hi. rewrite ER. apply perm_low; [|assumption]. intros t Ht. apply P4. lia. }
    assert (RH : forall i, (K <= i < m)%Z -> (K <= rho i < m)%Z).
    { intros i Hi. rewrite ER. apply perm_high; [|assumption]. intros t Ht. apply P4. lia. }
    assert (RS : forall i, rho (K + i)%Z = (K + perm pl 0 q i)%Z).
    { intros i. rewrite ER. pose proof (perm_shift pl piv' K 0 q i HP2) as PS. rewrite Z.add_0_r in PS. exact PS. }
    assert (PP : forall a i, (a <= K)%Z -> (0 <= a)%Z -> perm piv' a (K + q) i = perm piv a K (rho i)).
    { intros a i Ha Ha0. rewrite (perm_comp piv' a K (K + q)) by lia. rewrite ER. apply perm_ext. intros t Ht. apply HP1. lia. }
    assert (R0 : forall i, (0 <= i < m)%Z -> (0 <= rho i < m)%Z).
    { intros i Hi. destruct (Z.lt_ge_cases i K); [rewrite RL by lia; lia|]. pose proof (RH i ltac:(lia)). lia. }
    assert (R : forall a i, (0 <= a)%Z -> (0 <= i < m)%Z -> (0 <= perm piv a K i < m)%Z).
    { intros a i Ha Hi. destruct (Z.lt_ge_cases i a).
      - rewrite perm_low; [assumption| |assumption]. intros t Ht. apply H4. lia.
      - pose proof (perm_high piv a K m i ltac:(intros t Ht; apply H4; lia) ltac:(lia)). lia. }
    assert (FO : forall i j, (0 <= i < m)%Z -> (0 <= j < n)%Z -> (j < K \/ K + w <= j)%Z ->
       full X' piv' (K + q) s' i j = full X piv K s (rho i) j).
    { intros i j Hi Hj Ho. unfold full. rewrite SO by assumption. pose proof (H2 j Hj). rewrite PP by lia.
      rewrite HX by (try apply R; try apply R0; lia).
      destruct (Z.leb_spec K j); [|rewrite andb_false_r; reflexivity].
      destruct (Z.ltb_spec j (K + w)); [lia|]. rewrite andb_false_r. reflexivity. }
    assert (FI : forall i j, (0 <= i < m)%Z -> (K <= j < K + w)%Z ->
       full X' piv' (K + q) s' i j = if (K <=? i)%Z then X1 (i - K)%Z (j - K)%Z else X i j).
    { intros i j Hi Hj. unfold full. rewrite SI by assumption. rewrite perm_same by lia. rewrite HX by lia.
      replace (K <=? j)%Z with true by (symmetry; apply Z.leb_le; lia).
      replace (j <? K + w)%Z with true by (symmetry; apply Z.ltb_lt; lia). rewrite !andb_true_r. reflexivity. }
    assert (FX : forall i j, (K <= j < K + w)%Z -> full X piv K s i j = X i j).
    { intros i j Hj. unfold full. destruct (HC j Hj) as [-> _]. rewrite perm_same by lia. reflexivity. }
    assert (FL : forall i j, full X1 pl q (fun _ => q) i j = X1 i j).
    { intros i j. unfold full. rewrite perm_same by lia. reflexivity. }
    constructor; try lia.
    - intros j Hj. destruct (Z.lt_ge_cases j K); [rewrite SO by lia; pose proof (H2 j Hj); lia|].
      destruct (Z.lt_ge_cases j (K + w)); [rewrite SI by lia; lia|]. rewrite SO by lia. pose proof (H2 j Hj). lia.
    - intros j Hj. destruct (Z.leb_spec K j); cbn [andb]; [|pose proof (H3 j Hj); lia].
      destruct (Z.ltb_spec j (K + w)); [|pose proof (H3 j Hj); lia]. pose proof (L3 (j - K)%Z ltac:(lia)). lia.
    - exact P4.
    - intros i t Ht Hct Hi. destruct (Z.leb_spec K t) as [G|G]; cbn [andb] in Hct.
      + destruct (Z.ltb_spec t (K + w)) as [G2|G2].
        * rewrite !FI by lia. replace (K <=? i)%Z with true by (symmetry; apply Z.leb_le; lia).
          replace (K <=? t)%Z with true by (symmetry; apply Z.leb_le; lia).
          pose proof (LB (i - K)%Z (t - K)%Z ltac:(lia) ltac:(lia) ltac:(lia)) as B. rewrite !FL in B. exact B.
        * pose proof (H3 t Ht). lia.
      + rewrite !FO by lia. rewrite (RL t) by lia. apply HB; try assumption.
        destruct (Z.lt_ge_cases i K); [rewrite RL by lia; lia|]. pose proof (RH i ltac:(lia)). lia.
    - intros t Ht Hct Htm. destruct (Z.leb_spec K t) as [G|G]; cbn [andb] in Hct.
      + destruct (Z.ltb_spec t (K + w)) as [G2|G2].
        * rewrite FI by lia. replace (K <=? t)%Z with true by (symmetry; apply Z.leb_le; lia).
          pose proof (LNZ (t - K)%Z ltac:(lia) ltac:(lia) ltac:(lia)) as B. rewrite FL in B. exact B.
        * pose proof (H3 t Ht). lia.
      + rewrite FO by lia. rewrite RL by lia. apply HNZ; assumption.
    - intros i j Hi Hj. unfold lu_eq. rewrite PP by lia. pose proof (H3 j Hj) as Hcj.
      pose proof (H5 (rho i) j (R0 i Hi) Hj) as E0. unfold lu_eq in E0.
      destruct (Z.leb_spec K j) as [G1|G1]; cbn [andb]; [destruct (Z.ltb_spec j (K + w)) as [G2|G2]|]; cbv iota.
      2,3: rewrite E0, FO by lia; apply f_equal2;
        [replace (Z.min (rho i) (c j)) with (Z.min i (c j))
           by (destruct (Z.lt_ge_cases i K); [rewrite RL by lia; reflexivity|pose proof (RH i ltac:(lia)); lia]);
         apply nsum_ext; intros t Ht; rewrite !FO by lia; rewrite (RL t) by lia; reflexivity|].
      2: { replace (c j <=? j)%Z with true by (symmetry; apply Z.leb_le; lia). rewrite !orb_true_r. reflexivity. }
      2: { destruct (Z.lt_ge_cases i K); [rewrite RL by lia; reflexivity|]. pose proof (RH i ltac:(lia)).
           replace (i <=? j)%Z with false by (symmetry; apply Z.leb_gt; lia).
           replace (rho i <=? j)%Z with false by (symmetry; apply Z.leb_gt; lia). reflexivity. }
      destruct (HC j ltac:(lia)) as [C1 C2]. rewrite C2 in E0.
      replace (K <=? j)%Z with true in E0 by (symmetry; apply Z.leb_le; lia). rewrite orb_true_r in E0.
      pose proof (L3 (j - K)%Z ltac:(lia)) as Lc.
      rewrite E0, FX by lia. destruct (Z.lt_ge_cases i K) as [G|G].
      + rewrite RL by lia. replace (i <=? j)%Z with true by (symmetry; apply Z.leb_le; lia). cbn [orb].
        rewrite !Z.min_l by lia. rewrite FI by lia. replace (K <=? i)%Z with false by (symmetry; apply Z.leb_gt; lia).
        apply f_equal2; [|reflexivity]. apply nsum_ext. intros t Ht. rewrite FO by lia. rewrite RL by lia.
        rewrite (FI t j), (FX t j) by lia. replace (K <=? t)%Z with false by (symmetry; apply Z.leb_gt; lia). reflexivity.
      + pose proof (RH i ltac:(lia)). rewrite Z.min_r by lia.
        rewrite (nsum_app F _ 0 K (Z.min i (K + cl (j - K)%Z))) by lia.
        rewrite (nsum_ext F (fun t => full X' piv' (K + q) s' i t * full X' piv' (K + q) s' t j)
          (fun t => full X piv K s (rho i) t * full X piv K s t j) 0 K).
        2:{ intros t Ht. rewrite FO by lia. rewrite (FI t j), (FX t j) by lia.
            replace (K <=? t)%Z with false by (symmetry; apply Z.leb_gt; lia). reflexivity. }
        rewrite (nsum_ext F (fun t => full X' piv' (K + q) s' i t * full X' piv' (K + q) s' t j)
          (fun t => X1 (i - K)%Z (t - K)%Z * X1 (t - K)%Z (j - K)%Z) K).
        2:{ intros t Ht. rewrite !FI by lia. replace (K <=? i)%Z with true by (symmetry; apply Z.leb_le; lia).
            replace (K <=? t)%Z with true by (symmetry; apply Z.leb_le; lia). reflexivity. }
        rewrite FI by lia. replace (K <=? i)%Z with true by (symmetry; apply Z.leb_le; lia).
        pose proof (L5 (i - K)%Z (j - K)%Z ltac:(lia) ltac:(lia)) as E1. unfold lu_eq in E1. rewrite FL in E1.
        rewrite (nsum_ext F _ (fun t => X1 (i - K)%Z t * X1 t (j - K)%Z)) in E1 by (intros; rewrite !FL; reflexivity).
        replace (K + (j - K))%Z with j in E1 by lia.
        rewrite <- RS in E1. replace (K + (i - K))%Z with i in E1 by lia. rewrite E1.
        replace (nsum (fun t => X1 (i - K)%Z (t - K)%Z * X1 (t - K)%Z (j - K)%Z) K (Z.min i (K + cl (j - K)%Z)))
          with (nsum (fun t => X1 (i - K)%Z t * X1 t (j - K)%Z) 0 (Z.min (i - K) (cl (j - K)%Z))).
        2:{ transitivity (nsum (fun t => X1 (i - K)%Z (t - K)%Z * X1 (t - K)%Z (j - K)%Z) (0 + K) (Z.min i (K + cl (j - K)%Z))); [|reflexivity].
            replace (Z.min i (K + cl (j - K)%Z)) with (Z.min (i - K) (cl (j - K)%Z) + K)%Z by lia.
            rewrite nsum_shift. apply nsum_ext. intros t Ht. replace (t + K - K)%Z with t by lia. reflexivity. }
        replace (i - K <=? j - K)%Z with (i <=? j)%Z.
        2:{ destruct (Z.leb_spec i j), (Z.leb_spec (i - K) (j - K)); try reflexivity; lia. }
        replace (K + cl (j - K)%Z <=? j)%Z with (cl (j - K) <=? j - K)%Z.
        2:{ destruct (Z.leb_spec (cl (j - K)%Z) (j - K)), (Z.leb_spec (K + cl (j - K)%Z) j); try reflexivity; lia. }
        ring.
  Qed.

  (* the end: the factors *)
  Lemma lu_done : forall X piv s c, (0 <= m)%Z -> (0 <= n)%Z -> let q := Z.min m n in
    lu_inv big m n A X piv q s c ->
    (forall j, (0 <= j < n)%Z -> s j = q /\ c j = Z.min (j + 1) q) ->
    forall i j, (0 <= i < m)%Z -> (0 <= j < n)%Z ->
    A (perm piv 0 q i) j =
      nsum (fun l => (if (i =? l)%Z then n1 else if (l <? i)%Z then X i l else n0) *
                     (if (l <=? j)%Z then X l j else n0)) 0 q.
  Proof.
    intros X piv s c Hm Hn q [H1 HSn H2 H3 H4 HB HNZ H5] Hsc i j Hi Hj.
    pose proof (H5 i j Hi Hj) as E. unfold lu_eq in E. rewrite E. clear E.
    destruct (Hsc j Hj) as [Sj Cj]. rewrite Cj.
    assert (FX : forall i t, (0 <= t < n)%Z -> full X piv q s i t = X i t).
    { intros a t Ht. unfold full. destruct (Hsc t Ht) as [-> _]. rewrite perm_same by lia. reflexivity. }
    rewrite FX by assumption.
    rewrite (nsum_ext F _ (fun t => X i t * X t j)) by (intros; rewrite !FX by lia; reflexivity).
    destruct (Z.leb_spec i j) as [L|L]; cbn [orb].
    - rewrite (Z.min_l i) by lia. rewrite (nsum_app F _ 0 i q) by lia. rewrite (nsum_app F _ i (i + 1) q) by lia.
      rewrite nsum_one. rewrite Z.eqb_refl. replace (i <=? j)%Z with true by (symmetry; apply Z.leb_le; lia).
      rewrite (nsum_0 F _ (i + 1) q).
      2:{ intros l Hl. replace (i =? l)%Z with false by (symmetry; apply Z.eqb_neq; lia).
          replace (l <? i)%Z with false by (symmetry; apply Z.ltb_ge; lia). ring. }
      rewrite (nsum_ext F (fun l => (if (i =? l)%Z then n1 else if (l <? i)%Z then X i l else n0) *
                     (if (l <=? j)%Z then X l j else n0)) (fun t => X i t * X t j) 0 i); [ring|].
      intros l Hl. replace (i =? l)%Z with false by (symmetry; apply Z.eqb_neq; lia).
      replace (l <? i)%Z with true by (symmetry; apply Z.ltb_lt; lia).
      replace (l <=? j)%Z with true by (symmetry; apply Z.leb_le; lia). reflexivity.
    - replace (Z.min (j + 1) q) with (j + 1)%Z by lia.
      replace (j + 1 <=? j)%Z with false by (symmetry; apply Z.leb_gt; lia). rewrite Z.min_r by lia.
      rewrite (nsum_app F _ 0 (j + 1) q) by lia. rewrite (nsum_0 F _ (j + 1) q).
      2:{ intros l Hl. replace (l <=? j)%Z with false by (symmetry; apply Z.leb_gt; lia). ring. }
      rewrite (nsum_ext F (fun l => (if (i =? l)%Z then n1 else if (l <? i)%Z then X i l else n0) *
                     (if (l <=? j)%Z then X l j else n0)) (fun t => X i t * X t j) 0 (j + 1)); [ring|].
      intros l Hl. replace (i =? l)%Z with false by (symmetry; apply Z.eqb_neq; lia).
      replace (l <? i)%Z with true by (symmetry; apply Z.ltb_lt; lia).
      replace (l <=? j)%Z with true by (symmetry; apply Z.leb_le; lia). reflexivity.
  Qed.
End Embed.

Section Dep.
  Context {F : fields}.
  Add Ring num_ring_lu3 : (nring F).
  Local Open Scope num_scope.

  (* column k of A is a combination of the columns before it *)
  Definition dep0 (m : Z) (A : Z -> Z -> F) (k : Z) : Prop :=
    exists x : Z -> F, x k = n1 /\ forall i, (0 <= i < m)%Z -> nsum (fun j => A i j * x j) 0 (k + 1) = n0.

  (* upper triangular systems can be solved *)
  Lemma upper_solve : forall (U : Z -> Z -> F) K h (x : Z -> F), (0 <= K <= h)%Z ->
    (forall t, (0 <= t < K)%Z -> U t t <> n0) ->
    exists y : Z -> F, (forall l, (K <= l)%Z -> y l = x l) /\
      forall t, (0 <= t < K)%Z -> nsum (fun l => U t l * y l) t h = n0.
  Proof.
    intros U K h x HK HU.
    assert (G : forall d : nat, (Z.of_nat d <= K)%Z -> exists y : Z -> F, (forall l, (K <= l)%Z -> y l = x l) /\
      forall t, (K - Z.of_nat d <= t < K)%Z -> nsum (fun l => U t l * y l) t h = n0).
    { induction d as [|d IH]; intros Hd.
      - exists x. split; [auto|]. intros t Ht. lia.
      - destruct (IH ltac:(lia)) as (y & Y1 & Y2). set (t0 := (K - Z.of_nat (S d))%Z).
        exists (fun l => if (l =? t0)%Z then - (finv (U t0 t0) * nsum (fun l => U t0 l * y l) (t0 + 1) h) else y l).
        split.
        + intros l Hl. destruct (Z.eqb_spec l t0); [lia|]. apply Y1. assumption.
        + intros t Ht. destruct (Z.eq_dec t t0) as [->|N].
          * remember (nsum (fun l => U t0 l * y l) (t0 + 1) h) as s eqn:Es.
            rewrite nsum_cons by lia. rewrite Z.eqb_refl.
            rewrite (nsum_ext F _ (fun l => U t0 l * y l) (t0 + 1) h).
            2:{ intros l Hl. destruct (Z.eqb_spec l t0); [lia|reflexivity]. }
            rewrite <- Es.
            replace (U t0 t0 * - (finv (U t0 t0) * s) + s) with (- (finv (U t0 t0) * U t0 t0) * s + s) by ring.
            rewrite (finv_l F) by (apply HU; lia). ring.
          * rewrite <- (Y2 t ltac:(lia)). apply nsum_ext. intros l Hl. destruct (Z.eqb_spec l t0); [lia|reflexivity]. }
    destruct (G (Z.to_nat K) ltac:(lia)) as (y & Y1 & Y2). exists y. split; [assumption|]. intros t Ht. apply Y2. lia.
  Qed.

  Lemma lu_dep : forall big m n A X piv S s c K h (x : Z -> F), lu_inv big m n A X piv S s c ->
    (0 <= K <= S)%Z -> (K <= h < n)%Z ->
    (forall t, (0 <= t < K)%Z -> c t = (t + 1)%Z) -> (forall j, (K <= j <= h)%Z -> c j = K) ->
    x h = n1 -> (forall i, (K <= i < m)%Z -> nsum (fun l => full X piv S s i l * x l) K (h + 1) = n0) ->
    dep0 m A h.
  Proof.
    intros big m n A X piv S s c K h x I HK Hh C1 C2 X1 X0. pose proof I as [H1 HSn H2 H3 H4 HB HNZ H5].
    assert (KM : forall t, (0 <= t < K)%Z -> (t < m)%Z) by (intros t Ht; pose proof (H4 t ltac:(lia)); lia).
    destruct (upper_solve (full X piv S s) K (h + 1) x ltac:(lia)) as (y & Y1 & Y2).
    { intros t Ht. apply HNZ; [lia|auto|auto]. }
    exists y. split; [rewrite Y1 by lia; assumption|].
    assert (G : forall i, (0 <= i < m)%Z -> nsum (fun l => A (perm piv 0 S i) l * y l) 0 (h + 1) = n0).
    { intros i Hi.
      set (U := fun t l => if (t <=? l)%Z then full X piv S s t l else n0).
      assert (U0 : forall t, (0 <= t < K)%Z -> nsum (fun l => U t l * y l) 0 (h + 1) = n0).
      { intros t Ht. rewrite (nsum_app F _ 0 t) by lia. rewrite (nsum_0 F _ 0 t).
        2:{ intros l Hl. unfold U. destruct (Z.leb_spec t l); [lia|ring]. }
        rewrite (nsum_ext F _ (fun l => full X piv S s t l * y l) t (h + 1)).
        2:{ intros l Hl. unfold U. destruct (Z.leb_spec t l); [reflexivity|lia]. }
        rewrite Y2 by assumption. ring. }
      set (R := fun l => if (i <? K)%Z then U i l else if (K <=? l)%Z then full X piv S s i l else n0).
      assert (EA : forall l, (0 <= l < h + 1)%Z ->
        A (perm piv 0 S i) l = nsum (fun t => full X piv S s i t * U t l) 0 (Z.min i K) + R l).
      { intros l Hl. rewrite (H5 i l Hi ltac:(lia)). destruct (Z.lt_ge_cases l K) as [Ll|Ll].
        - rewrite C1 by lia. replace (l + 1 <=? l)%Z with false by (symmetry; apply Z.leb_gt; lia). rewrite orb_false_r.
          assert (ER : R l = if (i <=? l)%Z then full X piv S s i l else n0).
          { unfold R, U. destruct (Z.ltb_spec i K); [reflexivity|]. destruct (Z.leb_spec K l); [lia|].
            destruct (Z.leb_spec i l); [lia|reflexivity]. }
          rewrite ER. apply f_equal2; [|reflexivity].
          rewrite (nsum_app F (fun t => full X piv S s i t * U t l) 0 (Z.min i (l + 1)) (Z.min i K)) by lia.
          rewrite (nsum_0 F (fun t => full X piv S s i t * U t l) (Z.min i (l + 1)) (Z.min i K)).
          2:{ intros t Ht. unfold U. destruct (Z.leb_spec t l); [lia|ring]. }
          rewrite (nsum_ext F (fun t => full X piv S s i t * U t l) (fun t => full X piv S s i t * full X piv S s t l)); [ring|].
          intros t Ht. unfold U. destruct (Z.leb_spec t l); [reflexivity|lia].
        - rewrite C2 by lia. replace (K <=? l)%Z with true by (symmetry; apply Z.leb_le; lia). rewrite orb_true_r.
          assert (ER : R l = full X piv S s i l).
          { unfold R, U. replace (K <=? l)%Z with true by (symmetry; apply Z.leb_le; lia).
            destruct (Z.ltb_spec i K); [|reflexivity]. destruct (Z.leb_spec i l); [reflexivity|lia]. }
          rewrite ER. apply f_equal2; [|reflexivity]. apply nsum_ext. intros t Ht. unfold U.
          destruct (Z.leb_spec t l); [reflexivity|lia]. }
      rewrite (nsum_ext F _ (fun l => nsum (fun t => full X piv S s i t * U t l * y l) 0 (Z.min i K) + R l * y l)).
      2:{ intros l Hl. rewrite EA by assumption. rewrite nsum_mul_r. ring. }
      rewrite nsum_add. rewrite (nsum_swap F (fun l t => full X piv S s i t * U t l * y l)).
      rewrite (nsum_0 F (fun t => nsum (fun l => full X piv S s i t * U t l * y l) 0 (h + 1))).
      2:{ intros t Ht. rewrite (nsum_ext F _ (fun l => full X piv S s i t * (U t l * y l))) by (intros; ring).
          rewrite nsum_mul_l. rewrite U0 by lia. ring. }
      assert (ER : nsum (fun l => R l * y l) 0 (h + 1) = n0); [|rewrite ER; ring].
      unfold R. destruct (Z.ltb_spec i K).
      - apply U0. lia.
      - rewrite (nsum_app F _ 0 K) by lia. rewrite (nsum_0 F _ 0 K).
        2:{ intros l Hl. destruct (Z.leb_spec K l); [lia|ring]. }
        rewrite (nsum_ext F _ (fun l => full X piv S s i l * x l) K (h + 1)).
        2:{ intros l Hl. destruct (Z.leb_spec K l); [|lia]. rewrite Y1 by lia. reflexivity. }
        rewrite X0 by lia. ring. }
    intros i Hi.
    assert (SI : swaps_in m (map (fun t => (t, piv t)) (zrange 0 S))).
    { apply Forall_forall. intros p Hp. apply in_map_iff in Hp. destruct Hp as (t & <- & Ht). apply in_zrange in Ht.
      pose proof (H4 t Ht). cbn [fst snd]. lia. }
    rewrite <- (G (source (rev (map (fun t => (t, piv t)) (zrange 0 S))) i)).
    - unfold perm. rewrite source_rev. reflexivity.
    - apply source_range; [|assumption]. apply Forall_rev. exact SI.
  Qed.
End Dep.
