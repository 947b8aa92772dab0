(* The kernels of the norms of symmetric, Hermitian and triangular matrices, continued. *)
From Coq Require Import ZArith List Bool Lia Ring.
From Verif Require Import Base NumModel NumProofs FieldModel TaskModel TaskSpec DescModel DescSpec
  MatModel SimProofs NormModel NormTriModel NormSpec NormProofs NormInstances NormTriProofs.
Import ListNotations.
Open Scope Z_scope.

Section Tri.
  Context {N : normed}.
  Add Ring num_ring_tri2 : (nring N).

  Lemma sum_sym_upper : forall (g : Z -> Z -> N) n, (forall i j, g i j = g j i) -> 0 <= n ->
    nsum (fun j => nsum (fun i => g i j) 0 n) 0 n
    = nadd (nadd (nsum (fun j => nsum (fun i => g i j) 0 j) 0 n) (nsum (fun j => nsum (fun i => g i j) 0 j) 0 n))
           (nsum (fun i => g i i) 0 n).
  Proof.
    intros g n HS. pattern n. apply (zrange_ind_hi _ 0); clear n.
    - intros n H Hn. rewrite !(nsum_nil N _ 0 n) by lia. ring.
    - intros n H IH Hn.
      rewrite (nsum_snoc N (fun j => nsum (fun i => g i j) 0 (n + 1)) 0 n) by lia.
      rewrite (nsum_snoc N (fun j => nsum (fun i => g i j) 0 j) 0 n) by lia.
      rewrite (nsum_snoc N (fun i => g i i) 0 n) by lia. rewrite (nsum_snoc N (fun i => g i n) 0 n) by lia.
      rewrite (nsum_ext N (fun j => nsum (fun i => g i j) 0 (n + 1)) (fun j => nadd (nsum (fun i => g i j) 0 n) (g n j)) 0 n).
      2: { intros j Hj. apply (nsum_snoc N (fun i => g i j) 0 n); lia. }
      rewrite (nsum_add N (fun j => nsum (fun i => g i j) 0 n) (fun j => g n j) 0 n), IH by lia.
      rewrite (nsum_ext N (fun j => g n j) (fun i => g i n) 0 n) by (intros; apply HS). ring.
  Qed.

  Lemma sum_sym_lower : forall (g : Z -> Z -> N) n, (forall i j, g i j = g j i) -> 0 <= n ->
    nsum (fun j => nsum (fun i => g i j) 0 n) 0 n
    = nadd (nadd (nsum (fun j => nsum (fun i => g i j) (j + 1) n) 0 n) (nsum (fun j => nsum (fun i => g i j) (j + 1) n) 0 n))
           (nsum (fun i => g i i) 0 n).
  Proof.
    intros g n HS. pattern n. apply (zrange_ind_hi _ 0); clear n.
    - intros n H Hn. rewrite !(nsum_nil N _ 0 n) by lia. ring.
    - intros n H IH Hn.
      rewrite (nsum_snoc N (fun j => nsum (fun i => g i j) 0 (n + 1)) 0 n) by lia.
      rewrite (nsum_snoc N (fun j => nsum (fun i => g i j) (j + 1) (n + 1)) 0 n) by lia.
      rewrite (nsum_snoc N (fun i => g i i) 0 n) by lia. rewrite (nsum_snoc N (fun i => g i n) 0 n) by lia.
      rewrite (nsum_nil N (fun i => g i n) (n + 1) (n + 1)) by lia.
      rewrite (nsum_ext N (fun j => nsum (fun i => g i j) 0 (n + 1)) (fun j => nadd (nsum (fun i => g i j) 0 n) (g n j)) 0 n).
      2: { intros j Hj. apply (nsum_snoc N (fun i => g i j) 0 n); lia. }
      rewrite (nsum_ext N (fun j => nsum (fun i => g i j) (j + 1) (n + 1)) (fun j => nadd (nsum (fun i => g i j) (j + 1) n) (g n j)) 0 n).
      2: { intros j Hj. apply (nsum_snoc N (fun i => g i j) (j + 1) n); lia. }
      rewrite (nsum_add N (fun j => nsum (fun i => g i j) 0 n) (fun j => g n j) 0 n).
      rewrite (nsum_add N (fun j => nsum (fun i => g i j) (j + 1) n) (fun j => g n j) 0 n).
      rewrite IH by lia.
      rewrite (nsum_ext N (fun j => g n j) (fun i => g i n) 0 n) by (intros; apply HS). ring.
  Qed.

  Lemma lassq_list : forall lassq (x : Z -> N) a b s t, lassq_ok lassq -> ssq_ok s t ->
    ssq_ok (lassq (map x (zrange a b)) s) (nadd t (nsum (fun i => nmul (nabs (x i)) (nabs (x i))) a b)).
  Proof.
    intros lassq x a b s t HL HS. rewrite <- (fold_right_map_sum (fun y => nmul (nabs y) (nabs y)) x).
    apply lassq_ssq; assumption.
  Qed.

  Lemma syssq_ok : forall lassq dg uplo n (f : Z -> Z -> N), lassq_ok lassq -> (forall z, isabs (dg z)) -> 0 < n ->
    ssq_ok (syssq lassq dg uplo n f)
      (nsum (fun j => nsum (fun i => nmul (gs dg uplo f i j) (gs dg uplo f i j)) 0 n) 0 n).
  Proof.
    intros lassq dg uplo n f HL HD Hn. unfold syssq.
    assert (ED : nsum (fun i => nmul (gs dg uplo f i i) (gs dg uplo f i i)) 0 n = nsum (fun i => nmul (dg (f i i)) (dg (f i i))) 0 n).
    { apply nsum_ext. intros i _. unfold gs. rewrite Z.eqb_refl. reflexivity. }
    destruct (Z.eqb_spec uplo PlasmaUpper) as [EU|EU].
    - rewrite (sum_sym_upper (fun i j => nmul (gs dg uplo f i j) (gs dg uplo f i j)));
        [|intros i j; rewrite gs_sym; reflexivity|lia].
      rewrite ED. apply (ssq_zrange (fun i => dg (f i i))); [intros; apply HD|]. apply twice_ok.
      rewrite (nsum_ext N (fun j => nsum (fun i => nmul (gs dg uplo f i j) (gs dg uplo f i j)) 0 j)
        (fun j => nsum (fun i => nmul (nabs (f i j)) (nabs (f i j))) 0 j) 0 n).
      2: { intros j Hj. apply nsum_ext. intros i Hi. unfold gs, stored. replace (i =? j) with false by lia.
           rewrite EU. cbn [Z.eqb PlasmaUpper Pos.eqb]. replace (i <=? j) with true by lia. reflexivity. }
      rewrite (nsum_cons N (fun j => nsum (fun i => nmul (nabs (f i j)) (nabs (f i j))) 0 j) 0 n) by lia.
      rewrite (nsum_nil N (fun i => nmul (nabs (f i 0)) (nabs (f i 0))) 0 0) by lia.
      apply (ssq_cols (fun s j => lassq (map (fun i => f i j) (zrange 0 j)) s)
        (fun j => nsum (fun i => nmul (nabs (f i j)) (nabs (f i j))) 0 j)); [|apply ssq_start].
      intros j s t Hj HS. apply (lassq_list lassq (fun i => f i j)); assumption.
    - rewrite (sum_sym_lower (fun i j => nmul (gs dg uplo f i j) (gs dg uplo f i j)));
        [|intros i j; rewrite gs_sym; reflexivity|lia].
      rewrite ED. apply (ssq_zrange (fun i => dg (f i i))); [intros; apply HD|]. apply twice_ok.
      rewrite (nsum_ext N (fun j => nsum (fun i => nmul (gs dg uplo f i j) (gs dg uplo f i j)) (j + 1) n)
        (fun j => nsum (fun i => nmul (nabs (f i j)) (nabs (f i j))) (j + 1) n) 0 n).
      2: { intros j Hj. apply nsum_ext. intros i Hi. unfold gs, stored. replace (i =? j) with false by lia.
           rewrite (proj2 (Z.eqb_neq _ _) EU). replace (j <=? i) with true by lia. reflexivity. }
      assert (EL : nsum (fun j => nsum (fun i => nmul (nabs (f i j)) (nabs (f i j))) (j + 1) n) 0 n
        = nadd (nsum (fun j => nsum (fun i => nmul (nabs (f i j)) (nabs (f i j))) (j + 1) n) 0 (n - 1)) n0).
      { rewrite (nsum_app N _ 0 (n - 1) n) by lia. f_equal. apply nsum_0. intros j Hj. apply nsum_nil. lia. }
      rewrite EL. clear EL.
      match goal with |- ssq_ok _ (nadd ?x n0) => replace (nadd x n0) with (nadd n0 x) by ring end.
      apply (ssq_cols (fun s j => lassq (map (fun i => f i j) (zrange (j + 1) n)) s)
        (fun j => nsum (fun i => nmul (nabs (f i j)) (nabs (f i j))) (j + 1) n)); [|apply ssq_start].
      intros j s t Hj HS. apply (lassq_list lassq (fun i => f i j)); assumption.
  Qed.

  Lemma ssq_add_zrange : forall (scl sum tot : Z -> N) a b s t,
    (forall i, a <= i < b -> ssq_ok (scl i, sum i) (tot i)) -> ssq_ok s t ->
    ssq_ok (fold_left (fun s i => ssq_add s (scl i) (sum i)) (zrange a b) s) (nadd t (nsum tot a b)).
  Proof.
    intros scl sum tot a b s t HX HS. apply (ssq_fold Z (zrange a b) scl sum tot); [|assumption].
    intros i Hi. apply HX, in_zrange. assumption.
  Qed.

  (* the reduction over tiles: t i j is what the pair at m*j+i, i >= j, stands for *)
  Lemma syssq_aux_ok : forall m n (sc sm : Z -> N) (t : Z -> Z -> N), 0 <= n -> (forall i j, t i j = t j i) ->
    (forall i j, 0 <= j <= i -> i < n -> ssq_ok (sc (m * j + i), sm (m * j + i)) (t i j)) ->
    ssq_ok (syssq_aux m n sc sm) (nsum (fun j => nsum (fun i => t i j) 0 n) 0 n).
  Proof.
    intros m n sc sm t Hn HS HT. unfold syssq_aux. rewrite (sum_sym_lower t) by assumption.
    apply (ssq_add_zrange (fun j => sc (m * j + j)) (fun j => sm (m * j + j)) (fun j => t j j)).
    - intros j Hj. apply HT; lia.
    - apply twice_ok. 
      match goal with |- ssq_ok _ ?x => replace x with (nadd n0 x) by ring end.
      apply (ssq_cols (fun s j => fold_left (fun s i => ssq_add s (sc (m * j + i)) (sm (m * j + i))) (zrange (j + 1) n) s)
        (fun j => nsum (fun i => t i j) (j + 1) n)); [|apply ssq_start].
      intros j s u Hj HU.
      apply (ssq_add_zrange (fun i => sc (m * j + i)) (fun i => sm (m * j + i)) (fun i => t i j)); [|assumption].
      intros i Hi. apply HT; lia.
  Qed.

  (* ---------------------------------------------------------------- *)
  (* triangular *)

  Definition valid_diag (diag : Z) : Prop := diag = PlasmaUnit \/ diag = PlasmaNonUnit.

  Lemma stored_refl : forall uplo i, stored uplo i i = true.
  Proof. intros uplo i. unfold stored. destruct (uplo =? PlasmaUpper); apply Z.leb_le; lia. Qed.

  Lemma lantr_max_largest : forall uplo diag m n (f : Z -> Z -> N), valid_diag diag -> 0 < m -> 0 < n ->
    largest (fun p => in_matrix m n (fst p) (snd p)) (fun p : Z * Z => gt uplo diag f (fst p) (snd p)) (lantr_max uplo diag m n f).
  Proof.
    intros uplo diag m n f HV Hm Hn.
    pose (P := fun p : Z * Z => in_matrix m n (fst p) (snd p) /\ stored uplo (fst p) (snd p) = true).
    assert (P0 : P (0, 0)) by (split; [split; cbn; lia|apply stored_refl]).
    apply (largest_cover _ P).
    - intros; apply gt_abs.
    - intros p [Hp _]. exact Hp.
    - exists (0, 0). exact P0.
    - intros [i j] [Hi Hj]. cbn [fst snd] in *.
      destruct (stored uplo i j) eqn:E; [right; exists (i, j); split; [split; [split; assumption|exact E]|reflexivity]|].
      left. unfold gt. destruct (Z.eqb_spec i j) as [->|]; [rewrite stored_refl in E; discriminate|]. rewrite E. reflexivity.
    - unfold lantr_max. destruct HV as [-> | ->]; cbn [Z.eqb PlasmaUnit PlasmaNonUnit Pos.eqb].
      + pose (P' := fun p : Z * Z => P p /\ fst p <> snd p).
        destruct (fold_tri_largest (gt uplo PlasmaUnit f)
          (fun j => if uplo =? PlasmaUpper then zrange 0 (Z.min m j) else zrange (j + 1) m) n n1 P')
          as (B1 & B2 & B3 & B4).
        * intros; apply gt_abs.
        * apply isabs_1.
        * intros i j. unfold P', P, stored, in_matrix. cbn [fst snd].
          destruct (uplo =? PlasmaUpper); rewrite in_zrange, Z.leb_le; lia.
        * assert (EQ : fold_left (fun v j => fold_left (fun v i => nmax v (nabs (f i j)))
              (if uplo =? PlasmaUpper then zrange 0 (Z.min m j) else zrange (j + 1) m) v) (zrange 0 n) n1
            = fold_left (fun v j => fold_left (fun v i => nmax v (gt uplo PlasmaUnit f i j))
              (if uplo =? PlasmaUpper then zrange 0 (Z.min m j) else zrange (j + 1) m) v) (zrange 0 n) n1).
          { apply fold_left_ext_in. intros j v Hj. apply in_zrange in Hj. apply fold_left_ext_in. intros i w Hi.
            unfold gt, stored. destruct (uplo =? PlasmaUpper); apply in_zrange in Hi.
            - replace (i =? j) with false by lia. replace (i <=? j) with true by lia. reflexivity.
            - replace (i =? j) with false by lia. replace (j <=? i) with true by lia. reflexivity. }
          rewrite EQ. clear EQ.
          assert (D1 : forall i, gt uplo PlasmaUnit f i i = n1) by (intros i; unfold gt; rewrite Z.eqb_refl; reflexivity).
          split.
          -- intros [i j] Hp. cbn [fst snd]. destruct (Z.eq_dec i j) as [->|NE].
             ++ rewrite D1. exact B2.
             ++ apply (B3 (i, j)). split; assumption.
          -- left. destruct B4 as [B4|(p & [Hp _] & B4)]; [|exists p; auto].
             exists (0, 0). split; [exact P0|]. cbn [fst snd]. rewrite D1. exact B4.
      + destruct (fold_tri_largest (gt uplo PlasmaNonUnit f)
          (fun j => if uplo =? PlasmaUpper then zrange 0 (Z.min m (j + 1)) else zrange j m) n n0 P)
          as (B1 & B2 & B3 & B4).
        * intros; apply gt_abs.
        * apply isabs_0.
        * intros i j. unfold P, stored, in_matrix. cbn [fst snd].
          destruct (uplo =? PlasmaUpper); rewrite in_zrange, Z.leb_le; lia.
        * assert (EQ : fold_left (fun v j => fold_left (fun v i => nmax v (nabs (f i j)))
              (if uplo =? PlasmaUpper then zrange 0 (Z.min m (j + 1)) else zrange j m) v) (zrange 0 n) n0
            = fold_left (fun v j => fold_left (fun v i => nmax v (gt uplo PlasmaNonUnit f i j))
              (if uplo =? PlasmaUpper then zrange 0 (Z.min m (j + 1)) else zrange j m) v) (zrange 0 n) n0).
          { apply fold_left_ext_in. intros j v Hj. apply in_zrange in Hj. apply fold_left_ext_in. intros i w Hi.
            unfold gt, stored. cbn [Z.eqb PlasmaUnit PlasmaNonUnit Pos.eqb].
            destruct (i =? j); [reflexivity|]. destruct (uplo =? PlasmaUpper); apply in_zrange in Hi.
            - replace (i <=? j) with true by lia. reflexivity.
            - replace (j <=? i) with true by lia. reflexivity. }
          rewrite EQ. clear EQ. split; [exact B3|]. left. destruct B4 as [B4|B4]; [|exact B4].
          exists (0, 0). split; [exact P0|]. rewrite B4. symmetry. apply nle_0_eq; [apply gt_abs|].
          rewrite <- B4. apply (B3 _ P0).
  Qed.

  (* the column sum of the triangle *)
  Lemma lantr_one_sum : forall uplo diag m n (f : Z -> Z -> N) j, valid_diag diag -> 0 < m -> 0 <= j < n ->
    lantr_one uplo diag m n f j = nsum (fun i => gt uplo diag f i j) 0 m.
  Proof.
    intros uplo diag m n f j HV Hm Hj. unfold lantr_one.
    assert (DN : (diag =? PlasmaNonUnit) = negb (diag =? PlasmaUnit)) by (destruct HV as [-> | ->]; reflexivity).
    rewrite DN.
    destruct (Z.eqb_spec uplo PlasmaUpper) as [EU|EU].
    - assert (G1 : forall i, i < j -> gt uplo diag f i j = nabs (f i j)).
      { intros i Hi. unfold gt, stored. replace (i =? j) with false by lia. rewrite EU. cbn [Z.eqb PlasmaUpper Pos.eqb].
        replace (i <=? j) with true by lia. reflexivity. }
      assert (G2 : forall i, j < i -> gt uplo diag f i j = n0).
      { intros i Hi. unfold gt, stored. replace (i =? j) with false by lia. rewrite EU. cbn [Z.eqb PlasmaUpper Pos.eqb].
        replace (i <=? j) with false by lia. reflexivity. }
      assert (G3 : gt uplo diag f j j = if diag =? PlasmaUnit then n1 else nabs (f j j)).
      { unfold gt. rewrite Z.eqb_refl. reflexivity. }
      destruct (diag =? PlasmaUnit) eqn:ED; cbn [negb].
      + destruct (Z.ltb_spec j (Z.min n m)) as [L|L].
        * rewrite (fold_add (fun i => nabs (f i j))). rewrite (nsum_split3 _ j m) by lia. rewrite G3.
          rewrite (nsum_0 N _ (j + 1) m) by (intros; apply G2; lia).
          rewrite (nsum_ext N (fun i => gt uplo diag f i j) (fun i => nabs (f i j)) 0 j) by (intros; apply G1; lia). ring.
        * rewrite (fold_add (fun i => nabs (f i j))).
          rewrite (nsum_ext N (fun i => gt uplo diag f i j) (fun i => nabs (f i j)) 0 m) by (intros; apply G1; lia).
          rewrite (nsum_cons N _ 0 m) by lia. reflexivity.
      + rewrite (fold_add (fun i => nabs (f i j))).
        rewrite (nsum_app N _ 0 (Z.min (j + 1) m) m) by lia.
        rewrite (nsum_0 N _ (Z.min (j + 1) m) m) by (intros; apply G2; lia).
        rewrite (nsum_ext N (fun i => gt uplo diag f i j) (fun i => nabs (f i j)) 0 (Z.min (j + 1) m)).
        2: { intros i Hi. destruct (Z.eq_dec i j) as [->|]; [exact G3|apply G1; lia]. }
        rewrite (nsum_cons N (fun i => nabs (f i j)) 0 (Z.min (j + 1) m)) by lia. replace (0 + 1) with 1 by lia. ring.
    - assert (G1 : forall i, j < i -> gt uplo diag f i j = nabs (f i j)).
      { intros i Hi. unfold gt, stored. replace (i =? j) with false by lia. rewrite (proj2 (Z.eqb_neq _ _) EU).
        replace (j <=? i) with true by lia. reflexivity. }
      assert (G2 : forall i, i < j -> gt uplo diag f i j = n0).
      { intros i Hi. unfold gt, stored. replace (i =? j) with false by lia. rewrite (proj2 (Z.eqb_neq _ _) EU).
        replace (j <=? i) with false by lia. reflexivity. }
      assert (G3 : gt uplo diag f j j = if diag =? PlasmaUnit then n1 else nabs (f j j)).
      { unfold gt. rewrite Z.eqb_refl. reflexivity. }
      destruct (Z.ltb_spec j (Z.min n m)) as [L|L].
      + rewrite (fold_add (fun i => nabs (f i j))). rewrite (nsum_split3 _ j m) by lia. rewrite G3.
        rewrite (nsum_0 N _ 0 j) by (intros; apply G2; lia).
        rewrite (nsum_ext N (fun i => gt uplo diag f i j) (fun i => nabs (f i j)) (j + 1) m) by (intros; apply G1; lia).
        destruct (diag =? PlasmaUnit); cbn [negb]; ring.
      + symmetry. apply nsum_0. intros; apply G2; lia.
  Qed.

  Lemma fold_addif : forall (b : Z -> bool) (x : Z -> N) lo hi s,
    fold_left (fun s j => if b j then nadd s (x j) else s) (zrange lo hi) s
    = nadd s (nsum (fun j => if b j then x j else n0) lo hi).
  Proof.
    intros b x lo hi s. rewrite <- fold_add. apply fold_left_ext_in. intros j t _.
    destruct (b j); [reflexivity|ring].
  Qed.

  Lemma lantr_inf_sum : forall uplo diag m n (f : Z -> Z -> N) i, valid_diag diag -> 0 < n -> 0 <= i < m ->
    lantr_inf uplo diag m n f i = nsum (fun j => gt uplo diag f i j) 0 n.
  Proof.
    intros uplo diag m n f i HV Hn Hi. unfold lantr_inf.
    assert (DN : (diag =? PlasmaNonUnit) = negb (diag =? PlasmaUnit)) by (destruct HV as [-> | ->]; reflexivity).
    rewrite DN.
    destruct (Z.eqb_spec uplo PlasmaUpper) as [EU|EU].
    - assert (G1 : forall j, i < j -> gt uplo diag f i j = nabs (f i j)).
      { intros j Hj. unfold gt, stored. replace (i =? j) with false by lia. rewrite EU. cbn [Z.eqb PlasmaUpper Pos.eqb].
        replace (i <=? j) with true by lia. reflexivity. }
      assert (G2 : forall j, j < i -> gt uplo diag f i j = n0).
      { intros j Hj. unfold gt, stored. replace (i =? j) with false by lia. rewrite EU. cbn [Z.eqb PlasmaUpper Pos.eqb].
        replace (i <=? j) with false by lia. reflexivity. }
      assert (G3 : gt uplo diag f i i = if diag =? PlasmaUnit then n1 else nabs (f i i)).
      { unfold gt. rewrite Z.eqb_refl. reflexivity. }
      destruct (diag =? PlasmaUnit) eqn:ED; cbn [negb].
      + rewrite (fold_add (fun j => nabs (f i j))), (fold_addif (fun j => i <? j) (fun j => nabs (f i j))).
        rewrite (nsum_app N (fun j => gt uplo diag f i j) 0 (Z.min n m) n) by lia.
        rewrite (nsum_ext N (fun j => gt uplo diag f i j) (fun j => nabs (f i j)) (Z.min n m) n).
        2: { intros j Hj. apply G1. lia. }
        destruct (Z.ltb_spec i (Z.min m n)) as [L|L].
        * rewrite (nsum_split3 (fun j => if i <? j then _ else _) i) by lia.
          rewrite (nsum_split3 (fun j => gt uplo diag f i j) i) by lia. rewrite G3, Z.ltb_irrefl.
          rewrite (nsum_0 N (fun j => gt uplo diag f i j) 0 i) by (intros; apply G2; lia).
          rewrite (nsum_0 N (fun j => if i <? j then _ else _) 0 i) by (intros j Hj; replace (i <? j) with false by lia; reflexivity).
          rewrite (nsum_ext N (fun j => gt uplo diag f i j) (fun j => if i <? j then nabs (f i j) else n0) (i + 1)).
          2: { intros j Hj. replace (i <? j) with true by lia. apply G1; lia. }
          ring.
        * rewrite (nsum_0 N (fun j => gt uplo diag f i j) 0) by (intros; apply G2; lia).
          rewrite (nsum_0 N (fun j => if i <? j then _ else _) 0) by (intros j Hj; replace (i <? j) with false by lia; reflexivity).
          ring.
      + rewrite (fold_addif (fun j => i <? Z.min (j + 1) m) (fun j => nabs (f i j))).
        transitivity (nsum (fun j => if i <? Z.min (j + 1) m then nabs (f i j) else n0) 0 n); [ring|].
        apply nsum_ext. intros j Hj. destruct (Z.ltb_spec i (Z.min (j + 1) m)) as [L|L].
        * destruct (Z.eq_dec i j) as [->|]; [symmetry; exact G3|symmetry; apply G1; lia].
        * symmetry. apply G2. lia.
    - assert (G1 : forall j, j < i -> gt uplo diag f i j = nabs (f i j)).
      { intros j Hj. unfold gt, stored. replace (i =? j) with false by lia. rewrite (proj2 (Z.eqb_neq _ _) EU).
        replace (j <=? i) with true by lia. reflexivity. }
      assert (G2 : forall j, i < j -> gt uplo diag f i j = n0).
      { intros j Hj. unfold gt, stored. replace (i =? j) with false by lia. rewrite (proj2 (Z.eqb_neq _ _) EU).
        replace (j <=? i) with false by lia. reflexivity. }
      assert (G3 : gt uplo diag f i i = if diag =? PlasmaUnit then n1 else nabs (f i i)).
      { unfold gt. rewrite Z.eqb_refl. reflexivity. }
      rewrite (nsum_app N (fun j => gt uplo diag f i j) 0 (Z.min n m) n) by lia.
      rewrite (nsum_0 N (fun j => gt uplo diag f i j) (Z.min n m) n) by (intros; apply G2; lia).
      destruct (diag =? PlasmaUnit) eqn:ED; cbn [negb].
      + rewrite (fold_addif (fun j => j + 1 <=? i) (fun j => nabs (f i j))).
        destruct (Z.ltb_spec i (Z.min m n)) as [L|L].
        * rewrite (nsum_split3 (fun j => if j + 1 <=? i then _ else _) i) by lia.
          rewrite (nsum_split3 (fun j => gt uplo diag f i j) i) by lia. rewrite G3.
          replace (i + 1 <=? i) with false by lia.
          rewrite (nsum_0 N (fun j => gt uplo diag f i j) (i + 1)) by (intros; apply G2; lia).
          rewrite (nsum_0 N (fun j => if j + 1 <=? i then _ else _) (i + 1)) by (intros j Hj; replace (j + 1 <=? i) with false by lia; reflexivity).
          rewrite (nsum_ext N (fun j => gt uplo diag f i j) (fun j => if j + 1 <=? i then nabs (f i j) else n0) 0 i).
          2: { intros j Hj. replace (j + 1 <=? i) with true by lia. apply G1; lia. }
          ring.
        * rewrite (nsum_ext N (fun j => gt uplo diag f i j) (fun j => if j + 1 <=? i then nabs (f i j) else n0) 0).
          2: { intros j Hj. replace (j + 1 <=? i) with true by lia. apply G1; lia. }
          ring.
      + rewrite (fold_addif (fun j => j <=? i) (fun j => nabs (f i j))).
        rewrite (nsum_ext N (fun j => gt uplo diag f i j) (fun j => if j <=? i then nabs (f i j) else n0) 0).
        2: { intros j Hj. destruct (Z.leb_spec j i) as [K|K]; [|apply G2; lia].
             destruct (Z.eq_dec i j) as [->|]; [exact G3|apply G1; lia]. }
        ring.
  Qed.

  Lemma ssq_col : forall (x : Z -> N) (y : N) a b s t, isabs y -> (forall i, isabs (x i)) -> ssq_ok s t ->
    ssq_ok (fold_left (fun s i => ssq s (x i)) (zrange a b) (ssq s y))
      (nadd t (nadd (nmul y y) (nsum (fun i => nmul (x i) (x i)) a b))).
  Proof.
    intros x y a b s t Hy HX HS.
    replace (nadd t (nadd (nmul y y) (nsum (fun i => nmul (x i) (x i)) a b)))
      with (nadd (nadd t (nmul y y)) (nsum (fun i => nmul (x i) (x i)) a b)) by ring.
    apply ssq_zrange; [auto|]. apply ssq_ssq; assumption.
  Qed.

  Lemma trssq_ok : forall uplo diag m n (f : Z -> Z -> N), valid_diag diag -> 0 < m -> 0 < n ->
    ssq_ok (trssq uplo diag m n f)
      (nsum (fun j => nsum (fun i => nmul (gt uplo diag f i j) (gt uplo diag f i j)) 0 m) 0 n).
  Proof.
    intros uplo diag m n f HV Hm Hn. unfold trssq.
    assert (DN : (diag =? PlasmaNonUnit) = negb (diag =? PlasmaUnit)) by (destruct HV as [-> | ->]; reflexivity).
    rewrite DN.
    pose (g2 := fun i j => nmul (gt uplo diag f i j) (gt uplo diag f i j)).
    change (fun j => nsum (fun i => nmul (gt uplo diag f i j) (gt uplo diag f i j)) 0 m) with (fun j => nsum (fun i => g2 i j) 0 m).
    assert (G3 : forall j, g2 j j = if diag =? PlasmaUnit then nmul (nabs n1) (nabs n1) else nmul (nabs (f j j)) (nabs (f j j))).
    { intros j. unfold g2, gt. rewrite Z.eqb_refl. destruct (diag =? PlasmaUnit); [rewrite nabs_1|]; reflexivity. }
    match goal with |- ssq_ok _ ?x => replace x with (nadd n0 x) by ring end.
    destruct (Z.eqb_spec uplo PlasmaUpper) as [EU|EU].
    - assert (G1 : forall i j, i < j -> g2 i j = nmul (nabs (f i j)) (nabs (f i j))).
      { intros i j Hi. unfold g2, gt, stored. replace (i =? j) with false by lia. rewrite EU. cbn [Z.eqb PlasmaUpper Pos.eqb].
        replace (i <=? j) with true by lia. reflexivity. }
      assert (G2 : forall i j, j < i -> g2 i j = n0).
      { intros i j Hi. unfold g2, gt, stored. replace (i =? j) with false by lia. rewrite EU. cbn [Z.eqb PlasmaUpper Pos.eqb].
        replace (i <=? j) with false by lia. ring. }
      destruct (diag =? PlasmaUnit) eqn:ED; cbn [negb].
      + rewrite (nsum_app N _ 0 (Z.min n m) n) by lia.
        match goal with |- ssq_ok _ (nadd ?a (nadd ?b ?c)) => replace (nadd a (nadd b c)) with (nadd (nadd a b) c) by ring end.
        apply ssq_cols.
        * intros j s t Hj HS.
          replace (nsum (fun i => g2 i j) 0 m) with (nadd (nmul (nabs (f 0 j)) (nabs (f 0 j))) (nsum (fun i => nmul (nabs (f i j)) (nabs (f i j))) 1 m)).
          -- apply (ssq_col (fun i => nabs (f i j))); auto using isabs_abs.
          -- rewrite (nsum_cons N (fun i => g2 i j)) by lia. apply f_equal2; [symmetry; apply G1; lia|].
             apply nsum_ext. intros i Hi. symmetry. apply G1. lia.
        * apply ssq_cols; [|apply ssq_start]. intros j s t Hj HS.
          replace (nsum (fun i => g2 i j) 0 m) with (nadd (nmul (nabs n1) (nabs n1)) (nsum (fun i => nmul (nabs (f i j)) (nabs (f i j))) 0 j)).
          -- apply (ssq_col (fun i => nabs (f i j))); auto using isabs_abs.
          -- rewrite (nsum_split3 (fun i => g2 i j) j) by lia. rewrite G3.
             rewrite (nsum_0 N (fun i => g2 i j) (j + 1)) by (intros; apply G2; lia).
             rewrite (nsum_ext N (fun i => g2 i j) (fun i => nmul (nabs (f i j)) (nabs (f i j))) 0 j) by (intros; apply G1; lia).
             ring.
      + apply ssq_cols; [|apply ssq_start]. intros j s t Hj HS.
        replace (nsum (fun i => g2 i j) 0 m) with (nadd (nmul (nabs (f 0 j)) (nabs (f 0 j))) (nsum (fun i => nmul (nabs (f i j)) (nabs (f i j))) 1 (Z.min (j + 1) m))).
        * apply (ssq_col (fun i => nabs (f i j))); auto using isabs_abs.
        * rewrite (nsum_app N (fun i => g2 i j) 0 (Z.min (j + 1) m)) by lia.
          rewrite (nsum_0 N (fun i => g2 i j) (Z.min (j + 1) m)) by (intros; apply G2; lia).
          rewrite (nsum_ext N (fun i => g2 i j) (fun i => nmul (nabs (f i j)) (nabs (f i j))) 0 (Z.min (j + 1) m)).
          2: { intros i Hi. destruct (Z.eq_dec i j) as [->|]; [apply G3|apply G1; lia]. }
          rewrite (nsum_cons N _ 0 (Z.min (j + 1) m)) by lia. replace (0 + 1) with 1 by lia. ring.
    - assert (G1 : forall i j, j < i -> g2 i j = nmul (nabs (f i j)) (nabs (f i j))).
      { intros i j Hi. unfold g2, gt, stored. replace (i =? j) with false by lia. rewrite (proj2 (Z.eqb_neq _ _) EU).
        replace (j <=? i) with true by lia. reflexivity. }
      assert (G2 : forall i j, i < j -> g2 i j = n0).
      { intros i j Hi. unfold g2, gt, stored. replace (i =? j) with false by lia. rewrite (proj2 (Z.eqb_neq _ _) EU).
        replace (j <=? i) with false by lia. ring. }
      rewrite (nsum_app N _ 0 (Z.min n m) n) by lia.
      rewrite (nsum_0 N _ (Z.min n m) n) by (intros; apply nsum_0; intros; apply G2; lia).
      match goal with |- ssq_ok _ (nadd ?a (nadd ?b n0)) => replace (nadd a (nadd b n0)) with (nadd a b) by ring end.
      apply ssq_cols; [|apply ssq_start]. intros j s t Hj HS.
      pose (d := if negb (diag =? PlasmaUnit) then f j j else n1).
      replace (nsum (fun i => g2 i j) 0 m) with (nadd (nmul (nabs d) (nabs d)) (nsum (fun i => nmul (nabs (f i j)) (nabs (f i j))) (j + 1) m)).
      + apply (ssq_col (fun i => nabs (f i j))); auto using isabs_abs.
      + rewrite (nsum_split3 (fun i => g2 i j) j) by lia. rewrite G3.
        rewrite (nsum_0 N (fun i => g2 i j) 0 j) by (intros; apply G2; lia).
        rewrite (nsum_ext N (fun i => g2 i j) (fun i => nmul (nabs (f i j)) (nabs (f i j))) (j + 1) m) by (intros; apply G1; lia).
        unfold d. destruct (diag =? PlasmaUnit); cbn [negb]; ring.
  Qed.
End Tri.
