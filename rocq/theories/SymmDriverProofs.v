From Coq Require Import ZArith List Bool Lia Ring.
From Verif Require Import Base NumModel NumProofs TaskModel TaskSpec TaskProofs DescModel DescSpec
  DescDriverModel DescProofs DescProofs3 DescProofs4 MatModel MatSpec MatProofs RegionProofs
  LayoutModel LayoutProofs LayoutProofs2 DriverModel DriverSpec OpProofs SimProofs OperandProofs
  GemmModel GemmProofs GemmDriverProofs RankProofs RankDriverProofs SymmModel SymmProofs.
Import ListNotations.
Open Scope Z_scope.

Section Driver.
  Context {N : numbers}.
  Add Ring num_ring_sd : (nring N).

  (* the product, S being the full matrix *)
  Definition sprod (S : Z -> Z -> N) (M : mem N) (side m n : Z) (pB : loc) (ldb i j : Z) : N :=
    if side =? PlasmaLeft then nsum (fun l => nmul (S i l) (ul M pB ldb l j)) 0 m
    else nsum (fun l => nmul (ul M pB ldb i l) (S l j)) 0 n.

  Lemma sym_mm_gen : forall (rp : N -> N) ct (S : Z -> Z -> N) nb side uplo m n (alpha : N) pA lda pB ldb beta
      pC ldc bA bB bC M,
    ct = PlasmaTrans \/ ct = PlasmaConjTrans ->
    0 < nb -> side = PlasmaLeft \/ side = PlasmaRight -> valid_uplo uplo -> 0 <= m -> 0 <= n ->
    let am := if side =? PlasmaLeft then m else n in
    Z.max 1 am <= lda -> Z.max 1 m <= ldb -> Z.max 1 m <= ldc ->
    NoDup [bA; bB; bC] -> (forall b, In b [fst pA; fst pB; fst pC] -> ~ In b [bA; bB; bC]) ->
    apart pA lda am am pC ldc m n -> apart pB ldb m n pC ldc m n ->
    (forall i j, in_matrix am am i j -> selects uplo i j -> S i j = ul M pA lda i j) ->
    (forall i j, in_matrix am am i j -> S i j = if ct =? PlasmaTrans then S j i else nconj (S j i)) ->
    (forall i, 0 <= i < am -> rp (S i i) = S i i) ->
    driver_ensures (sym_mm rp ct nb side uplo m n alpha pA lda pB ldb beta pC ldc bA bB bC) M (fun M' =>
      (forall i j, in_matrix m n i j -> ul M' pC ldc i j
         = nadd (nmul alpha (sprod S M side m n pB ldb i j)) (nmul beta (ul M pC ldc i j))) /\
      (forall l, ~ In (fst l) [bA; bB; bC] -> ~ in_user pC ldc m n l -> M' l = M l)).
  Proof.
    intros rp ct S nb side uplo m n alpha pA lda pB ldb beta pC ldc bA bB bC M Hct Hnb Hsd Hu Hm Hn am
      Hlda Hldb Hldc ND HF AP BP HS HSS HR.
    assert (Hct' : ct <> PlasmaNoTrans) by (destruct Hct as [->| ->]; discriminate).
    unfold sym_mm. fold am.
    replace ((side =? PlasmaLeft) || (side =? PlasmaRight)) with true by (destruct Hsd as [->| ->]; reflexivity).
    replace ((uplo =? PlasmaLower) || (uplo =? PlasmaUpper)) with true by (destruct Hu as [->| ->]; reflexivity).
    cbn [negb].
    replace (m <? 0) with false by (symmetry; apply Z.ltb_ge; lia).
    replace (n <? 0) with false by (symmetry; apply Z.ltb_ge; lia). cbv zeta.
    replace (lda <? Z.max 1 am) with false by (symmetry; apply Z.ltb_ge; lia).
    replace (ldb <? Z.max 1 m) with false by (symmetry; apply Z.ltb_ge; lia).
    replace (ldc <? Z.max 1 m) with false by (symmetry; apply Z.ltb_ge; lia).
    assert (Ham : 0 <= am) by (unfold am; destruct (side =? PlasmaLeft); lia).
    destruct ((m =? 0) || (n =? 0) || (neqb alpha n0 && neqb beta n1)) eqn:QR.
    - cbn. split; [reflexivity|]. split; [|reflexivity]. intros i j [Hi Hj].
      rewrite !orb_true_iff, andb_true_iff, !Z.eqb_eq, !neqb_eq in QR.
      destruct QR as [[Q|Q]|[Q Qb]]; [lia|lia|].
      symmetry. apply quick_scale; auto.
    - destruct (ge_create_succeeds nb am am Hnb Ham Ham) as (A & EA & _). rewrite EA.
      destruct (ge_create_succeeds nb m n Hnb Hm Hn) as (C & EC & _). rewrite EC.
      cbn [with_desc driver_ensures].
      destruct (ge_create_dn _ _ _ _ _ EA) as (DA & A1 & A2 & _).
      destruct (ge_create_dn _ _ _ _ _ EC) as (DC & C1 & C2 & _). clear EA EC.
      rewrite !orb_false_iff, !Z.eqb_neq in QR. destruct QR as [[Q1 Q2] Q3].
      replace (d_n A =? 0) with false.
      2:{ symmetry. rewrite A2. apply Z.eqb_neq. unfold am. destruct (side =? PlasmaLeft); assumption. }
      replace ((d_m C =? 0) || (d_n C =? 0) || ((neqb alpha n0 || false) && neqb beta n1)) with false.
      2:{ symmetry. rewrite C1, C2, orb_false_r, Q3, orb_false_r. apply orb_false_iff.
          rewrite !Z.eqb_neq. auto. }
      assert (AS : d_m A = d_n A) by congruence.
      assert (AM : d_n A = if side =? PlasmaLeft then d_m C else d_n C) by (rewrite A2, C1, C2; reflexivity).
      assert (N12 : bA <> bC /\ bB <> bC).
      { inversion_clear ND as [|? ? X Y]. inversion_clear Y as [|? ? Z _]. cbn in X, Z. intuition. }
      destruct N12 as [N1 N2].
      eapply region_mono; [|apply (ge_region3 N nb bA A pA lda bB C pB ldb bC C pC ldc)]; auto.
      + intros M' (M3 & H1 & H1' & H2 & H3 & H4 & H5). rewrite C1, C2 in H2, H4, H5, H1'. rewrite A1, A2 in H1.
        assert (SEL : forall i j, 0 <= i < am -> 0 <= j < am -> sym_el A bA ct uplo M3 i j = S i j).
        { intros i j Hi Hj. unfold sym_el. destruct (uplo_sel uplo i j) eqn:E.
          - rewrite H1 by assumption. symmetry. apply HS; [split; assumption|]. apply selects_sel; assumption.
          - assert (SJ : selects uplo j i).
            { unfold selects. unfold uplo_sel in E. destruct Hu as [->| ->]; cbn in E;
                apply Z.leb_gt in E; [left|right]; split; auto; lia. }
            rewrite HSS by (split; assumption). rewrite (HS j i) by (try split; assumption).
            unfold op_el. destruct Hct as [->| ->]; cbn; rewrite H1 by assumption; reflexivity. }
        assert (AT : forall i j, 0 <= i < m -> 0 <= j < n -> at_elem M3 bC C i j
                   (krun (psym_mm rp ct side uplo alpha bA A bB C beta bC C) M3)
                   (nadd (nmul alpha (nsum (sterm A C bA bB ct side uplo M3 i j) 0 (d_n A)))
                         (nmul beta (el M3 bC C i j)))).
        { intros i j Hi Hj. apply (psym_mm_at rp nb); auto.
          - intros i' Hi'. rewrite A2 in Hi'. rewrite H1 by assumption.
            assert (SS : selects uplo i' i').
            { unfold selects. destruct Hu as [->| ->]; [left|right]; split; auto; lia. }
            rewrite <- HS by (try split; assumption). apply HR. assumption.
          - rewrite C1; assumption.
          - rewrite C2; assumption. }
        split.
        * intros i j [Hi Hj]. rewrite H4 by assumption. destruct (AT i j Hi Hj) as [_ ->].
          rewrite H2 by assumption. apply f_equal2; [|reflexivity]. apply f_equal. rewrite A2.
          unfold sterm, sprod, am in *. destruct (side =? PlasmaLeft); apply nsum_ext; intros l Hl;
            rewrite SEL, H1' by assumption; reflexivity.
        * intros l Hl Hl'. rewrite H5 by assumption. rewrite <- H3 by assumption.
          assert (Z0 : 0 <= 0 < m) by lia. assert (Z1 : 0 <= 0 < n) by lia.
          destruct (AT 0 0 Z0 Z1) as [X _]. apply X. cbn in Hl. intuition.
      + rewrite A1. lia.
      + rewrite C1. lia.
      + rewrite C1. lia.
      + rewrite A1, A2, C1, C2. assumption.
      + rewrite C1, C2. assumption.
      + apply (psym_mm_kgood rp nb); auto.
      + intros env E1 E2 E3. apply (psym_mm_kdecl rp nb); auto.
  Qed.

  Lemma zsymm_main : forall (S : Z -> Z -> N) nb side uplo m n (alpha : N) pA lda pB ldb beta pC ldc bA bB bC M,
    0 < nb -> side = PlasmaLeft \/ side = PlasmaRight -> valid_uplo uplo -> 0 <= m -> 0 <= n ->
    let am := if side =? PlasmaLeft then m else n in
    Z.max 1 am <= lda -> Z.max 1 m <= ldb -> Z.max 1 m <= ldc ->
    NoDup [bA; bB; bC] -> (forall b, In b [fst pA; fst pB; fst pC] -> ~ In b [bA; bB; bC]) ->
    apart pA lda am am pC ldc m n -> apart pB ldb m n pC ldc m n ->
    (forall i j, in_matrix am am i j -> selects uplo i j -> S i j = ul M pA lda i j) ->
    (forall i j, in_matrix am am i j -> S i j = S j i) ->
    driver_ensures (zsymm nb side uplo m n alpha pA lda pB ldb beta pC ldc bA bB bC) M (fun M' =>
      (forall i j, in_matrix m n i j -> ul M' pC ldc i j
         = nadd (nmul alpha (if side =? PlasmaLeft
                             then nsum (fun l => nmul (S i l) (ul M pB ldb l j)) 0 m
                             else nsum (fun l => nmul (ul M pB ldb i l) (S l j)) 0 n))
                (nmul beta (ul M pC ldc i j))) /\
      (forall l, ~ In (fst l) [bA; bB; bC] -> ~ in_user pC ldc m n l -> M' l = M l)).
  Proof.
    intros. apply (sym_mm_gen (fun x => x) PlasmaTrans S); auto.
  Qed.

  Lemma zhemm_main : forall (rp : N -> N) (S : Z -> Z -> N) nb side uplo m n (alpha : N) pA lda pB ldb beta pC ldc bA bB bC M,
    0 < nb -> side = PlasmaLeft \/ side = PlasmaRight -> valid_uplo uplo -> 0 <= m -> 0 <= n ->
    let am := if side =? PlasmaLeft then m else n in
    Z.max 1 am <= lda -> Z.max 1 m <= ldb -> Z.max 1 m <= ldc ->
    NoDup [bA; bB; bC] -> (forall b, In b [fst pA; fst pB; fst pC] -> ~ In b [bA; bB; bC]) ->
    apart pA lda am am pC ldc m n -> apart pB ldb m n pC ldc m n ->
    (forall x : N, nconj x = x -> rp x = x) ->
    (forall i j, in_matrix am am i j -> selects uplo i j -> S i j = ul M pA lda i j) ->
    (forall i j, in_matrix am am i j -> S i j = nconj (S j i)) ->
    driver_ensures (zhemm rp nb side uplo m n alpha pA lda pB ldb beta pC ldc bA bB bC) M (fun M' =>
      (forall i j, in_matrix m n i j -> ul M' pC ldc i j
         = nadd (nmul alpha (if side =? PlasmaLeft
                             then nsum (fun l => nmul (S i l) (ul M pB ldb l j)) 0 m
                             else nsum (fun l => nmul (ul M pB ldb i l) (S l j)) 0 n))
                (nmul beta (ul M pC ldc i j))) /\
      (forall l, ~ In (fst l) [bA; bB; bC] -> ~ in_user pC ldc m n l -> M' l = M l)).
  Proof.
    intros. apply (sym_mm_gen rp PlasmaConjTrans S); auto.
    intros i Hi. apply H11. symmetry. apply H13. split; assumption.
  Qed.
End Driver.
