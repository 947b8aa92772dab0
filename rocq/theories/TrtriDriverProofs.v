(* plasma_ztrtri computes the inverse of a triangular matrix. *)
From Coq Require Import ZArith List Bool Lia Ring.
From Verif Require Import Base NumModel NumProofs FieldModel TaskModel TaskSpec TaskProofs DescModel DescSpec
  DescDriverModel DescProofs DescPackProofs DescProofs3 DescProofs4 MatModel MatSpec MatProofs RegionProofs
  GuardModel GuardSpec GuardProofs GuardProofs2 GuardAnyProofs
  LayoutModel LayoutProofs LayoutProofs2 DriverModel DriverSpec OpProofs SimProofs OperandProofs GOperandProofs GAnyProofs
  GemmModel GemmProofs GemmDriverProofs RankModel RankProofs RankDriverProofs LasetModel LasetProofs
  TriModel TriSpec TriVecProofs TriProofs TrmmProofs TrsmProofs PotrfModel PotrfSpec CholProofs PotrfProofs PotrfDriverProofs
  InvSpec InvProofs ViewProofs TrtriModel TrtriTaskProofs TrtriStepProofs TrtriProofs TrtriCodeProofs.
Import ListNotations.
Open Scope Z_scope.

Section Driver.
  Context {F : fields}.
  Add Ring num_ring_trtri_driver : (nring F).

  (* the lower view of the user's matrix *)
  Definition uview (M : mem F) (uplo : Z) (p : loc) (ld i j : Z) : F :=
    if uplo =? PlasmaLower then ul M p ld i j else nconj (ul M p ld j i).

  (* the matrix with a given lower view *)
  Definition unview (uplo : Z) (T : Z -> Z -> F) (i j : Z) : F :=
    if uplo =? PlasmaLower then T i j else nconj (T j i).

  Lemma unview_inverse : forall uplo n (T X : Z -> Z -> F),
    (forall i j, 0 <= i < n -> 0 <= j < n -> nsum (fun l => nmul (T i l) (X l j)) 0 n = delta i j) ->
    (forall i j, 0 <= i < n -> 0 <= j < n -> nsum (fun l => nmul (X i l) (T l j)) 0 n = delta i j) ->
    is_inverse n (unview uplo T) (unview uplo X).
  Proof.
    intros uplo n T X H1 H2 i j [Hi Hj]. unfold unview. destruct (uplo =? PlasmaLower).
    - split; [apply H1|apply H2]; assumption.
    - assert (DC : nconj (delta (N := F) j i) = if i =? j then n1 else n0).
      { unfold delta. rewrite (Z.eqb_sym j i). destruct (i =? j); [apply nconj_1|apply nconj_0]. }
      split; rewrite <- DC.
      + rewrite <- (H2 j i) by assumption. rewrite nconj_sum. apply nsum_ext. intros l _. rewrite nconj_mul. ring.
      + rewrite <- (H1 j i) by assumption. rewrite nconj_sum. apply nsum_ext. intros l _. rewrite nconj_mul. ring.
  Qed.

  Lemma selects_view : forall uplo i j, valid_uplo uplo ->
    (selects uplo i j <-> if uplo =? PlasmaLower then j <= i else i <= j).
  Proof.
    intros uplo i j [->| ->]; cbn; unfold selects; split; intros H; auto.
    - destruct H as [[_ H]|[H _]]; [lia|discriminate].
    - destruct H as [[H _]|[_ H]]; [discriminate|lia].
  Qed.


  (* a triangular matrix as the lower view sees it *)
  Lemma triangle_view : forall M uplo diag pA lda n (S : Z -> Z -> F), valid_uplo uplo -> valid_diag diag ->
    is_triangle M uplo diag pA lda n S -> forall i j, 0 <= i < n -> 0 <= j < n ->
    S i j = unview uplo (TS diag (uview M uplo pA lda)) i j.
  Proof.
    intros M uplo diag pA lda n S Hu Hd HS i j Hi Hj. destruct (HS i j ltac:(split; assumption)) as (S1 & S2 & S3).
    unfold unview, TS, uview. rewrite (selects_view uplo i j Hu) in S1, S3.
    destruct (Z.eqb_spec i j) as [EI|EI].
    - subst j. rewrite !Z.leb_refl, Z.eqb_refl. destruct Hd as [->| ->]; cbn [andb].
      + change (PlasmaUnit =? PlasmaUnit) with true. cbn [andb]. rewrite S2 by reflexivity.
        destruct (uplo =? PlasmaLower); [reflexivity|symmetry; apply nconj_1].
      + change (PlasmaNonUnit =? PlasmaUnit) with false. cbn [andb].
        rewrite S1; [|destruct (uplo =? PlasmaLower); lia|right; reflexivity].
        destruct (uplo =? PlasmaLower); [reflexivity|symmetry; apply nconj_conj].
    - rewrite (Z.eqb_sym j i). replace (i =? j) with false by (symmetry; apply Z.eqb_neq; assumption). rewrite !andb_false_r.
      destruct (uplo =? PlasmaLower).
      + destruct (Z.leb_spec j i) as [L|L]; [apply S1; auto|apply S3; lia].
      + destruct (Z.leb_spec i j) as [L|L]; [rewrite nconj_conj; apply S1; auto|rewrite nconj_0; apply S3; lia].
  Qed.

  Lemma view_triangle : forall (M : mem F) uplo diag pA lda n (T : Z -> Z -> F), valid_uplo uplo -> valid_diag diag ->
    (forall i j, 0 <= i < n -> 0 <= j < n -> tsel diag i j = true -> uview M uplo pA lda i j = T i j) ->
    (forall i, 0 <= i < n -> diag = PlasmaUnit -> T i i = n1) ->
    (forall i j, 0 <= i < j -> j < n -> T i j = n0) ->
    is_triangle M uplo diag pA lda n (unview uplo T).
  Proof.
    intros M uplo diag pA lda n T Hu Hd H1 H2 H3 i j [Hi Hj]. rewrite (selects_view uplo i j Hu). unfold unview.
    split; [|split].
    - intros SE HD.
      assert (TT : forall a b, b <= a -> a <> b \/ diag = PlasmaNonUnit -> tsel diag a b = true).
      { intros a b Hba Hab. unfold tsel. replace (b <=? a) with true by (symmetry; apply Z.leb_le; lia). cbn [andb].
        destruct Hab as [Hab| ->].
        - replace (a =? b) with false by (symmetry; apply Z.eqb_neq; lia). rewrite andb_false_r. reflexivity.
        - reflexivity. }
      unfold uview in H1. destruct (uplo =? PlasmaLower).
      + rewrite <- H1; auto.
      + rewrite <- H1; auto; [apply nconj_conj|]. apply TT; [assumption|]. destruct HD; auto.
    - intros EI HD. subst j. rewrite H2 by assumption. destruct (uplo =? PlasmaLower); [reflexivity|apply nconj_1].
    - intros NS. destruct (uplo =? PlasmaLower).
      + apply H3; lia.
      + rewrite H3 by lia. apply nconj_0.
  Qed.

  Lemma gregion_mono2 : forall (ks : list (cktask F)) (M : mem F) (Q Q' : mem F -> Z -> Prop),
    (forall M' st, Q M' st -> Q' M' st) -> gregion_ensures ks M Q -> gregion_ensures ks M Q'.
  Proof. intros ks M Q Q' H. apply gregion_mono. assumption. Qed.

  Lemma ztrtri_main : forall (S : Z -> Z -> F) nb uplo diag n pA lda bA M, @n1 F <> n0 ->
    0 < nb -> valid_uplo uplo -> valid_diag diag -> 0 <= n -> Z.max 1 n <= lda -> fst pA <> bA ->
    is_triangle M uplo diag pA lda n S ->
    gdriver_ensures (ztrtri nb uplo diag n pA lda bA) M (fun M' st =>
      (st = 0 <-> forall i, 0 <= i < n -> S i i <> n0) /\
      (st = 0 -> exists X, is_triangle M' uplo diag pA lda n X /\ is_inverse n S X /\
        forall l, fst l <> bA -> ~ in_stored_triangle uplo diag pA lda n l -> M' l = M l) /\
      (st <> 0 -> 0 < st <= n /\ S (st - 1) (st - 1) = n0 /\
        forall i, (st - 1) / nb * nb <= i < st - 1 -> S i i <> n0) /\
      (forall l, fst l <> bA -> ~ in_user pA lda n n l -> M' l = M l)).
  Proof.
    intros S nb uplo diag n pA lda bA M N10 Hb Hu Hd Hn HL HP HS. unfold ztrtri.
    assert (E1 : negb (uplo =? PlasmaUpper) && negb (uplo =? PlasmaLower) = false) by (destruct Hu as [->| ->]; reflexivity).
    assert (E2 : negb (diag =? PlasmaUnit) && negb (diag =? PlasmaNonUnit) = false) by (destruct Hd as [->| ->]; reflexivity).
    rewrite E1, E2.
    replace (n <? 0) with false by (symmetry; apply Z.ltb_ge; lia).
    replace (lda <? Z.max 1 n) with false by (symmetry; apply Z.ltb_ge; lia).
    pose proof (triangle_view M uplo diag pA lda n S Hu Hd HS) as SV.
    remember (uview M uplo pA lda) as SS eqn:ESS.
    assert (SD : forall i, 0 <= i < n -> (S i i = n0 <-> TS diag SS i i = n0)).
    { intros i Hi. rewrite SV by assumption. unfold unview. destruct (uplo =? PlasmaLower); [reflexivity|]. split; intros E.
      - rewrite <- (nconj_conj F (TS diag SS i i)), E. apply nconj_0.
      - rewrite E. apply nconj_0. }
    assert (SD2 : forall i, diag <> PlasmaUnit -> TS diag SS i i = SS i i).
    { intros i HD. unfold TS. apply Z.eqb_neq in HD. rewrite HD, Z.leb_refl. reflexivity. }
    destruct (Z.eqb_spec (Z.max n 0) 0) as [E0|E0].
    { cbn. assert (n = 0) as -> by lia. split; [split; [intros; lia|reflexivity]|]. split; [|split; [|auto]].
      - intros _. exists (fun _ _ => n0). split; [intros i j [Hi _]; lia|]. split; [intros i j [Hi _]; lia|auto].
      - intros H. exfalso. apply H. reflexivity. }
    destruct (ge_create_succeeds nb n n Hb ltac:(lia) ltac:(lia)) as (A & EA & _). rewrite EA. cbn [with_gdesc].
    destruct (ge_create_dn _ _ _ _ _ EA) as (HQ & DM & DN & _). unfold dn in HQ. clear EA.
    replace (d_n A =? 0) with false by (symmetry; apply Z.eqb_neq; lia).
    assert (HSA : forall i j, 0 <= i < ntl nb n -> 0 <= j < ntl nb n -> uplo_sel uplo i j = true -> in_tiles A i j).
    { intros i j Hi Hj _. split.
      - rewrite (mt_aligned_ntl nb A (td_shape _ _ (sq_t nb A _ HQ)) (sq_mb nb A _ HQ)), DM. assumption.
      - rewrite (nt_aligned_ntl nb A (td_shape _ _ (sq_t nb A _ HQ)) (sq_nb nb A _ HQ)), DN. assumption. }
    rewrite (pztrtri_eq nb n A (in_tiles A) bA uplo diag Hu HQ DM DN HSA).
    rewrite <- (ge_opnd_in F bA A pA lda), <- (ge_opnd_out F bA A pA lda).
    eapply gregion_mono2; [|apply (one_region_any F nb (ge_opnd bA A pA lda) (tlist nb n A bA uplo diag))].
    - cbn [o_b o_p o_ld o_A ge_opnd]. intros M' st (M3 & H1 & H2 & H3 & H4 & H5).
      assert (EL : forall i j, 0 <= i < n -> 0 <= j < n -> el M3 bA A i j = ul M pA lda i j).
      { intros i j Hi Hj. apply H1. apply (ge_opnd_el nb); auto; rewrite ?DM, ?DN; assumption. }
      assert (VW : forall i j, 0 <= i < n -> 0 <= j < n -> vview A bA uplo M3 i j = SS i j).
      { intros i j Hi Hj. rewrite ESS. unfold vview, vlow, uview. destruct (uplo =? PlasmaLower); [|apply f_equal]; apply EL; assumption. }
      assert (PD0 : PD nb n A bA uplo SS 0 M3) by (intros i Hi; apply VW; lia).
      assert (FR : forall l, fst l <> bA -> ~ in_user pA lda n n l -> M' l = M l).
      { intros l Hl HN. apply H5; [assumption|]. intros HO. apply HN. apply ge_opnd_user in HO. rewrite DM, DN in HO. exact HO. }
      assert (ST0 : st = 0 <-> forall i, 0 <= i < n -> S i i <> n0).
      { split.
        - intros Z0 i Hi. rewrite SD by assumption. destruct (H4 Z0) as (K & _).
          destruct (Z.eq_dec diag PlasmaUnit) as [DU|DU].
          + unfold TS. rewrite DU, !Z.eqb_refl. cbn [andb]. assumption.
          + rewrite SD2 by assumption.
            apply (tlist_codes0 nb n A (in_tiles A) bA uplo diag Hu HQ DM DN HSA SS M3 PD0 K DU i Hi).
        - intros HR. destruct (Z.eq_dec st 0) as [|NZ]; [assumption|]. exfalso.
          pose proof (guilty_code _ _ _ _ (H3 NZ)) as GC.
          destruct (tlist_code_in nb n A (in_tiles A) bA uplo diag Hu HQ DM DN HSA SS M3 st PD0 GC NZ) as (DU & C1 & C2 & _).
          apply (HR (st - 1)); [lia|]. apply SD; [lia|]. rewrite SD2 by assumption. assumption. }
      split; [exact ST0|]. split; [|split; [|exact FR]].
      + intros Z0. pose proof (proj1 ST0 Z0) as HR. destruct (H4 Z0) as (_ & H6 & H7).
        assert (HD : forall i, 0 <= i < n -> TS diag SS i i <> n0).
        { intros i Hi E. apply (HR i Hi). apply SD; assumption. }
        assert (HLo : forall i l, 0 <= i < n -> i < l < n -> TS diag SS i l = n0).
        { intros i l Hi Hl. unfold TS. replace (i =? l) with false by (symmetry; apply Z.eqb_neq; lia).
          rewrite andb_false_r. replace (l <=? i) with false by (symmetry; apply Z.leb_gt; lia). reflexivity. }
        assert (RL : vrel nb n A bA uplo M3 SS M3).
        { split; [reflexivity|]. intros i j (Hi & Hj & _). apply VW; assumption. }
        destruct (tlist_step nb n A (in_tiles A) bA uplo diag Hu HQ DM DN HSA M3 SS HD M3 RL) as [[R1 R2] _].
        assert (RV : forall i j, 0 <= i < n -> 0 <= j < n -> j / nb <= i / nb ->
          uview M' uplo pA lda i j = if tsel diag i j then inverse n (TS diag SS) i j else SS i j).
        { intros i j Hi Hj Hij. rewrite <- R2 by (repeat split; lia).
          unfold uview, vview, vlow. destruct (uplo =? PlasmaLower); [|apply f_equal];
            apply H6; apply (ge_opnd_el nb); auto; rewrite ?DM, ?DN; assumption. }
        exists (unview uplo (inverse n (TS diag SS))). split; [|split].
        * apply view_triangle; auto.
          -- intros i j Hi Hj HT. rewrite RV; auto; [rewrite HT; reflexivity|].
             unfold tsel in HT. apply andb_true_iff in HT. destruct HT as [HT _]. apply Z.leb_le in HT. apply Z.div_le_mono; lia.
          -- intros i Hi DU. pose proof (inverse_diag n (TS diag SS) HD HLo i Hi) as E.
             assert (T1 : TS diag SS i i = n1) by (unfold TS; rewrite DU, !Z.eqb_refl; reflexivity).
             rewrite T1 in E. rewrite <- E. ring.
          -- intros i j Hi Hj. apply (inverse_low n (TS diag SS) HD HLo); lia.
        * assert (G : is_inverse n (unview uplo (TS diag SS)) (unview uplo (inverse n (TS diag SS)))).
          { apply unview_inverse.
            - intros i j Hi Hj. apply (inverse_r n (TS diag SS) HD HLo); assumption.
            - intros i j Hi Hj. apply (inverse_l n (TS diag SS) HD HLo); assumption. }
          intros i j [Hi Hj]. destruct (G i j ltac:(split; assumption)) as [G1 G2]. split.
          -- rewrite <- G1. apply nsum_ext. intros l Hl. rewrite SV by assumption. reflexivity.
          -- rewrite <- G2. apply nsum_ext. intros l Hl. rewrite SV by assumption. reflexivity.
        * intros l Hl HN.
          destruct (reg_dec pA lda n n everywhere l ltac:(lia)) as [(i & j & Hi & Hj & _ & El)|HO].
          -- rewrite El. change (ul M' pA lda i j = ul M pA lda i j).
             assert (NT : tsel diag (if uplo =? PlasmaLower then i else j) (if uplo =? PlasmaLower then j else i) = false).
             { apply not_true_is_false. intros HT. apply HN. exists i, j. split; [split; assumption|].
               rewrite (selects_view uplo i j Hu). unfold tsel in HT. apply andb_true_iff in HT. destruct HT as [HT HU].
               apply Z.leb_le in HT. split; [destruct (uplo =? PlasmaLower); assumption|]. split; [|exact El].
               destruct Hd as [DU|DU]; [|right; assumption]. left. intros Eij. subst j. rewrite DU in HU.
               replace (if uplo =? PlasmaLower then i else i) with i in HU by (destruct (uplo =? PlasmaLower); reflexivity).
               rewrite !Z.eqb_refl in HU. discriminate. }
             assert (EF : forall m, el m bA A i j = el M3 bA A i j -> el m bA A i j = ul M pA lda i j).
             { intros m E. rewrite E. apply EL; assumption. }
             rewrite H6 by (apply (ge_opnd_el nb); auto; rewrite ?DM, ?DN; assumption).
             destruct (Z_le_gt_dec ((if uplo =? PlasmaLower then j else i) / nb) ((if uplo =? PlasmaLower then i else j) / nb)) as [LE|GT].
             ++ pose proof (R2 (if uplo =? PlasmaLower then i else j) (if uplo =? PlasmaLower then j else i)) as R2'.
                rewrite NT in R2'. rewrite <- VW in R2' by (destruct (uplo =? PlasmaLower); assumption).
                apply EF. unfold vview, vlow in R2'.
                destruct (uplo =? PlasmaLower).
                ** apply R2'. repeat split; lia.
                ** rewrite <- (nconj_conj F (el _ bA A i j)), R2' by (repeat split; lia). apply nconj_conj.
             ++ apply EF. apply (tlist_opp nb n A (in_tiles A) bA uplo diag Hu HQ DM DN HSA); auto.
                { pose proof (in_tiles_pos A i j (td_shape _ _ (sq_t nb A _ HQ))) as Q.
                  rewrite (sq_mb nb A _ HQ), (sq_nb nb A _ HQ), DM, DN in Q. apply Q; assumption. }
                unfold vlow. destruct (uplo =? PlasmaLower); lia.
          -- apply FR; [assumption|]. intros (i & j & Hi & Hj & El). apply HO. exists i, j. repeat split; auto; lia.
      + intros NZ. pose proof (guilty_code _ _ _ _ (H3 NZ)) as GC.
        destruct (tlist_code_in nb n A (in_tiles A) bA uplo diag Hu HQ DM DN HSA SS M3 st PD0 GC NZ) as (DU & C1 & C2 & C3).
        split; [assumption|]. split; [apply SD; [lia|]; rewrite SD2 by assumption; assumption|].
        intros i Hi. assert (0 <= i). { assert (0 <= (st - 1) / nb) by (apply Z.div_pos; lia). nia. }
        rewrite SD by lia. rewrite SD2 by assumption. apply C3. assumption.
    - apply ge_opnd_ok; [assumption|lia].
    - assumption.
    - apply (tlist_kgood nb n A (in_tiles A) bA uplo diag Hu HQ DM DN HSA).
    - apply (tlist_sound nb n A (in_tiles A) bA uplo diag Hu HQ DM DN HSA).
    - intros env HE. apply (tlist_kdecl nb n A (in_tiles A) bA uplo diag Hu HQ DM DN HSA). assumption.
    - intros k l. apply tlist_writes.
  Qed.
End Driver.
