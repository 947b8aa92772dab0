(* plasma_zlauum and plasma_zpotri. *)
From Coq Require Import ZArith List Bool Lia Ring.
From Verif Require Import Base NumModel NumProofs FieldModel TaskModel TaskSpec TaskProofs DescModel DescSpec
  DescDriverModel DescProofs DescPackProofs DescProofs3 DescProofs4 MatModel MatSpec MatProofs RegionProofs
  GuardModel GuardSpec GuardProofs GuardProofs2 GuardAnyProofs
  LayoutModel LayoutProofs LayoutProofs2 DriverModel DriverSpec OpProofs SimProofs OperandProofs GOperandProofs GAnyProofs
  GemmModel GemmProofs GemmDriverProofs RankModel RankProofs RankDriverProofs LasetModel LasetProofs EwDriverProofs
  TriModel TriSpec TriVecProofs TriProofs TrmmProofs TrsmProofs PotrfModel PotrfSpec CholProofs PotrfProofs PotrfDriverProofs
  InvSpec InvProofs ViewProofs TrtriModel TrtriTaskProofs TrtriStepProofs TrtriProofs TrtriCodeProofs TrtriDriverProofs
  LauumTaskProofs LauumProofs.
Import ListNotations.
Open Scope Z_scope.

Section Products.
  Context {F : fields}.
  Add Ring num_ring_inv_products : (nring F).
  Variables (n : Z) (V W : Z -> Z -> F).
  Hypothesis HV : forall i j, 0 <= i < n -> 0 <= j < n -> nsum (fun l => nmul (V i l) (W l j)) 0 n = delta i j.
  Hypothesis HW : forall i j, 0 <= i < n -> 0 <= j < n -> nsum (fun l => nmul (W i l) (V l j)) 0 n = delta i j.

  Definition vvh (i j : Z) : F := nsum (fun l => nmul (V i l) (nconj (V j l))) 0 n.
  Definition whw (i j : Z) : F := nsum (fun l => nmul (nconj (W l i)) (W l j)) 0 n.

  Lemma vvh_conj : forall i j, nconj (vvh i j) = vvh j i.
  Proof. intros i j. unfold vvh. rewrite nconj_sum. apply nsum_ext. intros l _. rewrite nconj_mul, nconj_conj. ring. Qed.
  Lemma whw_conj : forall i j, nconj (whw i j) = whw j i.
  Proof. intros i j. unfold whw. rewrite nconj_sum. apply nsum_ext. intros l _. rewrite nconj_mul, nconj_conj. ring. Qed.

  Lemma delta_conj : forall i j, nconj (delta (N := F) i j) = delta i j.
  Proof. intros i j. unfold delta. destruct (i =? j); [apply nconj_1|apply nconj_0]. Qed.

  Lemma vvh_whw : forall i j, 0 <= i < n -> 0 <= j < n -> nsum (fun m => nmul (vvh i m) (whw m j)) 0 n = delta i j.
  Proof.
    intros i j Hi Hj. rewrite <- HV by assumption.
    transitivity (nsum (fun m => nsum (fun l => nmul (nmul (V i l) (nconj (V m l))) (whw m j)) 0 n) 0 n).
    { apply nsum_ext. intros m Hm. unfold vvh. rewrite (Rmul_comm (nring F)), <- nsum_mul_l.
      apply nsum_ext. intros l _. ring. }
    rewrite nsum_swap. apply nsum_ext. intros l Hl.
    transitivity (nmul (V i l) (nsum (fun p => nmul (delta l p) (W p j)) 0 n)).
    2: { rewrite nsum_delta_l by assumption. reflexivity. }
    rewrite <- nsum_mul_l.
    transitivity (nsum (fun m => nsum (fun p => nmul (nmul (V i l) (nconj (V m l))) (nmul (nconj (W p m)) (W p j))) 0 n) 0 n).
    { apply nsum_ext. intros m Hm. unfold whw. rewrite <- nsum_mul_l. reflexivity. }
    rewrite nsum_swap. apply nsum_ext. intros p Hp.
    replace (delta (N := F) l p) with (delta (N := F) p l) by (unfold delta; rewrite Z.eqb_sym; reflexivity).
    rewrite <- delta_conj, <- HW by assumption. rewrite nconj_sum.
    transitivity (nmul (nmul (V i l) (W p j)) (nsum (fun m => nconj (nmul (W p m) (V m l))) 0 n)); [|ring].
    rewrite <- nsum_mul_l. apply nsum_ext. intros m _. rewrite nconj_mul. ring.
  Qed.

  Lemma whw_inverse : is_inverse n vvh whw.
  Proof.
    intros i j [Hi Hj]. split; [apply vvh_whw; assumption|].
    change (if i =? j then n1 else n0) with (delta (N := F) i j).
    rewrite <- delta_conj. replace (delta (N := F) i j) with (delta (N := F) j i) by (unfold delta; rewrite Z.eqb_sym; reflexivity).
    rewrite <- vvh_whw by assumption. rewrite nconj_sum. apply nsum_ext. intros l _.
    rewrite nconj_mul, vvh_conj, whw_conj. ring.
  Qed.
End Products.

Section Driver.
  Context {F : fields}.
  Add Ring num_ring_inv_driver : (nring F).

  (* tiles of the opposite triangle stay *)
  Section Opp.
    Variables (nb n : Z) (A : desc) (SA : Z -> Z -> Prop) (bA uplo : Z).
    Hypothesis Hu : valid_uplo uplo.
    Hypothesis HQ : sq nb A SA.
    Hypotheses (DM : d_m A = n) (DN : d_n A = n).
    Hypothesis HSA : forall i j, 0 <= i < ntl nb n -> 0 <= j < ntl nb n -> uplo_sel uplo i j = true -> SA i j.
    Variable rp : F -> F.

    Lemma llist_opp : forall (M : mem F) i j, 0 <= i < n -> 0 <= j < n ->
      SA (i / nb) (j / nb) -> (if vlow uplo then i / nb < j / nb else j / nb < i / nb) ->
      el (krun (llist nb n A bA uplo rp) M) bA A i j = el M bA A i j.
    Proof.
      intros M i j Hi Hj HS HO. apply (krun_keep F F (fun M => el M bA A i j)).
      pose proof (fun M m k P f H1 H2 => set_opp (F := F) nb n A SA bA uplo Hu HQ DM DN HSA M m k P f i j H1 H2 Hi Hj HS HO) as G.
      apply (llist_all nb n A bA uplo rp (fun y => forall M, el (k_fun y M) bA A i j = el M bA A i j)).
      - intros k c Hc Hk M'. pose proof (fun P f => G M' c c P f) as G'. rewrite vr_diag, vc_diag in G'. apply G'; lia.
      - intros k m c Hc Hm M'. apply G; lia.
      - intros k c Hc Hk M'. apply G; lia.
      - intros k Hk M'. pose proof (fun P f => G M' k k P f) as G'. rewrite vr_diag, vc_diag in G'. apply G'; lia.
    Qed.
  End Opp.

  (* from the tiles back to the user's matrix *)
  Lemma user_view : forall nb n A bA uplo (M M' M3 M4 : mem F) pA lda X,
    valid_uplo uplo -> sq nb A (in_tiles A) -> d_m A = n -> d_n A = n -> n <= lda ->
    (forall i j, 0 <= i < n -> 0 <= j < n -> el M3 bA A i j = ul M pA lda i j) ->
    (forall i j, 0 <= i < n -> 0 <= j < n -> ul M' pA lda i j = el M4 bA A i j) ->
    (forall i j, vstored nb n i j -> vview A bA uplo M4 i j = X i j) ->
    (forall i j, 0 <= i < n -> 0 <= j < n -> (if vlow uplo then i / nb < j / nb else j / nb < i / nb) ->
       el M4 bA A i j = el M3 bA A i j) ->
    (forall i j, 0 <= i < j -> j < n -> X i j = uview M uplo pA lda i j) ->
    (forall l, fst l <> bA -> ~ in_user pA lda n n l -> M' l = M l) ->
    (forall i j, 0 <= j <= i -> i < n -> uview M' uplo pA lda i j = X i j) /\
    (forall l, fst l <> bA -> ~ in_triangle uplo pA lda n l -> M' l = M l).
  Proof.
    intros nb n A bA uplo M M' M3 M4 pA lda X Hu HQ DM DN HL EL H6 R2 OP HX FR.
    assert (Hb : 0 < nb) by (apply (sq_pos nb A _ HQ)).
    assert (UV : forall i j, 0 <= i < n -> 0 <= j < n -> uview M' uplo pA lda i j = vview A bA uplo M4 i j).
    { intros i j Hi Hj. unfold uview, vview, vlow. destruct (uplo =? PlasmaLower); [|apply f_equal]; apply H6; assumption. }
    split.
    - intros i j Hj Hi. rewrite UV by lia. apply R2. repeat split; try lia. apply Z.div_le_mono; lia.
    - intros l Hl HN. destruct (reg_dec pA lda n n everywhere l HL) as [(i & j & Hi & Hj & _ & El)|HO].
      + rewrite El. change (ul M' pA lda i j = ul M pA lda i j).
        assert (NS : if vlow uplo then i < j else j < i).
        { destruct (vlow uplo) eqn:EV.
          - destruct (Z_lt_le_dec i j); [assumption|]. exfalso. apply HN. exists i, j. split; [split; assumption|]. split; [|exact El].
            apply (selects_view uplo i j Hu). fold (vlow uplo). rewrite EV. assumption.
          - destruct (Z_lt_le_dec j i); [assumption|]. exfalso. apply HN. exists i, j. split; [split; assumption|]. split; [|exact El].
            apply (selects_view uplo i j Hu). fold (vlow uplo). rewrite EV. assumption. }
        destruct (Z_lt_le_dec ((if vlow uplo then i else j) / nb) ((if vlow uplo then j else i) / nb)) as [LT|GE].
        * rewrite H6, OP by (auto; destruct (vlow uplo); assumption). apply EL; assumption.
        * assert (E : uview M' uplo pA lda (if vlow uplo then i else j) (if vlow uplo then j else i)
            = uview M uplo pA lda (if vlow uplo then i else j) (if vlow uplo then j else i)).
          { rewrite UV by (destruct (vlow uplo); assumption). rewrite R2.
            - apply HX; destruct (vlow uplo); lia.
            - repeat split; destruct (vlow uplo); lia. }
          revert E. unfold uview. fold (vlow uplo). destruct (vlow uplo); [auto|]. intros E.
          rewrite <- (nconj_conj F (ul M' pA lda i j)), E. apply nconj_conj.
      + apply FR; [assumption|]. intros (i & j & Hi & Hj & El). apply HO. exists i, j. repeat split; auto; lia.
  Qed.

  Lemma dense_tiles : forall nb n A uplo, sq nb A (in_tiles A) -> d_m A = n -> d_n A = n ->
    (forall i j, 0 <= i < ntl nb n -> 0 <= j < ntl nb n -> uplo_sel uplo i j = true -> in_tiles A i j) /\
    (forall i j, 0 <= i < n -> 0 <= j < n -> in_tiles A (i / nb) (j / nb)).
  Proof.
    intros nb n A uplo HQ DM DN. split.
    - intros i j Hi Hj _. split.
      + rewrite (mt_aligned_ntl nb A (td_shape _ _ (sq_t nb A _ HQ)) (sq_mb nb A _ HQ)), DM. assumption.
      + rewrite (nt_aligned_ntl nb A (td_shape _ _ (sq_t nb A _ HQ)) (sq_nb nb A _ HQ)), DN. assumption.
    - intros i j Hi Hj. pose proof (in_tiles_pos A i j (td_shape _ _ (sq_t nb A _ HQ))) as Q.
      rewrite (sq_mb nb A _ HQ), (sq_nb nb A _ HQ), DM, DN in Q. apply Q; assumption.
  Qed.

  (* the product from the lower view, as a matrix *)
  Lemma view_product : forall uplo n (M M' : mem F) pA lda (S : Z -> Z -> F) (T : Z -> Z -> F), valid_uplo uplo ->
    (forall i j, 0 <= i < n -> 0 <= j < n -> S i j = unview uplo T i j) ->
    (forall i j, 0 <= j <= i -> i < n -> uview M' uplo pA lda i j = nsum (fun l => nmul (nconj (T l i)) (T l j)) 0 n) ->
    forall i j, in_matrix n n i j -> selects uplo i j -> ul M' pA lda i j = reverse_product uplo n S i j.
  Proof.
    intros uplo n M M' pA lda S T Hu HS HU i j [Hi Hj] HE. apply (selects_view uplo i j Hu) in HE.
    unfold reverse_product, unview, uview in *. destruct (uplo =? PlasmaLower).
    - rewrite HU by lia. apply nsum_ext. intros l Hl. rewrite !HS by assumption. reflexivity.
    - rewrite <- (nconj_conj F (ul M' pA lda i j)), HU by lia. rewrite nconj_sum. apply nsum_ext. intros l Hl.
      rewrite !HS, nconj_mul, !nconj_conj by assumption. ring.
  Qed.

  Variable rp : F -> F.
  Hypothesis HRP : forall x, nconj x = x -> rp x = x.

  Lemma zlauum_main : forall (S : Z -> Z -> F) nb uplo n pA lda bA M,
    0 < nb -> valid_uplo uplo -> 0 <= n -> Z.max 1 n <= lda -> fst pA <> bA ->
    is_triangle M uplo PlasmaNonUnit pA lda n S -> (forall i, 0 <= i < n -> nconj (S i i) = S i i) ->
    driver_ensures (zlauum rp nb uplo n pA lda bA) M (fun M' =>
      (forall i j, in_matrix n n i j -> selects uplo i j -> ul M' pA lda i j = reverse_product uplo n S i j) /\
      (forall l, fst l <> bA -> ~ in_triangle uplo pA lda n l -> M' l = M l)).
  Proof.
    intros S nb uplo n pA lda bA M Hb Hu Hn HL HP HS HR. unfold zlauum.
    assert (E1 : negb (uplo =? PlasmaUpper) && negb (uplo =? PlasmaLower) = false) by (destruct Hu as [->| ->]; reflexivity).
    rewrite E1. replace (n <? 0) with false by (symmetry; apply Z.ltb_ge; lia).
    replace (lda <? Z.max 1 n) with false by (symmetry; apply Z.ltb_ge; lia).
    pose proof (triangle_view M uplo PlasmaNonUnit pA lda n S Hu (or_intror eq_refl) HS) as SV.
    remember (uview M uplo pA lda) as SS eqn:ESS.
    destruct (Z.eqb_spec (Z.max n 0) 0) as [E0|E0].
    { cbn. assert (n = 0) as -> by lia. split; [reflexivity|]. split; [intros i j [Hi _]; lia|auto]. }
    destruct (ge_create_succeeds nb n n Hb ltac:(lia) ltac:(lia)) as (A & EA & _). rewrite EA. cbn [with_desc].
    destruct (ge_create_dn _ _ _ _ _ EA) as (HQ & DM & DN & _). pose proof HQ as HDN. unfold dn in HQ. clear EA.
    replace (d_n A =? 0) with false by (symmetry; apply Z.eqb_neq; lia).
    destruct (dense_tiles nb n A uplo HQ DM DN) as [HSA HIN].
    rewrite (pzlauum_eq nb n A (in_tiles A) bA uplo Hu HQ DM DN HSA rp).
    assert (LT : forall i j, LL SS i j = TS PlasmaNonUnit SS i j) by reflexivity.
    assert (RS : forall i, 0 <= i < n -> nconj (SS i i) = SS i i).
    { intros i Hi. specialize (HR i Hi). rewrite SV in HR by assumption. unfold unview, TS in HR.
      change (PlasmaNonUnit =? PlasmaUnit) with false in HR. cbn [andb] in HR. rewrite Z.leb_refl in HR.
      destruct (uplo =? PlasmaLower); [assumption|]. rewrite nconj_conj in HR. symmetry. assumption. }
    eapply region_mono; [|apply (ge_region1 F nb bA A pA lda (llist nb n A bA uplo rp) HDN ltac:(lia) HP
        (llist_kgood nb n A (in_tiles A) bA uplo Hu HQ DM HSA rp))].
    - rewrite DM, DN. intros M' (M3 & H1 & H2 & H3 & H4).
      assert (VW : forall i j, 0 <= i < n -> 0 <= j < n -> vview A bA uplo M3 i j = SS i j).
      { intros i j Hi Hj. rewrite ESS. unfold vview, vlow, uview. destruct (uplo =? PlasmaLower); [|apply f_equal]; apply H1; assumption. }
      destruct (llist_step nb n A (in_tiles A) bA uplo Hu HQ DM DN HSA rp HRP M3 SS RS M3) as [[R1 R2] _].
      { split; [reflexivity|]. intros i j (Hi & Hj & _). apply VW; assumption. }
      rewrite map_sure in R1, R2.
      destruct (user_view nb n A bA uplo M M' M3 _ pA lda _ Hu HQ DM DN ltac:(lia) H1 H3 R2) as [U1 U2].
      + intros i j Hi Hj HO. apply (llist_opp nb n A (in_tiles A) bA uplo Hu HQ DM DN HSA rp); auto.
      + intros i j Hi Hj. replace (j <=? i) with false by (symmetry; apply Z.leb_gt; lia). rewrite ESS. reflexivity.
      + intros l Hl HO. rewrite H4 by assumption. rewrite R1 by assumption. apply H2. assumption.
      + split; [|exact U2]. apply (view_product uplo n M M' pA lda S (TS PlasmaNonUnit SS) Hu SV).
        intros i j Hj Hi. rewrite U1 by assumption. replace (j <=? i) with true by (symmetry; apply Z.leb_le; lia). reflexivity.
    - intros env HE. apply (llist_kdecl nb n A (in_tiles A) bA uplo Hu HQ DM DN HSA). assumption.
  Qed.
End Driver.
