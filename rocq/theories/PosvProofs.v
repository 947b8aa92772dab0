(* plasma_zpotrs and plasma_zposv *)
From Coq Require Import ZArith List Bool Lia Ring Reals Lra.
From Verif Require Import Base NumModel NumProofs FieldModel TaskModel TaskSpec TaskProofs DescModel DescSpec
  DescDriverModel DescProofs DescPackProofs DescProofs3 DescProofs4 MatModel MatSpec MatProofs RegionProofs
  GuardModel GuardSpec GuardProofs GuardProofs2
  LayoutModel LayoutProofs LayoutProofs2 DriverModel DriverSpec OpProofs SimProofs OperandProofs GOperandProofs
  GemmModel GemmProofs GemmDriverProofs RankModel RankProofs RankDriverProofs LasetModel LasetProofs
  TriModel TriSpec TriVecProofs TriProofs TrmmProofs TrmmDriverProofs TrsmProofs TrsmDriverProofs
  PotrfModel PotrfSpec CholProofs HpdProofs PotrfProofs PotrfDriverProofs PosvModel ComplexInstances.
Import ListNotations.
Open Scope Z_scope.

Section Solves.
  Context {F : fields}.
  Add Ring num_ring_posv : (nring F).
  Variables (nb : Z) (A B : desc) (SA : Z -> Z -> Prop) (bA bB uplo n : Z).
  Hypotheses (HA : sq nb A SA) (HB : dn nb B).
  Hypothesis Hu : valid_uplo uplo.
  Hypotheses (Am : d_m A = n) (An : d_n A = n) (Bm : d_m B = n).
  Hypothesis HSA : forall i j, 0 <= i < ntl nb (d_n A) -> 0 <= j < ntl nb (d_n A) -> uplo_sel uplo i j = true -> SA i j.

  Lemma two_solves_kgood : Forall (@kgood F) (two_solves uplo bA A bB B).
  Proof.
    apply Forall_app. split; apply (pztrsm_kgood nb A B SA); auto; try congruence; cbn; congruence.
  Qed.

  Lemma two_solves_kdecl : forall env, In (bA, homeD A SA) env -> In (bB, homeD B (in_tiles B)) env ->
    Forall (kdecl (home_env env)) (two_solves (F := F) uplo bA A bB B).
  Proof.
    intros env E1 E2. apply Forall_app. split; apply (pztrsm_kdecl nb A B SA); auto; try congruence; cbn; congruence.
  Qed.

  Lemma two_solves_writes : forall (k : ktask F) l, In k (two_solves uplo bA A bB B) -> k_writes k l -> fst l = bB.
  Proof.
    intros k l Hk W. apply in_app_or in Hk.
    assert (G : forall trans, Forall (fun k : ktask F => k_writes k l -> fst l = bB)
      (pztrsm PlasmaLeft uplo trans PlasmaNonUnit n1 bA A bB B)).
    { intros trans. apply (trsm_forall nb A B SA bA bB); auto; try congruence; try (cbn; congruence).
      - intros a p q Hp Hq HW. cbn in HW. apply reg_block in HW. exact HW.
      - intros. unfold gtask in *. cbn in *. match goal with H : reg _ _ _ _ _ _ |- _ => apply reg_block in H; exact H end. }
    destruct Hk as [Hk|Hk]; eapply (proj1 (Forall_forall _ _) (G _)); eauto.
  Qed.

  Hypothesis NA : bA <> bB.
  Variables (Mu : mem F) (pA : loc) (lda : Z) (T : Z -> Z -> F).
  Hypothesis HT : is_triangle Mu uplo PlasmaNonUnit pA lda n T.
  Hypothesis HD : forall i, 0 <= i < n -> T i i <> n0.
  Hypothesis Hn : 0 < d_n B.

  Lemma one_solve : forall M trans,
    (forall i j, 0 <= i < n -> 0 <= j < n -> uplo_sel uplo i j = true -> el M bA A i j = ul Mu pA lda i j) ->
    let M' := krun (pztrsm PlasmaLeft uplo trans PlasmaNonUnit n1 bA A bB B) M in
    (forall l, fst l <> bB -> M' l = M l) /\
    (forall i j, 0 <= i < n -> 0 <= j < d_n B ->
       nsum (fun l => nmul (op_of trans T i l) (el M' bB B l j)) 0 n = el M bB B i j).
  Proof.
    intros M trans HE.
    pose proof (TT_spec F M Mu A bA PlasmaLeft uplo trans PlasmaNonUnit pA lda n T Hu (or_intror eq_refl) HT HE) as TS.
    assert (TD : forall r, 0 <= r < d_n A -> TT A bA PlasmaLeft uplo trans PlasmaNonUnit M r r <> n0).
    { intros r Hr. rewrite An in Hr. rewrite TS by assumption. cbn. unfold op_of. pose proof (HD r Hr).
      destruct (trans =? PlasmaNoTrans); auto. destruct (trans =? PlasmaTrans); auto using nconj_nz. }
    assert (AM : d_n A = if lft PlasmaLeft then d_m B else d_n B) by (cbn; congruence).
    assert (AS : d_m A = d_n A) by congruence.
    pose proof (pztrsm_at nb A B SA bA bB PlasmaLeft uplo trans PlasmaNonUnit n1 HA HB Hu AS AM HSA NA M TD) as AT.
    cbv zeta in AT. cbv zeta. unfold oth, lft, elV in AT. rewrite Z.eqb_refl in AT. rewrite An in AT.
    assert (DV : dv PlasmaLeft trans = true -> 1 < ntl nb n -> (n1 : F) <> n0) by discriminate.
    specialize (AT DV). split.
    - apply (AT 0). lia.
    - intros i j Hi Hj. destruct (AT j Hj) as [_ V]. specialize (V i Hi). unfold elV, lft in V. rewrite Z.eqb_refl in V.
      replace (el M bB B i j) with (nmul n1 (el M bB B i j)) by ring. rewrite <- V.
      apply nsum_ext. intros l Hl. rewrite TS by assumption. reflexivity.
  Qed.

  Lemma two_solves_at : forall M,
    (forall i j, 0 <= i < n -> 0 <= j < n -> uplo_sel uplo i j = true -> el M bA A i j = ul Mu pA lda i j) ->
    let M' := krun (two_solves uplo bA A bB B) M in
    (forall l, fst l <> bB -> M' l = M l) /\
    (forall i j, 0 <= i < n -> 0 <= j < d_n B ->
       nsum (fun l => nmul (factor_product uplo n T i l) (el M' bB B l j)) 0 n = el M bB B i j).
  Proof.
    intros M HE. cbv zeta. unfold two_solves. rewrite krun_app.
    remember (if uplo =? PlasmaUpper then PlasmaConjTrans else PlasmaNoTrans) as t1 eqn:E1.
    remember (if uplo =? PlasmaUpper then PlasmaNoTrans else PlasmaConjTrans) as t2 eqn:E2.
    destruct (one_solve M t1 HE) as [X1 V1].
    remember (krun (pztrsm PlasmaLeft uplo t1 PlasmaNonUnit n1 bA A bB B) M) as M1 eqn:EM1.
    assert (HE1 : forall i j, 0 <= i < n -> 0 <= j < n -> uplo_sel uplo i j = true -> el M1 bA A i j = ul Mu pA lda i j).
    { intros i j Hi Hj Hs. rewrite <- HE by assumption. unfold el. apply X1. exact NA. }
    destruct (one_solve M1 t2 HE1) as [X2 V2].
    remember (krun (pztrsm PlasmaLeft uplo t2 PlasmaNonUnit n1 bA A bB B) M1) as M2 eqn:EM2.
    split.
    - intros l Hl. rewrite X2, X1 by assumption. reflexivity.
    - intros i j Hi Hj. rewrite <- V1 by assumption.
      transitivity (nsum (fun k => nmul (op_of t1 T i k) (nsum (fun l => nmul (op_of t2 T k l) (el M2 bB B l j)) 0 n)) 0 n).
      + transitivity (nsum (fun l => nsum (fun k => nmul (op_of t1 T i k) (nmul (op_of t2 T k l) (el M2 bB B l j))) 0 n) 0 n).
        * apply nsum_ext. intros l Hl. unfold factor_product, op_of. rewrite E1, E2.
          destruct Hu as [->| ->]; cbn; rewrite <- nsum_mul_r; apply nsum_ext; intros k Hk; ring.
        * rewrite nsum_swap. apply nsum_ext. intros k Hk. apply nsum_mul_l.
      + apply nsum_ext. intros k Hk. rewrite V2 by assumption. reflexivity.
  Qed.
End Solves.

Section Drivers.
  Context {F : fields}.
  Add Ring num_ring_posv2 : (nring F).

  Lemma zpotrs_main : forall (T : Z -> Z -> F) nb uplo n nrhs pA lda pB ldb bA bB M,
    0 < nb -> valid_uplo uplo -> 0 <= n -> 0 <= nrhs -> Z.max 1 n <= lda -> Z.max 1 n <= ldb ->
    NoDup [bA; bB] -> (forall b, In b [fst pA; fst pB] -> ~ In b [bA; bB]) ->
    apart pA lda n n pB ldb n nrhs ->
    is_triangle M uplo PlasmaNonUnit pA lda n T -> (forall i, 0 <= i < n -> T i i <> n0) ->
    driver_ensures (zpotrs nb uplo n nrhs pA lda pB ldb bA bB) M (fun M' =>
      (forall i j, in_matrix n nrhs i j ->
         nsum (fun l => nmul (factor_product uplo n T i l) (ul M' pB ldb l j)) 0 n = ul M pB ldb i j) /\
      (forall l, ~ In (fst l) [bA; bB] -> ~ in_user pB ldb n nrhs l -> M' l = M l)).
  Proof.
    intros T nb uplo n nrhs pA lda pB ldb bA bB M Hnb Hu Hn Hr LA LB ND HF AP HT HD. unfold zpotrs.
    replace ((uplo =? PlasmaUpper) || (uplo =? PlasmaLower)) with true by (destruct Hu as [->| ->]; reflexivity).
    cbn [negb].
    replace (n <? 0) with false by (symmetry; apply Z.ltb_ge; lia).
    replace (nrhs <? 0) with false by (symmetry; apply Z.ltb_ge; lia).
    replace (lda <? Z.max 1 n) with false by (symmetry; apply Z.ltb_ge; lia).
    replace (ldb <? Z.max 1 n) with false by (symmetry; apply Z.ltb_ge; lia).
    destruct (Z.eqb_spec (Z.max n nrhs) 0) as [E0|E0].
    { cbn. split; [reflexivity|]. split; [|reflexivity]. intros i j [Hi _]. lia. }
    destruct (ge_create_succeeds nb n n Hnb Hn Hn) as (A & EA & _). rewrite EA. cbn [with_desc].
    destruct (ge_create_dn _ _ _ _ _ EA) as (DA & A1 & A2 & _). clear EA.
    destruct (ge_create_succeeds nb n nrhs Hnb Hn Hr) as (B & EB & _). rewrite EB. cbn [with_desc].
    destruct (ge_create_dn _ _ _ _ _ EB) as (DB & B1 & B2 & _). clear EB.
    assert (N1 : bA <> bB) by (inversion_clear ND as [|? ? X Y]; cbn in X; intuition).
    assert (HSA : forall i j, 0 <= i < ntl nb (d_n A) -> 0 <= j < ntl nb (d_n A) -> uplo_sel uplo i j = true -> in_tiles A i j).
    { intros i j Hi Hj _. unfold in_tiles. rewrite (dn_mt nb A DA), (dn_nt nb A DA), A1, <- A2. auto. }
    cbn [driver_ensures].
    eapply region_mono; [|apply (ge_region2 F nb bA A pA lda bB B pB ldb)]; auto;
      try (rewrite ?A1, ?A2, ?B1, ?B2; auto; lia).
    - intros M' (M3 & H1 & H2 & H3 & H4 & H5). rewrite A1, A2 in H1. rewrite B1, B2 in H2, H4, H5. rewrite A2 in H4, H5.
      destruct (Z.eqb_spec n 0) as [Z1|Z1]; [|destruct (Z.eqb_spec nrhs 0) as [Z2|Z2]]; cbn [orb] in H4, H5.
      + split; [intros i j [Hi _]; lia|]. intros l Hl Hl'. rewrite H5 by assumption. cbn. apply H3. assumption.
      + split; [intros i j [_ Hj]; lia|]. intros l Hl Hl'. rewrite H5 by assumption. cbn. apply H3. assumption.
      + destruct (two_solves_at nb A B (in_tiles A) bA bB uplo n DA DB Hu A1 A2 B1 HSA N1 M pA lda T HT HD) with (M := M3) as [X V].
        * lia.
        * intros i j Hi Hj _. apply H1; assumption.
        * rewrite B2 in V. split.
          -- intros i j [Hi Hj]. rewrite <- H2 by assumption. rewrite <- V by assumption.
             apply nsum_ext. intros l Hl. rewrite H4 by assumption. reflexivity.
          -- intros l Hl Hl'. rewrite H5 by assumption. rewrite <- H3 by assumption. apply X. cbn in Hl. intuition.
    - destruct ((d_n A =? 0) || (d_n B =? 0)); [constructor|]. apply (two_solves_kgood nb A B (in_tiles A) bA bB uplo n); auto.
    - intros env E1 E2. destruct ((d_n A =? 0) || (d_n B =? 0)); [constructor|].
      apply (two_solves_kdecl nb A B (in_tiles A) bA bB uplo n); auto.
  Qed.

  Variable R : roots F.
  Variable rp : F -> F.
  Hypothesis Hrp : forall x, nconj x = x -> rp x = x.

  (* the stored factor as a matrix *)
  Lemma factor_matrix : forall S uplo n pA lda (M M' : mem F) L,
    valid_uplo uplo -> 0 <= n -> is_hermitian M uplo pA lda n S -> chol_eqs R rp n S L ->
    first_bad (fun j => badp R (rp (piv L S j))) 0 n = 0 ->
    (forall i j, in_matrix n n i j -> j <= i ->
       (if uplo =? PlasmaLower then ul M' pA lda i j else nconj (ul M' pA lda j i)) = L i j) ->
    exists T, is_triangle M' uplo PlasmaNonUnit pA lda n T /\
      (forall i, 0 <= i < n -> exists d, rt R d = Some (T i i)) /\
      (forall i j, in_matrix n n i j -> factor_product uplo n T i j = S i j).
  Proof.
    intros S uplo n pA lda M M' L Hu Hn [HS1 HS2] CE ST H1.
    assert (HH : forall i j, 0 <= i < n -> 0 <= j < n -> S j i = nconj (S i j)) by (intros; apply HS2; split; assumption).
    assert (HG : good R rp S L n).
    { intros j Hj. apply (first_bad_zero _ 0 n ST ltac:(lia) j Hj). }
    exists (fun i j => if uplo =? PlasmaLower then (if j <=? i then L i j else n0)
                       else (if i <=? j then nconj (L j i) else n0)).
    split; [|split].
    - intros i j [Hi Hj]. destruct Hu as [->| ->]; cbn; (split; [|split]).
      + intros [[_ LE]|[E _]]; [|discriminate]. intros _. replace (i <=? j) with true by (symmetry; apply Z.leb_le; lia).
        rewrite <- H1 by (try split; lia). cbn. apply nconj_conj.
      + discriminate.
      + intros NS. replace (i <=? j) with false; [reflexivity|]. symmetry. apply Z.leb_gt.
        apply Znot_ge_lt. intros GE. apply NS. left. split; [reflexivity|lia].
      + intros [[E _]|[_ LE]]; [discriminate|]. intros _. replace (j <=? i) with true by (symmetry; apply Z.leb_le; lia).
        rewrite <- H1 by (try split; lia). reflexivity.
      + discriminate.
      + intros NS. replace (j <=? i) with false; [reflexivity|]. symmetry. apply Z.leb_gt.
        apply Znot_ge_lt. intros GE. apply NS. right. split; [reflexivity|lia].
    - intros i Hi. exists (rp (piv L S i)). rewrite Z.leb_refl. pose proof (HG i Hi) as B. unfold badp in B.
      pose proof (chol_diag_real R rp n S L CE i Hi) as RL. destruct (CE i Hi) as [D _]. unfold rtot in D.
      destruct (rt R (rp (piv L S i))) eqn:E; [|discriminate]. rewrite RL, D. destruct (uplo =? PlasmaLower); reflexivity.
    - intros i j [Hi Hj]. rewrite <- (gram_off R rp Hrp n S L CE HH n i j ltac:(lia) HG Hi Hj ltac:(lia)).
      unfold factor_product. destruct Hu as [->| ->]; cbn.
      + apply nsum_ext. intros l Hl. destruct (l <=? i), (l <=? j); rewrite ?nconj_conj, ?nconj_0; reflexivity.
      + reflexivity.
  Qed.

  (* a triangular and a general operand, both translated back *)
  Lemma tr_ge_gregion : forall nb uplo n bA A pA lda bB B pB ldb (comp : list (cktask F)),
    valid_uplo uplo -> tri_ok A (uplo =? PlasmaUpper) nb n -> dn nb B -> n <= lda -> d_m B <= ldb ->
    NoDup [bA; bB] -> (forall b, In b [fst pA; fst pB] -> ~ In b [bA; bB]) ->
    apart pA lda n n pB ldb (d_m B) (d_n B) ->
    Forall kgood (map ck_task comp) -> Forall cksound comp ->
    (forall env, In (bA, homeD A (in_tri A)) env -> In (bB, homeD B (in_tiles B)) env ->
       Forall (kdecl (home_env env)) (map ck_task comp)) ->
    (forall k l, In k comp -> k_writes (ck_task k) l -> In (fst l) [bA; bB]) ->
    (forall tail, ch None (comp ++ map sure tail)) ->
    forall M, gregion_ensures (map sure (pztr2desc pA lda bA A ++ pzge2desc pB ldb bB B) ++ comp
                               ++ map sure (pzdesc2tr bA A pA lda ++ pzdesc2ge bB B pB ldb)) M
      (fun M' st => exists M3,
        (forall i j, in_stored_tile (uplo =? PlasmaUpper) nb n i j -> el M3 bA A i j = ul M pA lda i j) /\
        (forall i j, 0 <= i < d_m B -> 0 <= j < d_n B -> el M3 bB B i j = ul M pB ldb i j) /\
        (forall l, ~ In (fst l) [bA; bB] -> M3 l = M l) /\
        st = first_code (kcodes comp M3) /\
        (st = 0 ->
          (forall i j, in_stored_tile (uplo =? PlasmaUpper) nb n i j ->
             ul M' pA lda i j = el (krun (map ck_task comp) M3) bA A i j) /\
          (forall i j, 0 <= i < d_m B -> 0 <= j < d_n B ->
             ul M' pB ldb i j = el (krun (map ck_task comp) M3) bB B i j) /\
          (forall l, (forall i j, in_stored_tile (uplo =? PlasmaUpper) nb n i j -> l <> (fst pA, snd pA + i + j * lda)) ->
             ~ in_user pB ldb (d_m B) (d_n B) l ->
             M' l = krun (map ck_task comp) M3 l)) /\
        (forall l, ~ In (fst l) [bA; bB] -> ~ in_user pA lda n n l -> ~ in_user pB ldb (d_m B) (d_n B) l -> M' l = M l)).
  Proof.
    intros nb uplo n bA A pA lda bB B pB ldb comp Hu HT HB LA LB ND HF AP CG CS CD CW CC M.
    remember (tr_opnd bA A pA lda) as oA eqn:EoA. remember (ge_opnd bB B pB ldb) as oB eqn:EoB.
    assert (F1 := HF (fst pA)). assert (F2 := HF (fst pB)). cbn in F1, F2.
    assert (N1 : bA <> bB) by (inversion_clear ND as [|? ? X Y]; cbn in X; intuition).
    assert (NE : oA <> oB).
    { intros E. apply (f_equal o_b) in E. rewrite EoA, EoB in E. cbn in E. contradiction. }
    assert (ND2 : NoDup [oA; oB]).
    { constructor; [intros [E|[]]; congruence|constructor; [intros []|constructor]]. }
    assert (UA : forall l, o_user oA l -> exists i j, in_stored_tile (uplo =? PlasmaUpper) nb n i j /\ l = (fst pA, snd pA + i + j * lda)).
    { intros l (i & j & (I1 & I2 & I3) & E). rewrite EoA in I1, I2, I3, E. cbn in I1, I2, I3, E.
      rewrite (tk_m _ _ _ _ HT) in I1. rewrite (tk_n _ _ _ _ HT) in I2. exists i, j. split; [|assumption].
      eapply tri_stored_inv; eauto. }
    assert (UA2 : forall l, o_user oA l -> in_user pA lda n n l).
    { intros l H. destruct (UA l H) as (i & j & (Hi & Hj & _) & E). exists i, j. auto. }
    assert (UB : forall l, o_user oB l -> in_user pB ldb (d_m B) (d_n B) l).
    { intros l. rewrite EoB. apply ge_opnd_user. }
    assert (ELA : forall i j, in_stored_tile (uplo =? PlasmaUpper) nb n i j -> o_el oA i j)
      by (intros; rewrite EoA; eapply tr_opnd_el; eauto).
    assert (ELB : forall i j, 0 <= i < d_m B -> 0 <= j < d_n B -> o_el oB i j)
      by (intros; rewrite EoB; apply (ge_opnd_el nb); assumption).
    pose proof (gops_region (V := F) nb [oA; oB] [oA; oB] [oA; oB]) as G.
    assert (EI : flat_map (@o_in F) [oA; oB] = pztr2desc pA lda bA A ++ pzge2desc pB ldb bB B).
    { cbn [flat_map]. rewrite app_nil_r, EoA, EoB, tr_opnd_in, ge_opnd_in. reflexivity. }
    assert (EO : flat_map (@o_out F) [oA; oB] = pzdesc2tr bA A pA lda ++ pzdesc2ge bB B pB ldb).
    { cbn [flat_map]. rewrite app_nil_r, EoA, EoB, tr_opnd_out, ge_opnd_out. reflexivity. }
    rewrite EI, EO in G.
    eapply gregion_mono; [|apply G with (M := M) (comp := comp)]; auto; clear G.
    - intros M' st (M3 & H1 & H2 & H3 & H4 & H5). exists M3. split; [|split; [|split; [|split; [|split]]]]; auto.
      + intros i j Hij. pose proof (H1 oA i j (or_introl eq_refl) (ELA i j Hij)) as X. rewrite EoA in X. exact X.
      + intros i j Hi Hj. pose proof (H1 oB i j (or_intror (or_introl eq_refl)) (ELB i j Hi Hj)) as X. rewrite EoB in X. exact X.
      + intros l Hl. apply H2. intros o [<-|[<-|[]]] E; apply Hl; rewrite E, ?EoA, ?EoB; cbn; auto.
      + intros E0. destruct (H4 E0) as [H6 H7]. split; [|split].
        * intros i j Hij. pose proof (H6 oA i j (or_introl eq_refl) (ELA i j Hij)) as X. rewrite EoA in X. exact X.
        * intros i j Hi Hj. pose proof (H6 oB i j (or_intror (or_introl eq_refl)) (ELB i j Hi Hj)) as X. rewrite EoB in X. exact X.
        * intros l Hl Hl'. apply H7. intros o [<-|[<-|[]]] HU; [|apply Hl'; auto].
          destruct (UA l HU) as (i & j & HI & E). apply (Hl i j); assumption.
      + intros l Hl HN HN'. apply H5; [rewrite EoA, EoB; exact Hl|]. intros o [<-|[<-|[]]] HU; auto.
    - intros o [<-|[<-|[]]]; [rewrite EoA; eapply tr_opnd_ok; eauto|rewrite EoB; apply ge_opnd_ok; assumption].
    - apply incl_refl.
    - apply incl_refl.
    - rewrite EoA, EoB. cbn. assumption.
    - intros o o' [<-|[<-|[]]] [<-|[<-|[]]]; rewrite ?EoA, ?EoB; cbn; intuition.
    - intros o o' [<-|[<-|[]]] [<-|[<-|[]]]; auto; right; intros l X Y.
      + rewrite EoA in X. cbn in X. rewrite (tk_m _ _ _ _ HT), (tk_n _ _ _ _ HT) in X. exact (AP l X (UB l Y)).
      + rewrite EoB in X. cbn in X. exact (AP l (UA2 l Y) X).
    - intros env HE. apply CD.
      + pose proof (HE oA (or_introl eq_refl)) as X. rewrite EoA in X. exact X.
      + pose proof (HE oB (or_intror (or_introl eq_refl))) as X. rewrite EoB in X. exact X.
    - intros k l Hk Hl. rewrite EoA, EoB. cbn. eapply CW; eauto.
  Qed.

  Lemma zposv_core : forall S nb uplo n nrhs pA lda pB ldb bA bB M,
    0 < nb -> valid_uplo uplo -> 0 <= n -> 0 < nrhs -> Z.max 1 n <= lda -> Z.max 1 n <= ldb ->
    NoDup [bA; bB] -> (forall b, In b [fst pA; fst pB] -> ~ In b [bA; bB]) ->
    apart pA lda n n pB ldb n nrhs ->
    is_hermitian M uplo pA lda n S ->
    gdriver_ensures (zposv R rp nb uplo n nrhs pA lda pB ldb bA bB) M (fun M' st => exists L,
      chol_eqs R rp n S L /\
      st = first_bad (fun j => badp R (rp (piv L S j))) 0 n /\
      (st = 0 -> (exists T, is_triangle M' uplo PlasmaNonUnit pA lda n T /\
                   (forall i, 0 <= i < n -> exists d, rt R d = Some (T i i)) /\
                   (forall i j, in_matrix n n i j -> factor_product uplo n T i j = S i j)) /\
                 (forall i j, in_matrix n nrhs i j ->
                    nsum (fun l => nmul (S i l) (ul M' pB ldb l j)) 0 n = ul M pB ldb i j) /\
                 (forall l, ~ In (fst l) [bA; bB] -> ~ in_triangle uplo pA lda n l -> ~ in_user pB ldb n nrhs l ->
                    M' l = M l)) /\
      (forall l, ~ In (fst l) [bA; bB] -> ~ in_user pA lda n n l -> ~ in_user pB ldb n nrhs l -> M' l = M l)).
  Proof.
    intros S nb uplo n nrhs pA lda pB ldb bA bB M Hb Hu Hn Hr LA LB ND HF AP HS. pose proof HS as [HS1 HS2]. unfold zposv.
    assert (E1 : (uplo =? PlasmaUpper) || (uplo =? PlasmaLower) = true) by (destruct Hu as [->| ->]; reflexivity).
    rewrite E1. cbn [negb].
    replace (n <? 0) with false by (symmetry; apply Z.ltb_ge; lia).
    replace (nrhs <? 0) with false by (symmetry; apply Z.ltb_ge; lia).
    replace (lda <? Z.max 1 n) with false by (symmetry; apply Z.ltb_ge; lia).
    replace (ldb <? Z.max 1 n) with false by (symmetry; apply Z.ltb_ge; lia).
    remember (fun i j => if uplo =? PlasmaLower then ul M pA lda i j else nconj (ul M pA lda j i)) as SV eqn:ESV.
    assert (SE : forall i j, 0 <= j <= i -> i < n -> SV i j = S i j).
    { intros i j Hj Hi. rewrite ESV. destruct Hu as [->| ->].
      - cbn. rewrite (HS2 j i) by (split; lia). apply f_equal. symmetry.
        apply HS1; [split; lia|]. left. split; [reflexivity|lia].
      - cbn. symmetry. apply HS1; [split; lia|]. right. split; [reflexivity|lia]. }
    remember (fst (potf2 R rp n SV)) as L eqn:EL.
    assert (CE : chol_eqs R rp n SV L).
    { destruct (potf2_inv R rp SV n Hn) as (_ & I2 & _). rewrite EL. destruct (I2 n); [assumption|lia]. }
    assert (CS : chol_eqs R rp n S L) by (eapply chol_eqs_ext; eauto).
    assert (PV : forall j, 0 <= j < n -> piv L SV j = piv L S j).
    { intros j Hj. unfold piv. rewrite SE by lia. reflexivity. }
    assert (FB : first_bad (fun j => badp R (rp (piv L SV j))) 0 n = first_bad (fun j => badp R (rp (piv L S j))) 0 n).
    { apply first_bad_ext. intros j Hj. rewrite PV by assumption. reflexivity. }
    destruct (Z.eqb_spec (Z.min n nrhs) 0) as [E0|E0].
    - cbn. exists L. assert (n = 0) as -> by lia. split; [assumption|]. split; [symmetry; apply first_bad_nil; lia|].
      split; [|auto]. intros _. split; [|split; [|auto]].
      + exists (fun _ _ => n0). split; [intros i j [Hi _]; lia|]. split; [intros i Hi; lia|intros i j [Hi _]; lia].
      + intros i j [Hi _]. lia.
    - destruct (tr_create_succeeds uplo nb n Hu Hb ltac:(lia)) as (A & sz & EA & A1 & A2). rewrite EA. cbn [with_gdesc].
      pose proof (tr_create_tri _ _ _ _ _ Hu EA) as TA. clear EA.
      destruct (ge_create_succeeds nb n nrhs Hb Hn ltac:(lia)) as (B & EB & _). rewrite EB. cbn [with_gdesc].
      destruct (ge_create_dn _ _ _ _ _ EB) as (DB & B1 & B2 & _). clear EB.
      replace ((d_n A =? 0) || (d_n B =? 0)) with false.
      2:{ symmetry. rewrite orb_false_iff, !Z.eqb_neq. lia. }
      rewrite (pzpotrf_eq nb n A bA uplo Hu TA R rp). fold (plist nb n A bA uplo R rp).
      assert (N1 : bA <> bB) by (inversion_clear ND as [|? ? X Y]; cbn in X; intuition).
      assert (ST : forall i j, stored nb n i j <-> in_stored_tile (uplo =? PlasmaUpper) nb n
          (if uplo =? PlasmaLower then i else j) (if uplo =? PlasmaLower then j else i)).
      { intros i j. unfold stored, in_stored_tile. destruct Hu as [->| ->]; cbn; tauto. }
      assert (HSr : forall j, 0 <= j < n -> nconj (SV j j) = SV j j).
      { intros j Hj. rewrite SE by lia. symmetry. apply HS2. split; lia. }
      pose proof (tri_sq _ _ _ _ TA) as SQ. pose proof (tri_tiles uplo nb n A Hu TA) as HSA.
      assert (Am : d_m A = n) by (apply (tk_m _ _ _ _ TA)). assert (An : d_n A = n) by (apply (tk_n _ _ _ _ TA)).
      assert (KG : Forall (@kgood F) (map ck_task (plist nb n A bA uplo R rp ++ map sure (two_solves uplo bA A bB B)))).
      { rewrite map_app, map_sure. apply Forall_app. split; [apply plist_kgood; assumption|].
        apply (two_solves_kgood nb A B (in_tri A) bA bB uplo n); auto. }
      assert (KS : Forall cksound (plist nb n A bA uplo R rp ++ map sure (two_solves uplo bA A bB B))).
      { apply Forall_app. split; [apply plist_sound; assumption|apply cksound_sure]. }
      eapply gregion_mono; [|apply (tr_ge_gregion nb uplo n bA A pA lda bB B pB ldb
        (plist nb n A bA uplo R rp ++ map sure (two_solves uplo bA A bB B))); auto; try lia].
      + intros M' st (M3 & H1 & H1' & H2 & H3 & H4 & H5). exists L. split; [assumption|].
        rewrite B1, B2 in H1', H4, H5.
        assert (RL : rel nb n A bA uplo M3 SV M3).
        { split; [reflexivity|]. intros i j Hij. apply ST in Hij. unfold VV, low. rewrite ESV.
          destruct (uplo =? PlasmaLower); [|apply f_equal]; apply H1; assumption. }
        destruct (plist_step nb n A bA uplo Hu TA M3 R rp Hrp SV L CE HSr M3 RL) as [[R1 R2] R3].
        rewrite kcodes_app, first_code_app, kcodes_sure in H3.
        assert (STE : st = first_bad (fun j => badp R (rp (piv L S j))) 0 n).
        { rewrite <- FB, <- R3, H3. destruct (Z.eqb_spec (first_code (kcodes (plist nb n A bA uplo R rp) M3)) 0) as [Q|Q]; [|reflexivity].
          rewrite Q. reflexivity. }
        split; [assumption|]. split; [|assumption]. intros Z0. destruct (H4 Z0) as (H6 & H6' & H7). clear H4 H3 H5.
        rewrite map_app, map_sure, krun_app in H6, H6', H7.
        remember (krun (map ck_task (plist nb n A bA uplo R rp)) M3) as M4 eqn:EM4.
        remember (krun (two_solves uplo bA A bB B) M4) as M5 eqn:EM5.
        (* the factor is in M' *)
        assert (W : forall l, fst l <> bB -> M5 l = M4 l).
        { intros l Hl. rewrite EM5. apply krun_frame.
          { eapply Forall_impl; [|apply (two_solves_kgood nb A B (in_tri A) bA bB uplo n); auto]. intros k Hk. apply (kg_sound _ Hk). }
          intros (k & Hk & HW). apply Hl.
          eapply (two_solves_writes nb A B (in_tri A) bA bB uplo n); eauto. }
        assert (EA45 : forall i j, el M5 bA A i j = el M4 bA A i j) by (intros i j; unfold el; apply W; exact N1).
        assert (RV : forall i j, stored nb n i j ->
          (if uplo =? PlasmaLower then ul M' pA lda i j else nconj (ul M' pA lda j i)) = if i <? j then SV i j else L i j).
        { intros i j Hij. rewrite <- R2 by assumption. apply ST in Hij. unfold VV, low.
          destruct (uplo =? PlasmaLower); [|apply f_equal]; rewrite H6 by assumption; apply EA45. }
        assert (HL : forall i j, in_matrix n n i j -> j <= i ->
          (if uplo =? PlasmaLower then ul M' pA lda i j else nconj (ul M' pA lda j i)) = L i j).
        { intros i j [Hi Hj] Hji. rewrite RV.
          - replace (i <? j) with false by (symmetry; apply Z.ltb_ge; lia). reflexivity.
          - split; [assumption|]. split; [assumption|]. apply Z.div_le_mono; lia. }
        assert (BAD0 : first_bad (fun j => badp R (rp (piv L S j))) 0 n = 0) by congruence.
        destruct (factor_matrix S uplo n pA lda M M' L Hu Hn HS CS BAD0 HL) as (T & T1 & T2 & T3).
        assert (TNZ : forall i, 0 <= i < n -> T i i <> n0).
        { intros i Hi. destruct (T2 i Hi) as [d Hd]. apply (rt_nz F R d (T i i) Hd). }
        split; [exists T; auto|]. split.
        * destruct (two_solves_at nb A B (in_tri A) bA bB uplo n SQ DB Hu Am An B1 HSA N1 M' pA lda T T1 TNZ) with (M := M4) as [_ V].
          -- lia.
          -- intros i j Hi Hj Hs. rewrite H6; [symmetry; apply EA45|]. apply (sel_stored uplo nb n i j Hu Hb Hi Hj Hs).
          -- rewrite B2 in V. rewrite <- EM5 in V. intros i j [Hi Hj].
             assert (E4 : el M4 bB B i j = ul M pB ldb i j).
             { rewrite <- H1' by assumption. unfold el. apply R1. cbn. congruence. }
             rewrite <- E4, <- V by assumption. apply nsum_ext. intros l Hl.
             rewrite H6' by assumption. rewrite T3 by (split; assumption). reflexivity.
        * intros l Hl HN HNB.
          destruct (stored_split (uplo =? PlasmaUpper) nb n pA lda l ltac:(lia)) as [(i & j & HI & E)|HI].
          -- assert (NS : ~ selects uplo i j).
             { intros HX. apply HN. exists i, j. destruct HI as (Hi & Hj & _). repeat split; auto; lia. }
             rewrite E. change (ul M' pA lda i j = ul M pA lda i j).
             pose proof (ST (if uplo =? PlasmaLower then i else j) (if uplo =? PlasmaLower then j else i)) as ST'.
             pose proof (RV (if uplo =? PlasmaLower then i else j) (if uplo =? PlasmaLower then j else i)) as RV'.
             destruct Hu as [->| ->]; cbn in ST', RV'.
             ++ apply ST' in HI. specialize (RV' HI). replace (j <? i) with true in RV'.
                2:{ symmetry. apply Z.ltb_lt. apply Znot_ge_lt. intros GE. apply NS. left. split; [reflexivity|lia]. }
                rewrite ESV in RV'. cbn in RV'.
                rewrite <- (nconj_conj F (ul M' pA lda i j)), RV'. apply nconj_conj.
             ++ apply ST' in HI. specialize (RV' HI). replace (i <? j) with true in RV'.
                2:{ symmetry. apply Z.ltb_lt. apply Znot_ge_lt. intros GE. apply NS. right. split; [reflexivity|lia]. }
                rewrite ESV in RV'. exact RV'.
          -- rewrite H7 by assumption. rewrite W by (cbn in Hl; intuition). rewrite R1 by (cbn in Hl; intuition).
             apply H2. assumption.
      + rewrite B1, B2. exact AP.
      + intros env HE1 HE2. rewrite map_app, map_sure. apply Forall_app. split; [apply plist_kdecl; assumption|].
        apply (two_solves_kdecl nb A B (in_tri A) bA bB uplo n); auto.
      + intros k l Hk HW. apply in_app_or in Hk. destruct Hk as [Hk|Hk].
        * left. symmetry. eapply plist_writes; eauto.
        * right. left. symmetry. apply in_map_iff in Hk. destruct Hk as (x & <- & Hx).
          eapply (two_solves_writes nb A B (in_tri A) bA bB uplo n); eauto.
      + intros tail. rewrite <- app_assoc, <- map_app. apply plist_chain.
  Qed.
End Drivers.

Lemma zposv_solves : forall (F : fields) (R : roots F) (rp : F -> F) S nb uplo n nrhs pA lda pB ldb bA bB M,
  (forall x, nconj x = x -> rp x = x) ->
  0 < nb -> valid_uplo uplo -> 0 <= n -> 0 < nrhs -> Z.max 1 n <= lda -> Z.max 1 n <= ldb ->
  NoDup [bA; bB] -> (forall b, In b [fst pA; fst pB] -> ~ In b [bA; bB]) ->
  apart pA lda n n pB ldb n nrhs ->
  is_hermitian M uplo pA lda n S ->
  gdriver_ensures (zposv R rp nb uplo n nrhs pA lda pB ldb bA bB) M (fun M' st =>
    (st = 0 ->
      (exists T, is_triangle M' uplo PlasmaNonUnit pA lda n T /\
         (forall i, 0 <= i < n -> exists d, rt R d = Some (T i i)) /\
         (forall i j, in_matrix n n i j -> factor_product uplo n T i j = S i j)) /\
      (forall i j, in_matrix n nrhs i j ->
         nsum (fun l => nmul (S i l) (ul M' pB ldb l j)) 0 n = ul M pB ldb i j) /\
      (forall l, ~ In (fst l) [bA; bB] -> ~ in_triangle uplo pA lda n l -> ~ in_user pB ldb n nrhs l -> M' l = M l)) /\
    (forall l, ~ In (fst l) [bA; bB] -> ~ in_user pA lda n n l -> ~ in_user pB ldb n nrhs l -> M' l = M l)).
Proof.
  intros F R rp S nb uplo n nrhs pA lda pB ldb bA bB M Hrp Hb Hu Hn Hr LA LB ND HF AP HS.
  eapply gdriver_mono; [|apply (zposv_core R rp Hrp S); eassumption].
  intros M' st (L & _ & _ & H0 & H1). auto.
Qed.

Lemma zposv_status : forall (F : fields) (R : roots F) (rp : F -> F) (P : positivity F)
    S nb uplo n nrhs pA lda pB ldb bA bB M,
  (forall x, nconj x = x -> rp x = x) -> has_roots P R ->
  0 < nb -> valid_uplo uplo -> 0 <= n -> 0 < nrhs -> Z.max 1 n <= lda -> Z.max 1 n <= ldb ->
  NoDup [bA; bB] -> (forall b, In b [fst pA; fst pB] -> ~ In b [bA; bB]) ->
  apart pA lda n n pB ldb n nrhs ->
  is_hermitian M uplo pA lda n S ->
  gdriver_ensures (zposv R rp nb uplo n nrhs pA lda pB ldb bA bB) M (fun M' st =>
    (st = 0 /\ pos_def P n S) \/
    (0 < st <= n /\ pos_def P (st - 1) S /\ ~ pos_def P st S)).
Proof.
  intros F R rp P S nb uplo n nrhs pA lda pB ldb bA bB M Hrp HR Hb Hu Hn Hr LA LB ND HF AP HS.
  eapply gdriver_mono; [|apply (zposv_core R rp Hrp S); eassumption].
  intros M' st (L & CE & ST & _). destruct HS as [_ HS2].
  assert (HH : forall i j, 0 <= i < n -> 0 <= j < n -> S j i = nconj (S i j)) by (intros; apply HS2; split; assumption).
  destruct (Z.eq_dec st 0) as [E|E].
  - left. split; [assumption|]. apply (good_pd R rp P Hrp n S L CE HH n); [lia|].
    intros j Hj. rewrite ST in E. apply (first_bad_zero _ 0 n E ltac:(lia) j Hj).
  - right. symmetry in ST. destruct (first_bad_pos _ 0 n st ltac:(lia) ST E) as (S1 & S2 & S3).
    split; [assumption|]. split.
    + apply (good_pd R rp P Hrp n S L CE HH); [lia|]. intros j Hj. apply S3. lia.
    + replace st with (st - 1 + 1) by lia. apply (bad_not_pd R rp P Hrp HR n S L CE HH); [lia| |assumption].
      intros j Hj. apply S3. lia.
Qed.

Lemma zposv_no_rhs : exists (S : Z -> Z -> C_fields) n M,
  0 < n /\ is_hermitian M PlasmaLower (0, 0) n n S /\
  ~ pos_def C_positivity n S /\
  forall rp nb, 0 < nb ->
    gdriver_ensures (zposv C_roots rp nb PlasmaLower n 0 (0, 0) n (1, 0) n 2 3) M (fun M' st =>
      st = 0 /\ M' = M /\ ~ exists T, is_triangle M' PlasmaLower PlasmaNonUnit (0, 0) n n T /\
        forall i j, in_matrix n n i j -> factor_product PlasmaLower n T i j = S i j).
Proof.
  exists (fun _ _ => (-1, 0)%R), 1, (fun _ => (-1, 0)%R). split; [lia|]. split; [|split].
  - split; [reflexivity|]. intros. unfold nconj. cbn. unfold cconj. cbn. f_equal. lra.
  - intros H. specialize (H (fun _ => (1, 0)%R)). destruct H as [H _].
    + exists 0. split; [lia|]. intros E. apply (f_equal fst) in E. cbn in E. lra.
    + unfold nsum in H. change (zrange 0 1) with [0] in H. cbn in H. lra.
  - intros rp nb Hb. cbn. split; [reflexivity|]. split; [reflexivity|]. intros (T & H1 & H2).
    destruct (H1 0 0) as (H3 & _); [split; lia|].
    assert (E : T 0 0 = (-1, 0)%R) by (apply H3; [right; split; [reflexivity|lia]|right; reflexivity]).
    specialize (H2 0 0 ltac:(split; lia)). unfold factor_product in H2. cbn in H2. unfold nsum in H2.
    change (zrange 0 1) with [0] in H2. cbn in H2. rewrite E in H2. apply (f_equal fst) in H2. cbn in H2. lra.
Qed.
