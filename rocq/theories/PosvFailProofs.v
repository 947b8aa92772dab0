(* What plasma_zposv leaves behind when the matrix is not positive definite. *)
From Coq Require Import ZArith List Bool Lia Ring.
From Verif Require Import Base NumModel NumProofs FieldModel TaskModel TaskSpec TaskProofs DescModel DescSpec
  DescDriverModel DescProofs DescPackProofs DescProofs3 DescProofs4 MatModel MatSpec MatProofs RegionProofs
  GuardModel GuardSpec GuardProofs GuardProofs2 GuardAnyProofs GuardTraceProofs
  LayoutModel LayoutProofs LayoutProofs2 DriverModel DriverSpec OpProofs SimProofs OperandProofs GOperandProofs GAnyProofs GTraceProofs
  GemmModel GemmProofs GemmDriverProofs RankModel RankProofs RankDriverProofs LasetModel LasetProofs
  TriModel TriSpec TriVecProofs TriProofs TrmmProofs TrmmDriverProofs TrsmProofs TrsmDriverProofs
  PotrfModel PotrfSpec CholProofs HpdProofs PotrfProofs PotrfDriverProofs PosvModel PosvProofs EwModel EwProofs EwDriverProofs LagDriverProofs FailLinkProofs GesvLiftProofs.
Import ListNotations.
Open Scope Z_scope.

Lemma sub_in : forall T (p l q : list T), sub l (p ++ l ++ q).
Proof.
  intros T p l q. apply (sub_app T [] p); [constructor|].
  pose proof (sub_app T l l [] q (sub_refl T l) (sub_nil q)) as H. rewrite app_nil_r in H. exact H.
Qed.

Section Fail.
  Context {F : fields}.
  Variables (R : roots F) (rp : F -> F).
  Hypothesis Hrp : forall x, nconj x = x -> rp x = x.

  (* a triangular and a general operand, both translated back, also when a task fails *)
  Lemma tr_ge_gregion_trace : forall nb uplo n bA A pA lda bB B pB ldb (comp : list (cktask F)),
    valid_uplo uplo -> tri_ok A (uplo =? PlasmaUpper) nb n -> dn nb B -> n <= lda -> d_m B <= ldb ->
    NoDup [bA; bB] -> (forall b, In b [fst pA; fst pB] -> ~ In b [bA; bB]) ->
    apart pA lda n n pB ldb (d_m B) (d_n B) ->
    Forall kgood (map ck_task comp) -> Forall cksound comp ->
    (forall env, In (bA, homeD A (in_tri A)) env -> In (bB, homeD B (in_tiles B)) env ->
       Forall (kdecl (home_env env)) (map ck_task comp)) ->
    (forall k l, In k comp -> k_writes (ck_task k) l -> In (fst l) [bA; bB]) ->
    forall M, gregion_ensures (map sure (pztr2desc pA lda bA A ++ pzge2desc pB ldb bB B) ++ comp
                               ++ map sure (pzdesc2tr bA A pA lda ++ pzdesc2ge bB B pB ldb)) M
      (fun M' st => exists M3,
        (forall i j, in_stored_tile (uplo =? PlasmaUpper) nb n i j -> el M3 bA A i j = ul M pA lda i j) /\
        (st <> 0 -> guilty comp M3 st) /\
        (forall i j, in_stored_tile (uplo =? PlasmaUpper) nb n i j ->
           ul M' pA lda i j = ul M pA lda i j \/ ul M' pA lda i j = el (krun (map ck_task comp) M3) bA A i j) /\
        (forall i j, 0 <= i < d_m B -> 0 <= j < d_n B ->
           ul M' pB ldb i j = ul M pB ldb i j \/
           exists qs, forall a x b, comp = a ++ x :: b ->
             linked (ck_task x) (map ck_task b ++ qs) (copy_out bB B pB ldb (i / nb) (j / nb)) ->
             ck_info x (krun (map ck_task a) M3) = 0) /\
        (forall l, ~ In (fst l) [bA; bB] ->
           (forall i j, in_stored_tile (uplo =? PlasmaUpper) nb n i j -> l <> (fst pA, snd pA + i + j * lda)) ->
           ~ in_user pB ldb (d_m B) (d_n B) l -> M' l = M l)).
  Proof.
    intros nb uplo n bA A pA lda bB B pB ldb comp Hu HT HB LA LB ND HF AP CG CS CD CW M.
    remember (tr_opnd bA A pA lda) as oA eqn:EoA. remember (ge_opnd bB B pB ldb) as oB eqn:EoB.
    assert (F1 := HF (fst pA)). assert (F2 := HF (fst pB)). cbn in F1, F2.
    assert (N1 : bA <> bB) by (inversion_clear ND as [|? ? X Y]; cbn in X; intuition).
    assert (NE : oA <> oB).
    { intros E. apply (f_equal o_b) in E. rewrite EoA, EoB in E. cbn in E. contradiction. }
    assert (ND2 : NoDup [oA; oB]).
    { constructor; [intros [E|[]]; congruence|constructor; [intros []|constructor]]. }
    assert (UA : forall l, o_user oA l -> exists i j, in_stored_tile (uplo =? PlasmaUpper) nb n i j /\ l = (fst pA, snd pA + i + j * lda)).
    { intros l (i & j & (I1 & I2 & I3) & E). rewrite EoA in I1, I2, I3, E. cbn in I1, I2, I3, E.
      rewrite (tk_m _ _ _ _ HT) in I1. rewrite (tk_n _ _ _ _ HT) in I2. exists i, j. split; [|assumption].
      eapply tri_stored_inv; eauto. }
    assert (UA2 : forall l, o_user oA l -> in_user pA lda n n l).
    { intros l H. destruct (UA l H) as (i & j & (Hi & Hj & _) & E). exists i, j. auto. }
    assert (UB : forall l, o_user oB l -> in_user pB ldb (d_m B) (d_n B) l).
    { intros l. rewrite EoB. apply ge_opnd_user. }
    assert (ELA : forall i j, in_stored_tile (uplo =? PlasmaUpper) nb n i j -> o_el oA i j)
      by (intros; rewrite EoA; eapply tr_opnd_el; eauto).
    assert (ELB : forall i j, 0 <= i < d_m B -> 0 <= j < d_n B -> o_el oB i j)
      by (intros; rewrite EoB; apply (ge_opnd_el nb); assumption).
    pose proof (gops_region_trace (V := F) nb [oA; oB] [oA; oB] [oA; oB]) as G.
    assert (EI : flat_map (@o_in F) [oA; oB] = pztr2desc pA lda bA A ++ pzge2desc pB ldb bB B).
    { cbn [flat_map]. rewrite app_nil_r, EoA, EoB, tr_opnd_in, ge_opnd_in. reflexivity. }
    assert (EO : flat_map (@o_out F) [oA; oB] = pzdesc2tr bA A pA lda ++ pzdesc2ge bB B pB ldb).
    { cbn [flat_map]. rewrite app_nil_r, EoA, EoB, tr_opnd_out, ge_opnd_out. reflexivity. }
    rewrite EI, EO in G.
    eapply gregion_mono; [|apply G with (M := M) (comp := comp)]; auto; clear G.
    - intros M' st (M3 & H1 & H2 & H3 & H4 & H5 & H6). exists M3. split; [|split; [assumption|split; [|split]]].
      + intros i j Hij. pose proof (H1 oA i j (or_introl eq_refl) (ELA i j Hij)) as X. rewrite EoA in X. exact X.
      + intros i j Hij. destruct (H6 oA i j (or_introl eq_refl) (ELA i j Hij)) as [X|(X & _)]; rewrite EoA in X; [left|right]; exact X.
      + intros i j Hi Hj. destruct (H6 oB i j (or_intror (or_introl eq_refl)) (ELB i j Hi Hj)) as [X|(_ & qs & rs & _ & X)].
        * left. rewrite EoB in X. exact X.
        * right. exists qs. rewrite EoB in X. cbn in X. rewrite (sq_mb nb _ _ HB), (sq_nb nb _ _ HB) in X. exact X.
      + intros l Hl HA HB'. apply H5; [rewrite EoA, EoB; exact Hl|]. intros o [<-|[<-|[]]] HU; auto.
        destruct (UA l HU) as (i & j & HI & E). apply (HA i j); assumption.
    - intros o [<-|[<-|[]]]; [rewrite EoA; eapply tr_opnd_ok; eauto|rewrite EoB; apply ge_opnd_ok; assumption].
    - apply incl_refl.
    - apply incl_refl.
    - rewrite EoA, EoB. cbn. assumption.
    - intros o o' [<-|[<-|[]]] [<-|[<-|[]]]; rewrite ?EoA, ?EoB; cbn; intuition.
    - intros o o' [<-|[<-|[]]] [<-|[<-|[]]]; auto; right; intros l X Y.
      + rewrite EoA in X. cbn in X. rewrite (tk_m _ _ _ _ HT), (tk_n _ _ _ _ HT) in X. exact (AP l X (UB l Y)).
      + rewrite EoB in X. cbn in X. exact (AP l (UA2 l Y) X).
    - intros env xs ys HE FE H1 H2. apply (kdecl_klinked3 _ env); auto. apply CD.
      + pose proof (HE oA (or_introl eq_refl)) as X. rewrite EoA in X. exact X.
      + pose proof (HE oB (or_intror (or_introl eq_refl))) as X. rewrite EoB in X. exact X.
    - intros k l Hk Hl. rewrite EoA, EoB. cbn. eapply CW; eauto.
  Qed.

  Lemma div_ntl : forall nb K i, 0 < nb -> 0 <= i < K -> 0 <= i / nb < ntl nb K.
  Proof.
    intros nb K i Hb Hi. assert (0 <= i / nb) by (apply Z.div_pos; lia). split; [assumption|].
    apply ntl_spec; try lia. pose proof (Z.mul_div_le i nb Hb). lia.
  Qed.

  (* a task of the computation that fails is the factorization of a diagonal tile *)
  Lemma plist_fails : forall nb n A bA uplo ks x a b M, valid_uplo uplo -> tri_ok A (uplo =? PlasmaUpper) nb n ->
    plist nb n A bA uplo R rp ++ map sure ks = a ++ x :: b -> ck_info x M <> 0 ->
    exists k b', 0 <= k < ntl nb n /\ b = b' ++ map sure ks /\ In (dep_inout (tptr bA A k k)) (k_deps (ck_task x)).
  Proof.
    intros nb n A bA uplo ks x a b M Hu HT E NZ.
    destruct (app_cons_cases _ _ _ _ _ _ E) as [(b' & E1 & E2)|(a' & E1 & E2)].
    - assert (HI : In x (plist nb n A bA uplo R rp)) by (rewrite E1; apply in_or_app; right; left; reflexivity).
      unfold plist in HI. apply in_flat_map in HI. destruct HI as (k & Hk & [HI|HI]).
      + exists k, b'. split; [apply in_zrange in Hk; exact Hk|]. split; [assumption|]. rewrite <- HI. left.
        unfold ptask, tp, tm, tn. destruct (low uplo); reflexivity.
      + apply in_map_iff in HI. destruct HI as (y & <- & _). exfalso. apply NZ. reflexivity.
    - exfalso. assert (HI : In x (map sure ks)) by (rewrite E2; apply in_or_app; right; left; reflexivity).
      apply in_map_iff in HI. destruct HI as (y & <- & _). apply NZ. reflexivity.
  Qed.

  Lemma zposv_fails : forall S nb uplo n nrhs pA lda pB ldb bA bB M,
    0 < nb -> valid_uplo uplo -> 0 <= n -> 0 <= nrhs -> Z.max 1 n <= lda -> Z.max 1 n <= ldb ->
    NoDup [bA; bB] -> (forall b, In b [fst pA; fst pB] -> ~ In b [bA; bB]) ->
    apart pA lda n n pB ldb n nrhs ->
    is_hermitian M uplo pA lda n S ->
    gdriver_ensures (zposv R rp nb uplo n nrhs pA lda pB ldb bA bB) M (fun M' st =>
      st <> 0 -> forall l, ~ In (fst l) [bA; bB] -> ~ in_triangle uplo pA lda n l -> M' l = M l).
  Proof.
    intros S nb uplo n nrhs pA lda pB ldb bA bB M Hb Hu Hn Hr LA LB ND HF AP HS. pose proof HS as [HS1 HS2]. unfold zposv.
    assert (E1 : (uplo =? PlasmaUpper) || (uplo =? PlasmaLower) = true) by (destruct Hu as [->| ->]; reflexivity).
    rewrite E1. cbn [negb].
    replace (n <? 0) with false by (symmetry; apply Z.ltb_ge; lia).
    replace (nrhs <? 0) with false by (symmetry; apply Z.ltb_ge; lia).
    replace (lda <? Z.max 1 n) with false by (symmetry; apply Z.ltb_ge; lia).
    replace (ldb <? Z.max 1 n) with false by (symmetry; apply Z.ltb_ge; lia).
    remember (fun i j => if uplo =? PlasmaLower then ul M pA lda i j else nconj (ul M pA lda j i)) as SV eqn:ESV.
    assert (SE : forall i j, 0 <= j <= i -> i < n -> SV i j = S i j).
    { intros i j Hj Hi. rewrite ESV. destruct Hu as [->| ->].
      - cbn. rewrite (HS2 j i) by (split; lia). apply f_equal. symmetry.
        apply HS1; [split; lia|]. left. split; [reflexivity|lia].
      - cbn. symmetry. apply HS1; [split; lia|]. right. split; [reflexivity|lia]. }
    remember (fst (potf2 R rp n SV)) as L eqn:EL.
    assert (CE : chol_eqs R rp n SV L).
    { destruct (potf2_inv R rp SV n Hn) as (_ & I2 & _). rewrite EL. destruct (I2 n); [assumption|lia]. }
    destruct (Z.eqb_spec (Z.min n nrhs) 0) as [E0|E0].
    - cbn. intros NZ. exfalso. apply NZ. reflexivity.
    - destruct (tr_create_succeeds uplo nb n Hu Hb ltac:(lia)) as (A & sz & EA & A1 & A2). rewrite EA. cbn [with_gdesc].
      pose proof (tr_create_tri _ _ _ _ _ Hu EA) as TA. clear EA.
      destruct (ge_create_succeeds nb n nrhs Hb Hn ltac:(lia)) as (B & EB & _). rewrite EB. cbn [with_gdesc].
      destruct (ge_create_dn _ _ _ _ _ EB) as (DB & B1 & B2 & _). clear EB.
      replace ((d_n A =? 0) || (d_n B =? 0)) with false.
      2:{ symmetry. rewrite orb_false_iff, !Z.eqb_neq. lia. }
      rewrite (pzpotrf_eq nb n A bA uplo Hu TA R rp). fold (plist nb n A bA uplo R rp).
      assert (N1 : bA <> bB) by (inversion_clear ND as [|? ? X Y]; cbn in X; intuition).
      assert (ST : forall i j, stored nb n i j <-> in_stored_tile (uplo =? PlasmaUpper) nb n
          (if uplo =? PlasmaLower then i else j) (if uplo =? PlasmaLower then j else i)).
      { intros i j. unfold stored, in_stored_tile. destruct Hu as [->| ->]; cbn; tauto. }
      assert (HSr : forall j, 0 <= j < n -> nconj (SV j j) = SV j j).
      { intros j Hj. rewrite SE by lia. symmetry. apply HS2. split; lia. }
      pose proof (tri_sq _ _ _ _ TA) as SQ. pose proof (tri_tiles uplo nb n A Hu TA) as HSA.
      assert (Am : d_m A = n) by (apply (tk_m _ _ _ _ TA)). assert (An : d_n A = n) by (apply (tk_n _ _ _ _ TA)).
      assert (KG : Forall (@kgood F) (map ck_task (plist nb n A bA uplo R rp ++ map sure (two_solves uplo bA A bB B)))).
      { rewrite map_app, map_sure. apply Forall_app. split; [apply plist_kgood; assumption|].
        apply (two_solves_kgood nb A B (in_tri A) bA bB uplo n); auto. }
      assert (KS : Forall cksound (plist nb n A bA uplo R rp ++ map sure (two_solves uplo bA A bB B))).
      { apply Forall_app. split; [apply plist_sound; assumption|apply cksound_sure]. }
      eapply gregion_mono; [|apply (tr_ge_gregion_trace nb uplo n bA A pA lda bB B pB ldb
        (plist nb n A bA uplo R rp ++ map sure (two_solves uplo bA A bB B))); auto; try lia].
      + intros M' st (M3 & H1 & HG & HA & HB & HFR) NZ l Hl HT.
        rewrite B1, B2 in HB, HFR.
        destruct (in_user_dec pB ldb n nrhs l LB) as [IU|NU].
        * destruct IU as (i & j & Hi & Hj & ->). destruct (HB i j Hi Hj) as [H|(qs & H)]; [exact H|]. exfalso.
          destruct (HG NZ) as (l1 & x & l2 & EC & EI & _).
          assert (NX : ck_info x (krun (map ck_task l1) M3) <> 0) by congruence.
          destruct (plist_fails nb n A bA uplo _ x l1 l2 _ Hu TA EC NX) as (k & b' & Hk & E2 & HD).
          apply NX. apply (H l1 x l2 EC). rewrite E2, map_app, map_sure, <- app_assoc.
          apply (linked_sub F (ck_task x) (two_solves uplo bA A bB B)).
          2:{ apply sub_in. }
          assert (MT : d_mt B = ntl nb n) by (rewrite <- B1; apply mt_aligned_ntl; [apply (td_shape _ _ (sq_t nb _ _ DB))|apply (sq_mb nb _ _ DB)]).
          assert (NT : d_nt B = ntl nb nrhs) by (rewrite <- B2; apply nt_aligned_ntl; [apply (td_shape _ _ (sq_t nb _ _ DB))|apply (sq_nb nb _ _ DB)]).
          assert (Hm : 0 <= i / nb < d_mt B) by (rewrite MT; apply div_ntl; lia).
          assert (Hc : 0 <= j / nb < d_nt B) by (rewrite NT; apply div_ntl; lia).
          apply two_solves_linked with (k := k) (m := i / nb) (n := j / nb); auto; [lia|].
          unfold uses. rewrite (copy_out_eq (V := F) B (in_tiles B) bB pB ldb (sq_t nb _ _ DB)) by (split; assumption).
          left. reflexivity.
        * destruct (stored_split (uplo =? PlasmaUpper) nb n pA lda l ltac:(lia)) as [(i & j & HI & E)|HI].
          2:{ apply HFR; auto. }
          assert (NS : ~ selects uplo i j).
          { intros HX. apply HT. exists i, j. destruct HI as (Hi & Hj & _). repeat split; auto; lia. }
          rewrite E. change (ul M' pA lda i j = ul M pA lda i j).
          destruct (HA i j HI) as [H|H]; [exact H|]. rewrite H. clear H HB HFR HG.
          assert (RL : rel nb n A bA uplo M3 SV M3).
          { split; [reflexivity|]. intros i' j' Hij. apply ST in Hij. unfold VV, low. rewrite ESV.
            destruct (uplo =? PlasmaLower); [|apply f_equal]; apply H1; assumption. }
          destruct (plist_step nb n A bA uplo Hu TA M3 R rp Hrp SV L CE HSr M3 RL) as [[R1 R2] R3].
          rewrite map_app, map_sure, krun_app.
          remember (krun (map ck_task (plist nb n A bA uplo R rp)) M3) as M4 eqn:EM4.
          assert (W : krun (two_solves uplo bA A bB B) M4 (bA, elem_off A i j) = M4 (bA, elem_off A i j)).
          { apply krun_frame.
            { eapply Forall_impl; [|apply (two_solves_kgood nb A B (in_tri A) bA bB uplo n); auto]. intros k Hk. apply (kg_sound _ Hk). }
            intros (k & Hk & HW). apply N1.
            exact (two_solves_writes nb A B (in_tri A) bA bB uplo n SQ DB Hu Am An B1 k _ Hk HW). }
          unfold el. rewrite W.
          pose proof (ST (if uplo =? PlasmaLower then i else j) (if uplo =? PlasmaLower then j else i)) as ST'.
          pose proof (R2 (if uplo =? PlasmaLower then i else j) (if uplo =? PlasmaLower then j else i)) as RV'.
          unfold VV, low in RV'.
          destruct Hu as [->| ->]; cbn in ST', RV'.
          -- apply ST' in HI. specialize (RV' HI). replace (j <? i) with true in RV'.
             2:{ symmetry. apply Z.ltb_lt. apply Znot_ge_lt. intros GE. apply NS. left. split; [reflexivity|lia]. }
             rewrite ESV in RV'. cbn in RV'. unfold el in RV'.
             rewrite <- (nconj_conj F (M4 (bA, elem_off A i j))), RV'. apply nconj_conj.
          -- apply ST' in HI. specialize (RV' HI). replace (i <? j) with true in RV'.
             2:{ symmetry. apply Z.ltb_lt. apply Znot_ge_lt. intros GE. apply NS. right. split; [reflexivity|lia]. }
             rewrite ESV in RV'. exact RV'.
      + rewrite B1, B2. exact AP.
      + intros env HE1 HE2. rewrite map_app, map_sure. apply Forall_app. split; [apply plist_kdecl; assumption|].
        apply (two_solves_kdecl nb A B (in_tri A) bA bB uplo n); auto.
      + intros k l Hk HW. apply in_app_or in Hk. destruct Hk as [Hk|Hk].
        * left. symmetry. eapply plist_writes; eauto.
        * right. left. symmetry. apply in_map_iff in Hk. destruct Hk as (x & <- & Hx).
          eapply (two_solves_writes nb A B (in_tri A) bA bB uplo n); eauto.
  Qed.
End Fail.
