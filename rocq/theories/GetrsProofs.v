(* plasma_zgetrs *)
From Coq Require Import ZArith List Bool Lia Ring Permutation.
From Verif Require Import Base NumModel NumProofs FieldModel TaskModel TaskSpec TaskProofs DescModel DescSpec
  DescDriverModel DescProofs DescPackProofs DescProofs3 DescProofs4 MatModel MatSpec MatProofs RegionProofs
  LayoutModel LayoutProofs LayoutProofs2 DriverModel DriverSpec OpProofs OperandProofs
  GemmModel GemmProofs GemmDriverProofs RankDriverProofs LasetModel
  TriModel TriSpec TriVecProofs TriProofs TrmmProofs TrmmDriverProofs TrsmProofs TrsmDriverProofs
  SwpModel SwpSpec SwpProofs GroupProofs PanelProofs SwpDriverProofs GetrfModel GetrfSpec GetrfLinkProofs
  GetrsModel GetrsLinkProofs.
Import ListNotations.
Open Scope Z_scope.

(* sums over a permuted range *)
Section Perm.
  Context {N : numbers}.
  Add Ring num_ring_getrs0 : (nring N).

  Lemma nsum_perm : forall (f : Z -> N) n (s s' : Z -> Z),
    (forall i, 0 <= i < n -> 0 <= s i < n) -> (forall i, 0 <= i < n -> s' (s i) = i) ->
    nsum (fun i => f (s i)) 0 n = nsum f 0 n.
  Proof.
    intros f n s s' HR HI.
    assert (P : Permutation (map s (zrange 0 n)) (zrange 0 n)).
    { apply NoDup_Permutation_bis.
      - apply (NoDup_map_inv s'). rewrite map_map.
        rewrite (map_ext_in _ (fun i => i)); [rewrite map_id; apply NoDup_zrange|].
        intros i Hi. apply in_zrange in Hi. apply HI. assumption.
      - rewrite map_length. apply le_n.
      - intros i Hi. apply in_map_iff in Hi. destruct Hi as (j & <- & Hj). apply in_zrange in Hj.
        apply in_zrange. apply HR. assumption. }
    unfold nsum. transitivity (fold_right (fun i x => nadd (f i) x) n0 (map s (zrange 0 n))).
    - induction (zrange 0 n) as [|i l IH] in |- *; cbn; [reflexivity|]. rewrite IH. reflexivity.
    - revert P. generalize (map s (zrange 0 n)). generalize (zrange 0 n). intros l l' P.
      induction P as [|x l1 l2 P IH|x y l1|l1 l2 l3 P1 IH1 P2 IH2]; cbn; [reflexivity|rewrite IH; reflexivity|ring|congruence].
  Qed.
End Perm.

Section Solve.
  Context {F : fields}.
  Add Ring num_ring_getrs : (nring F).
  Variables (nb : Z) (A B : desc) (bA bB n : Z).
  Hypotheses (HA : dn nb A) (HB : dn nb B).
  Hypotheses (Am : d_m A = n) (An : d_n A = n) (Bm : d_m B = n).
  Hypothesis NA : bA <> bB.
  Hypothesis Hn : 0 < d_n B.
  Variables (Mu : mem F) (pA : loc) (lda : Z).

  (* one solve from the left *)
  Lemma left_solve : forall uplo trans diag T M, valid_uplo uplo -> diag = PlasmaUnit \/ diag = PlasmaNonUnit ->
    is_triangle Mu uplo diag pA lda n T -> (forall i, 0 <= i < n -> T i i <> n0) ->
    (forall i j, 0 <= i < n -> 0 <= j < n -> el M bA A i j = ul Mu pA lda i j) ->
    let M' := krun (pztrsm PlasmaLeft uplo trans diag n1 bA A bB B) M in
    (forall l, fst l <> bB -> M' l = M l) /\
    (forall i j, 0 <= i < n -> 0 <= j < d_n B ->
       nsum (fun l => nmul (op_of trans T i l) (el M' bB B l j)) 0 n = el M bB B i j).
  Proof.
    intros uplo trans diag T M Hu Hd HT HD HE.
    assert (HE' : forall i j, 0 <= i < n -> 0 <= j < n -> uplo_sel uplo i j = true -> el M bA A i j = ul Mu pA lda i j) by auto.
    pose proof (TT_spec F M Mu A bA PlasmaLeft uplo trans diag pA lda n T Hu Hd HT HE') as TS.
    assert (TD : forall r, 0 <= r < d_n A -> TT A bA PlasmaLeft uplo trans diag M r r <> n0).
    { intros r Hr. rewrite An in Hr. rewrite TS by assumption. cbn. unfold op_of. pose proof (HD r Hr).
      destruct (trans =? PlasmaNoTrans); auto. destruct (trans =? PlasmaTrans); auto using nconj_nz. }
    assert (AM : d_n A = if lft PlasmaLeft then d_m B else d_n B) by (cbn; congruence).
    assert (AS : d_m A = d_n A) by congruence.
    pose proof (pztrsm_at nb A B (in_tiles A) bA bB PlasmaLeft uplo trans diag n1 HA HB Hu AS AM (HSAu nb A HA AS uplo) NA M TD) as AT.
    cbv zeta in AT. cbv zeta. unfold oth, lft, elV in AT. rewrite Z.eqb_refl in AT. rewrite An in AT.
    assert (DV : dv PlasmaLeft trans = true -> 1 < ntl nb n -> (n1 : F) <> n0) by discriminate.
    specialize (AT DV). split.
    - apply (AT 0). lia.
    - intros i j Hi Hj. destruct (AT j Hj) as [_ V]. specialize (V i Hi). unfold elV, lft in V. rewrite Z.eqb_refl in V.
      replace (el M bB B i j) with (nmul n1 (el M bB B i j)) by ring. rewrite <- V.
      apply nsum_ext. intros l Hl. rewrite TS by assumption. reflexivity.
  Qed.

  Lemma left_kgood : forall uplo trans diag, valid_uplo uplo -> Forall (@kgood F) (pztrsm PlasmaLeft uplo trans diag n1 bA A bB B).
  Proof.
    intros uplo trans diag Hu. apply (pztrsm_kgood nb A B (in_tiles A)); auto; try congruence; cbn; congruence.
  Qed.
  Lemma left_kdecl : forall uplo trans diag env, valid_uplo uplo -> In (bA, homeD A (in_tiles A)) env -> In (bB, homeD B (in_tiles B)) env ->
    Forall (kdecl (home_env env)) (pztrsm (F := F) PlasmaLeft uplo trans diag n1 bA A bB B).
  Proof.
    intros uplo trans diag env Hu E1 E2. apply (pztrsm_kdecl nb A B (in_tiles A)); auto; try congruence; try (cbn; congruence).
    apply HSAu; [assumption|congruence].
  Qed.
End Solve.

(* two dense operands, the second one translated back, with tasks that are ordered in some
   other way *)
Lemma ge_region2_linked : forall V nb bA A pA lda bC C pC ldc (comp : list (ktask V)),
  dn nb A -> dn nb C -> d_m A <= lda -> d_m C <= ldc ->
  NoDup [bA; bC] -> (forall b, In b [fst pA; fst pC] -> ~ In b [bA; bC]) ->
  apart pA lda (d_m A) (d_n A) pC ldc (d_m C) (d_n C) ->
  Forall kgood comp ->
  (forall env ins outs, In (bA, homeD A (in_tiles A)) env -> In (bC, homeD C (in_tiles C)) env ->
     functional (home_env env) -> Forall (kdecl (home_env env)) ins -> Forall (kdecl (home_env env)) outs ->
     (forall k l, In k ins -> k_reads k l -> fst l <> bC) ->
     klinked (ins ++ comp ++ outs)) ->
  forall M, region_ensures (pzge2desc pA lda bA A ++ pzge2desc pC ldc bC C ++ comp ++ pzdesc2ge bC C pC ldc) M
    (fun M' => exists M3,
      (forall i j, 0 <= i < d_m A -> 0 <= j < d_n A -> el M3 bA A i j = ul M pA lda i j) /\
      (forall i j, 0 <= i < d_m C -> 0 <= j < d_n C -> el M3 bC C i j = ul M pC ldc i j) /\
      (forall l, ~ In (fst l) [bA; bC] -> M3 l = M l) /\
      (forall i j, 0 <= i < d_m C -> 0 <= j < d_n C -> ul M' pC ldc i j = el (krun comp M3) bC C i j) /\
      (forall l, ~ in_user pC ldc (d_m C) (d_n C) l -> M' l = krun comp M3 l)).
Proof.
  intros V nb bA A pA lda bC C pC ldc comp HA HC LA LC ND HF AP CG CL M.
  remember (ge_opnd bA A pA lda) as oA eqn:EoA. remember (ge_opnd bC C pC ldc) as oC eqn:EoC.
  assert (F1 := HF (fst pA)). assert (F2 := HF (fst pC)). cbn in F1, F2.
  assert (N1 : bA <> bC) by (inversion_clear ND as [|? ? X Y]; cbn in X; intuition).
  assert (NE : oA <> oC).
  { intros E. apply (f_equal o_b) in E. rewrite EoA, EoC in E. cbn in E. contradiction. }
  assert (OK : forall o, In o [oA; oC] -> ook nb o).
  { intros o [<-|[<-|[]]]; rewrite ?EoA, ?EoC; apply ge_opnd_ok; assumption. }
  assert (I1 : incl [oA; oC] [oA; oC]) by apply incl_refl.
  assert (I2 : incl [oC] [oA; oC]) by (intros o [<-|[]]; right; left; reflexivity).
  assert (NB : NoDup (map o_b [oA; oC])) by (rewrite EoA, EoC; cbn; assumption).
  assert (HP : forall o o', In o [oA; oC] -> In o' [oA; oC] -> fst (o_p o) <> o_b o').
  { intros o o' [<-|[<-|[]]] [<-|[<-|[]]]; rewrite ?EoA, ?EoC; cbn; intuition. }
  assert (ND2 : NoDup [oA; oC]).
  { constructor; [intros [E|[]]; congruence|constructor; [intros []|constructor]]. }
  assert (ND1 : NoDup [oC]) by (constructor; [intros []|constructor]).
  assert (HAO : forall o o', In o [oC] -> In o' [oC] -> o = o' \/ oapart o o')
    by (intros o o' [<-|[]] [<-|[]]; left; reflexivity).
  assert (HAI : forall o, In o [oA; oC] -> In o [oC] \/ forall o', In o' [oC] -> oapart o o').
  { intros o [<-|[<-|[]]]; [right|left; left; reflexivity]. intros o' [<-|[]]. rewrite EoA, EoC.
    apply ge_apart. assumption. }
  pose proof (ops_region_linked (V := V) nb [oA; oC] [oA; oC] [oC] OK I1 I2 NB HP ND2 ND1 HAO comp CG M) as R.
  assert (EI : flat_map (@o_in V) [oA; oC] = pzge2desc pA lda bA A ++ pzge2desc pC ldc bC C).
  { cbn [flat_map]. rewrite app_nil_r, EoA, EoC, !ge_opnd_in. reflexivity. }
  assert (EO : flat_map (@o_out V) [oC] = pzdesc2ge bC C pC ldc).
  { cbn [flat_map]. rewrite app_nil_r, EoC, ge_opnd_out. reflexivity. }
  assert (K : klinked (flat_map (@o_in V) [oA; oC] ++ comp ++ flat_map o_out [oC])).
  { apply (CL (ops_env [oA; oC] [oC])).
    - rewrite EoA. left. reflexivity.
    - rewrite EoC. right. left. reflexivity.
    - apply (ops_env_functional nb); auto.
    - apply (ins_kdecl nb); auto.
    - apply (outs_kdecl nb); auto.
    - intros k l Hk Hl E. cbn [flat_map] in Hk. rewrite app_nil_r in Hk. apply in_app_or in Hk.
      destruct Hk as [Hk|Hk]; rewrite ?EoA, ?EoC in Hk.
      + pose proof (copy_in_reads V nb A bA pA lda k l HA Hk Hl). intuition congruence.
      + pose proof (copy_in_reads V nb C bC pC ldc k l HC Hk Hl). intuition congruence. }
  specialize (R K). rewrite EI, EO in R. rewrite <- app_assoc in R.
  eapply region_mono; [|exact R].
  intros M' (M3 & H1 & H2 & H3 & H4). exists M3. split; [|split; [|split; [|split]]].
  - intros i j Hi Hj. pose proof (H1 oA i j (or_introl eq_refl)) as X. rewrite EoA in X. apply X. apply (ge_opnd_el nb); assumption.
  - intros i j Hi Hj. pose proof (H1 oC i j (or_intror (or_introl eq_refl))) as X. rewrite EoC in X. apply X. apply (ge_opnd_el nb); assumption.
  - intros l Hl. apply H2. intros o [<-|[<-|[]]] E; apply Hl; rewrite E, ?EoA, ?EoC; cbn; auto.
  - intros i j Hi Hj. pose proof (H3 oC i j (or_introl eq_refl)) as X. rewrite EoC in X. apply X. apply (ge_opnd_el nb); assumption.
  - intros l Hl. apply H4. intros o [<-|[]]. rewrite EoC. apply ge_user_out. assumption.
Qed.

Lemma factor_L_triangle : forall (F : fields) (M : mem F) pA lda n,
  is_triangle M PlasmaLower PlasmaUnit pA lda n (factor_L (ul M pA lda)).
Proof.
  intros F M pA lda n i j _. unfold factor_L. split; [|split].
  - intros S [N|E]; [|discriminate E]. destruct (Z.eqb_spec i j); [contradiction|].
    destruct (Z.ltb_spec j i); [reflexivity|]. exfalso. destruct S as [[E _]|[_ S]]; [discriminate E|lia].
  - intros -> _. rewrite Z.eqb_refl. reflexivity.
  - intros N. destruct (Z.eqb_spec i j) as [->|NE].
    + exfalso. apply N. right. split; [reflexivity|lia].
    + destruct (Z.ltb_spec j i); [|reflexivity]. exfalso. apply N. right. split; [reflexivity|lia].
Qed.

Lemma factor_U_triangle : forall (F : fields) (M : mem F) pA lda n,
  is_triangle M PlasmaUpper PlasmaNonUnit pA lda n (factor_U (ul M pA lda)).
Proof.
  intros F M pA lda n i j _. unfold factor_U. split; [|split].
  - intros S _. destruct (Z.leb_spec i j); [reflexivity|]. exfalso. destruct S as [[_ S]|[E _]]; [lia|discriminate E].
  - intros _ E. discriminate E.
  - intros N. destruct (Z.leb_spec i j); [|reflexivity]. exfalso. apply N. left. split; [reflexivity|assumption].
Qed.

Section Omp.
  Context {F : fields}.
  Add Ring num_ring_getrs2 : (nring F).
  Variables (nb : Z) (A B : desc) (bA bB n : Z) (pI : loc) (ipiv : Z -> Z) (trans : Z).
  Hypotheses (HA : dn nb A) (HB : dn nb B) (GB : gen_ok B).
  Hypotheses (Am : d_m A = n) (An : d_n A = n) (Bm : d_m B = n).
  Hypothesis NA : bA <> bB.
  Hypothesis HL : legal_pivots ipiv n.
  Let comp : list (ktask F) := omp_async_zgetrs trans bA A pI ipiv bB B.

  Lemma HL' : legal_pivots ipiv (swp_len B PlasmaRowwise).
  Proof. unfold swp_len. rewrite Z.eqb_refl, Bm. assumption. Qed.

  Lemma swp_good : forall incx, incx = 1 \/ incx = -1 -> Forall (@kgood F) (pzgeswp PlasmaRowwise bB B pI ipiv incx).
  Proof.
    intros incx HX. apply (pzgeswp_kgood nb); try assumption.
    - apply (sq_mb _ _ _ HB).
    - apply (sq_nb _ _ _ HB).
    - right. reflexivity.
    - apply HL'.
  Qed.

  Lemma omp_kgood : Forall kgood comp.
  Proof.
    assert (LO : valid_uplo PlasmaLower) by (right; reflexivity). assert (UP : valid_uplo PlasmaUpper) by (left; reflexivity).
    unfold comp, omp_async_zgetrs. destruct ((d_n A =? 0) || (d_n B =? 0)); [constructor|].
    destruct (trans =? PlasmaNoTrans); rewrite !Forall_app; (split; [|split]);
      first [apply (left_kgood nb A B bA bB n); assumption | apply swp_good; auto].
  Qed.

  Lemma omp_linked : forall env ins outs, In (bA, homeD A (in_tiles A)) env -> In (bB, homeD B (in_tiles B)) env ->
     functional (home_env env) -> Forall (kdecl (home_env env)) ins -> Forall (kdecl (home_env env)) outs ->
     (forall k l, In k ins -> k_reads k l -> fst l <> bB) ->
     klinked (ins ++ comp ++ outs).
  Proof.
    intros env ins outs E1 E2 FN DI DO RI.
    assert (LO : valid_uplo PlasmaLower) by (right; reflexivity). assert (UP : valid_uplo PlasmaUpper) by (left; reflexivity).
    unfold comp, omp_async_zgetrs. destruct ((d_n A =? 0) || (d_n B =? 0)).
    { apply korders_klinked. apply (kdecl_korders _ (home_env env)); [assumption|]. apply Forall_app. auto. }
    destruct (Z.eqb_spec trans PlasmaNoTrans) as [ET|ET].
    - rewrite <- app_assoc. apply (pzgeswp_linked nb) with (env := env); auto.
      + apply (sq_mb _ _ _ HB).
      + apply (sq_nb _ _ _ HB).
      + right. reflexivity.
      + apply HL'.
      + rewrite !Forall_app. split; [split|assumption]; apply (left_kdecl nb A B bA bB n); assumption.
    - rewrite <- !app_assoc. rewrite (app_assoc (pztrsm _ _ _ _ _ _ _ _ _)), app_assoc.
      rewrite (pzgeswp_row_eq bB B pI ipiv (-1)).
      assert (EN : d_nb B = nb) by apply (sq_nb _ _ _ HB). assert (EM : d_mb B = nb) by apply (sq_mb _ _ _ HB).
      apply (panels_linked_chain (d_nt B) (d_mt B) (d_m B) (tile_nview B) (fun n i c => (bB, elem_off B i (n * nb + c)))
        (fun n m => tptr bB B m n) bB pI (swp_task_row bB B pI ipiv (-1)) (home_env env)); auto.
      + apply row_inj; assumption.
      + intros p l Hp. apply col_reg_panel; assumption.
      + intros p l Hp. apply col_reg_panel; assumption.
      + intros p l Hp. apply row_home; assumption.
      + rewrite !Forall_app. split; [assumption|]. split; apply (left_kdecl nb A B bA bB n); assumption.
      + intros l1 k l2 p l EQ Hp HR HP. apply col_reg_panel in HP; try assumption.
        destruct (app_mid _ _ _ _ _ _ EQ) as [(r & E3 & _)|(r & E3 & _)].
        * exfalso. apply (RI k l); [rewrite E3; apply in_elt|assumption|].
          destruct HP as (m & _ & HP). apply reg_block in HP. exact HP.
        * right. assert (AS : d_m A = d_n A) by congruence. assert (AM : d_n A = d_m B) by congruence.
          apply (solves_lead nb A B bA bB PlasmaUpper trans PlasmaNonUnit PlasmaUnit HA HB GB ET AS AM p) with (l1 := r); [|assumption|].
          -- rewrite <- (nq_nt nb B HB). assumption.
          -- assert (IK : In k (r ++ k :: l2)) by apply in_elt. rewrite <- E3 in IK. apply in_app_or in IK.
             destruct IK as [IK|IK];
               [apply (proj1 (Forall_forall _ _) (trsm_touch nb A B bA bB PlasmaUpper trans HA HB GB UP AS AM NA PlasmaUpper PlasmaNonUnit UP) k IK p l)
               |apply (proj1 (Forall_forall _ _) (trsm_touch nb A B bA bB PlasmaUpper trans HA HB GB UP AS AM NA PlasmaLower PlasmaUnit LO) k IK p l)]; assumption.
  Qed.

  Let sw := interchanges ipiv (Z.to_nat n).
  Variables (Mu : mem F) (pA : loc) (lda : Z) (A0 : Z -> Z -> F).
  Let X := ul Mu pA lda.
  Hypothesis HU : forall i, 0 <= i < n -> factor_U X i i <> n0.
  Hypothesis HF : forall i j, in_matrix n n i j ->
    A0 (source sw i) j = nsum (fun l => nmul (factor_L X i l) (factor_U X l j)) 0 n.
  Hypothesis Hn : 0 <= n.
  Hypothesis Hr : 0 < d_n B.

  Lemma sw_in : swaps_in n sw.
  Proof. unfold sw. apply interchanges_in; assumption. Qed.
  Lemma sw_rev_in : swaps_in n (rev sw).
  Proof.
    pose proof sw_in as H. unfold swaps_in in *. rewrite Forall_forall in *. intros p Hp. apply H. apply in_rev. assumption.
  Qed.

  Lemma swp_at_B : forall incx M i j, incx = 1 \/ incx = -1 -> 0 <= i < n -> 0 <= j < d_n B ->
    el (krun (pzgeswp (V := F) PlasmaRowwise bB B pI ipiv incx) M) bB B i j
    = el M bB B (source (if incx =? 1 then sw else rev sw) i) j.
  Proof.
    intros incx M i j HX Hi Hj.
    rewrite (pzgeswp_el nb); try assumption; [|apply (sq_mb _ _ _ HB)|apply (sq_nb _ _ _ HB)|right; reflexivity|apply HL'|lia].
    unfold swp_src. rewrite Z.eqb_refl. cbn [fst snd]. rewrite Bm.
    destruct HX as [->| ->]; [rewrite swp_list_fwd by assumption|rewrite swp_list_bwd by assumption]; reflexivity.
  Qed.
  Lemma swp_off_B : forall incx (M : mem F) l, incx = 1 \/ incx = -1 -> fst l <> bB ->
    krun (pzgeswp PlasmaRowwise bB B pI ipiv incx) M l = M l.
  Proof.
    intros incx M l HX Hl. apply (pzgeswp_other nb); try assumption; [apply (sq_mb _ _ _ HB)|apply (sq_nb _ _ _ HB)|right; reflexivity|apply HL'].
  Qed.

  Lemma one_nz : 0 < n -> (n1 : F) <> n0.
  Proof.
    intros H E. apply (HU 0); [lia|]. replace (factor_U X 0 0) with (nmul n1 (factor_U X 0 0)) by ring. rewrite E. ring.
  Qed.
  Lemma L_diag : forall i, 0 <= i < n -> factor_L X i i <> n0.
  Proof. intros i Hi. unfold factor_L. rewrite Z.eqb_refl. apply one_nz. lia. Qed.

  Lemma omp_at : forall M, trans = PlasmaNoTrans \/ trans = PlasmaTrans \/ trans = PlasmaConjTrans ->
    (forall i j, 0 <= i < n -> 0 <= j < n -> el M bA A i j = ul Mu pA lda i j) ->
    let M' := krun comp M in
    (forall l, fst l <> bB -> M' l = M l) /\
    (forall i j, 0 <= i < n -> 0 <= j < d_n B ->
       nsum (fun l => nmul (op_of trans A0 i l) (el M' bB B l j)) 0 n = el M bB B i j).
  Proof.
    intros M HT HE. cbv zeta.
    destruct (Z.eq_dec n 0) as [E0|E0].
    { unfold comp, omp_async_zgetrs. rewrite An, E0. cbn. split; [reflexivity|]. intros. lia. }
    assert (LO : valid_uplo PlasmaLower) by (right; reflexivity). assert (UP : valid_uplo PlasmaUpper) by (left; reflexivity).
    assert (DU : PlasmaUnit = PlasmaUnit \/ PlasmaUnit = PlasmaNonUnit) by (left; reflexivity).
    assert (DN : PlasmaNonUnit = PlasmaUnit \/ PlasmaNonUnit = PlasmaNonUnit) by (right; reflexivity).
    pose proof (factor_L_triangle F Mu pA lda n) as TL. pose proof (factor_U_triangle F Mu pA lda n) as TU.
    fold X in TL, TU.
    unfold comp, omp_async_zgetrs.
    replace ((d_n A =? 0) || (d_n B =? 0)) with false by (symmetry; rewrite orb_false_iff, !Z.eqb_neq; lia).
    destruct (Z.eqb_spec trans PlasmaNoTrans) as [ET|ET]; rewrite !krun_app.
    - pose proof (swp_at_B 1 M) as S1. pose proof (swp_off_B 1 M) as S2. rewrite Z.eqb_refl in S1.
      remember (krun (pzgeswp PlasmaRowwise bB B pI ipiv 1) M) as M1 eqn:EM1.
      assert (HE1 : forall i j, 0 <= i < n -> 0 <= j < n -> el M1 bA A i j = ul Mu pA lda i j).
      { intros i j Hi Hj. rewrite <- HE by assumption. unfold el. apply S2; [left; reflexivity|exact NA]. }
      destruct (left_solve nb A B bA bB n HA HB Am An Bm NA Hr Mu pA lda PlasmaLower PlasmaNoTrans PlasmaUnit _ M1 LO DU TL L_diag HE1) as [F2 V2].
      remember (krun (pztrsm PlasmaLeft PlasmaLower PlasmaNoTrans PlasmaUnit n1 bA A bB B) M1) as M2 eqn:EM2.
      assert (HE2 : forall i j, 0 <= i < n -> 0 <= j < n -> el M2 bA A i j = ul Mu pA lda i j).
      { intros i j Hi Hj. rewrite <- HE1 by assumption. unfold el. apply F2. exact NA. }
      destruct (left_solve nb A B bA bB n HA HB Am An Bm NA Hr Mu pA lda PlasmaUpper PlasmaNoTrans PlasmaNonUnit _ M2 UP DN TU HU HE2) as [F3 V3].
      remember (krun (pztrsm PlasmaLeft PlasmaUpper PlasmaNoTrans PlasmaNonUnit n1 bA A bB B) M2) as M3 eqn:EM3.
      split.
      + intros l Hl. rewrite F3, F2 by assumption. apply S2; [left; reflexivity|assumption].
      + intros r j Hr' Hj. rewrite ET. unfold op_of in *. rewrite Z.eqb_refl in *.
        assert (Hi : 0 <= source (rev sw) r < n) by (apply source_range; [apply sw_rev_in|assumption]).
        remember (source (rev sw) r) as i eqn:Ei.
        assert (Er : source sw i = r) by (rewrite Ei; apply source_rev). rewrite <- Er.
        rewrite <- S1 by (auto; assumption). rewrite <- V2 by assumption.
        transitivity (nsum (fun l => nsum (fun k => nmul (factor_L X i k) (nmul (factor_U X k l) (el M3 bB B l j))) 0 n) 0 n).
        * apply nsum_ext. intros l Hl. rewrite HF by (split; assumption). rewrite <- nsum_mul_r.
          apply nsum_ext. intros k Hk. ring.
        * rewrite nsum_swap. apply nsum_ext. intros k Hk. rewrite <- V3 by assumption. rewrite nsum_mul_l. reflexivity.
    - destruct (left_solve nb A B bA bB n HA HB Am An Bm NA Hr Mu pA lda PlasmaUpper trans PlasmaNonUnit _ M UP DN TU HU HE) as [F1 V1].
      remember (krun (pztrsm PlasmaLeft PlasmaUpper trans PlasmaNonUnit n1 bA A bB B) M) as M1 eqn:EM1.
      assert (HE1 : forall i j, 0 <= i < n -> 0 <= j < n -> el M1 bA A i j = ul Mu pA lda i j).
      { intros i j Hi Hj. rewrite <- HE by assumption. unfold el. apply F1. exact NA. }
      destruct (left_solve nb A B bA bB n HA HB Am An Bm NA Hr Mu pA lda PlasmaLower trans PlasmaUnit _ M1 LO DU TL L_diag HE1) as [F2 V2].
      remember (krun (pztrsm PlasmaLeft PlasmaLower trans PlasmaUnit n1 bA A bB B) M1) as M2 eqn:EM2.
      pose proof (swp_at_B (-1) M2) as S1. pose proof (swp_off_B (-1) M2) as S2. change (-1 =? 1) with false in S1. cbv iota in S1.
      remember (krun (pzgeswp PlasmaRowwise bB B pI ipiv (-1)) M2) as M3 eqn:EM3.
      split.
      + intros l Hl. rewrite S2, F2, F1 by (auto; assumption). reflexivity.
      + intros i j Hi Hj. rewrite <- V1 by assumption.
        rewrite <- (nsum_perm _ n (source sw) (source (rev sw))).
        2:{ intros k Hk. apply source_range; [apply sw_in|assumption]. }
        2:{ intros k Hk. apply source_rev2. }
        transitivity (nsum (fun l => nsum (fun k => nmul (op_of trans (factor_U X) i k) (nmul (op_of trans (factor_L X) k l) (el M2 bB B l j))) 0 n) 0 n).
        * apply nsum_ext. intros l Hl.
          assert (Hsl : 0 <= source sw l < n) by (apply source_range; [apply sw_in|assumption]).
          rewrite S1 by (auto; assumption). rewrite source_rev2.
          assert (Q : op_of trans A0 i (source sw l) = nsum (fun k => nmul (op_of trans (factor_U X) i k) (op_of trans (factor_L X) k l)) 0 n).
          { unfold op_of. destruct (Z.eqb_spec trans PlasmaNoTrans); [contradiction|].
            rewrite HF by (split; assumption). destruct (trans =? PlasmaTrans).
            - apply nsum_ext. intros k Hk. ring.
            - rewrite nconj_sum. apply nsum_ext. intros k Hk. rewrite nconj_mul. ring. }
          rewrite Q, <- nsum_mul_r. apply nsum_ext. intros k Hk. ring.
        * rewrite nsum_swap. apply nsum_ext. intros k Hk. rewrite <- V2 by assumption. rewrite nsum_mul_l. reflexivity.
  Qed.
End Omp.

Lemma zgetrs_main : forall (F : fields) (A0 : Z -> Z -> F) nb trans n nrhs pA lda pI ipiv pB ldb bA bB (M : mem F),
  0 < nb -> trans = PlasmaNoTrans \/ trans = PlasmaTrans \/ trans = PlasmaConjTrans ->
  0 <= n -> 0 <= nrhs -> Z.max 1 n <= lda -> Z.max 1 n <= ldb ->
  NoDup [bA; bB] -> (forall b, In b [fst pA; fst pB] -> ~ In b [bA; bB]) ->
  apart pA lda n n pB ldb n nrhs ->
  legal_pivots ipiv n ->
  (forall i, 0 <= i < n -> factor_U (ul M pA lda) i i <> n0) ->
  (forall i j, in_matrix n n i j ->
     A0 (source (interchanges ipiv (Z.to_nat n)) i) j
     = nsum (fun l => nmul (factor_L (ul M pA lda) i l) (factor_U (ul M pA lda) l j)) 0 n) ->
  driver_ensures (zgetrs nb trans n nrhs pA lda pI ipiv pB ldb bA bB) M (fun M' =>
    (forall i j, in_matrix n nrhs i j ->
       nsum (fun l => nmul (op_of trans A0 i l) (ul M' pB ldb l j)) 0 n = ul M pB ldb i j) /\
    (forall l, ~ In (fst l) [bA; bB] -> ~ in_user pB ldb n nrhs l -> M' l = M l)).
Proof.
  intros F A0 nb trans n nrhs pA lda pI ipiv pB ldb bA bB M Hnb HT Hn Hr LA LB ND HF AP HL HU HX. unfold zgetrs.
  assert (ET : negb (trans =? PlasmaNoTrans) && negb (trans =? PlasmaTrans) && negb (trans =? PlasmaConjTrans) = false)
    by (destruct HT as [->|[->| ->]]; reflexivity).
  rewrite ET. clear ET.
  replace (n <? 0) with false by (symmetry; apply Z.ltb_ge; lia).
  replace (nrhs <? 0) with false by (symmetry; apply Z.ltb_ge; lia).
  replace (lda <? Z.max 1 n) with false by (symmetry; apply Z.ltb_ge; lia).
  replace (ldb <? Z.max 1 n) with false by (symmetry; apply Z.ltb_ge; lia).
  destruct (Z.eqb_spec (Z.min n nrhs) 0) as [E0|E0].
  { cbn. split; [reflexivity|]. split; [|reflexivity]. intros i j [Hi Hj]. lia. }
  destruct (ge_create_succeeds nb n n Hnb Hn Hn) as (A & EA & _). rewrite EA. cbn [with_desc].
  destruct (ge_create_dn _ _ _ _ _ EA) as (DA & A1 & A2 & _). clear EA.
  destruct (ge_create_succeeds nb n nrhs Hnb Hn Hr) as (B & EB & _). rewrite EB. cbn [with_desc].
  destruct (ge_create_dn _ _ _ _ _ EB) as (DB & B1 & B2 & _).
  destruct (ge_create_gen _ _ _ _ _ EB) as (GB & _). clear EB.
  assert (N1 : bA <> bB) by (inversion_clear ND as [|? ? X Y]; cbn in X; intuition).
  cbn [driver_ensures].
  eapply region_mono; [|apply (ge_region2_linked F nb bA A pA lda bB B pB ldb)]; auto;
    try (rewrite ?A1, ?A2, ?B1, ?B2; auto; lia).
  - intros M' (M3 & H1 & H2 & H3 & H4 & H5). rewrite A1, A2 in H1. rewrite B1, B2 in H2, H4, H5.
    destruct (omp_at nb A B bA bB n pI ipiv trans DA DB GB A1 A2 B1 N1 HL M pA lda A0 HU HX Hn) with (M := M3) as [X V].
    + lia.
    + assumption.
    + assumption.
    + rewrite B2 in V. split.
      * intros i j [Hi Hj]. rewrite <- H2 by assumption. rewrite <- V by assumption.
        apply nsum_ext. intros l Hl. rewrite H4 by assumption. reflexivity.
      * intros l Hl Hl'. rewrite H5 by assumption. rewrite <- H3 by assumption. apply X. cbn in Hl. intuition.
  - apply (omp_kgood nb A B bA bB n); auto.
  - apply (omp_linked nb A B bA bB n); auto.
Qed.
