(* plasma_zcposv for matrices of one tile. *)
From Coq Require Import ZArith List Bool Lia Ring.
From Verif Require Import Base NumModel NumProofs FieldModel TaskModel TaskSpec TaskProofs GuardModel GuardSpec GuardProofs
  GuardProofs2 GuardAnyProofs GAnyProofs DescModel DescSpec DescDriverModel DescProofs DescProofs4 MatModel MatSpec MatProofs
  LayoutModel LayoutProofs RegionProofs OpProofs SimProofs GemmProofs GemmDriverProofs OperandProofs DriverModel DriverSpec
  TriModel PotrfModel PotrfSpec PosvModel SymmModel EwModel EwProofs FillProofs
  NormModel NormSpec NormProofs NormPhaseProofs NormDriverProofs NormZlangeProofs NormTriModel NormTriProofs NormTriProofs2
  NormTriExtProofs NormTriPhaseProofs NormSyProofs
  NormSyDriverProofs LagModel LagProofs PotrfDriverProofs SwpModel
  RefineTaskModel RefineTaskSpec RefineTaskProofs RefineTaskProofs2 RefineTaskProofs3 RefineTaskProofs4.
Import ListNotations.
Open Scope Z_scope.

Lemma ntl_one : forall nb m, 0 < m <= nb -> ntl nb m = 1.
Proof. intros nb m H. symmetry. apply ntl_unique; try lia. intros k Hk. nia. Qed.

(* a task that is right for every choice of the start addresses in a block does not touch it *)
Lemma kdecl_fresh : forall V (env : list (Z * (Z -> Z -> Prop))) x (k : ktask V),
  ~ In x (map fst env) -> (forall h, kdecl (home_env ((x, h) :: env)) k) ->
  forall l, k_reads k l \/ k_writes k l -> fst l <> x.
Proof.
  intros V env x k NI HK l HL E.
  pose (K := fold_right Z.max 0 (map (fun d => snd (dep_addr d)) (k_deps k)) + 1).
  assert (HM : forall d, In d (k_deps k) -> snd (dep_addr d) < K).
  { intros d Hd. unfold K. clear -Hd. induction (k_deps k) as [|d' ds IH]; [destruct Hd|]. cbn [map fold_right].
    destruct Hd as [->|Hd]; [lia|]. pose proof (IH Hd). lia. }
  destruct (HK (fun _ a => a = K)) as [HR HW].
  assert (EX : exists d, In d (k_deps k) /\ home_env ((x, fun _ a : Z => a = K) :: env) l (dep_addr d)).
  { destruct HL as [HL|HL].
    - apply HR; [exact HL|]. exists (x, K). split; [cbn; symmetry; exact E|]. exists (fun _ a => a = K).
      rewrite E. split; [left; reflexivity|reflexivity].
    - destruct (HW l HL) as (d & D1 & D2 & _). exists d. split; assumption. }
  destruct EX as (d & D1 & _ & h & D3 & D4). specialize (HM d D1). rewrite E in D3. destruct D3 as [D3|D3].
  - injection D3 as <-. cbv beta in D4. lia.
  - apply NI. apply in_map_iff. exists (x, h). split; [reflexivity|exact D3].
Qed.

Section One.
  Context {N : normed}.
  Add Ring num_ring_one : (nring N).

  (* a matrix of one tile *)
  Section Tile.
    Variables (nb : Z) (D : desc).
    Hypothesis HD : dn nb D.
    Hypotheses (Rm : 0 < d_m D <= nb) (Rn : 0 < d_n D <= nb).
    Lemma one_mt : d_mt D = 1.
    Proof. rewrite (dn_mt nb D HD). apply ntl_one. assumption. Qed.
    Lemma one_nt : d_nt D = 1.
    Proof. rewrite (dn_nt nb D HD). apply ntl_one. assumption. Qed.
    Lemma one_in : in_tiles D 0 0.
    Proof. unfold in_tiles. rewrite one_mt, one_nt. lia. Qed.
    Lemma one_mv : tile_mview D 0 = d_m D.
    Proof. rewrite (mview_eq nb D HD 0 0 one_in). lia. Qed.
    Lemma one_nv : tile_nview D 0 = d_n D.
    Proof. rewrite (nview_eq nb D HD 0 0 one_in). lia. Qed.
    Lemma one_rd : forall (M : mem N) b i j, 0 <= i < d_m D -> 0 <= j < d_n D ->
      rd M (tptr b D 0 0) (tile_mmain D 0) i j = el M b D i j.
    Proof.
      intros M b i j Hi Hj.
      assert (Hi': 0 <= i < tile_mview D 0) by (rewrite one_mv; assumption).
      assert (Hj': 0 <= j < tile_nview D 0) by (rewrite one_nv; assumption).
      destruct (lag_rd nb D HD M b 0 0 i j one_in Hi' Hj') as [E _].
      rewrite E, !Z.mul_0_l, !Z.add_0_l. reflexivity.
    Qed.
  End Tile.

  Section Steps.
    Variables (lassq : list N -> N * N -> N * N) (nsqrt : N -> N).
    Variables (narrow widen : N -> N) (fits : N -> bool) (R : roots N) (rp dg : N -> N).
    Hypothesis Hrp : forall x : N, nconj x = x -> rp x = x.
    Hypothesis Hdg : forall z : N, isabs (dg z).
    Variables (nb : Z) (A X : desc) (uplo bA bB bX bR w bN bS bXs : Z).
    Variables (pA : loc) (lda : Z) (pB : loc) (ldb : Z).
    Notation n := (d_m X).
    Notation nrhs := (d_n X).
    Hypotheses (HA : dn nb A) (HX : dn nb X) (AS : d_m A = d_n A) (AX : d_n A = n) (Pm : 0 < n <= nb) (Pn : 0 < nrhs <= nb).
    Hypothesis Hu : valid_uplo uplo.
    Hypothesis ND : NoDup [bA; bB; bX; bR; w; bN; bS; bXs].
    Hypotheses (FA : ~ In (fst pA) [bA; bB; bX; bR; w; bN; bS; bXs]) (FB : ~ In (fst pB) [bA; bB; bX; bR; w; bN; bS; bXs]).
    Hypotheses (LA : n <= lda) (LB : n <= ldb).
    Variables (factor_s solve_s : list (cktask N)).
    Hypothesis HFa : Forall (single_task bS A bXs X bS A) factor_s.
    Hypothesis HSo : Forall (single_task bS A bXs X bXs X) solve_s.
    Local Ltac nd i j := exact (diff _ _ _ ND i j ltac:(discriminate) eq_refl eq_refl).

    Definition aux : ktask N := omp_zlansy_aux dg uplo n (tptr bA A 0 0) (tile_mmain A 0) (w, 0).
    Definition ins : list (ktask N) := pzge2desc pA lda bA A ++ pzge2desc pB ldb bB X.
    Definition dla : ktask N := omp_dlange_inf n 1 (w, 0) n (w, n) (bN, 0).
    Definition mid : list (cktask N) :=
      pzlag2c narrow fits bB X bXs X ++ pzlag2c narrow fits bA A bS A ++ factor_s ++ solve_s
      ++ map sure (pclag2z widen bXs X bX X).

    Let Am : 0 < d_m A <= nb. Proof. rewrite AS, AX. exact Pm. Qed.
    Let An : 0 < d_n A <= nb. Proof. rewrite AX. exact Pm. Qed.

    Lemma first_eq : forall x0 r0,
      join [map sure ins] (first_steps lassq nsqrt narrow widen fits rp dg factor_s solve_s uplo bA bS A bB bX bR bXs X w (bN, 0) (bN, x0) (bN, r0))
      = map sure (ins ++ [aux]) :: join [sure dla :: mid] (residual rp uplo bA A bB bX bR X w (bN, x0) (bN, r0)).
    Proof.
      intros x0 r0. unfold first_steps, workX, pzlansy.
      change (PlasmaInfNorm =? PlasmaMaxNorm) with false. change ((PlasmaInfNorm =? PlasmaOneNorm) || (PlasmaInfNorm =? PlasmaInfNorm)) with true.
      cbv iota.
      assert (ET : tri_tiles uplo A
         (fun m n => [omp_zlange_aux_one (tile_mview A m) (tile_nview A n) (tptr bA A m n) (tile_mmain A m)
                        (pplus (w, 0) (d_n A * m + n * d_nb A));
                      omp_zlange_aux_inf (tile_mview A m) (tile_nview A n) (tptr bA A m n) (tile_mmain A m)
                        (pplus (w, 0) (d_n A * n + m * d_nb A))])
         (fun m => omp_zlansy_aux dg uplo (tile_mview A m) (tptr bA A m m) (tile_mmain A m)
                        (pplus (w, 0) (d_n A * m + m * d_nb A))) = [aux]).
      { unfold tri_tiles. rewrite (one_mt nb A HA Am), (one_nt nb A HA An).
        change (zrange 0 1) with [0]. cbn [flat_map]. change (0 <? 1) with true. cbv iota. rewrite app_nil_r.
        assert (EN : (if uplo =? PlasmaLower then zrange 0 (Z.min 0 1) else zrange (0 + 1) 1) = []) by (destruct (uplo =? PlasmaLower); reflexivity).
        rewrite EN. cbn [flat_map app]. unfold aux, pplus. rewrite (one_mv nb A HA Am An), AS, AX. cbn [fst snd].
        replace (0 + (n * 0 + 0 * d_nb A)) with 0 by lia. reflexivity. }
      rewrite ET, (one_mt nb A HA Am). unfold dla, pplus. cbn [fst snd]. rewrite AX.
      replace (0 + 1 * n) with n by lia.
      unfold join at 1 2 3. cbn [map removelast last hd tl app]. rewrite map_app. cbn [map].
      unfold join, mid. cbn [map removelast last hd tl app]. reflexivity.
    Qed.

    (* the first region *)
    Lemma aux_kgood : kgood aux.
    Proof.
      apply (fill_kgood N _ (w, 0) n (fun M => lansy_aux dg uplo n (rd M (tptr bA A 0 0) (tile_mmain A 0)))); [apply finite_reg|].
      intros M M' r Hr E. apply lansy_aux_ext; [apply agree_reg; exact E|exact Hr].
    Qed.

    Lemma phase_one : forall (M : mem N) (Q : mem N -> Z -> Prop),
      (forall M1,
         (forall i j, in_matrix n n i j -> el M1 bA A i j = ul M pA lda i j) ->
         (forall i j, 0 <= i < n -> 0 <= j < nrhs -> el M1 bB X i j = ul M pB ldb i j) ->
         (forall i, 0 <= i < n -> M1 (w, i) = nsum (gs dg uplo (ul M pA lda) i) 0 n) ->
         (forall l, ~ In (fst l) [bA; bB; w] -> M1 l = M l) -> Q M1 0) ->
      gregion_ensures (map sure (ins ++ [aux])) M Q.
    Proof.
      intros M Q HQ.
      pose (oA := ge_opnd bA A pA lda). pose (oB := ge_opnd bB X pB ldb).
      assert (N1 : bA <> bB) by nd 0%nat 1%nat. assert (N2 : bA <> w) by nd 0%nat 4%nat. assert (N3 : bB <> w) by nd 1%nat 4%nat.
      assert (OK : forall o, In o [oA; oB] -> ook nb o).
      { intros o [<-|[<-|[]]]; apply ge_opnd_ok; try assumption; rewrite ?AS, ?AX; assumption. }
      assert (EI : ins = flat_map o_in [oA; oB]).
      { cbn [flat_map]. rewrite app_nil_r. unfold oA, oB. rewrite !ge_opnd_in. reflexivity. }
      assert (NDo : NoDup (map (@o_b) [oA; oB])).
      { repeat constructor; cbn; intros H; [destruct H as [H|[]]; congruence|exact H]. }
      assert (AL : forall o o', In o [oA; oB] -> In o' [oA; oB] -> fst (o_p o) <> o_b o').
      { intros o o' [<-|[<-|[]]] [<-|[<-|[]]]; cbn; intros E; [apply FA|apply FA|apply FB|apply FB]; rewrite E; cbn; tauto. }
      assert (NDi : NoDup [oA; oB]).
      { repeat constructor; [|intros []]. intros [H|[]]. apply N1. apply (f_equal o_b) in H. exact (eq_sym H). }
      pose (env1 := [(bA, homeD A (in_tiles A)); (bB, homeD X (in_tiles X)); (w, fun _ a : Z => a = 0)]).
      assert (NOH : forall p ld mm nn, ~ In (fst p) [bA; bB; bX; bR; w; bN; bS; bXs] ->
         forall l, in_user p ld mm nn l -> ~ exists a, home_env env1 l a).
      { intros p ld mm nn FP l (i & j & _ & _ & ->) (a & _ & h & I & _). apply FP. cbn in I |- *.
        destruct I as [I|[I|[I|[]]]]; injection I as I1 _; rewrite <- I1; tauto. }
      apply gregion_sure.
      - apply Forall_app. split; [|constructor; [exact aux_kgood|constructor]].
        rewrite EI. apply (ins_kgood nb [oA; oB] [oA; oB] OK). apply incl_refl.
      - apply korders_klinked. apply (kdecl_korders _ (home_env env1)).
        + apply home_env_functional.
          * cbn. repeat constructor; cbn; intros H; repeat match goal with H : _ \/ _ |- _ => destruct H as [H|H] end; congruence || contradiction.
          * intros b h [I|[I|[I|[]]]]; injection I as <- <-.
            -- apply homeD_functional, (sq_t nb A _ HA).
            -- apply homeD_functional, (sq_t nb X _ HX).
            -- intros o a a' -> ->. reflexivity.
        + apply Forall_app. split; [unfold ins; apply Forall_app; split|].
          * rewrite pzge2desc_eq. apply (copy_in_kdecl env1 A (in_tiles A) bA pA lda (sq_t nb A _ HA)); [left; reflexivity|apply idx_all_in|].
            left. apply NOH. exact FA.
          * rewrite pzge2desc_eq. apply (copy_in_kdecl env1 X (in_tiles X) bB pB ldb (sq_t nb X _ HX)); [right; left; reflexivity|apply idx_all_in|].
            left. apply NOH. exact FB.
          * constructor; [|constructor]. split; cbn [aux omp_zlansy_aux k_reads k_writes k_deps].
            -- intros l Hl _. exists (dep_in (tptr bA A 0 0)). split; [left; reflexivity|]. cbn [dep_addr dep_in].
               destruct Hl as (r & c & Hr & Hc & _ & ->). split; [reflexivity|]. exists (homeD A (in_tiles A)). split; [left; reflexivity|].
               exists 0, 0, r, c. split; [exact (one_in nb A HA Am An)|].
               rewrite (one_mv nb A HA Am An), (one_nv nb A HA Am An), AS, AX. split; [exact Hr|]. split; [exact Hc|]. split; reflexivity.
            -- intros l (r & Hr & ->). exists (dep_out (w, 0)). split; [right; left; reflexivity|]. split; [|discriminate].
               split; [reflexivity|]. exists (fun _ a : Z => a = 0). split; [right; right; left; reflexivity|reflexivity].
      - intros M1 E. rewrite EI in E. remember (krun (flat_map o_in [oA; oB]) M) as M2 eqn:EM2.
        assert (ER : meq (krun (flat_map o_in [oA; oB] ++ [aux]) M)
                       (fill (w, 0) n (lansy_aux dg uplo n (rd M2 (tptr bA A 0 0) (tile_mmain A 0))) M2)).
        { intros l. rewrite krun_app, <- EM2. reflexivity. }
        assert (VA : forall i j, in_matrix n n i j -> el M2 bA A i j = ul M pA lda i j).
        { intros i j [Hi Hj]. rewrite EM2. apply (ins_el nb [oA; oB] [oA; oB] OK (incl_refl _) NDo AL NDi M oA i j (or_introl eq_refl)).
          apply (ge_opnd_el nb); rewrite ?AS, ?AX; assumption. }
        apply HQ.
        + intros i j H. rewrite (el_ext _ M1 M2 bA A i j). 2: { intros l El. rewrite E, ER. apply fill_out. intros (r & _ & Eq). subst l. cbn in El. congruence. }
          apply VA. exact H.
        + intros i j Hi Hj. rewrite (el_ext _ M1 M2 bB X i j). 2: { intros l El. rewrite E, ER. apply fill_out. intros (r & _ & Eq). subst l. cbn in El. congruence. }
          rewrite EM2. exact (ins_el nb [oA; oB] [oA; oB] OK (incl_refl _) NDo AL NDi M oB i j (or_intror (or_introl eq_refl)) (ge_opnd_el nb _ _ _ _ _ _ HX Hi Hj)).
        + intros i Hi. rewrite E, ER. change (w, i) with (fst (w, 0), snd (w, 0) + i). rewrite fill_in by exact Hi.
          rewrite lansy_aux_sum by exact Hi. apply nsum_ext. intros j Hj. rewrite gs_sym.
          apply (gs_ext dg uplo n); try assumption. intros a b Ha Hb.
          rewrite (one_rd nb A HA Am An) by (rewrite ?AS, ?AX; assumption). apply VA. split; assumption.
        + intros l Hl. rewrite E, ER. rewrite fill_out.
          2: { intros (r & _ & Eq). apply Hl. subst l. cbn. tauto. }
          rewrite EM2. apply (ins_other nb [oA; oB] [oA; oB] OK (incl_refl _) AL). intros o [<-|[<-|[]]]; cbn; intros Eq; apply Hl; rewrite Eq; cbn; tauto.
    Qed.

    (* the second region *)
    Lemma mid_kgood : Forall kgood (map ck_task mid).
    Proof.
      unfold mid. rewrite !map_app, !map_sure, !Forall_app. split; [|split; [|split; [|split]]].
      - apply (pzlag2c_kgood narrow fits nb); assumption.
      - apply (pzlag2c_kgood narrow fits nb); assumption.
      - exact (single_kgood _ _ _ _ _ _ _ HFa).
      - exact (single_kgood _ _ _ _ _ _ _ HSo).
      - apply (pclag2z_kgood widen nb); assumption.
    Qed.
    Lemma mid_sound : Forall cksound mid.
    Proof.
      unfold mid. rewrite !Forall_app. split; [|split; [|split; [|split]]].
      - apply pzlag2c_cksound.
      - apply pzlag2c_cksound.
      - exact (single_cksound _ _ _ _ _ _ _ HFa).
      - exact (single_cksound _ _ _ _ _ _ _ HSo).
      - apply cksound_sure.
    Qed.
    Lemma mid_kdecl : forall env, incl [(bA, homeD A (in_tiles A)); (bB, homeD X (in_tiles X)); (bX, homeD X (in_tiles X));
        (bS, homeD A (in_tiles A)); (bXs, homeD X (in_tiles X))] env ->
      Forall (kdecl (home_env env)) (map ck_task mid).
    Proof.
      intros env HI. unfold mid. rewrite !map_app, !map_sure, !Forall_app. split; [|split; [|split; [|split]]].
      - apply pzlag2c_kdecl; apply HI; cbn; tauto.
      - apply pzlag2c_kdecl; apply HI; cbn; tauto.
      - apply (single_kdecl bS A bXs X bS A); [exact HFa| | |]; apply HI; cbn; tauto.
      - apply (single_kdecl bS A bXs X bXs X); [exact HSo| | |]; apply HI; cbn; tauto.
      - apply pclag2z_kdecl; apply HI; cbn; tauto.
    Qed.
    Lemma mid_frame : forall (M : mem N) l, fst l <> bXs -> fst l <> bS -> fst l <> bX -> krun (map ck_task mid) M l = M l.
    Proof.
      intros M l L1 L2 L3. unfold mid. rewrite !map_app, !map_sure, !krun_app.
      rewrite pclag2z_frame by assumption. rewrite (single_frame bS A bXs X bXs X) by assumption.
      rewrite (single_frame bS A bXs X bS A) by assumption. rewrite pzlag2c_frame by assumption. apply pzlag2c_frame. assumption.
    Qed.
    Lemma mid_fits : forall (M : mem N), Forall (fun c => c = 0) (kcodes mid M) ->
      (forall i j, in_matrix n n i j -> fits (el M bA A i j) = true) /\
      (forall i j, 0 <= i < n -> 0 <= j < nrhs -> fits (el M bB X i j) = true).
    Proof.
      intros M H. unfold mid in H. rewrite !kcodes_app, !Forall_app in H. destruct H as (H1 & H2 & _).
      assert (N1 : bA <> bS) by nd 0%nat 6%nat. assert (N2 : bB <> bXs) by nd 1%nat 7%nat. assert (N3 : bA <> bXs) by nd 0%nat 7%nat.
      split.
      - intros i j [Hi Hj]. rewrite <- (pzlag2c_codes narrow fits nb A bA bS HA N1 _ H2 i j) by (rewrite ?AS, ?AX; assumption).
        f_equal. apply el_ext. intros l E. symmetry. apply pzlag2c_frame. congruence.
      - intros i j Hi Hj. exact (pzlag2c_codes narrow fits nb X bB bXs HX N2 _ H1 i j Hi Hj).
    Qed.

    Lemma second_linked : klinked (map ck_task (sure dla :: mid) ++ (res_tasks rp A X uplo bA bB bX bR ++ amax_col_tiles bX X (w, 0))).
    Proof.
      apply korders_klinked. cbn [map app]. change (ck_task (sure dla)) with dla.
      pose (base := [(bA, homeD A (in_tiles A)); (bB, homeD X (in_tiles X)); (bX, homeD X (in_tiles X));
        (bR, homeD X (in_tiles X)); (bS, homeD A (in_tiles A)); (bXs, homeD X (in_tiles X))]).
      assert (KD : forall x h, Forall (kdecl (home_env ((x, h) :: base))) (map ck_task mid ++ res_tasks rp A X uplo bA bB bX bR)).
      { intros x h. apply Forall_app. split.
        - apply mid_kdecl. intros y Hy. right. cbn in Hy |- *. tauto.
        - apply (res_kdecl rp nb A X uplo bA bB bX bR); try assumption; right; cbn; tauto. }
      assert (FR : forall x, ~ In x [bA; bB; bX; bR; bS; bXs] ->
        forall k l, In k (map ck_task mid ++ res_tasks rp A X uplo bA bB bX bR) -> k_reads k l \/ k_writes k l -> fst l <> x).
      { intros x Hx k l Hk. apply (kdecl_fresh N base x k Hx). intros h. pose proof (KD x h) as K. rewrite Forall_forall in K. apply K. exact Hk. }
      assert (Fw : ~ In w [bA; bB; bX; bR; bS; bXs]).
      { intros H. apply (NoDup_remove_2 [bA; bB; bX; bR] [bN; bS; bXs] w ND). cbn in H |- *. tauto. }
      assert (FN : ~ In bN [bA; bB; bX; bR; bS; bXs]).
      { intros H. apply (NoDup_remove_2 [bA; bB; bX; bR; w] [bS; bXs] bN ND). cbn in H |- *. tauto. }
      constructor.
      - intros k Hk (l & HC). rewrite app_assoc in Hk. apply in_app_or in Hk. destruct Hk as [Hk|Hk].
        + exfalso.
          assert (T : k_reads k l \/ k_writes k l) by tauto.
          assert (L : fst l = w \/ fst l = bN).
          { cbn [dla omp_dlange_inf k_reads k_writes] in HC.
            assert (L : reg (w, 0) n n 1 everywhere l \/ seg (w, n) n l \/ seg (bN, 0) 1 l) by tauto.
            destruct L as [(r & c & _ & _ & _ & ->)|[(r & _ & ->)|(r & _ & ->)]]; cbn; tauto. }
          destruct L as [L|L]; [exact (FR w Fw k l Hk T L)|exact (FR bN FN k l Hk T L)].
        + rewrite amt_eq in Hk. apply in_map_iff in Hk. destruct Hk as ([a b] & <- & Hab). apply idx_all_in in Hab.
          unfold in_tiles in Hab. rewrite (one_mt nb X HX Pm), (one_nt nb X HX Pn) in Hab.
          assert (a = 0) by lia. assert (b = 0) by lia. subst a b.
          exists (dep_in (w, 0)), (dep_out (w, 0)). cbn [dla omp_dlange_inf amt omp_amax_col k_deps].
          split; [left; reflexivity|]. split; [|split; [reflexivity|]]; [|intros [_ K]; discriminate K].
          right. left. unfold pplus. cbn [fst snd]. rewrite Z.mul_0_r, Z.mul_0_l. reflexivity.
      - apply (kdecl_korders _ (home_env (env A X bA bB bX bR w bS bXs))).
        + exact (env_functional nb A X bA bB bX bR w bN bS bXs HA HX ND).
        + apply Forall_app. split; [|apply Forall_app; split].
          * apply mid_kdecl. intros y Hy. cbn in Hy |- *. tauto.
          * apply (res_kdecl rp nb A X uplo bA bB bX bR); try assumption; cbn; tauto.
          * apply amt_kdecl; cbn; tauto.
    Qed.

    Variables (eps : N) (sqrt_n : Z -> N) (pX : loc) (ldx : Z).
    Hypotheses (FX : ~ In (fst pX) [bA; bB; bX; bR; w; bN; bS; bXs]) (LX : n <= ldx).
    Variable S : Z -> Z -> N.
    Hypothesis HH : forall i j, in_matrix n n i j -> S i j = nconj (S j i).

    Lemma one_tile : forall (M : mem N) (Q : Z -> mem N -> Z -> Prop),
      (forall i j, in_matrix n n i j -> selects uplo i j -> S i j = ul M pA lda i j) ->
      (forall iter M' st,
        (st = 0 ->
          ((exists anorm, largest (fun i => 0 <= i < n) (fun i => nsum (gs dg uplo (ul M pA lda) i) 0 n) anorm /\
              0 <= iter <= 30 /\
              accepted n nrhs S (ul M pB ldb) (ul M' pX ldx) (nmul (nmul anorm eps) (sqrt_n n))) \/
           (iter = -31 /\ solved X pX ldx S (ul M pB ldb) M')) /\
          (forall i j, in_matrix n n i j -> fits (ul M pA lda i j) = true) /\
          (forall i j, 0 <= i < n -> 0 <= j < nrhs -> fits (ul M pB ldb i j) = true)) ->
        (forall l, ~ In (fst l) [bA; bB; bX; bR; w; bN; bS; bXs] -> ~ in_user pX ldx n nrhs l -> M' l = M l) ->
        Q iter M' st) ->
      rprog_ensures (rbefore (map sure ins)
        (rafter (omp_zcposv_tasks lassq nsqrt narrow widen fits R rp dg eps sqrt_n factor_s solve_s
                   uplo bA bS A bB bX bR bXs X w (bN, 0) (bN, 1) (bN, 1 + nrhs))
           (map sure (pzdesc2ge bX X pX ldx)))) M Q.
    Proof.
      intros M Q HS HQ. unfold omp_zcposv_tasks.
      replace (d_n A =? 0) with false by (symmetry; apply Z.eqb_neq; lia).
      replace (nrhs =? 0) with false by (symmetry; apply Z.eqb_neq; lia). cbn [orb].
      cbn [rafter rbefore rprog_ensures]. rewrite first_eq. cbn [gphases_ensures].
      apply phase_one. intros M1 VA VB VW F1. split; [intros _|intros K; contradiction].
      assert (ND6 : NoDup [bA; bB; bX; bR; w; bN]).
      { apply (NoDup_remove_1 [bA; bB; bX; bR; w; bN] [] bS). apply (NoDup_remove_1 [bA; bB; bX; bR; w; bN; bS] [] bXs). exact ND. }
      assert (BAw : bA <> w) by nd 0%nat 4%nat. assert (BAN : bA <> bN) by nd 0%nat 5%nat.
      assert (BBw : bB <> w) by nd 1%nat 4%nat. assert (BBN : bB <> bN) by nd 1%nat 5%nat.
      assert (BAXs : bA <> bXs) by nd 0%nat 7%nat. assert (BAS : bA <> bS) by nd 0%nat 6%nat. assert (BAX : bA <> bX) by nd 0%nat 2%nat.
      assert (BBXs : bB <> bXs) by nd 1%nat 7%nat. assert (BBS : bB <> bS) by nd 1%nat 6%nat. assert (BBX : bB <> bX) by nd 1%nat 2%nat.
      assert (BNXs : bN <> bXs) by nd 5%nat 7%nat. assert (BNS : bN <> bS) by nd 5%nat 6%nat. assert (BNX : bN <> bX) by nd 5%nat 2%nat.
      assert (BNR : bN <> bR) by nd 5%nat 3%nat. assert (BNw : bN <> w) by nd 5%nat 4%nat.
      assert (BAR : bA <> bR) by nd 0%nat 3%nat. assert (BBR : bB <> bR) by nd 1%nat 3%nat.
      assert (BXR : bX <> bR) by nd 2%nat 3%nat. assert (BXw : bX <> w) by nd 2%nat 4%nat.
      remember (k_fun dla M1) as M1' eqn:EM1'.
      assert (FD : forall l, fst l <> w -> fst l <> bN -> M1' l = M1 l).
      { intros l L1 L2. rewrite EM1'. cbn [dla omp_dlange_inf k_fun].
        rewrite !fill_out; [reflexivity| |]; intros (r & _ & E); subst l; cbn in *; congruence. }
      assert (VN : largest (fun i => 0 <= i < n) (fun i => nsum (gs dg uplo (ul M pA lda) i) 0 n) (M1' (bN, 0))).
      { rewrite EM1'. cbn [dla omp_dlange_inf k_fun]. change (bN, 0) with (fst (bN, 0), snd (bN, 0) + 0) at 2.
        rewrite (fill_in N (bN, 0) 1) by lia.
        eapply largest_ext; [|apply lange_inf_largest]. intros i Hi. cbn beta.
        change 1 with (0 + 1) at 1. rewrite nsum_one.
        unfold rd, at_. cbn [fst snd]. replace (0 + i + 0 * n) with i by lia. rewrite VW by exact Hi.
        apply isabs_sum. intros j Hj. apply gs_abs. exact Hdg. }
      assert (KE : forall m, krun (map ck_task (sure dla :: mid)) m = krun (map ck_task mid) (k_fun dla m)) by reflexivity.
      assert (VA2 : forall i j, in_matrix n n i j -> el (krun (map ck_task mid) M1') bA A i j = ul M pA lda i j).
      { intros i j H. rewrite <- VA by exact H. apply el_ext. intros l E. rewrite mid_frame, FD by congruence. reflexivity. }
      assert (VB2 : forall i j, 0 <= i < n -> 0 <= j < nrhs -> el (krun (map ck_task mid) M1') bB X i j = ul M pB ldb i j).
      { intros i j Hi Hj. rewrite <- VB by assumption. apply el_ext. intros l E. rewrite mid_frame, FD by congruence. reflexivity. }
      apply (residual_phases_gen rp nb A X uplo bA bB bX bR w bN 1 (1 + nrhs) HA HX AS AX (proj1 Pm) (proj1 Pn) Hu ND6
               ltac:(left; lia) (sure dla :: mid)) with (outs := [bA; bB; bX; bR; w; bN; bS; bXs]) (S := S).
      - cbn [map]. constructor; [apply dlange_inf_kgood|exact mid_kgood].
      - constructor; [|exact mid_sound]. pose proof (cksound_sure (V := N) [dla]) as K. inversion K; assumption.
      - exact second_linked.
      - intros k l [<-|Hk] HW.
        + destruct HW as [(r & _ & ->)|(r & _ & ->)]; cbn; tauto.
        + pose proof (mid_kdecl _ (incl_refl _)) as KD. rewrite Forall_forall in KD.
          destruct (KD (ck_task k) (in_map ck_task _ _ Hk)) as [_ W]. destruct (W l HW) as (d & _ & (_ & h & I & _) & _).
          cbn in I |- *. repeat (destruct I as [I|I]; [injection I as I _; rewrite <- I; tauto|]). destruct I.
      - intros x Hx. cbn in Hx |- *. tauto.
      - intros i j H1 H2. rewrite KE, <- EM1', VA2 by exact H1. apply HS; assumption.
      - exact HH.
      - intros i Hi. apply Hrp. symmetry. apply HH. split; assumption.
      - intros M' CZ RE. rewrite KE, <- EM1' in RE.
        change (kcodes (sure dla :: mid) M1) with (0 :: kcodes mid (k_fun dla M1)) in CZ. rewrite <- EM1' in CZ.
        inversion CZ as [|? ? _ CM]; subst. clear CZ.
        destruct (mid_fits _ CM) as [FTA FTB].
        assert (FIT : (forall i j, in_matrix n n i j -> fits (ul M pA lda i j) = true) /\
                      (forall i j, 0 <= i < n -> 0 <= j < nrhs -> fits (ul M pB ldb i j) = true)).
        { split.
          - intros i j H. rewrite <- FTA with (i := i) (j := j) by exact H. f_equal. rewrite <- VA by exact H. apply el_ext.
            intros l E. symmetry. apply FD; congruence.
          - intros i j Hi Hj. rewrite <- FTB with (i := i) (j := j) by assumption. f_equal. rewrite <- VB by assumption. apply el_ext.
            intros l E. symmetry. apply FD; congruence. }
        clear FTA FTB CM.
        remember (krun (map ck_task mid) (k_fun dla M1)) as M2 eqn:EM2.
        pose proof RE as (F2 & _ & _).
        assert (SEG : forall b o len l, fst l <> b -> ~ seg (b, o) len l).
        { intros b o len l NE (r & _ & ->). apply NE. reflexivity. }
        assert (EN : cte_of eps sqrt_n A (bN, 0) M' = nmul (nmul (k_fun dla M1 (bN, 0)) eps) (sqrt_n n)).
        { unfold cte_of. rewrite AX. do 2 f_equal. rewrite F2; [|cbn; congruence|cbn; congruence| |].
          - rewrite EM2. apply mid_frame; cbn; congruence.
          - intros (r & Hr & E). cbn [fst snd] in E. injection E as E. clear -E Hr. lia.
          - intros (r & Hr & E). cbn [fst snd] in E. injection E as E. clear -E Hr. lia. }
        assert (FM : forall l, ~ In (fst l) [bA; bB; bX; bR; w; bN; bS; bXs] -> M' l = M l).
        { intros l Hl. cbn [In] in Hl.
          rewrite F2; [|intros K; apply Hl; rewrite K; clear; tauto|intros K; apply Hl; rewrite K; clear; tauto
            |apply SEG; intros K; apply Hl; rewrite K; clear; tauto|apply SEG; intros K; apply Hl; rewrite K; clear; tauto].
          rewrite EM2, mid_frame by (intros K; apply Hl; rewrite K; clear; tauto). rewrite FD by (intros K; apply Hl; rewrite K; clear; tauto).
          apply F1. intros I. apply Hl. clear -I. cbn in I |- *. tauto. }
        split; [intros _|intros K; contradiction]. rewrite EN.
        remember (nmul (nmul (k_fun dla M1 (bN, 0)) eps) (sqrt_n n)) as cte eqn:ECTE.
        destruct (conv_at X (bN, 1) (bN, 1 + nrhs) cte M') eqn:CV.
        + cbn [rafter rprog_ensures].
          apply (out_region nb A X bA bB bX bR w bN bS bXs pX ldx HA HX AS AX ND FX LX []).
          * constructor.
          * constructor.
          * intros; constructor.
          * intros k l [].
          * intros M3 st H1 H2. apply HQ.
            -- intros E0. destruct (H1 E0) as [_ EX]. split; [|exact FIT]. left. exists (k_fun dla M1 (bN, 0)).
               split; [exact VN|]. split; [lia|]. rewrite <- ECTE.
               apply (accepted_ext X S (el M2 bB X) (ul M pB ldb) (el M2 bX X) (ul M3 pX ldx)).
               ++ intros i j Hi Hj. rewrite EX by assumption. cbn. apply el_ext. intros l E. symmetry.
                  apply F2; try congruence; apply SEG; congruence.
               ++ exact VB2.
               ++ eapply conv_accepted; eassumption.
            -- intros l Hl HU. rewrite H2; [apply FM; exact Hl| |exact HU]. intros I. apply Hl. cbn in I |- *. tauto.
        + apply (loop_ensures narrow widen fits R rp Hrp nb A X uplo bA bB bX bR w bN bS bXs pX ldx HA HX AS AX (proj1 Pm) (proj1 Pn)
                   Hu ND FX LX solve_s HSo S (ul M pB ldb) HH 1 (1 + nrhs) ltac:(left; lia) cte 30 0 M').
          * intros i j H1 H2. rewrite HS by assumption. rewrite <- VA2 by exact H1. apply el_ext. intros l E. symmetry.
            apply F2; try congruence; apply SEG; congruence.
          * intros i j Hi Hj. rewrite <- VB2 by assumption. apply el_ext. intros l E.
            apply F2; try congruence; apply SEG; congruence.
          * intros iter M3 st H1 H2. apply HQ.
            -- intros E0. split; [|exact FIT]. destruct (H1 E0) as [[HI HC]|[HI HC]].
               ++ left. exists (k_fun dla M1 (bN, 0)). split; [exact VN|]. split; [clear -HI; lia|]. rewrite <- ECTE. exact HC.
               ++ right. split; assumption.
            -- intros l Hl HU. rewrite H2 by assumption. apply FM. exact Hl.
      - intros M' st NZ FR. split; [contradiction|]. intros _. apply HQ; [contradiction|].
        intros l Hl _. rewrite FR by exact Hl. apply F1. intros I. apply Hl. cbn in I |- *. tauto.
    Qed.
  End Steps.
End One.
