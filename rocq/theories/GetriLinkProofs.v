(* The inverse from the LU factors: the tasks of pzgetri_aux as a whole, and how the
   interchange of columns waits for them. *)
From Coq Require Import ZArith List Bool Lia Ring.
From Verif Require Import Base NumModel NumProofs FieldModel TaskModel TaskSpec TaskProofs DescModel DescSpec
  DescDriverModel DescProofs MatModel MatSpec MatProofs RegionProofs LayoutModel LayoutProofs OpProofs SimProofs OperandProofs
  GemmModel GemmProofs LasetModel LasetProofs EwModel TriModel TriSpec TriVecProofs TriProofs QrEffProofs GetrfSpec
  SwpModel SwpSpec SwpProofs GuardModel GuardSpec GuardProofs GuardProofs2 GroupProofs PanelProofs SwpDriverProofs
  GetrfLinkProofs GetrsLinkProofs GetriModel GetriAuxProofs.
Import ListNotations.
Open Scope Z_scope.

Lemma zdown_succ : forall t, 0 <= t -> zdown (t + 1) = t :: zdown t.
Proof. intros t Ht. unfold zdown. rewrite zrange_snoc, rev_app_distr by lia. reflexivity. Qed.

Section Whole.
  Context {F : fields}.
  Add Ring num_ring_getri : (nring F).
  Variables (nb n : Z) (A W : desc) (bA bW : Z).
  Hypotheses (HA : dn nb A) (HW : dn nb W).
  Hypotheses (Am : d_m A = n) (An : d_n A = n) (Wm : d_m W = n) (Wn : d_n W = nb).
  Hypothesis NW : bA <> bW.
  Hypothesis N10 : @n1 F <> n0.
  Let nt := ntl nb n.
  Let stp := astep (F := F) nb n A W bA bW.

  (* the effect *)
  Lemma aux_at : forall M0 (S Y : Z -> Z -> F) M, stt nb n A W bA bW M0 S Y M ->
    exists X Y', stt nb n A W bA bW M0 X Y' (krun (pzgetri_aux bA A bW W) M) /\
      forall i j, 0 <= i < n -> 0 <= j < n ->
        nsum (fun l => nmul (X i l) (factor_L S l j)) 0 n = if j <? i then n0 else S i j.
  Proof.
    intros M0 S Y M HS. rewrite (pzgetri_aux_eq nb n A W bA bW HA Am An).
    pose proof (x_pos nb A HA) as XP. pose proof (x_n nb n A HA Am) as XN.
    cut (forall t, 0 <= t -> t <= nt -> forall (X Y : Z -> Z -> F) M, stt nb n A W bA bW M0 X Y M ->
      (forall i j, 0 <= i < n -> 0 <= j < n -> j / nb < t -> X i j = S i j) ->
      (forall i j, 0 <= i < n -> 0 <= j < n -> t <= j / nb ->
        nsum (fun l => nmul (X i l) (factor_L S l j)) 0 n = if j <? i then n0 else S i j) ->
      exists X' Y', stt nb n A W bA bW M0 X' Y' (krun (flat_map stp (zdown t)) M) /\
        forall i j, 0 <= i < n -> 0 <= j < n ->
          nsum (fun l => nmul (X' i l) (factor_L S l j)) 0 n = if j <? i then n0 else S i j).
    { intros H. apply (H nt) with (X := S) (Y := Y); auto; try lia.
      - unfold nt, ntl. apply Z.div_pos; lia.
      - intros i j Hi Hj HJ. destruct (x_el nb n A HA j Hj) as (J1 & _). unfold nt in HJ. lia. }
    apply (natlike_ind (fun t => t <= nt -> forall (X Y : Z -> Z -> F) M, stt nb n A W bA bW M0 X Y M ->
      (forall i j, 0 <= i < n -> 0 <= j < n -> j / nb < t -> X i j = S i j) ->
      (forall i j, 0 <= i < n -> 0 <= j < n -> t <= j / nb ->
        nsum (fun l => nmul (X i l) (factor_L S l j)) 0 n = if j <? i then n0 else S i j) ->
      exists X' Y', stt nb n A W bA bW M0 X' Y' (krun (flat_map stp (zdown t)) M) /\
        forall i j, 0 <= i < n -> 0 <= j < n ->
          nsum (fun l => nmul (X' i l) (factor_L S l j)) 0 n = if j <? i then n0 else S i j)).
    - intros _ X Y2 M2 H2 _ H4. exists X, Y2. split; [exact H2|]. intros i j Hi Hj. apply H4; try assumption.
      apply Z.div_pos; lia.
    - intros t Ht IH Hle X Y2 M2 H2 H3 H4. unfold Z.succ in *. rewrite zdown_succ by assumption.
      cbn [flat_map]. rewrite krun_app.
      destruct (astep_step nb n A W bA bW HA HW Am An Wm Wn NW N10 M0 t X Y2 M2) as (X' & Y' & S1 & S2 & S3);
        [fold nt; lia|assumption|].
      apply (IH ltac:(lia) X' Y'); [exact S1| |].
      + intros i j Hi Hj HJ. rewrite S2 by lia. apply H3; lia.
      + intros i j Hi Hj HJ. destruct (Z.eq_dec (j / nb) t) as [Et|Et].
        * rewrite <- (H3 i j) by lia. rewrite <- (S3 i j Hi Hj Et). apply nsum_ext. intros l Hl.
          apply f_equal. unfold factor_L. destruct (l =? j); [reflexivity|]. destruct (j <? l); [|reflexivity].
          symmetry. apply H3; lia.
        * rewrite <- (H4 i j) by lia. apply nsum_ext. intros l Hl.
          destruct (Z.lt_ge_cases l j) as [LT|GE].
          -- unfold factor_L. replace (l =? j) with false by (symmetry; apply Z.eqb_neq; lia).
             replace (j <? l) with false by (symmetry; apply Z.ltb_ge; lia). ring.
          -- rewrite S2; [reflexivity|assumption|assumption|].
             assert (j / nb <= l / nb) by (apply Z.div_le_mono; lia). lia.
  Qed.

  (* the tasks *)
  Lemma step_forall : forall (P : ktask F -> Prop) k, 0 <= k < nt ->
    P (cpk A W bA bW k) -> P (zk A bA k) ->
    (forall m, k < m < nt -> P (cpm A W bA bW k m) /\ P (zm A bA k m)) ->
    (forall m p, 0 <= m < nt -> k < p < nt -> P (gt (F := F) A W bA bW k m p)) ->
    (forall m, 0 <= m < nt -> P (ts (F := F) A W bA bW k m)) -> Forall P (stp k).
  Proof.
    intros P k Hk H1 H2 H3 H4 H5. unfold stp, astep, copies, updates, solves. rewrite !Forall_app.
    split; [split; [constructor; [assumption|constructor; [assumption|constructor]]|]|split].
    - apply Forall_forall. intros x Hx. apply in_flat_map in Hx. destruct Hx as (m & Hm & Hx). apply in_zrange in Hm.
      fold nt in Hm. destruct (H3 m) as [P1 P2]; [lia|]. destruct Hx as [<-|[<-|[]]]; assumption.
    - apply Forall_forall. intros x Hx. apply in_flat_map in Hx. destruct Hx as (m & Hm & Hx). apply in_zrange in Hm.
      apply in_map_iff in Hx. destruct Hx as (p & <- & Hp). apply in_zrange in Hp. fold nt in Hm, Hp. apply H4; lia.
    - apply Forall_forall. intros x Hx. apply in_map_iff in Hx. destruct Hx as (m & <- & Hm). apply in_zrange in Hm.
      fold nt in Hm. apply H5; lia.
  Qed.

  Lemma aux_forall : forall P : ktask F -> Prop,
    (forall k, 0 <= k < nt -> P (cpk A W bA bW k)) -> (forall k, 0 <= k < nt -> P (zk A bA k)) ->
    (forall k m, 0 <= k < nt -> k < m < nt -> P (cpm A W bA bW k m) /\ P (zm A bA k m)) ->
    (forall k m p, 0 <= k < nt -> 0 <= m < nt -> k < p < nt -> P (gt (F := F) A W bA bW k m p)) ->
    (forall k m, 0 <= k < nt -> 0 <= m < nt -> P (ts (F := F) A W bA bW k m)) ->
    Forall P (pzgetri_aux bA A bW W).
  Proof.
    intros P H1 H2 H3 H4 H5. rewrite (pzgetri_aux_eq nb n A W bA bW HA Am An). apply Forall_forall. intros x Hx.
    apply in_flat_map in Hx. destruct Hx as (k & Hk & Hx). apply in_zdown in Hk. fold nt in Hk.
    pose proof (step_forall P k Hk) as SF. rewrite Forall_forall in SF. apply SF; auto.
  Qed.

  Lemma lacpy_kgood : forall u m k pA ldA pW ldW, m <= ldW ->
    kgood (omp_zlacpy_t (N := F) u PlasmaNoTrans m k pA ldA pW ldW).
  Proof.
    intros u m k pA ldA pW ldW H.
    refine (mset_kgood F [dep_in pA; dep_out pW] pW ldW m k (uplo_sel u) (fun M i j => rd M pA ldA i j)
      (reg pA ldA m k (uplo_sel u)) H (finite_reg _ _ _ _ _) _).
    intros M M' i j Hi Hj HP HX. apply HX. exists i, j. auto.
  Qed.
  Lemma laset_kgood : forall u mb nb' i j m k (a b : F) p, m <= mb -> kgood (omp_zlaset u mb nb' i j m k a b p).
  Proof.
    intros u mb nb' i j m k a b p H.
    exact (mset_kgood F [dep_out p] (fst p, snd p + i + j * mb) mb m k (uplo_sel u)
      (fun _ r c => if r =? c then b else a) (fun _ => False) H finite_none
      (fun _ _ _ _ _ _ _ _ => eq_refl)).
  Qed.

  Lemma aux_kgood : Forall kgood (pzgetri_aux (F := F) bA A bW W).
  Proof.
    pose proof (x_ld nb n A HA Am An) as LA. pose proof (x_wld nb n A W HA HW Am Wm Wn) as LW'.
    pose proof (x_mv nb n A HA Am An) as MV. pose proof (x_nv nb n A HA Am An) as NV. fold nt in LA, LW', MV, NV.
    apply aux_forall.
    - intros k Hk. apply lacpy_kgood. rewrite MV by assumption. auto.
    - intros k Hk. apply laset_kgood. rewrite NV by assumption. specialize (LA k Hk). lia.
    - intros k m Hk Hm. split; [apply lacpy_kgood|apply laset_kgood]; rewrite MV by lia; [apply LW'|apply LA]; lia.
    - intros k m p Hk Hm Hp. apply omp_zgemm_kgood. rewrite MV by lia. apply LA. lia.
    - intros k m Hk Hm. apply omp_ztrsm_kgood. rewrite MV by lia. apply LA. lia.
  Qed.

  Lemma aux_writes : forall (k : ktask F) l, In k (pzgetri_aux bA A bW W) -> k_writes k l -> fst l = bA \/ fst l = bW.
  Proof.
    assert (H : Forall (fun k : ktask F => forall l, k_writes k l -> fst l = bA \/ fst l = bW) (pzgetri_aux bA A bW W)).
    { apply aux_forall; intros; try split; intros; 
        match goal with H : k_writes _ _ |- _ => apply reg_block in H; cbn in H; auto end. }
    rewrite Forall_forall in H. intros k l Hk. apply H. assumption.
  Qed.

  Lemma tile_narrow : forall p ld m k m' k' P l, m <= m' -> k <= k' -> reg p ld m k P l -> reg p ld m' k' P l.
  Proof. intros. eapply reg_sub; eauto. Qed.

  Lemma aux_kdecl : forall env, In (bA, homeD A (in_tiles A)) env -> In (bW, homeD W (in_tiles W)) env ->
    Forall (kdecl (home_env env)) (pzgetri_aux (F := F) bA A bW W).
  Proof.
    intros env EA EW.
    pose proof (x_A nb n A HA Am An) as IA. pose proof (x_W nb n A W HA HW Am Wm Wn) as IW.
    pose proof (x_mv nb n A HA Am An) as MV. pose proof (x_nv nb n A HA Am An) as NV.
    pose proof (x_wmv nb n A W HA HW Am Wm Wn) as WV. pose proof (x_wnv nb n A W HA HW Am Wm Wn) as WN.
    pose proof (x_sz nb n A HA Am An) as SZ. pose proof (x_ld nb n A HA Am An) as LD.
    fold nt in IA, IW, MV, NV, WV, WN, SZ, LD.
    assert (RW : forall m k P l, 0 <= m < nt -> 0 <= k < nt ->
      reg (tptr bW W m 0) (tile_mmain W m) (tile_mview A m) (tile_nview A k) P l -> home_env env l (tptr bW W m 0)).
    { intros m k P l Hm Hk R. eapply home_tile with (P := P); [exact EW|apply IW; assumption|].
      eapply tile_narrow; [| |exact R]; rewrite ?MV, ?NV, ?WV, ?WN by (try assumption; lia); [lia|apply SZ; assumption]. }
    assert (RA : forall m k P l, 0 <= m < nt -> 0 <= k < nt ->
      reg (tptr bA A m k) (tile_mmain A m) (tile_mview A m) (tile_nview A k) P l -> home_env env l (tptr bA A m k)).
    { intros m k P l Hm Hk R. eapply home_tile; eauto. }
    assert (CP : forall u m k, 0 <= m < nt -> 0 <= k < nt -> kdecl (home_env env)
      (omp_zlacpy_t (N := F) u PlasmaNoTrans (tile_mview A m) (tile_nview A k) (tptr bA A m k) (tile_mmain A m) (tptr bW W m 0) (tile_mmain W m))).
    { intros u m k Hm Hk. apply kdecl_intro; cbn; intros l R.
      - left. eexists. split; [left; reflexivity|]. eapply RA; eauto.
      - eexists. split; [right; left; reflexivity|]. split; [|discriminate]. eapply RW; eauto. }
    apply aux_forall.
    - intros k Hk. apply CP; assumption.
    - intros k Hk. apply kdecl_intro; intros l R; [destruct R|].
      eexists. split; [left; reflexivity|]. split; [|discriminate]. cbn [dep_addr dep_out].
      apply (RA k k everywhere); [assumption|assumption|]. destruct R as (r & c & Hr & Hc & _ & ->).
      rewrite (NV k Hk) in Hr, Hc. exists (r + 1), c. rewrite (MV k Hk), (NV k Hk). repeat split; try lia.
      unfold at_. cbn [fst snd]. apply f_equal. ring.
    - intros k m Hk Hm. split; [apply CP; lia|]. apply kdecl_intro; intros l R; [destruct R|].
      eexists. split; [left; reflexivity|]. split; [|discriminate]. cbn [dep_addr dep_out].
      apply (RA m k (uplo_sel PlasmaGeneral)); [lia|lia|]. destruct R as (r & c & Hr & Hc & HP & ->). exists r, c.
      repeat split; try lia. unfold at_. cbn [fst snd]. apply f_equal. ring.
    - intros k m p Hk Hm Hp. apply kdecl_intro; cbn; intros l R.
      + left. destruct R as [R|[R|R]].
        * eexists. split; [left; reflexivity|]. eapply RA; [lia|lia|exact R].
        * eexists. split; [right; left; reflexivity|]. apply (RW p k everywhere l); [lia|lia|].
          unfold op_reg in R. change (PlasmaNoTrans =? PlasmaNoTrans) with true in R. cbv iota in R.
          rewrite (NV p) in R by lia. rewrite (MV p) by lia. exact R.
        * eexists. split; [right; right; left; reflexivity|]. eapply RA; [lia|lia|exact R].
      + eexists. split; [right; right; left; reflexivity|]. split; [|discriminate]. eapply RA; [lia|lia|exact R].
    - intros k m Hk Hm. apply kdecl_intro; cbn; intros l R.
      + left. destruct R as [R|R].
        * eexists. split; [left; reflexivity|]. apply (RW k k (uplo_sel PlasmaLower) l); [lia|lia|].
          rewrite (MV k) by lia. rewrite (NV k) in R |- * by lia. exact R.
        * eexists. split; [right; left; reflexivity|]. eapply RA; [lia|lia|exact R].
      + eexists. split; [right; left; reflexivity|]. split; [|discriminate]. eapply RA; [lia|lia|exact R].
  Qed.

  (* the chain of tasks that leads to the first tile of a row *)
  Hypothesis G : gen_ok A.

  Lemma A_inj : forall p q p' q', 0 <= p < nt -> 0 <= q < nt -> 0 <= p' < nt -> 0 <= q' < nt ->
    tptr bA A p q = tptr bA A p' q' -> p = p' /\ q = q'.
  Proof.
    intros p q p' q' Hp Hq Hp' Hq' E.
    pose proof (x_mt nb n A HA Am) as MT. pose proof (x_nt nb n A HA An) as NT. fold nt in MT, NT.
    apply (tptr_inj nb A A bA G); rewrite ?MT, ?NT; try assumption; congruence.
  Qed.

  Definition row_task (p : Z) (k : ktask F) : Prop := exists q, 0 <= q < nt /\ names (tptr bA A p q) k.

  Lemma gt_last : forall t p q, 0 < q < nt -> 0 < t -> 0 <= p < nt -> In (gt (F := F) A W bA bW 0 p q) (flat_map stp (zdown t)).
  Proof.
    intros t p q Hq Ht Hp. apply in_flat_map. exists 0. split; [apply in_zdown; lia|].
    unfold stp, astep. apply in_or_app. right. apply in_or_app. left. unfold updates. apply in_flat_map.
    exists p. fold nt. split; [apply in_zrange; lia|]. apply in_map. apply in_zrange. lia.
  Qed.

  Lemma gt_names : forall p q, names (tptr bA A p 0) (gt (F := F) A W bA bW 0 p q).
  Proof. intros p q. exists (dep_inout (tptr bA A p 0)). split; [right; right; left; reflexivity|reflexivity]. Qed.
  Lemma ts_gt : forall p q, deps_order (k_deps (ts (F := F) A W bA bW q p)) (k_deps (gt (F := F) A W bA bW 0 p q)).
  Proof.
    intros p q. exists (dep_inout (tptr bA A p q)), (dep_in (tptr bA A p q)).
    split; [right; left; reflexivity|]. split; [left; reflexivity|]. split; [reflexivity|]. intros [X _]. discriminate X.
  Qed.
  Lemma names_ts : forall (k : ktask F) p q, names (tptr bA A p q) k -> deps_order (k_deps k) (k_deps (ts (F := F) A W bA bW q p)).
  Proof.
    intros k p q (d & Hd & E). exists d, (dep_inout (tptr bA A p q)).
    split; [assumption|]. split; [right; left; reflexivity|]. split; [exact E|]. intros [_ X]. discriminate X.
  Qed.

  (* a task that names a tile of column q before the solves of that column *)
  Lemma before_solve : forall (k : ktask F) p q l ys, 0 <= p < nt -> 0 <= q < nt -> names (tptr bA A p q) k ->
    (0 < q -> In (gt (F := F) A W bA bW 0 p q) ys) -> reaches (tptr bA A p 0) k (l ++ solves (F := F) nb n A W bA bW q ++ ys).
  Proof.
    intros k p q l ys Hp Hq HN HY. destruct (Z.eq_dec q 0) as [->|NZ]; [left; assumption|]. right.
    assert (IS : In (ts (F := F) A W bA bW q p) (solves (F := F) nb n A W bA bW q)) by (apply in_map; fold nt; apply in_zrange; lia).
    destruct (in_split _ _ IS) as (u & v & ->). destruct (in_split _ _ (HY ltac:(lia))) as (u' & v' & ->).
    exists ((l ++ u) ++ ts (F := F) A W bA bW q p :: v ++ u'), (gt (F := F) A W bA bW 0 p q), v'.
    split; [rewrite <- !app_assoc; cbn [app]; rewrite <- !app_assoc; reflexivity|]. split; [|apply gt_names].
    apply ln_trans; apply ln_direct; [apply names_ts; assumption|apply ts_gt].
  Qed.

  Lemma leads_by : forall (Q : ktask F -> Prop) a xs ys, leads Q a ys ->
    (forall l1 k l2, xs = l1 ++ k :: l2 -> Q k -> reaches a k (l2 ++ ys)) -> leads Q a (xs ++ ys).
  Proof.
    intros Q a xs ys HY HX l1 k l2 E HQ. destruct (app_mid _ _ _ _ _ _ E) as [(r & E1 & ->)|(r & E1 & _)].
    - eapply HX; eauto.
    - eapply HY; eauto.
  Qed.

  Lemma W_not_A : forall p q p', tptr bW W p' 0 <> tptr bA A p q.
  Proof. intros p q p' E. apply (f_equal fst) in E. cbn in E. congruence. Qed.

  (* inside step t a task that names a tile of row p names the tile of column t in it *)
  Lemma early_row : forall t p (k : ktask F), 0 <= t < nt -> 0 <= p < nt ->
    In k (copies (F := F) nb n A W bA bW t ++ updates (F := F) nb n A W bA bW t) -> row_task p k -> names (tptr bA A p t) k.
  Proof.
    intros t p k Ht Hp Hk (q & Hq & d & Hd & E).
    assert (ONE : forall m q', 0 <= m < nt -> 0 <= q' < nt -> dep_addr d = tptr bA A m q' -> m = p).
    { intros m q' Hm Hq' E'. destruct (A_inj m q' p q) as [-> _]; auto; congruence. }
    rewrite in_app_iff in Hk. destruct Hk as [Hk|Hk].
    - unfold copies in Hk. rewrite in_app_iff in Hk. destruct Hk as [[<-|[<-|[]]]|Hk].
      + destruct Hd as [<-|[<-|[]]]; cbn [dep_addr dep_in dep_out] in E; [|exfalso; eapply W_not_A; eauto].
        exists (dep_in (tptr bA A t t)). split; [left; reflexivity|]. cbn [dep_addr dep_in].
        rewrite (ONE t t Ht Ht eq_refl). reflexivity.
      + destruct Hd as [<-|[]]. exists (dep_out (tptr bA A t t)). split; [left; reflexivity|]. cbn [dep_addr dep_out].
        rewrite (ONE t t Ht Ht eq_refl). reflexivity.
      + apply in_flat_map in Hk. destruct Hk as (m & Hm & Hk). apply in_zrange in Hm. fold nt in Hm.
        destruct Hk as [<-|[<-|[]]].
        * destruct Hd as [<-|[<-|[]]]; cbn [dep_addr dep_in dep_out] in E; [|exfalso; eapply W_not_A; eauto].
          exists (dep_in (tptr bA A m t)). split; [left; reflexivity|]. cbn [dep_addr dep_in].
          rewrite (ONE m t ltac:(lia) Ht eq_refl). reflexivity.
        * destruct Hd as [<-|[]]. exists (dep_out (tptr bA A m t)). split; [left; reflexivity|]. cbn [dep_addr dep_out].
          rewrite (ONE m t ltac:(lia) Ht eq_refl). reflexivity.
    - unfold updates in Hk. apply in_flat_map in Hk. destruct Hk as (m & Hm & Hk). apply in_zrange in Hm.
      apply in_map_iff in Hk. destruct Hk as (s & <- & Hs). apply in_zrange in Hs. fold nt in Hm, Hs.
      exists (dep_inout (tptr bA A m t)). split; [right; right; left; reflexivity|]. cbn [dep_addr dep_inout].
      destruct Hd as [<-|[<-|[<-|[]]]]; cbn [dep_addr dep_in dep_inout] in E.
      + rewrite (ONE m s ltac:(lia) ltac:(lia) eq_refl). reflexivity.
      + exfalso; eapply W_not_A; eauto.
      + rewrite (ONE m t ltac:(lia) Ht eq_refl). reflexivity.
  Qed.

  Lemma aux_leads : forall p t, 0 <= p < nt -> 0 <= t -> t <= nt ->
    leads (row_task p) (tptr bA A p 0) (flat_map stp (zdown t)).
  Proof.
    intros p t Hp. revert t.
    apply (natlike_ind (fun t => t <= nt -> leads (row_task p) (tptr bA A p 0) (flat_map stp (zdown t)))).
    - intros _. apply leads_nil.
    - intros t Ht IH Hle. unfold Z.succ in *. rewrite zdown_succ by assumption. cbn [flat_map].
      specialize (IH ltac:(lia)). unfold stp at 1, astep. rewrite app_assoc, <- app_assoc.
      apply leads_by.
      + apply leads_by; [exact IH|]. intros l1 k l2 E (q & Hq & d & Hd & Ed).
        assert (Hk : In k (solves (F := F) nb n A W bA bW t)) by (rewrite E; apply in_elt).
        unfold solves in Hk. apply in_map_iff in Hk. destruct Hk as (m & <- & Hm). apply in_zrange in Hm. fold nt in Hm.
        destruct Hd as [<-|[<-|[]]]; cbn [dep_addr dep_in dep_inout] in Ed; [exfalso; eapply W_not_A; eauto|].
        destruct (A_inj m t p q) as [-> _]; auto; try lia.
        destruct (Z.eq_dec t 0) as [->|NZ].
        * left. exists (dep_inout (tptr bA A p 0)). split; [right; left; reflexivity|reflexivity].
        * apply (reaches_in _ _ (gt (F := F) A W bA bW 0 p t)); [|apply ts_gt|apply gt_names].
          apply in_or_app. right. apply gt_last; lia.
      + intros l1 k l2 E HR. apply before_solve; [assumption|lia| |intros; apply gt_last; lia].
        apply early_row; [lia|assumption| |assumption]. rewrite E. apply in_elt.
  Qed.

  Lemma row_leads : forall p (xs : list (ktask F)), 0 <= p < nt ->
    leads (row_task p) (tptr bA A p 0) (xs ++ pzgetri_aux bA A bW W).
  Proof.
    intros p xs Hp. rewrite (pzgetri_aux_eq nb n A W bA bW HA Am An). fold nt stp. apply leads_by.
    - apply aux_leads; lia.
    - intros l1 k l2 _ (q & Hq & HN).
      assert (D : exists hi, zdown nt = hi ++ q :: zdown q).
      { unfold zdown. rewrite (zrange_app 0 q nt) by lia. rewrite (zrange_cons q nt) by lia.
        exists (rev (zrange (q + 1) nt)). rewrite rev_app_distr. cbn [rev]. rewrite <- app_assoc. reflexivity. }
      destruct D as (hi & ->). rewrite flat_map_app. cbn [flat_map]. unfold stp at 2, astep.
      rewrite <- !app_assoc, (app_assoc (copies _ _ _ _ _ _ _)), !app_assoc.
      rewrite <- (app_assoc _ (solves _ _ _ _ _ _ _)). apply before_solve; try assumption.
      intros. apply gt_last; lia.
  Qed.

  Lemma reads_row : forall env p (k : ktask F) l, In (bA, homeD A (in_tiles A)) env -> functional (home_env env) ->
    0 <= p < nt -> kdecl (home_env env) k -> k_reads k l ->
    panel (d_n A) (tile_mview A p) (fun j r => (bA, elem_off A (p * nb + r) j)) l -> row_task p k.
  Proof.
    intros env p k l HE HF Hp [DR _] HR HP. pose proof HA as [_ MB _].
    pose proof (x_mt nb n A HA Am) as MT. pose proof (x_nt nb n A HA An) as NT. fold nt in MT, NT.
    destruct (col_home nb bA A G MB env p l HE) as (q & Hq & Hh); [rewrite MT; assumption|assumption|].
    destruct (DR l HR) as (d & Hd & Hd'); [eexists; exact Hh|].
    exists q. split; [rewrite <- NT; assumption|]. exists d. split; [assumption|]. eapply HF; eauto.
  Qed.

  Lemma getri_linked : forall env pI ipiv (xs ys : list (ktask F)),
    In (bA, homeD A (in_tiles A)) env -> In (bW, homeD W (in_tiles W)) env -> functional (home_env env) ->
    Forall (kdecl (home_env env)) xs -> Forall (kdecl (home_env env)) ys ->
    klinked ((xs ++ pzgetri_aux bA A bW W) ++ pzgeswp PlasmaColumnwise bA A pI ipiv (-1) ++ ys).
  Proof.
    intros env pI ipiv xs ys EA EW HF DX DY. pose proof HA as [_ MB _].
    pose proof (x_mt nb n A HA Am) as MT. fold nt in MT.
    rewrite pzgeswp_col_eq.
    apply (panels_linked_chain (d_mt A) (d_nt A) (d_n A) (tile_mview A) (fun m j r => (bA, elem_off A (m * nb + r) j))
      (fun m q => tptr bA A m q) bA pI (swp_task_col bA A pI ipiv (-1)) (home_env env)); try assumption.
    - apply (col_inj nb bA A G MB).
    - reflexivity.
    - reflexivity.
    - intros p l Hp. apply row_reg_panel; assumption.
    - intros p l Hp. apply row_reg_panel; assumption.
    - intros p l Hp. apply col_home; assumption.
    - apply Forall_app. split; [assumption|]. apply aux_kdecl; assumption.
    - intros l1 k l2 p l E Hp HR HP. right. rewrite MT in Hp. eapply (row_leads p xs Hp); [exact E|].
      eapply reads_row; eauto.
      assert (D : Forall (kdecl (home_env env)) (xs ++ pzgetri_aux bA A bW W)) by (apply Forall_app; split; [assumption|]; apply aux_kdecl; assumption).
      rewrite Forall_forall in D. apply D. rewrite E. apply in_elt.
  Qed.
End Whole.
