(* The tasks of the product of a triangular matrix with its conjugate transpose, through the
   lower view of the matrix. *)
From Coq Require Import ZArith List Bool Lia Ring.
From Verif Require Import Base NumModel NumProofs FieldModel TaskModel TaskSpec TaskProofs DescModel DescSpec
  DescDriverModel DescProofs DescPackProofs DescProofs3 DescProofs4 MatModel MatSpec MatProofs RegionProofs
  GuardModel GuardSpec GuardProofs GuardProofs2
  LayoutModel LayoutProofs LayoutProofs2 DriverModel DriverSpec OpProofs SimProofs OperandProofs
  GemmModel GemmProofs GemmDriverProofs RankModel RankProofs RankDriverProofs LasetModel LasetProofs
  TriModel TriSpec TriVecProofs TriProofs TrmmProofs TrsmProofs PotrfModel CholProofs PotrfProofs InvProofs ViewProofs TrtriModel TrtriTaskProofs TrtriStepProofs.
Import ListNotations.
Open Scope Z_scope.

Section Tasks.

  Context {F : fields}.
  Add Ring num_ring_lauum_tasks : (nring F).
  Variables (nb n : Z) (A : desc) (SA : Z -> Z -> Prop) (bA uplo : Z).
  Hypothesis Hu : valid_uplo uplo.
  Hypothesis HQ : sq nb A SA.
  Hypotheses (DM : d_m A = n) (DN : d_n A = n).
  Let nt := ntl nb n.
  Hypothesis HSA : forall i j, 0 <= i < nt -> 0 <= j < nt -> uplo_sel uplo i j = true -> SA i j.
  Let Hb : 0 < nb := sq_pos nb A _ HQ.
  Let Hn : 0 <= n.
  Proof. rewrite <- DM. apply (go_m A (td_shape _ _ (sq_t nb A _ HQ))). Qed.

  Local Notation low := (vlow uplo).
  Local Notation tm := (vr uplo).
  Local Notation tn := (vc uplo).
  Local Notation tp := (vp A bA uplo).
  Local Notation tl := (vl A uplo).
  Local Notation rel := (vrel nb n A bA uplo).
  Local Notation stored := (vstored nb n).

  Let t_ld : forall m k, 0 <= k <= m -> m < nt -> tsz nb n (tm m k) <= tl m k.
  Proof. exact (vt_ld nb n A SA uplo Hu HQ DM HSA). Qed.
  Let t_full : forall k m, 0 <= k < m -> m < nt -> tsz nb n k = nb.
  Proof. exact (vt_full nb n A SA HQ DM). Qed.
  Let t_pos : forall k, 0 <= k < nt -> 0 < tsz nb n k <= nb.
  Proof. exact (vt_pos nb n A SA HQ DM). Qed.
  Let t_sel : forall a c, uplo_sel uplo (tm a c) (tn a c) = (c <=? a).
  Proof. exact (vsel nb n SA uplo Hu HSA). Qed.
  Let pos_el : forall m a, 0 <= m < nt -> 0 <= a < tsz nb n m ->
    0 <= m * nb + a < n /\ (m * nb + a) / nb = m /\ (m * nb + a) mod nb = a.
  Proof. exact (vpos_el nb n A SA HQ). Qed.
  Let el_pos : forall i, 0 <= i < n -> 0 <= i / nb < nt /\ 0 <= i mod nb < tsz nb n (i / nb) /\ i = i / nb * nb + i mod nb.
  Proof. exact (vel_pos nb n A SA HQ DM). Qed.

  Variable rp : F -> F.
  Let t_S : forall m k, 0 <= k <= m -> m < nt -> SA (tm m k) (tn m k).
  Proof. exact (vt_S nb n SA uplo Hu HSA). Qed.
  Let t_mv : forall m k, 0 <= k <= m -> m < nt -> tile_mview A (tm m k) = tsz nb n (tm m k).
  Proof. exact (vt_mv nb n A SA uplo Hu HQ DM HSA). Qed.
  Let t_nv : forall m k, 0 <= k <= m -> m < nt -> tile_nview A (tn m k) = tsz nb n (tn m k).
  Proof. exact (vt_nv nb n A SA uplo Hu HQ DN HSA). Qed.

  Definition htask (k j : Z) : ktask F :=
    omp_rank_k rp PlasmaConjTrans uplo (if low then PlasmaConjTrans else PlasmaNoTrans) (tsz nb n j) (tsz nb n k)
      n1 (tp k j) (tl k j) n1 (tp j j) (tl j j).
  Definition gtask (k m j : Z) : ktask F :=
    omp_zgemm (if low then PlasmaConjTrans else PlasmaNoTrans) (if low then PlasmaNoTrans else PlasmaConjTrans)
      (tsz nb n (tm m j)) (tsz nb n (tn m j)) (tsz nb n k)
      n1 (if low then tp k m else tp k j) (if low then tl k m else tl k j)
      (if low then tp k j else tp k m) (if low then tl k j else tl k m) n1 (tp m j) (tl m j).
  Definition mtask (k j : Z) : ktask F :=
    omp_ztrmm (if low then PlasmaLeft else PlasmaRight) uplo PlasmaConjTrans PlasmaNonUnit
      (tsz nb n (tm k j)) (tsz nb n (tn k j)) n1 (tp k k) (tl k k) (tp k j) (tl k j).
  Definition ztask (k : Z) : ktask F := omp_zlauum rp uplo (tsz nb n k) (tp k k) (tl k k).

  Definition lrest (k : Z) : list (ktask F) :=
    flat_map (fun j => htask k j :: map (fun m => gtask k m j) (zrange (j + 1) k)) (zrange 0 k)
    ++ map (mtask k) (zrange 0 k) ++ [ztask k].
  Definition llist : list (ktask F) := flat_map lrest (zrange 0 nt).

  Lemma pzlauum_eq : pzlauum rp uplo bA A = llist.
  Proof.
    assert (MT : d_mt A = nt) by (unfold nt; rewrite <- DM; apply (mt_aligned_ntl nb A (td_shape _ _ (sq_t nb A _ HQ)) (sq_mb nb A _ HQ))).
    assert (MV : forall k, 0 <= k < nt -> tile_mview A k = tsz nb n k) by exact (vmv_eq nb n A SA uplo Hu HQ DM HSA).
    assert (NV : forall k, 0 <= k < nt -> tile_nview A k = tsz nb n k) by exact (vnv_eq nb n A SA uplo Hu HQ DN HSA).
    assert (MI : forall j k, 0 <= j < k -> k < nt -> Z.min (tsz nb n k) (tsz nb n j) = tsz nb n k).
    { intros j k Hj Hk. rewrite (t_full j k Hj Hk). pose proof (t_pos k ltac:(lia)). lia. }
    unfold pzlauum, llist. rewrite MT.
    fold (vlow uplo). unfold lrest, htask, gtask, mtask, ztask, vp, vl, vr, vc.
    destruct (vlow uplo); apply flat_map_ext_in; intros k Hk; apply in_zrange in Hk;
      rewrite MV, NV by lia; rewrite Z.min_id; (apply f_equal2; [|apply f_equal2; [|reflexivity]]).
    - apply flat_map_ext_in. intros j Hj. apply in_zrange in Hj. rewrite MV, NV by lia. rewrite Z.min_id, MI by lia.
      apply f_equal2; [reflexivity|]. apply map_ext_in. intros m Hm. apply in_zrange in Hm. rewrite MV by lia. reflexivity.
    - apply map_ext_in. intros m Hm. apply in_zrange in Hm. rewrite NV by lia. reflexivity.
    - apply flat_map_ext_in. intros j Hj. apply in_zrange in Hj. rewrite MV, NV by lia. rewrite Z.min_id, Z.min_comm, MI by lia.
      apply f_equal2; [reflexivity|]. apply map_ext_in. intros m Hm. apply in_zrange in Hm. rewrite NV by lia. reflexivity.
    - apply map_ext_in. intros m Hm. apply in_zrange in Hm. rewrite MV by lia. reflexivity.
  Qed.

  Lemma llist_all : forall (P : ktask F -> Prop),
    (forall k j, 0 <= j < k -> k < nt -> P (htask k j)) ->
    (forall k m j, 0 <= j < m -> m < k < nt -> P (gtask k m j)) ->
    (forall k j, 0 <= j < k -> k < nt -> P (mtask k j)) ->
    (forall k, 0 <= k < nt -> P (ztask k)) -> Forall P llist.
  Proof.
    intros P H1 H2 H3 H4. unfold llist. apply Forall_flat_map_intro. intros k Hk. apply in_zrange in Hk.
    unfold lrest. apply Forall_app. split; [|apply Forall_app; split].
    - apply Forall_flat_map_intro. intros j Hj. apply in_zrange in Hj. constructor; [apply H1; lia|].
      apply Forall_forall. intros x Hx. apply in_map_iff in Hx. destruct Hx as (m & <- & Hm). apply in_zrange in Hm. apply H2; lia.
    - apply Forall_forall. intros x Hx. apply in_map_iff in Hx. destruct Hx as (m & <- & Hm). apply in_zrange in Hm. apply H3; lia.
    - constructor; [apply H4; lia|constructor].
  Qed.

  Lemma lauum_rd_ext : forall (M M' : mem F) s p ld i j, 0 <= i < s -> 0 <= j < s ->
    (forall x, reg p ld s s (uplo_sel uplo) x -> M x = M' x) ->
    lauum_rd rp M uplo p ld i j = lauum_rd rp M' uplo p ld i j.
  Proof.
    intros M M' s p ld i j Hi Hj H. unfold lauum_rd.
    destruct (uplo_sel uplo i j) eqn:E; [|reflexivity].
    assert (R : rd M p ld i j = rd M' p ld i j) by (unfold rd; apply H; exists i, j; repeat split; auto; lia).
    rewrite R. reflexivity.
  Qed.

  Lemma ztask_kgood : forall k, 0 <= k < nt -> kgood (ztask k).
  Proof.
    intros k Hk. pose proof (t_ld k k ltac:(lia) ltac:(lia)) as LD. rewrite vr_diag in LD.
    apply mset_kgood; [assumption|apply finite_reg|].
    intros M M' i j Hi Hj HP HX. cbv beta zeta.
    assert (E : (if uplo =? PlasmaLower
       then nsum (fun l => nmul (nconj (lauum_rd rp M uplo (tp k k) (tl k k) l i)) (lauum_rd rp M uplo (tp k k) (tl k k) l j)) 0 (tsz nb n k)
       else nsum (fun l => nmul (lauum_rd rp M uplo (tp k k) (tl k k) i l) (nconj (lauum_rd rp M uplo (tp k k) (tl k k) j l))) 0 (tsz nb n k))
      = (if uplo =? PlasmaLower
       then nsum (fun l => nmul (nconj (lauum_rd rp M' uplo (tp k k) (tl k k) l i)) (lauum_rd rp M' uplo (tp k k) (tl k k) l j)) 0 (tsz nb n k)
       else nsum (fun l => nmul (lauum_rd rp M' uplo (tp k k) (tl k k) i l) (nconj (lauum_rd rp M' uplo (tp k k) (tl k k) j l))) 0 (tsz nb n k))).
    { destruct (uplo =? PlasmaLower); apply nsum_ext; intros l Hl;
        rewrite !(lauum_rd_ext M M' (tsz nb n k)) by (auto; lia); reflexivity. }
    rewrite E. reflexivity.
  Qed.

  Lemma llist_kgood : Forall kgood llist.
  Proof.
    apply llist_all; intros.
    - apply omp_rank_k_kgood; [discriminate|]. pose proof (t_ld j j ltac:(lia) ltac:(lia)) as LD. rewrite vr_diag in LD. assumption.
    - apply omp_zgemm_kgood. apply t_ld; lia.
    - apply omp_ztrmm_kgood. apply t_ld; lia.
    - apply ztask_kgood; assumption.
  Qed.

  Lemma llist_writes : forall k l, In k llist -> k_writes k l -> fst l = bA.
  Proof.
    intros k l Hk. revert k Hk.
    apply (proj1 (Forall_forall (fun k => k_writes k l -> fst l = bA) llist)).
    apply llist_all; intros; cbn in *;
      match goal with H : reg _ _ _ _ _ _ |- _ => apply reg_block in H; exact H end.
  Qed.

  Section Decl.
    Variable env : list (Z * (Z -> Z -> Prop)).
    Hypothesis EA : In (bA, homeD A SA) env.
    Let v_home : forall m k mm kk P l, 0 <= k <= m -> m < nt ->
      mm <= tsz nb n (tm m k) -> kk <= tsz nb n (tn m k) ->
      reg (tp m k) (tl m k) mm kk P l -> home_env env l (tp m k).
    Proof. exact (vp_home nb n A SA bA uplo Hu HQ DM DN HSA env EA). Qed.

    Lemma llist_kdecl : Forall (kdecl (home_env env)) llist.
    Proof.
      apply llist_all.
      - intros k j Hj Hk. apply kdecl_intro; cbn; intros l HR.
        + left. destruct HR as [HR|HR].
          * eexists. split; [left; reflexivity|]. cbn. unfold op_reg in HR.
            destruct (Sumbool.sumbool_of_bool (vlow uplo)) as [L|L]; rewrite !L in *; cbn in HR;
              (eapply v_home; [| | | |exact HR]; unfold vr, vc; rewrite ?L; lia).
          * eexists. split; [right; left; reflexivity|]. cbn. eapply v_home; [| | | |exact HR]; rewrite ?vr_diag, ?vc_diag; lia.
        + eexists. split; [right; left; reflexivity|]. split; [|discriminate]. cbn.
          eapply v_home; [| | | |exact HR]; rewrite ?vr_diag, ?vc_diag; lia.
      - intros k m j Hj Hm. apply kdecl_intro; cbn; intros l HR.
        + left. unfold op_reg in HR. destruct HR as [HR|[HR|HR]].
          * eexists. split; [left; reflexivity|]. cbn. destruct (Sumbool.sumbool_of_bool (vlow uplo)) as [L|L]; rewrite !L in *; cbn in HR;
              (eapply v_home; [| | | |exact HR]; unfold vr, vc; rewrite ?L; lia).
          * eexists. split; [right; left; reflexivity|]. cbn. destruct (Sumbool.sumbool_of_bool (vlow uplo)) as [L|L]; rewrite !L in *; cbn in HR;
              (eapply v_home; [| | | |exact HR]; unfold vr, vc; rewrite ?L; lia).
          * eexists. split; [right; right; left; reflexivity|]. cbn. eapply v_home; [| | | |exact HR]; lia.
        + eexists. split; [right; right; left; reflexivity|]. split; [|discriminate]. cbn.
          eapply v_home; [| | | |exact HR]; lia.
      - intros k j Hj Hk. apply kdecl_intro; cbn; intros l HR.
        + left. destruct HR as [HR|HR].
          * eexists. split; [left; reflexivity|]. cbn. eapply v_home; [| | | |exact HR]; rewrite ?vr_diag, ?vc_diag; try lia;
              unfold vr, vc; destruct (vlow uplo); cbn; try lia.
          * eexists. split; [right; left; reflexivity|]. cbn. eapply v_home; [| | | |exact HR]; lia.
        + eexists. split; [right; left; reflexivity|]. split; [|discriminate]. cbn. eapply v_home; [| | | |exact HR]; lia.
      - intros k Hk.
        apply kdecl_intro; cbn; intros l HR.
        + left. eexists. split; [left; reflexivity|]. cbn. eapply v_home; [| | | |exact HR]; rewrite ?vr_diag, ?vc_diag; lia.
        + eexists. split; [left; reflexivity|]. split; [|discriminate]. cbn. eapply v_home; [| | | |exact HR]; rewrite ?vr_diag, ?vc_diag; lia.
    Qed.
  End Decl.

  (* what the tasks do to the view *)
  Variable M0 : mem F.
  Hypothesis HRP : forall x, nconj x = x -> rp x = x.
  Local Notation cj := (cj uplo).
  Local Notation tk := (tk nb PlasmaNonUnit).

  Let rd_view : forall X M m k a c, rel M0 X M -> 0 <= k <= m -> m < nt ->
    0 <= a < tsz nb n m -> 0 <= c < tsz nb n k ->
    rd M (tp m k) (tl m k) (tm a c) (tn a c) = cj (X (m * nb + a) (k * nb + c)).
  Proof. exact (rd_view2 nb n A SA bA uplo Hu HQ DM DN HSA M0). Qed.

  Lemma htask_step : forall X X' M k j, rel M0 X M -> 0 <= j < k -> k < nt ->
    (forall a c, 0 <= a < nb -> 0 <= c <= a ->
       X' (j * nb + a) (j * nb + c) = nadd (X (j * nb + a) (j * nb + c))
         (nsum (fun l => nmul (nconj (X (k * nb + l) (j * nb + a))) (X (k * nb + l) (j * nb + c))) 0 (tsz nb n k))) ->
    (forall a, 0 <= a < nb -> nconj (X (j * nb + a) (j * nb + a)) = X (j * nb + a) (j * nb + a)) ->
    (forall i c, stored i c -> ~ (i / nb = j /\ c / nb = j /\ c <= i) -> X' i c = X i c) ->
    rel M0 X' (k_fun (htask k j) M).
  Proof.
    intros X X' M k j HR Hj Hk H1 HC H2. pose proof (t_full j k Hj Hk) as TJ.
    assert (RX : forall a, 0 <= a < nb -> nconj (X' (j * nb + a) (j * nb + a)) = X' (j * nb + a) (j * nb + a)).
    { intros a Ha. rewrite H1 by lia. rewrite nconj_add, HC, nconj_sum by assumption. apply f_equal. apply nsum_ext.
      intros l _. rewrite nconj_mul, nconj_conj. ring. }
    cbn [htask omp_rank_k k_fun]. unfold core_rank_k.
    pose proof (fun f => vrel_set nb n A SA bA uplo Hu HQ DM DN HSA M0 X X' M j j (uplo_sel uplo) (fun a c => c <=? a) f HR) as G.
    rewrite vr_diag, vc_diag in G. apply G; clear G; try lia; try assumption.
    - intros a c Ha Hc HS. apply Z.leb_le in HS. rewrite TJ in Ha, Hc.
      assert (V : (if low then
          nadd (nmul n1 (nsum (fun l => nmul (op_rd M PlasmaConjTrans (tp k j) (tl k j) a l) (op_rd M PlasmaNoTrans (tp k j) (tl k j) l c)) 0 (tsz nb n k)))
            (nmul n1 (rd M (tp j j) (tl j j) a c))
        else
          nadd (nmul n1 (nsum (fun l => nmul (op_rd M PlasmaNoTrans (tp k j) (tl k j) c l) (op_rd M PlasmaConjTrans (tp k j) (tl k j) l a)) 0 (tsz nb n k)))
            (nmul n1 (rd M (tp j j) (tl j j) c a)))
        = cj (X' (j * nb + a) (j * nb + c))).
      { rewrite H1 by lia. rewrite (cj_add uplo), (cj_sum uplo).
        rewrite <- (rd_view X M j j a c HR) by lia.
        rewrite (nsum_ext F (fun l => cj _) (fun l => if low
           then nmul (op_rd M PlasmaConjTrans (tp k j) (tl k j) a l) (op_rd M PlasmaNoTrans (tp k j) (tl k j) l c)
           else nmul (op_rd M PlasmaNoTrans (tp k j) (tl k j) c l) (op_rd M PlasmaConjTrans (tp k j) (tl k j) l a))).
        - unfold vr, vc. destruct low; ring.
        - intros l Hl. rewrite (cj_mul uplo).
          pose proof (rd_view X M k j l a HR ltac:(lia) ltac:(lia) ltac:(lia) ltac:(lia)) as E1.
          pose proof (rd_view X M k j l c HR ltac:(lia) ltac:(lia) ltac:(lia) ltac:(lia)) as E2.
          unfold op_rd, vr, vc, TrtriStepProofs.cj in *. cbn [Z.eqb].
          change (PlasmaConjTrans =? PlasmaNoTrans) with false. change (PlasmaConjTrans =? PlasmaTrans) with false.
          change (PlasmaNoTrans =? PlasmaNoTrans) with true. cbv iota.
          destruct low; rewrite E1, E2; rewrite ?nconj_conj; ring. }
      assert (RR : a = c -> rp (cj (X' (j * nb + a) (j * nb + c))) = cj (X' (j * nb + a) (j * nb + c))).
      { intros <-. unfold TrtriStepProofs.cj. destruct low; [|rewrite RX by lia]; apply HRP, RX; lia. }
      unfold rank_t2 in *. revert V RR. unfold TrtriStepProofs.cj. destruct (Sumbool.sumbool_of_bool low) as [L|L]; rewrite !L; intros V RR.
      + change (PlasmaConjTrans =? PlasmaNoTrans) with false. cbv iota zeta.
        rewrite V. destruct (Z.eqb_spec a c); [apply RR; assumption|reflexivity].
      + change (PlasmaNoTrans =? PlasmaNoTrans) with true. cbv iota zeta.
        rewrite V. destruct (Z.eqb_spec c a); [rewrite RR by congruence|]; apply nconj_conj.
    - intros i c Hic HN. apply H2; [assumption|]. intros (E1 & E2 & E3). apply HN. repeat split; auto.
      destruct Hic as (Hi & Hc & _).
      destruct (el_pos i Hi) as (_ & _ & A2). destruct (el_pos c Hc) as (_ & _ & B2). rewrite E1 in A2. rewrite E2 in B2.
      apply Z.leb_le. lia.
  Qed.

  Lemma gtask_step : forall X X' M k m j, rel M0 X M -> 0 <= j < m -> m < k -> k < nt ->
    (forall a c, 0 <= a < nb -> 0 <= c < nb ->
       X' (m * nb + a) (j * nb + c) = nadd (X (m * nb + a) (j * nb + c))
         (nsum (fun l => nmul (nconj (X (k * nb + l) (m * nb + a))) (X (k * nb + l) (j * nb + c))) 0 (tsz nb n k))) ->
    (forall i c, stored i c -> ~ (i / nb = m /\ c / nb = j) -> X' i c = X i c) ->
    rel M0 X' (k_fun (gtask k m j) M).
  Proof.
    intros X X' M k m j HR Hj Hm Hk H1 H2.
    pose proof (t_full m k ltac:(lia) Hk) as TM. pose proof (t_full j k ltac:(lia) Hk) as TJ.
    cbn [gtask omp_zgemm k_fun]. unfold core_zgemm.
    apply (set_all nb n A SA bA uplo Hu HQ DM DN HSA M0 X X' M m j); auto; try lia.
    intros a c Ha Hc. rewrite TJ in Hc. rewrite TM in Ha. rewrite H1 by lia. rewrite (cj_add uplo), (cj_sum uplo).
    rewrite (rd_view X) by (auto; lia).
    rewrite (nsum_ext F _ (fun l => cj (nmul (nconj (X (k * nb + l) (m * nb + a))) (X (k * nb + l) (j * nb + c))))); [ring|].
    intros l Hl. rewrite (cj_mul uplo).
    pose proof (rd_view X M k m l a HR ltac:(lia) ltac:(lia) ltac:(lia) ltac:(lia)) as E1.
    pose proof (rd_view X M k j l c HR ltac:(lia) ltac:(lia) ltac:(lia) ltac:(lia)) as E2.
    unfold op_rd, vr, vc, TrtriStepProofs.cj in *.
    destruct low.
    - change (PlasmaConjTrans =? PlasmaNoTrans) with false. change (PlasmaConjTrans =? PlasmaTrans) with false.
      change (PlasmaNoTrans =? PlasmaNoTrans) with true. cbv iota. rewrite E1, E2. reflexivity.
    - change (PlasmaConjTrans =? PlasmaNoTrans) with false. change (PlasmaConjTrans =? PlasmaTrans) with false.
      change (PlasmaNoTrans =? PlasmaNoTrans) with true. cbv iota. rewrite E1, E2, !nconj_conj. ring.
  Qed.

  Lemma mtask_step : forall X X' M k j, rel M0 X M -> 0 <= j < k -> k < nt ->
    (forall a c, 0 <= a < tsz nb n k -> 0 <= c < nb ->
       X' (k * nb + a) (j * nb + c) = nsum (fun l => nmul (nconj (tk X k l a)) (X (k * nb + l) (j * nb + c))) 0 (tsz nb n k)) ->
    (forall i c, stored i c -> ~ (i / nb = k /\ c / nb = j) -> X' i c = X i c) ->
    rel M0 X' (k_fun (mtask k j) M).
  Proof.
    intros X X' M k j HR Hj Hk H1 H2. pose proof (t_full j k Hj Hk) as TJ.
    cbn [mtask omp_ztrmm k_fun]. unfold core_ztrmm.
    apply (set_all nb n A SA bA uplo Hu HQ DM DN HSA M0 X X' M k j); auto; try lia.
    intros a c Ha Hc. rewrite TJ in Hc. rewrite H1 by lia. rewrite (cj_sum uplo).
    rewrite (nsum_ext F (fun l => cj _) (fun l => if low
           then nmul (op_tri M PlasmaConjTrans uplo PlasmaNonUnit (tp k k) (tl k k) a l) (rd M (tp k j) (tl k j) l c)
           else nmul (rd M (tp k j) (tl k j) c l) (op_tri M PlasmaConjTrans uplo PlasmaNonUnit (tp k k) (tl k k) l a))).
    - unfold vr, vc. destruct low.
      + change (PlasmaLeft =? PlasmaLeft) with true. cbv iota. ring.
      + change (PlasmaRight =? PlasmaLeft) with false. cbv iota. ring.
    - intros l Hl. rewrite (cj_mul uplo).
      pose proof (tri_view nb n A SA bA uplo PlasmaNonUnit Hu HQ DM DN HSA M0 X M k l a HR ltac:(lia) ltac:(lia) ltac:(lia)) as E1.
      pose proof (rd_view X M k j l c HR ltac:(lia) ltac:(lia) ltac:(lia) ltac:(lia)) as E2.
      unfold op_tri, vr, vc, TrtriStepProofs.cj in *.
      change (PlasmaConjTrans =? PlasmaNoTrans) with false. change (PlasmaConjTrans =? PlasmaTrans) with false. cbv iota.
      destruct low; rewrite E1, E2, ?nconj_conj; ring.
  Qed.

  Lemma lauum_view : forall X M k r c, rel M0 X M -> 0 <= k < nt -> 0 <= r < tsz nb n k -> 0 <= c < tsz nb n k ->
    (forall a, 0 <= a < tsz nb n k -> nconj (X (k * nb + a) (k * nb + a)) = X (k * nb + a) (k * nb + a)) ->
    lauum_rd rp M uplo (tp k k) (tl k k) (tm r c) (tn r c) = cj (tk X k r c).
  Proof.
    intros X M k r c HR Hk Hr Hc HC. unfold lauum_rd, TrtriStepProofs.tk. rewrite t_sel.
    assert (E : (tm r c =? tn r c) = (r =? c)) by (unfold vr, vc; destruct low; [reflexivity|apply Z.eqb_sym]).
    rewrite E. change (PlasmaNonUnit =? PlasmaUnit) with false. cbn [andb]. destruct (c <=? r) eqn:L.
    - rewrite (rd_view X) by (auto; lia). destruct (Z.eqb_spec r c) as [<-|]; [|reflexivity].
      unfold TrtriStepProofs.cj. destruct low; [|rewrite HC by assumption]; apply HRP, HC; assumption.
    - symmetry. apply cj_0.
  Qed.

  Lemma ztask_step : forall X X' M k, rel M0 X M -> 0 <= k < nt ->
    (forall a, 0 <= a < tsz nb n k -> nconj (X (k * nb + a) (k * nb + a)) = X (k * nb + a) (k * nb + a)) ->
    (forall a c, 0 <= a < tsz nb n k -> 0 <= c <= a ->
       X' (k * nb + a) (k * nb + c) = nsum (fun l => nmul (nconj (tk X k l a)) (tk X k l c)) 0 (tsz nb n k)) ->
    (forall i j, stored i j -> ~ (i / nb = k /\ j / nb = k /\ j <= i) -> X' i j = X i j) ->
    rel M0 X' (k_fun (ztask k) M).
  Proof.
    intros X X' M k HR Hk HC H1 H2.
    assert (RX : forall a, 0 <= a < tsz nb n k -> nconj (X' (k * nb + a) (k * nb + a)) = X' (k * nb + a) (k * nb + a)).
    { intros a Ha. rewrite H1 by lia. rewrite nconj_sum. apply nsum_ext. intros l _. rewrite nconj_mul, nconj_conj. ring. }
    cbn [ztask omp_zlauum k_fun]. unfold core_zlauum.
    pose proof (fun f => vrel_set nb n A SA bA uplo Hu HQ DM DN HSA M0 X X' M k k (uplo_sel uplo) (fun a c => c <=? a) f HR) as G.
    rewrite vr_diag, vc_diag in G. apply G; clear G; try lia; try assumption.
    - intros a c Ha Hc HS. apply Z.leb_le in HS.
      assert (V : (if low then
          nsum (fun l => nmul (nconj (lauum_rd rp M uplo (tp k k) (tl k k) l a)) (lauum_rd rp M uplo (tp k k) (tl k k) l c)) 0 (tsz nb n k)
        else nsum (fun l => nmul (lauum_rd rp M uplo (tp k k) (tl k k) c l) (nconj (lauum_rd rp M uplo (tp k k) (tl k k) a l))) 0 (tsz nb n k))
        = cj (X' (k * nb + a) (k * nb + c))).
      { rewrite H1 by lia. rewrite (cj_sum uplo).
        rewrite (nsum_ext F (fun l => cj _) (fun l => if low
           then nmul (nconj (lauum_rd rp M uplo (tp k k) (tl k k) l a)) (lauum_rd rp M uplo (tp k k) (tl k k) l c)
           else nmul (lauum_rd rp M uplo (tp k k) (tl k k) c l) (nconj (lauum_rd rp M uplo (tp k k) (tl k k) a l)))).
        - destruct low; reflexivity.
        - intros l Hl. rewrite (cj_mul uplo).
          pose proof (lauum_view X M k l a HR Hk ltac:(lia) ltac:(lia) HC) as E1.
          pose proof (lauum_view X M k l c HR Hk ltac:(lia) ltac:(lia) HC) as E2.
          unfold vr, vc, TrtriStepProofs.cj in *. destruct low; rewrite E1, E2, ?nconj_conj; ring. }
      assert (RR : a = c -> rp (cj (X' (k * nb + a) (k * nb + c))) = cj (X' (k * nb + a) (k * nb + c))).
      { intros <-. unfold TrtriStepProofs.cj. destruct low; [|rewrite RX by lia]; apply HRP, RX; lia. }
      fold (vlow uplo). revert V RR. unfold TrtriStepProofs.cj. destruct (Sumbool.sumbool_of_bool low) as [L|L]; rewrite !L; intros V RR; cbv zeta; rewrite V.
      + destruct (Z.eqb_spec a c); [apply RR; assumption|reflexivity].
      + destruct (Z.eqb_spec c a); [rewrite RR by congruence|]; apply nconj_conj.
    - intros i c Hic HN. apply H2; [assumption|]. intros (E1 & E2 & E3). apply HN. repeat split; auto.
      destruct Hic as (Hi & Hc & _).
      destruct (el_pos i Hi) as (_ & _ & A2). destruct (el_pos c Hc) as (_ & _ & B2). rewrite E1 in A2. rewrite E2 in B2.
      apply Z.leb_le. lia.
  Qed.
End Tasks.
