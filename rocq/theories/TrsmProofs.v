(* plasma_pztrsm *)
From Coq Require Import ZArith List Bool Lia Ring.
From Verif Require Import Base NumModel NumProofs FieldModel TaskModel TaskSpec TaskProofs DescModel DescSpec
  DescDriverModel DescProofs DescPackProofs DescProofs3 DescProofs4 MatModel MatSpec MatProofs RegionProofs
  LayoutModel LayoutProofs LayoutProofs2 DriverModel DriverSpec OpProofs SimProofs OperandProofs
  GemmModel GemmProofs GemmDriverProofs RankProofs RankDriverProofs LasetModel LasetProofs TriModel TriSpec
  TriVecProofs TriProofs TrmmProofs.
Import ListNotations.
Open Scope Z_scope.

Section Trsm.
  Context {F : fields}.
  Add Ring num_ring_trsm : (nring F).
  Variables (nb : Z) (A B : desc) (SA : Z -> Z -> Prop) (bA bB side uplo trans diag : Z) (alpha : F).
  Hypotheses (HA : sq nb A SA) (HB : dn nb B).
  Hypothesis Hu : uplo = PlasmaUpper \/ uplo = PlasmaLower.
  Hypothesis AS : d_m A = d_n A.
  Hypothesis AM : d_n A = if lft side then d_m B else d_n B.
  Let K := d_n A.
  Let nt := ntl nb K.
  Let nq := ntl nb (oth B side).
  Hypothesis HSA : forall i j, 0 <= i < nt -> 0 <= j < nt -> uplo_sel uplo i j = true -> SA i j.
  Let Hb : 0 < nb := sq_pos nb B _ HB.
  Let HK : 0 <= K := go_n A (td_shape _ _ (sq_t nb A _ HA)).
  Let HmB : 0 <= d_m B := go_m B (td_shape _ _ (sq_t nb B _ HB)).
  Let HnB : 0 <= d_n B := go_n B (td_shape _ _ (sq_t nb B _ HB)).

  Definition dv : bool := negb (lft side) && negb (trans =? PlasmaNoTrans).
  Definition la (t : Z) : F := if dv then alpha else if t =? 0 then alpha else n1.
  Definition ga (t : Z) : F := if dv then nopp (finv alpha) else nopp n1.
  Definition gb (t : Z) : F := if dv then n1 else la t.
  Definition sord (t : Z) : Z := if tup side uplo trans then nt - 1 - t else t.

  Definition stask (a : F) (p q : Z) : ktask F :=
    omp_ztrsm side uplo trans diag (tile_mview B (vm side p q)) (tile_nview B (vn side p q)) a
      (tptr bA A p p) (tile_mmain A p) (vtp B bB side p q) (vld B side p q).
  Definition sg (t m q : Z) : ktask F := gtask nb A B bA bB side trans (ga t) (gb t) (sord m) (sord t) q.
  Definition ss (t q : Z) : ktask F := stask (la t) (sord t) q.

  Definition L1 : list (ktask F) :=
    flat_map (fun t => map (ss t) (zrange 0 nq)
       ++ flat_map (fun m => map (sg t m) (zrange 0 nq)) (zrange (t + 1) nt)) (zrange 0 nt).
  Definition L2 : list (ktask F) :=
    flat_map (fun t => map (ss t) (zrange 0 nq)
       ++ flat_map (fun q => map (fun m => sg t m q) (zrange (t + 1) nt)) (zrange 0 nq)) (zrange 0 nt).
  Definition L3 : list (ktask F) :=
    flat_map (fun t => flat_map (fun q => ss t q :: map (fun m => sg t m q) (zrange (t + 1) nt)) (zrange 0 nq))
      (zrange 0 nt).

  Lemma sord_in : forall t, 0 <= t < nt -> 0 <= sord t < nt.
  Proof. intros t Ht. unfold sord. destruct (tup side uplo trans); lia. Qed.
  Lemma sord_inv : forall t, 0 <= t < nt -> sord (sord t) = t.
  Proof. intros t Ht. unfold sord. destruct (tup side uplo trans); lia. Qed.
  Lemma sord_gside : forall t m, 0 <= t -> t < m -> m < nt -> gside side uplo trans (sord m) (sord t).
  Proof. intros t m H1 H2 H3. unfold gside, sord. destruct (tup side uplo trans); lia. Qed.

  Lemma tsz_full' : forall k p, 0 <= k < p -> p < nt -> tsz nb K k = nb.
  Proof.
    intros k p Hk Hp. apply ntl_spec in Hp; auto; [|lia]. unfold tsz. nia.
  Qed.

  Lemma pztrsm_shapes : (lft side = true /\ pztrsm side uplo trans diag alpha bA A bB B = L1) \/
    (lft side = false /\
     (pztrsm side uplo trans diag alpha bA A bB B = L2 \/ pztrsm side uplo trans diag alpha bA A bB B = L3)).
  Proof.
    assert (TF := tsz_full'). assert (EB1 := sq_mb nb B _ HB). assert (EB2 := sq_nb nb B _ HB).
    assert (EM := dn_mt nb B HB). assert (EN := dn_nt nb B HB).
    assert (VS := vsz nb A B side HB AM).
    assert (EK : nt = ntl nb (if lft side then d_m B else d_n B)) by (unfold nt, K; rewrite AM; reflexivity).
    unfold L1, L2, L3, ss, sg, stask, gtask, gb, la, ga, sord, dv, tup, op_up, vtp, vld, vm, vn, op_tile, op_ld, nq, oth, pztrsm in *.
    fold K in VS. fold nt in VS.
    fold (lft side). cbv zeta. rewrite EM, EN, EB1, EB2.
    change (PlasmaNoTrans =? PlasmaNoTrans) with true. cbv iota.
    assert (ED : (uplo =? PlasmaUpper) = true \/ (uplo =? PlasmaUpper) = false) by (destruct (uplo =? PlasmaUpper); auto).
    assert (ET : trans = PlasmaNoTrans \/ (trans =? PlasmaNoTrans) = false).
    { destruct (Z.eqb_spec trans PlasmaNoTrans); auto. }
    assert (EL : lft side = true \/ lft side = false) by (destruct (lft side); auto).
    destruct EL as [EL|EL]; [left|right]; (split; [exact EL|]); rewrite EL in *; cbv iota in VS.
    - destruct ED as [ED|ED]; rewrite ED; (destruct ET as [ET|ET]; [rewrite ET; change (PlasmaNoTrans =? PlasmaNoTrans) with true|rewrite ET]);
      cbn [Bool.eqb negb andb]; rewrite <- EK;
      apply flat_map_ext_in; intros t Ht; apply in_zrange in Ht;
      (apply f_equal2;
        [apply map_ext_in; intros q Hq; apply in_zrange in Hq;
           replace (nt - t - 1) with (nt - 1 - t) by lia; reflexivity
        |apply flat_map_ext_in; intros m Hm; apply in_zrange in Hm;
         apply map_ext_in; intros q Hq; apply in_zrange in Hq;
           replace (nt - t - 1) with (nt - 1 - t) by lia; fold K;
           first [ rewrite (TF t m) by lia; reflexivity
                 | rewrite (VS (nt - 1 - t) q), (VS (nt - 1 - m) q), (TF (nt - 1 - m) (nt - 1 - t)) by lia; reflexivity ] ]).
    - destruct ED as [ED|ED]; rewrite ED; (destruct ET as [ET|ET]; [rewrite ET; change (PlasmaNoTrans =? PlasmaNoTrans) with true|rewrite ET]);
      cbn [Bool.eqb negb andb]; rewrite <- EK;
      [left;
       apply flat_map_ext_in; intros t Ht; apply in_zrange in Ht;
       apply f_equal2;
        [reflexivity
        |apply flat_map_ext_in; intros q Hq; apply in_zrange in Hq;
         apply map_ext_in; intros m Hm; apply in_zrange in Hm;
         fold K; rewrite (TF t m) by lia; reflexivity]
      |right|right|right];
      apply flat_map_ext_in; intros t Ht; apply in_zrange in Ht;
      apply flat_map_ext_in; intros q Hq; apply in_zrange in Hq;
      (apply f_equal2;
        [replace (nt - t - 1) with (nt - 1 - t) by lia; reflexivity
        |apply map_ext_in; intros m Hm; apply in_zrange in Hm;
         replace (nt - t - 1) with (nt - 1 - t) by lia; fold K;
           first [ rewrite (TF t m) by lia; reflexivity
                 | rewrite (VS (nt - 1 - t) q), (VS (nt - 1 - m) q), (TF (nt - 1 - m) (nt - 1 - t)) by lia; reflexivity ] ]).
  Qed.

  Lemma pztrsm_shape : pztrsm side uplo trans diag alpha bA A bB B = L1 \/
    pztrsm side uplo trans diag alpha bA A bB B = L2 \/ pztrsm side uplo trans diag alpha bA A bB B = L3.
  Proof. destruct pztrsm_shapes as [[_ H]|[_ H]]; tauto. Qed.

  Lemma pztrsm_left : lft side = true -> pztrsm side uplo trans diag alpha bA A bB B = L1.
  Proof. intros E. destruct pztrsm_shapes as [[_ H]|[H _]]; congruence. Qed.

  Lemma trsm_forall : forall P : ktask F -> Prop,
    (forall a p q, 0 <= p < nt -> 0 <= q < nq -> P (stask a p q)) ->
    (forall a b p k q, 0 <= p < nt -> 0 <= k < nt -> 0 <= q < nq -> gside side uplo trans p k ->
       P (gtask nb A B bA bB side trans a b p k q)) ->
    Forall P (pztrsm side uplo trans diag alpha bA A bB B).
  Proof.
    intros P H1 H2.
    assert (S1 : forall t q, 0 <= t < nt -> 0 <= q < nq -> P (ss t q)).
    { intros t q Ht Hq. apply H1; auto. apply sord_in. assumption. }
    assert (S2 : forall t m q, 0 <= t < nt -> t + 1 <= m < nt -> 0 <= q < nq -> P (sg t m q)).
    { intros t m q Ht Hm Hq. apply H2; auto; try (apply sord_in; lia). apply sord_gside; lia. }
    destruct pztrsm_shape as [->|[->| ->]]; unfold L1, L2, L3;
      apply Forall_flat_map_intro; intros t Ht; apply in_zrange in Ht.
    - apply Forall_app. split.
      + apply Forall_map, Forall_forall. intros q Hq. apply in_zrange in Hq. auto.
      + apply Forall_flat_map_intro. intros m Hm. apply in_zrange in Hm. apply Forall_map, Forall_forall.
        intros q Hq. apply in_zrange in Hq. auto.
    - apply Forall_app. split.
      + apply Forall_map, Forall_forall. intros q Hq. apply in_zrange in Hq. auto.
      + apply Forall_flat_map_intro. intros q Hq. apply in_zrange in Hq. apply Forall_map, Forall_forall.
        intros m Hm. apply in_zrange in Hm. auto.
    - apply Forall_flat_map_intro. intros q Hq. apply in_zrange in Hq. constructor; [auto|].
      apply Forall_map, Forall_forall. intros m Hm. apply in_zrange in Hm. auto.
  Qed.

  Lemma pztrsm_kgood : Forall kgood (pztrsm side uplo trans diag alpha bA A bB B).
  Proof.
    apply trsm_forall.
    - intros a p q Hp Hq. apply omp_ztrsm_kgood. eapply (ldB nb B HB). apply (tB nb A B); eassumption.
    - intros. apply (gtask_kgood nb A B); auto.
  Qed.

  Lemma pztrsm_kdecl : forall env, In (bA, homeD A SA) env -> In (bB, homeD B (in_tiles B)) env ->
    Forall (kdecl (home_env env)) (pztrsm side uplo trans diag alpha bA A bB B).
  Proof.
    intros env EA EB. apply trsm_forall.
    - intros a p q Hp Hq. apply (dtask_kdecl nb A B SA bA bB side uplo) with (p := p) (q := q); auto.
    - intros. apply (gtask_kdecl nb A B SA bA bB side uplo trans); auto.
  Qed.

  Hypothesis NA : bA <> bB.
  Variable M0 : mem F.
  Let T := TT A bA side uplo trans diag M0.
  Hypothesis TD : forall r, 0 <= r < K -> T r r <> n0.

  Definition Sv (p : Z) (b : Z -> F) (r : Z) : F :=
    solve_along (fun i l => T (p * nb + i) (p * nb + l)) []
      (if tup side uplo trans then zdown (tsz nb K p) else zrange 0 (tsz nb K p))
      (fun l => b (p * nb + l)) (r mod nb).

  Lemma Sv_ok : forall p b r, 0 <= r < K -> r / nb = p ->
    blk nb K (fun l => nmul (T r l) (Sv p b l)) p = b r.
  Proof.
    intros p b r Hr Ep. rewrite (blk_sh nb A B side).
    destruct (posK nb A B HB r Hr) as (P1 & P2 & P3). fold K in P2. rewrite Ep in P1, P2, P3. fold K.
    assert (TZ : forall r l, (if tup side uplo trans then l < r else r < l) -> T r l = n0)
      by (intros; eapply TT_zero; eauto).
    assert (RG : forall i, 0 <= i < tsz nb K p -> 0 <= p * nb + i < K) by (intros i Hi; unfold tsz in Hi; nia).
    assert (MD : forall i, 0 <= i < tsz nb K p -> (p * nb + i) mod nb = i).
    { intros i Hi. rewrite Z.add_comm, Z.mod_add by lia. apply Z.mod_small. unfold tsz in Hi. lia. }
    rewrite (nsum_ext _ _ (fun i => nmul (T (p * nb + r mod nb) (p * nb + i))
       (solve_along (fun i l => T (p * nb + i) (p * nb + l)) []
          (if tup side uplo trans then zdown (tsz nb K p) else zrange 0 (tsz nb K p)) (fun l => b (p * nb + l)) i))).
    2:{ intros i Hi. rewrite <- P3. unfold Sv. rewrite MD by assumption. reflexivity. }
    transitivity (b (p * nb + r mod nb)); [|rewrite <- P3; reflexivity].
    destruct (tup side uplo trans).
    - apply (solve_upper (fun i l => T (p * nb + i) (p * nb + l)) (tsz nb K p) (fun l => b (p * nb + l)) (r mod nb)); auto.
      intros i l Hi Hl. apply TZ. lia.
    - apply (solve_lower (fun i l => T (p * nb + i) (p * nb + l)) (tsz nb K p) (fun l => b (p * nb + l)) (r mod nb)); auto.
      intros i l Hi Hl. apply TZ. lia.
  Qed.

  Lemma stask_step_S : forall a p q c M x, SA p p -> 0 <= p < nt -> 0 <= q < nq -> 0 <= c < oth B side ->
    vstate A B bB side M0 c M x ->
    vstate A B bB side M0 c (k_fun (stask a p q) M) (if c / nb =? q then vts nb Sv p a x else x).
  Proof.
    intros a p q c M x TA Hp Hq Hc HV. unfold stask. cbn [k_fun omp_ztrsm]. unfold core_ztrsm.
    apply (dtask_step nb A B); auto.
    - intros r Hr Ep Eq. unfold vts. rewrite Ep, Z.eqb_refl. fold (lft side).
      pose proof (vsz nb A B side HB AM p q Hp Hq) as VS. fold K in VS.
      destruct (posK nb A B HB r Hr) as (P1 & P2 & P3). fold K in P2. rewrite Ep in P2, P3.
      assert (RB := fun l => rdB nb A B SA bB side HA HB AS AM M0 M x p q c l Hp Hq Hc Eq HV). fold K in RB.
      assert (TE : forall i l, 0 <= i < tsz nb K p -> 0 <= l < tsz nb K p ->
        (if lft side then op_tri M trans uplo diag (tptr bA A p p) (tile_mmain A p) i l
         else op_tri M trans uplo diag (tptr bA A p p) (tile_mmain A p) l i) = T (p * nb + i) (p * nb + l)).
      { intros i l Hi Hl. unfold T, TT. destruct HV as [HF _].
        destruct (lft side); eapply (op_tri_el_S nb A B SA bA bB side); eauto. }
      unfold Sv. unfold tup. destruct (lft side); rewrite VS.
      + apply solve_ext; cbn [app].
        * intros i l Hi Hl. rewrite in_ord in Hi, Hl. auto.
        * intros l Hl. rewrite in_ord in Hl. rewrite RB by assumption. reflexivity.
        * rewrite in_ord. assumption.
      + destruct (op_up uplo trans); cbn [negb]; apply solve_ext; cbn [app];
          try (intros i l Hi Hl; rewrite ?in_zrange, ?in_zdown in Hi, Hl; auto; fail);
          try (intros l Hl; rewrite ?in_zrange, ?in_zdown in Hl; rewrite RB by assumption; reflexivity);
          rewrite ?in_zrange, ?in_zdown; assumption.
    - intros r Hne. unfold vts. replace (r / nb =? p) with false; [reflexivity|]. symmetry. apply Z.eqb_neq. assumption.
  Qed.

  Lemma stask_step : forall a p q c M x, 0 <= p < nt -> 0 <= q < nq -> 0 <= c < oth B side ->
    vstate A B bB side M0 c M x ->
    vstate A B bB side M0 c (k_fun (stask a p q) M) (if c / nb =? q then vts nb Sv p a x else x).
  Proof.
    intros a p q c M x Hp. apply stask_step_S; [|assumption]. apply (diag_S nb A SA uplo); assumption.
  Qed.

  Hypothesis AL : dv = true -> 1 < nt -> alpha <> n0.

  Lemma sord_sum : forall f : Z -> F, nsum (fun s => f (sord s)) 0 nt = nsum f 0 nt.
  Proof.
    intros f. unfold sord. destruct (tup side uplo trans); [|reflexivity].
    apply (nsum_rev f nt). apply Z.div_pos; lia.
  Qed.
  Lemma la_ok : forall t, 0 <= t < nt - 1 ->
    nmul (la (t + 1)) (ga t) = nopp n1 /\ nmul (la (t + 1)) (gb t) = la t.
  Proof.
    intros t Ht. unfold la, ga, gb, la. destruct dv.
    - split; [|ring]. assert (HI := finv_l F alpha (AL eq_refl ltac:(lia))).
      transitivity (nopp (nmul (finv alpha) alpha)); [ring|]. rewrite HI. ring.
    - replace (t + 1 =? 0) with false by (symmetry; apply Z.eqb_neq; lia). split; ring.
  Qed.
  Lemma la_0 : la 0 = alpha.
  Proof. unfold la. rewrite Z.eqb_refl. destruct dv; reflexivity. Qed.

  Lemma only_q : forall c (f : Z -> (Z -> F) -> (Z -> F)) x, 0 <= c / nb < nq ->
    fold_left (fun x q => if c / nb =? q then f q x else x) (zrange 0 nq) x = f (c / nb) x.
  Proof.
    intros c f x Hc. rewrite (fold_left_only _ _ _ _ (c / nb)).
    - rewrite Z.eqb_refl. reflexivity.
    - apply NoDup_zrange.
    - apply in_zrange. assumption.
    - intros q x' _ Hne. replace (c / nb =? q) with false; [reflexivity|]. symmetry. apply Z.eqb_neq. congruence.
  Qed.

  Lemma pztrsm_sims : forall c, 0 <= c < oth B side ->
    sims (vstate A B bB side M0 c) (pztrsm side uplo trans diag alpha bA A bB B)
      (fun x => fold_left (vstep nb K T Sv sord la ga gb) (zrange 0 nt) x).
  Proof.
    intros c Hc.
    assert (Tq : 0 <= c / nb < nq).
    { split; [apply Z.div_pos; lia|]. apply ntl_spec; auto; [unfold oth; destruct (lft side); assumption|apply Z.div_pos; lia|].
      destruct (div_mod_pos c nb Hb). lia. }
    assert (SS : forall t q M x, 0 <= t < nt -> 0 <= q < nq -> vstate A B bB side M0 c M x ->
      vstate A B bB side M0 c (k_fun (ss t q) M) (if c / nb =? q then vts nb Sv (sord t) (la t) x else x)).
    { intros t q M x Ht Hq HV. apply stask_step; auto. apply sord_in. assumption. }
    assert (SG : forall t m q M x, 0 <= t < nt -> t + 1 <= m < nt -> 0 <= q < nq -> vstate A B bB side M0 c M x ->
      vstate A B bB side M0 c (k_fun (sg t m q) M)
        (if c / nb =? q then vge nb K T (sord m) (sord t) (ga t) (gb t) x else x)).
    { intros t m q M x Ht Hm Hq HV. apply (gtask_step nb A B SA bA bB side uplo trans diag); auto; try (apply sord_in; lia).
      apply sord_gside; lia. }
    destruct pztrsm_shape as [->|[->| ->]]; unfold L1, L2, L3;
      apply (sims_flat_map _ _ _ _ (fun t x => vstep nb K T Sv sord la ga gb x t)); intros t Ht; apply in_zrange in Ht.
    - eapply sims_ext; [|apply sims_app;
        [apply sims_map with (f := fun q x => if c / nb =? q then vts nb Sv (sord t) (la t) x else x)
        |apply (sims_flat_map _ _ _ _ (fun m x => fold_left
            (fun x q => if c / nb =? q then vge nb K T (sord m) (sord t) (ga t) (gb t) x else x) (zrange 0 nq) x))]].
      + intros x. cbv beta. unfold vstep.
        rewrite (only_q c (fun _ x => vts nb Sv (sord t) (la t) x)) by assumption.
        apply fold_left_ext_in. intros m x' _.
        apply (only_q c (fun _ x => vge nb K T (sord m) (sord t) (ga t) (gb t) x)). assumption.
      + intros q Hq M x HV. apply in_zrange in Hq. auto.
      + intros m Hm. apply in_zrange in Hm. apply sims_map. intros q Hq M x HV. apply in_zrange in Hq. auto.
    - eapply sims_ext; [|apply sims_app;
        [apply sims_map with (f := fun q x => if c / nb =? q then vts nb Sv (sord t) (la t) x else x)
        |apply (sims_flat_map _ _ _ _ (fun q x => if c / nb =? q then fold_left
            (fun x m => vge nb K T (sord m) (sord t) (ga t) (gb t) x) (zrange (t + 1) nt) x else x))]].
      + intros x. cbv beta. unfold vstep.
        rewrite (only_q c (fun _ x => vts nb Sv (sord t) (la t) x)) by assumption.
        apply (only_q c (fun _ x => fold_left (fun x m => vge nb K T (sord m) (sord t) (ga t) (gb t) x) (zrange (t + 1) nt) x)).
        assumption.
      + intros q Hq M x HV. apply in_zrange in Hq. auto.
      + intros q Hq. apply in_zrange in Hq.
        eapply sims_ext; [|apply sims_map with (f := fun m x => if c / nb =? q then vge nb K T (sord m) (sord t) (ga t) (gb t) x else x)].
        * intros x. cbv beta. destruct (c / nb =? q); [reflexivity|]. apply fold_left_id. reflexivity.
        * intros m Hm M x HV. apply in_zrange in Hm. auto.
    - eapply sims_ext; [|apply (sims_flat_map _ _ _ _ (fun q x => if c / nb =? q then 
            vstep nb K T Sv sord la ga gb x t else x))].
      + intros x. cbv beta. apply (only_q c (fun _ x => vstep nb K T Sv sord la ga gb x t)). assumption.
      + intros q Hq. apply in_zrange in Hq.
        eapply sims_ext; [|apply sims_cons with (f := fun x => if c / nb =? q then vts nb Sv (sord t) (la t) x else x);
          [|apply sims_map with (f := fun m x => if c / nb =? q then vge nb K T (sord m) (sord t) (ga t) (gb t) x else x)]].
        * intros x. cbv beta. unfold vstep. destruct (c / nb =? q); [reflexivity|]. apply fold_left_id. reflexivity.
        * intros M x HV. auto.
        * intros m Hm M x HV. apply in_zrange in Hm. auto.
  Qed.

  Lemma pztrsm_at : forall c, 0 <= c < oth B side ->
    let M' := krun (pztrsm side uplo trans diag alpha bA A bB B) M0 in
    (forall l, fst l <> bB -> M' l = M0 l) /\
    (forall r, 0 <= r < K ->
       nsum (fun l => nmul (T r l) (elV B bB side M' l c)) 0 K = nmul alpha (elV B bB side M0 r c)).
  Proof.
    intros c Hc M'. pose proof (pztrsm_sims c Hc M0 (fun r => elV B bB side M0 r c)) as S. cbv beta in S.
    destruct S as [S1 S2]; [split; reflexivity|]. fold M' in S1, S2. split; [assumption|].
    intros r Hr. rewrite <- la_0.
    rewrite <- (vsolve nb K T Hb HK Sv Sv_ok sord la ga gb sord_in sord_inv sord_sum la_ok (fun r => elV B bB side M0 r c)); auto.
    - apply nsum_ext. intros l Hl. rewrite S2 by assumption. reflexivity.
    - intros r' l H1 H2 HO. eapply TT_zero; eauto. unfold sord in HO.
      destruct (tup side uplo trans).
      + destruct (Z_lt_le_dec l r'); auto. pose proof (Z.div_le_mono r' l nb Hb l0). lia.
      + destruct (Z_lt_le_dec r' l); auto. pose proof (Z.div_le_mono l r' nb Hb l0). lia.
  Qed.
End Trsm.
