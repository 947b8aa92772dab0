(* plasma_pztbsm *)
From Coq Require Import ZArith List Bool Lia Ring.
From Verif Require Import Base NumModel NumProofs FieldModel TaskModel TaskSpec TaskProofs DescModel DescSpec
  DescDriverModel DescProofs DescPackProofs DescProofs3 DescProofs4 MatModel MatSpec MatProofs RegionProofs
  LayoutModel LayoutProofs LayoutProofs2 DriverModel DriverSpec OpProofs SimProofs OperandProofs
  GemmModel GemmProofs GemmDriverProofs RankProofs RankDriverProofs LasetModel LasetProofs TriModel TriSpec
  TriVecProofs TriProofs TrmmProofs TrsmProofs BandModel BandSpec BandProofs BandLayoutProofs BandRegionProofs
  PbtrsModel PbtrsVecProofs.
Import ListNotations.
Open Scope Z_scope.

Section Tbsm.
  Context {F : fields}.
  Add Ring num_ring_tbsm : (nring F).
  Variables (nb n kd : Z) (A B : desc) (bA bB uplo trans diag : Z).
  Hypothesis HT : pb_ok A uplo nb n kd.
  Hypothesis HB : dn nb B.
  Hypothesis Bm : d_m B = n.
  Let Hu : uplo = PlasmaUpper \/ uplo = PlasmaLower := pk_u _ _ _ _ _ HT.
  Let HA : sq nb A (in_tb A) := tb_sq A uplo nb n kd HT.
  Let Hb : 0 < nb := sq_pos nb A _ HA.
  Let An : d_n A = n := pk_n _ _ _ _ _ HT.
  Let AS : d_m A = d_n A.
  Proof. rewrite (pk_m _ _ _ _ _ HT), An. reflexivity. Qed.
  Let AM : d_n A = if lft PlasmaLeft then d_m B else d_n B.
  Proof. cbn. congruence. Qed.
  Let Hn : 0 <= n.
  Proof. pose proof (pk_kd _ _ _ _ _ HT). lia. Qed.
  Let kt := ktl nb kd.
  Let KB : 0 <= kt /\ kd <= kt * nb <= kd + nb - 1 := ktl_bounds A uplo nb n kd HT.
  Let nt := ntl nb n.
  Let nq := ntl nb (d_n B).

  Definition bst (p q : Z) : ktask F := stask A B bA bB PlasmaLeft uplo trans diag n1 p q.
  Definition bgt (p k q : Z) : ktask F := gtask nb A B bA bB PlasmaLeft trans (nopp n1) n1 p k q.
  Definition lazy_solve : bool := negb (uplo =? PlasmaUpper) && negb (trans =? PlasmaNoTrans).
  Definition bord (t : Z) : Z := if op_up uplo trans then nt - 1 - t else t.
  Definition bms (p : Z) : list Z :=
    if op_up uplo trans then zrange (Z.max 0 (p - kt)) p else zrange (p + 1) (Z.min nt (p + kt + 1)).
  Definition bhi (p : Z) : Z := Z.min nt (p + kt + 1).

  Definition RL : list (ktask F) :=
    flat_map (fun t => map (bst (bord t)) (zrange 0 nq)
       ++ flat_map (fun m => map (bgt m (bord t)) (zrange 0 nq)) (bms (bord t))) (zrange 0 nt).
  Definition LL : list (ktask F) :=
    flat_map (fun t => flat_map (fun m => map (bgt (nt - 1 - t) m) (zrange 0 nq)) (zrange (nt - 1 - t + 1) (bhi (nt - 1 - t)))
       ++ map (bst (nt - 1 - t)) (zrange 0 nq)) (zrange 0 nt).

  Lemma bfull : forall k p, 0 <= k < p -> p < nt -> tsz nb n k = nb.
  Proof. intros k p Hk Hp. apply ntl_spec in Hp; auto; [|lia]. unfold tsz. nia. Qed.

  Lemma bmv : forall p, 0 <= p < nt -> 0 < nq -> tile_mview B p = tsz nb n p.
  Proof.
    intros p Hp Hq. pose proof (vsz nb A B PlasmaLeft HB AM p 0) as V. cbn in V. rewrite An in V. apply V; lia.
  Qed.

  Lemma pztbsm_eq : pztbsm PlasmaLeft uplo trans diag n1 bA A bB B = if lazy_solve then LL else RL.
  Proof.
    assert (TF := bfull). assert (MV := bmv).
    assert (EB : d_mb B = nb) by (apply (sq_mb nb B _ HB)).
    assert (EM : d_mt B = nt) by (rewrite (dn_mt nb B HB), Bm; reflexivity).
    assert (EN : d_nt B = nq) by (apply (dn_nt nb B HB)).
    assert (EA : d_mt A = nt) by (apply (tb_mt A uplo nb n kd HT)).
    assert (EL := pk_klt _ _ _ _ _ HT). assert (EU := pk_kut _ _ _ _ _ HT). fold (ktl nb kd) in EL, EU. fold kt in EL, EU.
    unfold pztbsm, lazy_solve, RL, LL, bord, bms, bhi, op_up. rewrite Z.eqb_refl. cbv zeta.
    rewrite EM, EN, EA, EB, EL, EU.
    assert (ED : (uplo =? PlasmaUpper) = true \/ (uplo =? PlasmaUpper) = false) by (destruct (uplo =? PlasmaUpper); auto).
    assert (ET : trans = PlasmaNoTrans \/ (trans =? PlasmaNoTrans) = false).
    { destruct (Z.eqb_spec trans PlasmaNoTrans); auto. }
    destruct ED as [ED|ED]; rewrite ED;
      (destruct ET as [ET|ET]; [pose proof ET as ET0; rewrite ET; change (PlasmaNoTrans =? PlasmaNoTrans) with true|pose proof ET as ET0; rewrite ET]);
      cbn [negb andb Bool.eqb]; cbv iota;
      apply flat_map_ext_in; intros t Ht; apply in_zrange in Ht;
      assert (EIF : (if t =? 0 then n1 else n1) = (n1 : F)) by (destruct (t =? 0); reflexivity); rewrite EIF;
      (apply f_equal2).
    - apply map_ext_in. intros q Hq. replace (nt - t - 1) with (nt - 1 - t) by lia. unfold bst. rewrite ET0. reflexivity.
    - replace (nt - t - 1 - (1 + kt) + 1) with (nt - 1 - t - kt) by lia. replace (nt - t - 1) with (nt - 1 - t) by lia.
      apply flat_map_ext_in. intros m Hm. apply in_zrange in Hm. apply map_ext_in. intros q Hq. apply in_zrange in Hq.
      unfold bgt, gtask. cbn. rewrite ET0, An. rewrite !MV by lia. rewrite (TF m (nt - 1 - t)) by lia. reflexivity.
    - apply map_ext_in. intros q Hq. reflexivity.
    - replace (t + (1 + kt)) with (t + kt + 1) by lia.
      apply flat_map_ext_in. intros m Hm. apply in_zrange in Hm. apply map_ext_in. intros q Hq. apply in_zrange in Hq.
      unfold bgt, gtask, op_tile, op_ld. rewrite ET0. cbn. rewrite An. rewrite (TF t m) by lia. reflexivity.
    - apply map_ext_in. intros q Hq. unfold bst. rewrite ET0. reflexivity.
    - replace (Z.min (t + (1 + kt)) nt) with (Z.min nt (t + kt + 1)) by lia.
      apply flat_map_ext_in. intros m Hm. apply in_zrange in Hm. apply map_ext_in. intros q Hq. apply in_zrange in Hq.
      unfold bgt, gtask, op_tile, op_ld. rewrite ET0. cbn. rewrite An. rewrite (TF t m) by lia. reflexivity.
    - replace (Z.min (nt - t - 1 + (1 + kt)) nt) with (Z.min nt (nt - 1 - t + kt + 1)) by lia.
      replace (nt - t - 1) with (nt - 1 - t) by lia.
      apply flat_map_ext_in. intros m Hm. apply in_zrange in Hm. apply map_ext_in. intros q Hq. apply in_zrange in Hq.
      unfold bgt, gtask, op_tile, op_ld. rewrite ET0. cbn. rewrite An. rewrite !MV by lia. reflexivity.
    - apply map_ext_in. intros q Hq. replace (nt - t - 1) with (nt - 1 - t) by lia. reflexivity.
  Qed.

  (* tiles a task may use *)
  Lemma bord_in : forall t, 0 <= t < nt -> 0 <= bord t < nt.
  Proof. intros t Ht. unfold bord. destruct (op_up uplo trans); lia. Qed.
  Lemma bord_inv : forall t, 0 <= t < nt -> bord (bord t) = t.
  Proof. intros t Ht. unfold bord. destruct (op_up uplo trans); lia. Qed.
  Lemma bord_sum : forall f : Z -> F, nsum (fun s => f (bord s)) 0 nt = nsum f 0 nt.
  Proof.
    intros f. unfold bord. destruct (op_up uplo trans); [|reflexivity].
    apply (nsum_rev f nt). apply Z.div_pos; lia.
  Qed.

  Definition bside (p k : Z) : Prop := 0 <= p < nt /\ 0 <= k < nt /\ gside PlasmaLeft uplo trans p k /\ -kt <= p - k <= kt.

  Lemma bms_side : forall p m, 0 <= p < nt -> In m (bms p) -> bside m p.
  Proof.
    intros p m Hp Hm. unfold bms in Hm. unfold bside, gside, tup. change (lft PlasmaLeft) with true. cbv iota.
    destruct (op_up uplo trans); apply in_zrange in Hm; lia.
  Qed.
  Lemma bhi_side : forall p m, lazy_solve = true -> 0 <= p < nt -> p + 1 <= m < bhi p -> bside p m.
  Proof.
    intros p m LZ Hp Hm. unfold bhi in Hm. unfold bside, gside, tup, op_up, lazy_solve in *. change (lft PlasmaLeft) with true. cbv iota.
    destruct (trans =? PlasmaNoTrans); [rewrite andb_false_r in LZ; discriminate|].
    destruct (uplo =? PlasmaUpper); [discriminate|]. cbn. lia.
  Qed.
  Lemma bside_S : forall p k, bside p k -> op_S trans (in_tb A) p k.
  Proof.
    intros p k (Hp & Hk & HG & HD). unfold op_S, gside, tup, op_up in *. change (lft PlasmaLeft) with true in HG. cbv iota in HG.
    destruct (trans =? PlasmaNoTrans); apply (in_tb_spec A uplo nb n kd HT); fold nt kt;
      destruct (uplo =? PlasmaUpper); cbn in HG; lia.
  Qed.
  Lemma bdiag_S : forall p, 0 <= p < nt -> in_tb A p p.
  Proof. intros p Hp. apply (in_tb_spec A uplo nb n kd HT). fold nt kt. destruct (uplo =? PlasmaUpper); lia. Qed.

  Lemma tbsm_forall : forall P : ktask F -> Prop,
    (forall p q, 0 <= p < nt -> 0 <= q < nq -> P (bst p q)) ->
    (forall p k q, bside p k -> 0 <= q < nq -> P (bgt p k q)) ->
    Forall P (pztbsm PlasmaLeft uplo trans diag n1 bA A bB B).
  Proof.
    intros P H1 H2. rewrite pztbsm_eq. destruct lazy_solve eqn:LZ; unfold LL, RL;
      apply Forall_flat_map_intro; intros t Ht; apply in_zrange in Ht; apply Forall_app; split.
    - apply Forall_flat_map_intro. intros m Hm. apply in_zrange in Hm. apply Forall_map, Forall_forall.
      intros q Hq. apply in_zrange in Hq. apply H2; [|assumption]. apply bhi_side; [assumption|lia|assumption].
    - apply Forall_map, Forall_forall. intros q Hq. apply in_zrange in Hq. apply H1; lia.
    - apply Forall_map, Forall_forall. intros q Hq. apply in_zrange in Hq. apply H1; [apply bord_in; lia|assumption].
    - apply Forall_flat_map_intro. intros m Hm. apply Forall_map, Forall_forall.
      intros q Hq. apply in_zrange in Hq. apply H2; [|assumption]. apply bms_side; [apply bord_in; lia|assumption].
  Qed.

  Lemma pztbsm_kgood : Forall kgood (pztbsm (F := F) PlasmaLeft uplo trans diag n1 bA A bB B).
  Proof.
    apply tbsm_forall.
    - intros p q Hp Hq. apply omp_ztrsm_kgood. eapply (ldB nb B HB). apply (tB nb A B PlasmaLeft HB AM p q); [rewrite An; assumption|assumption].
    - intros p k q (Hp & _) Hq. apply (gtask_kgood nb A B); auto. rewrite An. assumption.
  Qed.

  Lemma pztbsm_kdecl : forall env, In (bA, homeD A (in_tb A)) env -> In (bB, homeD B (in_tiles B)) env ->
    Forall (kdecl (home_env env)) (pztbsm (F := F) PlasmaLeft uplo trans diag n1 bA A bB B).
  Proof.
    intros env EA EB. apply tbsm_forall.
    - intros p q Hp Hq. apply (dtask_kdecl_S nb A B (in_tb A) bA bB PlasmaLeft uplo) with (p := p) (q := q); auto.
      + rewrite An. assumption.
      + apply bdiag_S. assumption.
    - intros p k q Hs Hq. pose proof (bside_S p k Hs) as GS. destruct Hs as (Hp & Hk & HG & _).
      apply (gtask_kdecl_S nb A B (in_tb A) bA bB PlasmaLeft trans); auto; rewrite An; assumption.
  Qed.

  Lemma pztbsm_writes : forall (k : ktask F) l, In k (pztbsm PlasmaLeft uplo trans diag n1 bA A bB B) ->
    k_writes k l -> fst l = bB.
  Proof.
    intros k l Hk. revert k Hk. apply (proj1 (Forall_forall (fun k => k_writes k l -> fst l = bB) _)). apply tbsm_forall.
    - intros p q _ _ W. cbn in W. apply reg_block in W. exact W.
    - intros p k q _ _ W. unfold bgt, gtask in W. cbn in W. apply reg_block in W. exact W.
  Qed.

  Hypothesis NA : bA <> bB.
  Variable M0 : mem F.
  Let T0 := TT A bA PlasmaLeft uplo trans diag M0.
  Hypothesis TD : forall r, 0 <= r < n -> T0 r r <> n0.

  (* the matrix, zero outside the tile band *)
  Definition BT (r l : Z) : F := if (-kt <=? r / nb - l / nb) && (r / nb - l / nb <=? kt) then T0 r l else n0.
  Let SV := Sv nb A bA PlasmaLeft uplo trans diag M0.

  Lemma BT_in : forall r l, -kt <= r / nb - l / nb <= kt -> BT r l = T0 r l.
  Proof.
    intros r l H. unfold BT. replace (-kt <=? r / nb - l / nb) with true by (symmetry; apply Z.leb_le; lia).
    replace (r / nb - l / nb <=? kt) with true by (symmetry; apply Z.leb_le; lia). reflexivity.
  Qed.
  Lemma BT_out : forall r l, ~ (-kt <= r / nb - l / nb <= kt) -> BT r l = n0.
  Proof.
    intros r l H. unfold BT. destruct (Z.leb_spec (-kt) (r / nb - l / nb)), (Z.leb_spec (r / nb - l / nb) kt); cbn; try reflexivity. lia.
  Qed.

  Lemma SV_ok : forall p b r, 0 <= r < n -> r / nb = p -> blk nb n (fun l => nmul (BT r l) (SV p b l)) p = b r.
  Proof.
    intros p b r Hr Ep. pose proof (Sv_ok nb A B bA PlasmaLeft uplo trans diag HB Hu AS AM M0) as S. rewrite An in S.
    specialize (S TD p b r Hr Ep). rewrite <- S. apply blk_ext; [assumption|assumption| |rewrite <- Ep; apply Z.div_pos; lia].
    intros l El _ _. rewrite BT_in by lia. reflexivity.
  Qed.

  Lemma vge_BT : forall p k a b x r, -kt <= p - k <= kt -> 0 <= k ->
    vge nb n T0 p k a b x r = vge nb n BT p k a b x r.
  Proof.
    intros p k a b x r H Hk. unfold vge. destruct (Z.eqb_spec (r / nb) p) as [E|E]; [|reflexivity].
    apply f_equal2; [|reflexivity]. apply f_equal. apply blk_ext; [assumption|assumption| |assumption].
    intros l El _ _. rewrite BT_in by lia. reflexivity.
  Qed.

  Let vst := vstate A B bB PlasmaLeft M0.
  Lemma vst_ext : forall c M x y, (forall r, 0 <= r < n -> x r = y r) -> vst c M x -> vst c M y.
  Proof.
    intros c M x y E [H1 H2]. split; [assumption|]. rewrite An in *. intros r Hr. rewrite H2 by assumption. auto.
  Qed.

  Lemma bgt_step : forall p k q c M x, bside p k -> 0 <= q < nq -> 0 <= c < d_n B -> vst c M x ->
    vst c (k_fun (bgt p k q) M) (if c / nb =? q then vge nb n BT p k (nopp n1) n1 x else x).
  Proof.
    intros p k q c M x Hs Hq Hc HV. pose proof (bside_S p k Hs) as GS. destruct Hs as (Hp & Hk & HG & HD).
    pose proof (gtask_step_S nb A B (in_tb A) bA bB PlasmaLeft uplo trans diag HA HB Hu AS AM NA M0
      (nopp n1) n1 p k q c M x) as G. rewrite An in G.
    specialize (G Hp Hk Hq HG GS Hc HV). fold T0 in G. fold vst in G. eapply vst_ext; [|exact G].
    intros r Hr. destruct (c / nb =? q); [|reflexivity]. apply vge_BT; lia.
  Qed.
  Lemma bst_step : forall p q c M x, 0 <= p < nt -> 0 <= q < nq -> 0 <= c < d_n B -> vst c M x ->
    vst c (k_fun (bst p q) M) (if c / nb =? q then vts nb SV p n1 x else x).
  Proof.
    intros p q c M x Hp Hq Hc HV.
    apply (stask_step_S nb A B (in_tb A) bA bB PlasmaLeft uplo trans diag HA HB Hu AS AM NA M0 n1 p q c M x); auto.
    - apply bdiag_S. assumption.
    - rewrite An. assumption.
  Qed.

  Lemma bonly : forall c (f : (Z -> F) -> (Z -> F)) x, 0 <= c / nb < nq ->
    fold_left (fun x q => if c / nb =? q then f x else x) (zrange 0 nq) x = f x.
  Proof.
    intros c f x Hc. rewrite (fold_left_only _ _ _ _ (c / nb)).
    - rewrite Z.eqb_refl. reflexivity.
    - apply NoDup_zrange.
    - apply in_zrange. assumption.
    - intros q x' _ Hne. replace (c / nb =? q) with false; [reflexivity|]. symmetry. apply Z.eqb_neq. congruence.
  Qed.

  Lemma pztbsm_sims : forall c, 0 <= c < d_n B ->
    sims (vst c) (pztbsm PlasmaLeft uplo trans diag n1 bA A bB B)
      (fun x => fold_left (if lazy_solve then lstep nb n BT SV bhi else rstep nb n BT SV bord bms) (zrange 0 nt) x).
  Proof.
    intros c Hc.
    assert (Tq : 0 <= c / nb < nq).
    { split; [apply Z.div_pos; lia|]. apply ntl_spec; auto; [lia|apply Z.div_pos; lia|].
      destruct (div_mod_pos c nb Hb). lia. }
    rewrite pztbsm_eq. destruct lazy_solve eqn:LZ; unfold LL, RL.
    - apply (sims_flat_map _ _ _ _ (fun t x => lstep nb n BT SV bhi x t)). intros t Ht. apply in_zrange in Ht.
      eapply sims_ext; [|apply sims_app;
        [apply (sims_flat_map _ _ _ _ (fun m x => fold_left
            (fun x q => if c / nb =? q then vge nb n BT (nt - 1 - t) m (nopp n1) n1 x else x) (zrange 0 nq) x))
        |apply sims_map with (f := fun q x => if c / nb =? q then vts nb SV (nt - 1 - t) n1 x else x)]].
      + intros x. cbv beta. unfold lstep. fold nt.
        rewrite (bonly c (vts nb SV (nt - 1 - t) n1)) by assumption. apply f_equal.
        apply fold_left_ext_in. intros m x' _. apply (bonly c (vge nb n BT (nt - 1 - t) m (nopp n1) n1)). assumption.
      + intros m Hm. apply in_zrange in Hm. apply sims_map. intros q Hq M x HV. apply in_zrange in Hq.
        apply bgt_step; auto. apply bhi_side; [assumption|lia|assumption].
      + intros q Hq M x HV. apply in_zrange in Hq. apply bst_step; auto. lia.
    - apply (sims_flat_map _ _ _ _ (fun t x => rstep nb n BT SV bord bms x t)). intros t Ht. apply in_zrange in Ht.
      pose proof (bord_in t Ht) as Ot.
      eapply sims_ext; [|apply sims_app;
        [apply sims_map with (f := fun q x => if c / nb =? q then vts nb SV (bord t) n1 x else x)
        |apply (sims_flat_map _ _ _ _ (fun m x => fold_left
            (fun x q => if c / nb =? q then vge nb n BT m (bord t) (nopp n1) n1 x else x) (zrange 0 nq) x))]].
      + intros x. cbv beta. unfold rstep.
        rewrite (bonly c (vts nb SV (bord t) n1)) by assumption.
        apply fold_left_ext_in. intros m x' _. apply (bonly c (vge nb n BT m (bord t) (nopp n1) n1)). assumption.
      + intros q Hq M x HV. apply in_zrange in Hq. apply bst_step; auto.
      + intros m Hm. apply sims_map. intros q Hq M x HV. apply in_zrange in Hq.
        apply bgt_step; auto. apply bms_side; assumption.
  Qed.

  Lemma BT_zero : forall r l, (if op_up uplo trans then l < r else r < l) -> BT r l = n0.
  Proof.
    intros r l H. unfold BT. destruct (_ && _); [|reflexivity]. unfold T0. eapply TT_zero; eauto.
  Qed.

  Lemma pztbsm_at : forall c, 0 <= c < d_n B ->
    let M' := krun (pztbsm PlasmaLeft uplo trans diag n1 bA A bB B) M0 in
    (forall l, fst l <> bB -> M' l = M0 l) /\
    (forall r, 0 <= r < n -> nsum (fun l => nmul (BT r l) (el M' bB B l c)) 0 n = el M0 bB B r c).
  Proof.
    intros c Hc M'. pose proof (pztbsm_sims c Hc M0 (fun r => el M0 bB B r c)) as S. cbv beta in S.
    destruct S as [S1 S2]; [split; reflexivity|]. fold M' in S1, S2. split; [assumption|].
    rewrite An in S2. unfold elV in S2. change (lft PlasmaLeft) with true in S2. cbv iota in S2.
    intros r Hr. rewrite (nsum_ext _ _ (fun l => nmul (BT r l) (fold_left (if lazy_solve then lstep nb n BT SV bhi else rstep nb n BT SV bord bms) (zrange 0 nt) (fun r => el M0 bB B r c) l))).
    2:{ intros l Hl. rewrite S2 by assumption. reflexivity. }
    clear S1 S2 M'. destruct lazy_solve eqn:LZ.
    - assert (OU : op_up uplo trans = true).
      { unfold op_up, lazy_solve in *. destruct (uplo =? PlasmaUpper); [discriminate|]. destruct (trans =? PlasmaNoTrans); [discriminate|]. reflexivity. }
      refine (lsolve nb n BT Hb Hn SV SV_ok bhi _ _ _ (fun r => el M0 bB B r c) r Hr).
      + intros p Hp. unfold bhi. fold nt in Hp |- *. lia.
      + intros r' l H1 H2 H3. apply BT_zero. rewrite OU.
        destruct (Z_lt_le_dec l r') as [L|L]; [assumption|]. pose proof (Z.div_le_mono r' l nb Hb L). lia.
      + intros r' l H1 H2 H3. apply BT_out. unfold bhi in H3. pose proof (tile_in nb n Hb Hn l H2) as Hp. fold nt in Hp. lia.
    - refine (rsolve nb n BT Hb Hn SV SV_ok bord _ _ _ bms _ _ _ (fun r => el M0 bB B r c) r _ Hr).
      + exact bord_in.
      + exact bord_inv.
      + exact bord_sum.
      + intros p. unfold bms. destruct (op_up uplo trans); apply NoDup_zrange.
      + intros p m Hp Hm. unfold bms, bord in *. destruct (op_up uplo trans); apply in_zrange in Hm; lia.
      + intros r' l H1 H2 H3 HI. destruct (tile_in nb n Hb Hn l H2) as [L1 L2]. destruct (tile_in nb n Hb Hn r' H1) as [R1 R2]. fold nt in L2, R2.
        apply BT_out. intros H. apply HI. unfold bms, bord in *. destruct (op_up uplo trans); apply in_zrange; lia.
      + intros r' l H1 H2 HO. apply BT_zero. unfold bord in HO. destruct (op_up uplo trans).
        * destruct (Z_lt_le_dec l r') as [L|L]; [assumption|]. pose proof (Z.div_le_mono r' l nb Hb L). lia.
        * destruct (Z_lt_le_dec r' l) as [L|L]; [assumption|]. pose proof (Z.div_le_mono l r' nb Hb L). lia.
  Qed.
End Tbsm.
