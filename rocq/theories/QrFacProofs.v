(* The factoring tasks of one step of the tile QR factorization. *)
From Coq Require Import ZArith List Bool Lia.
From Verif Require Import Base NumModel NumProofs TaskModel TaskSpec TaskProofs DescModel DescSpec DescProofs MatModel MatSpec MatProofs RegionProofs
  LayoutModel LayoutProofs LayoutProofs2 DriverModel OpProofs QrModel QrSpec QrAlgProofs QrStepProofs QrKerProofs QrKerProofs2 QrMulProofs QrLiftProofs QrTaskProofs QrEffProofs.
Import ListNotations.
Open Scope Z_scope.

Section Fac.
  Context {N : numbers}.
  Local Notation vec := (Z -> N).
  Variable lg : N -> list N -> N * N * list N.
  Hypothesis LG : larfg_ok lg.
  Variables nb ib m n : Z.
  Local Notation K := (Z.min m n).
  Hypothesis Hnb : 0 < nb.
  Hypothesis Hib : 0 < ib.
  Variables (T : desc) (bT : Z).
  Hypothesis HT : tok nb ib m K T.
  Variables (A : desc) (bA : Z).
  Hypothesis HA : sq nb A (in_tiles A).
  Hypothesis EmA : d_m A = m.
  Hypothesis EnA : d_n A = n.
  Hypothesis BT : bA <> bT.

  Local Notation good M tau o := (s_good N nb m K ib (el M bA A) (tel T bT M) tau o).

  (* the entries that the steps before (k,q) have eliminated are read as zero *)
  Definition Rv (k q : Z) (El : Z -> Z -> N) (i j : Z) : N :=
    if (j <? i) && ((j / nb <? k) || ((j / nb =? k) && (i / nb <? q))) then n0 else El i j.

  Definition ftask (o : Z * Z) : ktask N :=
    let k := fst o in let q := snd o in
    if q =? k then omp_zgeqrt lg (tsz nb m k) (tsz nb n k) ib (tptr bA A k k) (tile_mmain A k) (tptr bT T k k) (d_mb T)
    else omp_ztsqrt lg (tsz nb m q) (tsz nb n k) ib (tptr bA A k k) (tile_mmain A k) (tptr bA A q k) (tile_mmain A q)
           (tptr bT T q k) (d_mb T).

  Lemma tsz_min : forall k, tsz nb K k = Z.min (tsz nb m k) (tsz nb n k).
  Proof. intros. unfold tsz. lia. Qed.


  Lemma ftask_eff : forall k q M, s_ok nb m K (k, q) ->
    let M1 := k_fun (ftask (k, q)) M in
    exists tau, good M1 tau (k, q) /\
      (forall i j, 0 <= i < m -> 0 <= j < n -> j / nb = k ->
         Rv k (q + 1) (el M1 bA A) i j
         = s_f N nb m K PlasmaConjTrans (el M1 bA A) tau (k, q) (colv N (Rv k q (el M bA A)) j) i) /\
      (forall i j, 0 <= i < m -> 0 <= j < n -> j / nb <> k \/ (i / nb <> q /\ ~ (i / nb = k /\ i <= j)) ->
         el M1 bA A i j = el M bA A i j) /\
      (forall q' k' a c, in_tiles T q' k' -> (q', k') <> (q, k) -> 0 <= a < ib -> 0 <= c < nb ->
         tel T bT M1 q' k' a c = tel T bT M q' k' a c) /\
      (forall l, fst l <> bA -> fst l <> bT -> M1 l = M l).
  Proof.
    intros k q M HO.
    assert (HK : K <= m) by lia.
    pose proof (s_bounds nb m K Hnb HK (k, q) HO) as (_ & _ & B3 & _ & _).
    destruct (ok_dims nb ib m K Hnb HK T HT A HA EmA ltac:(lia) k q HO) as (D1 & D2 & D3 & D4 & D5 & D6 & D7 & D8 & D9).
    assert (HO' := HO). destruct HO' as (O1 & O2 & O3 & O4). cbn [fst snd] in O1, O2, O3, O4.
    rewrite EnA in D4.
    unfold ftask. cbn [fst snd]. destruct (Z.eqb_spec q k) as [->|DQ].
    - clear D1. destruct (ge_fields (N := N) nb m K k) as (E1 & E2 & E3 & E4 & E5 & E6).
      unfold omp_zgeqrt. cbn [k_fun]. unfold core_zgeqrt. rewrite <- (tsz_min k).
      set (A0 := memo (tsz nb m k) (tsz nb n k) (rd M (tptr bA A k k) (tile_mmain A k))).
      pose proof (geqrt_spec N lg LG (tsz nb m k) (tsz nb n k) ib A0 Hib ltac:(lia) ltac:(lia)) as G.
      cbv zeta in G. rewrite <- (tsz_min k) in G. cbv zeta.
      set (R := geqrt_mat lg (tsz nb m k) (tsz nb n k) ib A0) in *.
      match goal with |- context [el ?x bA A] => set (M1 := x) end.
      destruct G as (tau & G1 & G2 & G3).
      assert (FE : forall i j, 0 <= i < m -> 0 <= j < n -> el M1 bA A i j
        = if (i / nb =? k) && (j / nb =? k) then fst R (i mod nb) (j mod nb) else el M bA A i j).
      { intros i j Hi Hj. unfold M1. rewrite (el_other_block A bA) by (cbn; auto).
        assert (TI : in_tiles A (i / nb) (j / nb)) by (apply (tile_of nb A i j HA); lia).
        rewrite (sq_set_sub N nb A (in_tiles A) bA HA) by (auto; rewrite ?EmA, ?EnA; lia).
        destruct (dm nb Hnb i ltac:(lia)) as (I1 & I2 & I3). destruct (dm nb Hnb j ltac:(lia)) as (J1 & J2 & J3).
        destruct (Z.eqb_spec (i / nb) k) as [EI|DI]; cbn [andb]; [|reflexivity].
        destruct (Z.eqb_spec (j / nb) k) as [EJ|DJ]; cbn [andb]; [|reflexivity].
        destruct (Z.ltb_spec (i mod nb) (tsz nb m k)) as [|X]; [|exfalso; unfold tsz in X; nia].
        destruct (Z.ltb_spec (j mod nb) (tsz nb n k)) as [|X]; [|exfalso; unfold tsz in X; nia]. reflexivity. }
      assert (FT : forall q' k' a c, in_tiles T q' k' -> 0 <= a < ib -> 0 <= c < nb -> tel T bT M1 q' k' a c
        = if (q' =? k) && (k' =? k) && (c <? tsz nb K k) && t_sel ib a c then snd R a c else tel T bT M q' k' a c).
      { intros q' k' a c Hin Ha Hc. unfold M1. rewrite (tel_set nb ib m K T bT HT) by auto.
        destruct ((q' =? k) && (k' =? k) && (c <? tsz nb K k) && t_sel ib a c); [reflexivity|].
        apply tel_block. cbn. auto. }
      assert (SV : forall r c, 0 <= r < tsz nb m k -> 0 <= c < tsz nb K k ->
         v_unit (fst R) r c = s_V N nb K (el M1 bA A) (k, k) r c).
      { intros r c Hr Hc. rewrite E6. apply v_unit_cong.
        destruct (dm_eq nb Hnb (k * nb + r) k r) as [Q1 Q2]; [lia|lia|].
        destruct (dm_eq nb Hnb (k * nb + c) k c) as [Q3 Q4]; [lia|lia|].
        unfold tsz in Hr, Hc. rewrite FE by lia. rewrite Q1, Q2, Q3, Q4, !Z.eqb_refl. reflexivity. }
      exists tau. split; [|split; [|split; [|split]]].
      + split; rewrite ?E1, ?E2, ?E5, ?Z.add_0_r.
        * intros c Hc. unfold unit_cond in *. rewrite G1 by assumption. f_equal. apply dot_ext; intros r Hr; unfold colv; apply SV; assumption.
        * eapply all_good_cong; [assumption| | | |exact G3]; auto.
          intros a c Hc Ha. cbn [fst snd]. pose proof (Z.mod_pos_bound c ib Hib). rewrite FT by (auto; lia). rewrite !Z.eqb_refl.
          destruct (Z.ltb_spec c (tsz nb K k)); [|lia]. unfold t_sel. destruct (Z.leb_spec a (c mod ib)); [reflexivity|lia].
      + intros i j Hi Hj EJ. destruct (dm nb Hnb i ltac:(lia)) as (I1 & I2 & I3). destruct (dm nb Hnb j ltac:(lia)) as (J1 & J2 & J3).
        assert (C1 : 0 <= j mod nb < tsz nb n k) by (unfold tsz; nia).
        unfold s_f, lift. rewrite E1, E2, E3, E4, E5, Z.add_0_r.
        destruct (Z.eq_dec (i / nb) k) as [EI|DI].
        * assert (R1 : 0 <= i mod nb < tsz nb m k) by (unfold tsz; nia).
          replace i with (k * nb + i mod nb) at 2 by lia. rewrite put_1 by lia.
          transitivity (hC N (tsz nb m k) (v_unit (fst R)) tau 0 (tsz nb K k) (colv N A0 (j mod nb)) (i mod nb)).
          -- rewrite G2 by lia. unfold Rv. rewrite EI, EJ, !Z.eqb_refl. destruct (Z.ltb_spec k (k + 1)); [|lia].
             rewrite orb_true_r, andb_true_r. rewrite FE by assumption. rewrite EI, EJ, !Z.eqb_refl. cbn [andb].
             destruct (Z.ltb_spec j i), (Z.leb_spec (i mod nb) (j mod nb)); try reflexivity; lia.
          -- unfold hF. change (PlasmaConjTrans =? PlasmaNoTrans) with false. cbv iota. apply hC_cong; auto; try lia.
             intros s Hs. unfold colv, gath. destruct (Z.ltb_spec s (tsz nb m k)); [|lia].
             unfold A0. rewrite memo_in by lia. rewrite (sq_rd nb A (in_tiles A) HA) by (auto; rewrite ?EmA, ?EnA; lia).
             destruct (dm_eq nb Hnb (k * nb + s) k s) as [Q1 Q2]; [lia|lia|].
             unfold Rv. rewrite Q1, EJ, Z.ltb_irrefl, andb_false_r. cbn [orb].
             rewrite andb_false_r. f_equal. lia.
        * rewrite put_0; [|intros X; apply DI; apply (dm_eq nb Hnb i k (i - k * nb)); unfold tsz in X; lia|lia].
          unfold colv, Rv. rewrite FE by assumption. destruct (Z.eqb_spec (i / nb) k); [contradiction|]. cbn [andb].
          rewrite EJ, Z.ltb_irrefl, Z.eqb_refl. cbn [orb andb].
          destruct (Z.ltb_spec j i); cbn [andb]; [|reflexivity].
          destruct (Z.ltb_spec (i / nb) (k + 1)), (Z.ltb_spec (i / nb) k); try reflexivity; try lia; nia.
      + intros i j Hi Hj D. rewrite FE by assumption. destruct (Z.eqb_spec (i / nb) k), (Z.eqb_spec (j / nb) k); cbn [andb]; try reflexivity; lia.
      + intros q' k' a c Hin D Ha Hc. rewrite FT by assumption.
        destruct (Z.eqb_spec q' k), (Z.eqb_spec k' k); cbn [andb]; try reflexivity. exfalso. apply D. congruence.
      + intros l H1 H2. unfold M1. rewrite !mset_out; [reflexivity| |]; intros X; apply reg_block in X; cbn in X; congruence.
    - assert (LQ : k < q) by lia. specialize (D8 LQ).
      assert (EKN : tsz nb n k = tsz nb K k) by (unfold tsz in *; nia).
      destruct (ts_fields (N := N) nb m K k q DQ) as (E1 & E2 & E3 & E4 & E5 & E6).
      unfold omp_ztsqrt. cbn [k_fun]. unfold core_ztsqrt. rewrite EKN.
      set (A10 := memo (tsz nb K k) (tsz nb K k) (fun r c => if r <=? c then rd M (tptr bA A k k) (tile_mmain A k) r c else n0)).
      set (A20 := memo (tsz nb m q) (tsz nb K k) (rd M (tptr bA A q k) (tile_mmain A q))).
      pose proof (tsqrt_spec N lg LG (tsz nb m q) (tsz nb K k) ib A10 A20 Hib ltac:(lia) ltac:(lia)) as G.
      cbv zeta in G.
      destruct (tsqrt_mat lg (tsz nb m q) (tsz nb K k) ib A10 A20) as [[R1 R2] T1]. cbn [fst snd] in G. cbv zeta.
      match goal with |- context [el ?x bA A] => set (M1 := x) end.
      destruct G as (tau & G1 & G2 & G3).
      assert (FE : forall i j, 0 <= i < m -> 0 <= j < n -> el M1 bA A i j
        = if (i / nb =? q) && (j / nb =? k) then R2 (i mod nb) (j mod nb)
          else if (i / nb =? k) && (j / nb =? k) && (i <=? j) then R1 (i mod nb) (j mod nb) else el M bA A i j).
      { intros i j Hi Hj. unfold M1. rewrite (el_other_block A bA) by (cbn; auto).
        assert (TI : in_tiles A (i / nb) (j / nb)) by (apply (tile_of nb A i j HA); lia).
        rewrite (sq_set_sub N nb A (in_tiles A) bA HA) by (auto; rewrite ?EmA, ?EnA; lia).
        rewrite (sq_set_sub N nb A (in_tiles A) bA HA) by (auto; rewrite ?EmA, ?EnA; lia).
        destruct (dm nb Hnb i ltac:(lia)) as (I1 & I2 & I3). destruct (dm nb Hnb j ltac:(lia)) as (J1 & J2 & J3).
        destruct (Z.eqb_spec (j / nb) k) as [EJ|DJ]; [|rewrite !andb_false_r; reflexivity]. rewrite !andb_true_r.
        assert (C1 : 0 <= j mod nb < tsz nb K k) by (rewrite <- EKN; unfold tsz; nia).
        destruct (Z.ltb_spec (j mod nb) (tsz nb K k)) as [|X]; [|lia]. unfold everywhere. rewrite !andb_true_r.
        destruct (Z.eqb_spec (i / nb) q) as [EI|DI]; cbn [andb].
        - destruct (Z.ltb_spec (i mod nb) (tsz nb m q)) as [|X]; [reflexivity|exfalso; unfold tsz in X; nia].
        - destruct (Z.eqb_spec (i / nb) k) as [EI|DI2]; cbn [andb]; [|reflexivity].
          change (uplo_sel PlasmaUpper (i mod nb) (j mod nb)) with (i mod nb <=? j mod nb).
          destruct (Z.leb_spec i j), (Z.leb_spec (i mod nb) (j mod nb)); try (exfalso; lia).
          + destruct (Z.ltb_spec (i mod nb) (tsz nb K k)); [reflexivity|lia].
          + rewrite andb_false_r. reflexivity. }
      assert (FT : forall q' k' a c, in_tiles T q' k' -> 0 <= a < ib -> 0 <= c < nb -> tel T bT M1 q' k' a c
        = if (q' =? q) && (k' =? k) && (c <? tsz nb K k) && t_sel ib a c then T1 a c else tel T bT M q' k' a c).
      { intros q' k' a c Hin Ha Hc. unfold M1. rewrite (tel_set nb ib m K T bT HT) by auto.
        destruct ((q' =? q) && (k' =? k) && (c <? tsz nb K k) && t_sel ib a c); [reflexivity|].
        rewrite !tel_block by (cbn; auto). reflexivity. }
      assert (SV : forall r c, 0 <= r < tsz nb K k + tsz nb m q -> 0 <= c < tsz nb K k ->
         vst N (tsz nb K k) R2 r c = s_V N nb K (el M1 bA A) (k, q) r c).
      { intros r c Hr Hc. rewrite E6. unfold vst, stk. destruct (Z.ltb_spec r (tsz nb K k)); [reflexivity|].
        destruct (dm_eq nb Hnb (q * nb + (r - tsz nb K k)) q (r - tsz nb K k)) as [Q1 Q2]; [lia|lia|].
        destruct (dm_eq nb Hnb (k * nb + c) k c) as [Q3 Q4]; [lia|lia|].
        rewrite FE by (unfold tsz in *; lia). rewrite Q1, Q2, Q3, Q4, !Z.eqb_refl. reflexivity. }
      exists tau. split; [|split; [|split; [|split]]].
      + split; rewrite ?E1, ?E2, ?E5.
        * intros c Hc. unfold unit_cond in *. rewrite G1 by assumption. f_equal. apply dot_ext; intros r Hr; unfold colv; apply SV; assumption.
        * eapply all_good_cong; [assumption| | | |exact G3]; auto.
          intros a c Hc Ha. cbn [fst snd]. pose proof (Z.mod_pos_bound c ib Hib). rewrite FT by (auto; lia). rewrite !Z.eqb_refl.
          destruct (Z.ltb_spec c (tsz nb K k)); [|lia]. unfold t_sel. destruct (Z.leb_spec a (c mod ib)); [reflexivity|lia].
      + intros i j Hi Hj EJ. destruct (dm nb Hnb i ltac:(lia)) as (I1 & I2 & I3). destruct (dm nb Hnb j ltac:(lia)) as (J1 & J2 & J3).
        assert (C1 : 0 <= j mod nb < tsz nb K k) by (rewrite <- EKN; unfold tsz; nia).
        unfold s_f, lift. rewrite E1, E2, E3, E4, E5.
        assert (HX : same N (tsz nb K k + tsz nb m q)
           (hC N (tsz nb K k + tsz nb m q) (vst N (tsz nb K k) R2) tau 0 (tsz nb K k) (colv N (stk N (tsz nb K k) (upper N A10) A20) (j mod nb)))
           (hF N PlasmaConjTrans (tsz nb K k + tsz nb m q) (s_V N nb K (el M1 bA A) (k, q)) tau 0 (tsz nb K k)
             (gath N (k * nb) (tsz nb K k) (q * nb) (colv N (Rv k q (el M bA A)) j)))).
        { unfold hF. change (PlasmaConjTrans =? PlasmaNoTrans) with false. cbv iota. apply hC_cong; auto; try lia.
          intros s Hs. unfold colv, gath, stk. destruct (Z.ltb_spec s (tsz nb K k)).
          - destruct (dm_eq nb Hnb (k * nb + s) k s) as [Q1 Q2]; [lia|lia|].
            unfold Rv, upper. rewrite Q1, EJ, Z.eqb_refl. destruct (Z.ltb_spec k q); [|lia]. rewrite orb_true_r, andb_true_r.
            destruct (Z.leb_spec s (j mod nb)), (Z.ltb_spec j (k * nb + s)); try reflexivity; try lia.
            unfold A10. rewrite memo_in by lia. destruct (Z.leb_spec s (j mod nb)); [|lia].
            rewrite (sq_rd nb A (in_tiles A) HA) by (auto; rewrite ?EmA, ?EnA; lia). f_equal. lia.
          - destruct (dm_eq nb Hnb (q * nb + (s - tsz nb K k)) q (s - tsz nb K k)) as [Q1 Q2]; [lia|lia|].
            unfold Rv. rewrite Q1, EJ, !Z.ltb_irrefl, andb_false_r. cbn [orb]. rewrite andb_false_r.
            unfold A20. rewrite memo_in by lia.
            rewrite (sq_rd nb A (in_tiles A) HA) by (auto; rewrite ?EmA, ?EnA; lia). f_equal. lia. }
        destruct (Z.eq_dec (i / nb) q) as [EI|DI].
        * assert (R4 : 0 <= i mod nb < tsz nb m q) by (unfold tsz; nia).
          replace i with (q * nb + i mod nb) at 2 by lia.
          rewrite put_2 by (try lia; rewrite E1, E3, E4 in B3; assumption).
          rewrite <- HX by lia. rewrite G2 by lia. rewrite stk_hi by lia.
          unfold Rv. rewrite EI, EJ, Z.eqb_refl. destruct (Z.ltb_spec q (q + 1)); [|lia]. rewrite orb_true_r, andb_true_r.
          destruct (Z.ltb_spec j i); [reflexivity|nia].
        * destruct (Z.eq_dec (i / nb) k) as [EK|DK].
          -- destruct (Z_lt_dec (i mod nb) (tsz nb K k)) as [L|L].
             ++ replace i with (k * nb + i mod nb) at 2 by lia. rewrite put_1 by lia.
                rewrite <- HX by lia. rewrite G2 by lia. rewrite stk_lo by lia. unfold upper.
                unfold Rv. rewrite EK, EJ, Z.eqb_refl. destruct (Z.ltb_spec k (q + 1)); [|lia]. rewrite orb_true_r, andb_true_r.
                rewrite FE by assumption. rewrite EK, EJ, Z.eqb_refl. destruct (Z.eqb_spec k q); [lia|]. cbn [andb].
                destruct (Z.ltb_spec j i), (Z.leb_spec (i mod nb) (j mod nb)); try reflexivity; try lia.
                destruct (Z.leb_spec i j); [reflexivity|lia].
             ++ rewrite put_0; [|nia|].
                ** unfold colv, Rv. rewrite EK, EJ, Z.eqb_refl. destruct (Z.ltb_spec k (q + 1)); [|lia]. destruct (Z.ltb_spec k q); [|lia].
                   rewrite orb_true_r, andb_true_r. destruct (Z.ltb_spec j i); [reflexivity|lia].
                ** intros X. apply DI. apply (dm_eq nb Hnb i q (i - q * nb)); unfold tsz in X; lia.
          -- rewrite put_0.
             ++ unfold colv, Rv. rewrite FE by assumption.
                destruct (Z.eqb_spec (i / nb) q); [contradiction|]. destruct (Z.eqb_spec (i / nb) k); [contradiction|]. cbn [andb].
                destruct (Z.ltb_spec (i / nb) (q + 1)), (Z.ltb_spec (i / nb) q); try reflexivity; lia.
             ++ intros X. apply DK. apply (dm_eq nb Hnb i k (i - k * nb)); unfold tsz in X; lia.
             ++ intros X. apply DI. apply (dm_eq nb Hnb i q (i - q * nb)); unfold tsz in X; lia.
      + intros i j Hi Hj D. rewrite FE by assumption.
        destruct (Z.eqb_spec (j / nb) k); [|rewrite !andb_false_r; reflexivity].
        destruct (Z.eqb_spec (i / nb) q); cbn [andb]; [lia|].
        destruct (Z.eqb_spec (i / nb) k); cbn [andb]; [|reflexivity].
        destruct (Z.leb_spec i j); [lia|reflexivity].
      + intros q' k' a c Hin D Ha Hc. rewrite FT by assumption.
        destruct (Z.eqb_spec q' q), (Z.eqb_spec k' k); cbn [andb]; try reflexivity. exfalso. apply D. congruence.
      + intros l H1 H2. unfold M1. rewrite !mset_out; [reflexivity| | |]; intros X; apply reg_block in X; cbn in X; congruence.
  Qed.
End Fac.
