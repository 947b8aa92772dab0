(* The tasks of plasma_pzgetri_aux: X*L = U^-1 solved from the last tile column to the first. *)
From Coq Require Import ZArith List Bool Lia Ring.
From Verif Require Import Base NumModel NumProofs FieldModel TaskModel TaskSpec TaskProofs DescModel DescSpec
  DescDriverModel DescProofs MatModel MatSpec MatProofs RegionProofs LayoutModel OpProofs SimProofs
  GemmModel GemmProofs LasetModel EwModel TriModel TriSpec TriVecProofs TriProofs QrEffProofs GetrfSpec TrtriProofs GetriModel.
Import ListNotations.
Open Scope Z_scope.

(* the strictly lower triangle of a square matrix, addressed from its second row *)
Lemma mset_shift1 : forall V (p : loc) ld s (v : V) M l, 0 <= s <= ld ->
  mset (fst p, snd p + 1 + 0 * ld) ld (s - 1) (s - 1) (uplo_sel PlasmaLower) (fun _ _ => v) M l
  = mset p ld s s (fun r c => c <? r) (fun _ _ => v) M l.
Proof.
  intros V p ld s v M l Hs.
  destruct (reg_dec p ld s s (fun r c => c <? r) l) as [R|R]; [lia| |].
  - destruct (mset_val V p ld s s (fun r c => c <? r) (fun _ _ => v) M l) as (i & j & _ & _ & _ & _ & ->); [lia|assumption|].
    destruct R as (r & c & Hr & Hc & E & ->). apply Z.ltb_lt in E.
    replace (at_ p ld r c) with (at_ (fst p, snd p + 1 + 0 * ld) ld (r - 1) c)
      by (unfold at_; cbn [fst snd]; apply f_equal; ring).
    rewrite mset_in by lia. unfold uplo_sel. change (PlasmaLower =? PlasmaUpper) with false. rewrite Z.eqb_refl.
    replace (c <=? r - 1) with true by (symmetry; apply Z.leb_le; lia). reflexivity.
  - rewrite (mset_out V p) by assumption. apply mset_out. intros (r & c & Hr & Hc & E & ->). apply R.
    exists (r + 1), c. unfold uplo_sel in E. change (PlasmaLower =? PlasmaUpper) with false in E. rewrite Z.eqb_refl in E.
    apply Z.leb_le in E. split; [lia|]. split; [lia|]. split; [apply Z.ltb_lt; lia|].
    unfold at_. cbn [fst snd]. apply f_equal. ring.
Qed.

Section Aux.
  Context {F : fields}.
  Add Ring num_ring_getri_aux : (nring F).
  Variables (nb n : Z) (A W : desc) (bA bW : Z).
  Hypotheses (HA : dn nb A) (HW : dn nb W).
  Hypotheses (Am : d_m A = n) (An : d_n A = n) (Wm : d_m W = n) (Wn : d_n W = nb).
  Hypothesis NW : bA <> bW.
  Hypothesis N10 : @n1 F <> n0.
  Let nt := ntl nb n.

  Lemma x_pos : 0 < nb.
  Proof. apply (sq_pos nb A _ HA). Qed.
  Lemma x_n : 0 <= n.
  Proof. rewrite <- Am. apply (go_m A). apply (td_shape _ _ (sq_t nb A _ HA)). Qed.
  Lemma x_mt : d_mt A = nt.
  Proof. rewrite (dn_mt nb A HA), Am. reflexivity. Qed.
  Lemma x_nt : d_nt A = nt.
  Proof. rewrite (dn_nt nb A HA), An. reflexivity. Qed.
  Lemma x_A : forall m k, 0 <= m < nt -> 0 <= k < nt -> in_tiles A m k.
  Proof. intros m k Hm Hk. unfold in_tiles. rewrite x_mt, x_nt. auto. Qed.
  Lemma x_W : forall m, 0 <= m < nt -> in_tiles W m 0.
  Proof.
    intros m Hm. apply (dn_in nb W); [assumption|]. rewrite Wm, Wn. pose proof x_pos.
    split; [lia|]. split; [|lia]. apply (ntl_spec nb n m); unfold nt in Hm; try lia. apply x_n.
  Qed.
  Lemma x_sz : forall k, 0 <= k < nt -> 0 < tsz nb n k <= nb.
  Proof. intros k Hk. rewrite <- Am. apply (sq_in_m nb A _ HA k k). apply x_A; assumption. Qed.
  Lemma x_mv : forall k, 0 <= k < nt -> tile_mview A k = tsz nb n k.
  Proof. intros k Hk. rewrite <- Am. apply (sq_mv nb A _ HA k k). apply x_A; assumption. Qed.
  Lemma x_nv : forall k, 0 <= k < nt -> tile_nview A k = tsz nb n k.
  Proof. intros k Hk. rewrite <- An. apply (sq_nv nb A _ HA k k). apply x_A; assumption. Qed.
  Lemma x_wmv : forall k, 0 <= k < nt -> tile_mview W k = tsz nb n k.
  Proof. intros k Hk. rewrite <- Wm. apply (sq_mv nb W _ HW k 0). apply x_W; assumption. Qed.
  Lemma x_wnv : 0 < nt -> tile_nview W 0 = nb.
  Proof.
    intros Hk. rewrite (sq_nv nb W _ HW 0 0); [|apply x_W; lia]. rewrite Wn. unfold tsz. lia.
  Qed.
  Lemma x_ld : forall k, 0 <= k < nt -> tsz nb n k <= tile_mmain A k.
  Proof. intros k Hk. rewrite <- Am. apply (sq_ld nb A _ HA k k). apply x_A; assumption. Qed.
  Lemma x_wld : forall k, 0 <= k < nt -> tsz nb n k <= tile_mmain W k.
  Proof. intros k Hk. rewrite <- Wm. apply (sq_ld nb W _ HW k 0). apply x_W; assumption. Qed.
  Lemma x_el : forall i, 0 <= i < n -> 0 <= i / nb < nt /\ 0 <= i mod nb < tsz nb n (i / nb) /\ i = i / nb * nb + i mod nb.
  Proof.
    intros i Hi. destruct (pos_tile nb A _ HA i n Hi) as (P1 & P2 & P3). split; [|auto].
    split; [assumption|]. apply (ntl_spec nb n (i / nb)); try lia; apply x_pos.
  Qed.
  Lemma x_in : forall k r, 0 <= k < nt -> 0 <= r < tsz nb n k -> 0 <= k * nb + r < n /\ (k * nb + r) / nb = k /\ (k * nb + r) mod nb = r.
  Proof.
    intros k r Hk Hr. pose proof x_pos. split; [unfold tsz in Hr; nia|].
    assert (r < nb) by (unfold tsz in Hr; lia). split.
    - rewrite Z.add_comm, Z.div_add, Z.div_small by lia. lia.
    - rewrite Z.add_comm, Z.mod_add by lia. apply Z.mod_small. lia.
  Qed.
  Lemma x_full : forall k p, 0 <= k < p -> p < nt -> tsz nb n k = nb.
  Proof.
    intros k p Hk Hp. pose proof x_pos. assert (p * nb < n) by (apply (ntl_spec nb n p); try lia; apply x_n).
    unfold tsz. nia.
  Qed.

  Lemma x_lt : forall i j, i / nb < j / nb -> i < j.
  Proof.
    intros i j H. destruct (Z.lt_ge_cases i j) as [|G]; [assumption|]. exfalso. pose proof x_pos.
    assert (j / nb <= i / nb) by (apply Z.div_le_mono; lia). lia.
  Qed.

  Variable M0 : mem F.
  Definition stt (X Y : Z -> Z -> F) (M : mem F) : Prop :=
    (forall i j, 0 <= i < n -> 0 <= j < n -> el M bA A i j = X i j) /\
    (forall i c, 0 <= i < n -> 0 <= c < nb -> el M bW W i c = Y i c) /\
    (forall l, fst l <> bA -> fst l <> bW -> M l = M0 l).

  Lemma stt_ext : forall X Y X' Y' M,
    (forall i j, 0 <= i < n -> 0 <= j < n -> X i j = X' i j) ->
    (forall i c, 0 <= i < n -> 0 <= c < nb -> Y i c = Y' i c) -> stt X Y M -> stt X' Y' M.
  Proof.
    intros X Y X' Y' M HX HY (H1 & H2 & H3). split; [|split; [|assumption]].
    - intros. rewrite H1 by assumption. auto.
    - intros. rewrite H2 by assumption. auto.
  Qed.

  Lemma stt_meq : forall X Y M M', (forall l, M l = M' l) -> stt X Y M -> stt X Y M'.
  Proof.
    intros X Y M M' E (H1 & H2 & H3). split; [|split].
    - intros i j Hi Hj. unfold el. rewrite <- E. apply H1; assumption.
    - intros i c Hi Hc. unfold el. rewrite <- E. apply H2; assumption.
    - intros l L1 L2. rewrite <- E. apply H3; assumption.
  Qed.

  Lemma stt_rdA : forall X Y M m k r c, stt X Y M -> 0 <= m < nt -> 0 <= k < nt ->
    0 <= r < tsz nb n m -> 0 <= c < tsz nb n k ->
    rd M (tptr bA A m k) (tile_mmain A m) r c = X (m * nb + r) (k * nb + c).
  Proof.
    intros X Y M m k r c (H1 & _) Hm Hk Hr Hc.
    rewrite (sq_rd nb A _ HA) by (rewrite ?Am, ?An; auto using x_A).
    apply H1; eapply x_in; eauto.
  Qed.
  Lemma stt_rdW : forall X Y M m r c, stt X Y M -> 0 <= m < nt -> 0 <= r < tsz nb n m -> 0 <= c < nb ->
    rd M (tptr bW W m 0) (tile_mmain W m) r c = Y (m * nb + r) c.
  Proof.
    intros X Y M m r c (_ & H2 & _) Hm Hr Hc.
    rewrite (sq_rd nb W _ HW); [|apply x_W; assumption|rewrite Wm; assumption|].
    - change (0 * nb + c) with c. apply H2; [|assumption]. eapply x_in; eauto.
    - rewrite Wn. unfold tsz. lia.
  Qed.

  Lemma stt_setA : forall X Y M m k P f g, stt X Y M -> 0 <= m < nt -> 0 <= k < nt ->
    (forall r c, 0 <= r < tsz nb n m -> 0 <= c < tsz nb n k -> P r c = true -> f r c = g (m * nb + r) (k * nb + c)) ->
    stt (fun i j => if (i / nb =? m) && (j / nb =? k) && P (i mod nb) (j mod nb) then g i j else X i j) Y
      (mset (tptr bA A m k) (tile_mmain A m) (tile_mview A m) (tile_nview A k) P f M).
  Proof.
    intros X Y M m k P f g (H1 & H2 & H3) Hm Hk HG. split; [|split].
    - intros i j Hi Hj. destruct (x_el i Hi) as (I1 & I2 & I3). destruct (x_el j Hj) as (J1 & J2 & J3).
      rewrite (sq_set nb A _ HA) by (rewrite ?Am, ?An; auto using x_A).
      destruct (Z.eqb_spec (i / nb) m) as [Ei|Ei]; cbn [andb]; [|apply H1; assumption].
      destruct (Z.eqb_spec (j / nb) k) as [Ej|Ej]; cbn [andb]; [|apply H1; assumption].
      destruct (P (i mod nb) (j mod nb)) eqn:EP; [|apply H1; assumption].
      rewrite HG; [|rewrite <- Ei; assumption|rewrite <- Ej; assumption|assumption].
      rewrite <- Ei, <- Ej, <- I3, <- J3. reflexivity.
    - intros i c Hi Hc. unfold el. rewrite mset_out; [apply H2; assumption|]. intros R. apply reg_block in R. cbn in R. congruence.
    - intros l L1 L2. rewrite mset_out; [auto|]. intros R. apply reg_block in R. cbn in R. congruence.
  Qed.
  Lemma stt_setW : forall X Y M m k P f g, stt X Y M -> 0 <= m < nt -> 0 <= k < nt ->
    (forall r c, 0 <= r < tsz nb n m -> 0 <= c < tsz nb n k -> P r c = true -> f r c = g (m * nb + r) c) ->
    stt X (fun i c => if (i / nb =? m) && (c <? tsz nb n k) && P (i mod nb) c then g i c else Y i c)
      (mset (tptr bW W m 0) (tile_mmain W m) (tile_mview A m) (tile_nview A k) P f M).
  Proof.
    intros X Y M m k P f g (H1 & H2 & H3) Hm Hk HG. split; [|split].
    - intros i c Hi Hc. unfold el. rewrite mset_out; [apply H1; assumption|]. intros R. apply reg_block in R. cbn in R. congruence.
    - intros i c Hi Hc. pose proof x_pos as XP. destruct (x_el i Hi) as (I1 & I2 & I3).
      unfold el. rewrite (mset_corner F (tptr bW W m 0) (tile_mmain W m) (tile_mview W m) (tile_nview W 0)).
      2:{ rewrite x_mv, x_wmv by assumption. lia. }
      2:{ rewrite x_nv, x_wnv by (try assumption; lia). apply x_sz. assumption. }
      fold (el (mset (tptr bW W m 0) (tile_mmain W m) (tile_mview W m) (tile_nview W 0)
        (fun i j => (i <? tile_mview A m) && (j <? tile_nview A k) && P i j) f M) bW W i c).
      assert (C0 : c / nb = 0) by (apply Z.div_small; assumption).
      assert (CM : c mod nb = c) by (apply Z.mod_small; assumption).
      rewrite (sq_set nb W _ HW); [|apply x_W; assumption|rewrite C0; apply x_W; assumption|rewrite Wm; assumption|rewrite Wn; assumption].
      rewrite C0, CM, Z.eqb_refl, andb_true_r, (x_mv m Hm), (x_nv k Hk).
      destruct (Z.eqb_spec (i / nb) m) as [Ei|Ei]; cbn [andb]; [|apply H2; assumption].
      replace (i mod nb <? tsz nb n m) with true by (symmetry; apply Z.ltb_lt; rewrite <- Ei; lia). cbn [andb].
      destruct (Z.ltb_spec c (tsz nb n k)) as [LC|LC]; cbn [andb]; [|apply H2; assumption].
      destruct (P (i mod nb) c) eqn:EP; [|apply H2; assumption].
      rewrite HG; [|rewrite <- Ei; assumption|lia|assumption]. rewrite <- Ei, <- I3. reflexivity.
    - intros l L1 L2. rewrite mset_out; [auto|]. intros R. apply reg_block in R. cbn in R. congruence.
  Qed.

  (* the tasks *)
  Definition cpk (k : Z) : ktask F :=
    omp_zlacpy_t PlasmaLower PlasmaNoTrans (tile_mview A k) (tile_nview A k) (tptr bA A k k) (tile_mmain A k)
      (tptr bW W k 0) (tile_mmain W k).
  Definition zk (k : Z) : ktask F :=
    omp_zlaset PlasmaLower (tile_mmain A k) (tile_mmain A k) 1 0 (tile_nview A k - 1) (tile_nview A k - 1) n0 n0 (tptr bA A k k).
  Definition cpm (k m : Z) : ktask F :=
    omp_zlacpy_t PlasmaGeneral PlasmaNoTrans (tile_mview A m) (tile_nview A k) (tptr bA A m k) (tile_mmain A m)
      (tptr bW W m 0) (tile_mmain W m).
  Definition zm (k m : Z) : ktask F :=
    omp_zlaset PlasmaGeneral (tile_mmain A m) (tile_mmain A k) 0 0 (tile_mview A m) (tile_nview A k) n0 n0 (tptr bA A m k).
  Definition gt (k m p : Z) : ktask F :=
    omp_zgemm PlasmaNoTrans PlasmaNoTrans (tile_mview A m) (tile_nview A k) (tile_nview A p)
      (nopp n1) (tptr bA A m p) (tile_mmain A m) (tptr bW W p 0) (tile_mmain W p)
      n1 (tptr bA A m k) (tile_mmain A m).
  Definition ts (k m : Z) : ktask F :=
    omp_ztrsm PlasmaRight PlasmaLower PlasmaNoTrans PlasmaUnit (tile_mview A m) (tile_nview A k)
      n1 (tptr bW W k 0) (tile_mmain W k) (tptr bA A m k) (tile_mmain A m).

  Definition copies (k : Z) : list (ktask F) :=
    [cpk k; zk k] ++ flat_map (fun m => [cpm k m; zm k m]) (zrange (k + 1) nt).
  Definition updates (k : Z) : list (ktask F) :=
    flat_map (fun m => map (gt k m) (zrange (k + 1) nt)) (zrange 0 nt).
  Definition solves (k : Z) : list (ktask F) := map (ts k) (zrange 0 nt).
  Definition astep (k : Z) : list (ktask F) := copies k ++ updates k ++ solves k.

  Lemma pzgetri_aux_eq : pzgetri_aux bA A bW W = flat_map astep (zdown nt).
  Proof.
    unfold pzgetri_aux. rewrite x_mt, x_nt. apply flat_map_ext. intros k.
    unfold astep, copies. rewrite <- app_assoc. reflexivity.
  Qed.

  (* the copies *)
  Lemma cpk_step : forall k X Y M, 0 <= k < nt -> stt X Y M ->
    stt X (fun i c => if (i / nb =? k) && (c <? tsz nb n k) && (c <=? i mod nb) then X i (k * nb + c) else Y i c)
      (k_fun (cpk k) M).
  Proof.
    intros k X Y M Hk HS. pose proof (x_sz k Hk).
    apply (stt_setW X Y M k k (fun r c => c <=? r) (fun i j => rd M (tptr bA A k k) (tile_mmain A k) i j) (fun i c => X i (k * nb + c)));
      [assumption|assumption|assumption|].
    intros r c Hr Hc _. apply (stt_rdA X Y); assumption.
  Qed.
  Lemma zk_step : forall k X Y M, 0 <= k < nt -> stt X Y M ->
    stt (fun i j => if (i / nb =? k) && (j / nb =? k) && (j mod nb <? i mod nb) then n0 else X i j) Y (k_fun (zk k) M).
  Proof.
    intros k X Y M Hk HS. pose proof (x_sz k Hk) as SZ. pose proof (x_ld k Hk) as LD.
    eapply stt_meq; [|apply (stt_setA X Y M k k (fun r c => c <? r) (fun _ _ => n0) (fun _ _ => n0)); auto].
    intros l. cbn [k_fun zk omp_zlaset]. unfold core_zlaset.
    rewrite (x_mv k Hk), (x_nv k Hk). symmetry.
    rewrite <- (mset_shift1 F (tptr bA A k k) (tile_mmain A k) (tsz nb n k) n0 M l) by lia.
    unfold mset. cbv zeta. destruct (_ && _); [|reflexivity]. destruct (_ =? _); reflexivity.
  Qed.
  Lemma cpm_step : forall k m X Y M, 0 <= k < nt -> 0 <= m < nt -> stt X Y M ->
    stt X (fun i c => if (i / nb =? m) && (c <? tsz nb n k) then X i (k * nb + c) else Y i c) (k_fun (cpm k m) M).
  Proof.
    intros k m X Y M Hk Hm HS.
    eapply stt_ext; [reflexivity| |apply (stt_setW X Y M m k (uplo_sel PlasmaGeneral)
      (fun i j => rd M (tptr bA A m k) (tile_mmain A m) i j) (fun i c => X i (k * nb + c))); auto].
    - intros i c Hi Hc. cbv beta. change (uplo_sel PlasmaGeneral (i mod nb) c) with true. rewrite andb_true_r. reflexivity.
    - intros r c Hr Hc _. apply (stt_rdA X Y); assumption.
  Qed.
  Lemma zm_step : forall k m X Y M, 0 <= k < nt -> 0 <= m < nt -> stt X Y M ->
    stt (fun i j => if (i / nb =? m) && (j / nb =? k) then n0 else X i j) Y (k_fun (zm k m) M).
  Proof.
    intros k m X Y M Hk Hm HS.
    eapply stt_meq; [|eapply stt_ext; [|reflexivity|apply (stt_setA X Y M m k (uplo_sel PlasmaGeneral) (fun _ _ => n0) (fun _ _ => n0)); auto]].
    - intros l. cbn [k_fun zm omp_zlaset]. unfold core_zlaset.
      replace (fst (tptr bA A m k), snd (tptr bA A m k) + 0 + 0 * tile_mmain A m) with (tptr bA A m k).
      + unfold mset. cbv zeta. destruct (_ && _); [|reflexivity]. destruct (_ =? _); reflexivity.
      + unfold tptr. cbn [fst snd]. apply f_equal. ring.
    - intros i j Hi Hj. cbv beta. change (uplo_sel PlasmaGeneral (i mod nb) (j mod nb)) with true. rewrite andb_true_r. reflexivity.
  Qed.

  Definition X1 (k : Z) (X : Z -> Z -> F) (i j : Z) : F := if (j / nb =? k) && (j <? i) then n0 else X i j.
  Definition Y1 (k : Z) (X Y : Z -> Z -> F) (i c : Z) : F := if (k * nb + c <=? i) && (c <? tsz nb n k) then X i (k * nb + c) else Y i c.

  Lemma copies_step : forall k X Y M, 0 <= k < nt -> stt X Y M -> stt (X1 k X) (Y1 k X Y) (krun (copies k) M).
  Proof.
    intros k X Y M Hk HS. pose proof x_pos as XP. unfold copies. rewrite krun_app.
    assert (H : forall t, k + 1 <= t -> t <= nt ->
      stt (fun i j => if (j / nb =? k) && (j <? i) && (i / nb <? t) then n0 else X i j)
          (fun i c => if (k * nb + c <=? i) && (c <? tsz nb n k) && (i / nb <? t) then X i (k * nb + c) else Y i c)
          (krun (flat_map (fun m => [cpm k m; zm k m]) (zrange (k + 1) t)) (krun [cpk k; zk k] M))).
    { intros t. pattern t. apply (zrange_ind_hi _ (k + 1)); clear t.
      - intros t H1 H2 _. assert (t = k + 1) as -> by lia. rewrite zrange_nil by lia. cbn [flat_map krun fold_left].
        eapply stt_ext; [| |apply zk_step; [assumption|]; apply cpk_step; [assumption|]; exact HS].
        + intros i j Hi Hj. cbv beta. destruct (x_el i Hi) as (I1 & I2 & I3). destruct (x_el j Hj) as (J1 & J2 & J3).
          destruct (Z.eqb_spec (j / nb) k) as [Ej|Ej]; cbn [andb]; [|rewrite andb_false_r; reflexivity]. rewrite andb_true_r.
          destruct (Z.eqb_spec (i / nb) k) as [Ei|Ei]; cbn [andb].
          * replace (i / nb <? k + 1) with true by (symmetry; apply Z.ltb_lt; lia). rewrite andb_true_r.
            replace (j mod nb <? i mod nb) with (j <? i); [reflexivity|].
            destruct (Z.ltb_spec j i); symmetry; [apply Z.ltb_lt|apply Z.ltb_ge]; nia.
          * destruct (Z.ltb_spec (i / nb) (k + 1)); [|rewrite andb_false_r; reflexivity].
            replace (j <? i) with false; [reflexivity|]. symmetry. apply Z.ltb_ge. apply Z.lt_le_incl, x_lt. lia.
        + intros i c Hi Hc. cbv beta. destruct (x_el i Hi) as (I1 & I2 & I3).
          destruct (Z.ltb_spec c (tsz nb n k)); cbn [andb]; [|rewrite !andb_false_r; reflexivity]. rewrite !andb_true_r.
          assert (KC : (k * nb + c) / nb = k) by (rewrite Z.add_comm, Z.div_add, Z.div_small by lia; lia).
          destruct (Z.eqb_spec (i / nb) k) as [Ei|Ei]; cbn [andb].
          * replace (i / nb <? k + 1) with true by (symmetry; apply Z.ltb_lt; lia). rewrite andb_true_r.
            replace (c <=? i mod nb) with (k * nb + c <=? i); [reflexivity|].
            destruct (Z.leb_spec (k * nb + c) i); symmetry; [apply Z.leb_le|apply Z.leb_gt]; nia.
          * destruct (Z.ltb_spec (i / nb) (k + 1)); [|rewrite andb_false_r; reflexivity].
            replace (k * nb + c <=? i) with false; [reflexivity|]. symmetry. apply Z.leb_gt. apply x_lt. rewrite KC. lia.
      - intros t H1 IH H2 H3. rewrite zrange_snoc by lia. rewrite flat_map_app, krun_app. cbn [flat_map]. rewrite app_nil_r.
        cbn [krun fold_left]. specialize (IH ltac:(lia) ltac:(lia)).
        eapply stt_ext; [| |apply zm_step; [assumption|lia|]; apply cpm_step; [assumption|lia|]; exact IH].
        + intros i j Hi Hj. cbv beta. destruct (x_el i Hi) as (I1 & I2 & I3). destruct (x_el j Hj) as (J1 & J2 & J3).
          destruct (Z.eqb_spec (j / nb) k) as [Ej|Ej]; cbn [andb]; [|rewrite andb_false_r; reflexivity]. rewrite andb_true_r.
          destruct (Z.eqb_spec (i / nb) t) as [Ei|Ei].
          * replace (j <? i) with true by (symmetry; apply Z.ltb_lt; apply x_lt; lia).
            replace (i / nb <? t + 1) with true by (symmetry; apply Z.ltb_lt; lia). reflexivity.
          * replace (i / nb <? t + 1) with (i / nb <? t); [reflexivity|].
            destruct (Z.ltb_spec (i / nb) t); symmetry; [apply Z.ltb_lt|apply Z.ltb_ge]; lia.
        + intros i c Hi Hc. cbv beta. destruct (x_el i Hi) as (I1 & I2 & I3).
          destruct (Z.ltb_spec c (tsz nb n k)) as [LC|LC]; cbn [andb]; [|rewrite !andb_false_r; reflexivity]. rewrite !andb_true_r.
          assert (KC : (k * nb + c) / nb = k) by (rewrite Z.add_comm, Z.div_add, Z.div_small by lia; lia).
          destruct (Z.eqb_spec (i / nb) t) as [Ei|Ei].
          * replace (k * nb + c <=? i) with true by (symmetry; apply Z.leb_le; apply Z.lt_le_incl, x_lt; lia).
            replace (i / nb <? t + 1) with true by (symmetry; apply Z.ltb_lt; lia). cbn [andb].
            replace (i / nb <? t) with false by (symmetry; apply Z.ltb_ge; lia). rewrite andb_false_r. reflexivity.
          * replace (i / nb <? t + 1) with (i / nb <? t); [reflexivity|].
            destruct (Z.ltb_spec (i / nb) t); symmetry; [apply Z.ltb_lt|apply Z.ltb_ge]; lia. }
    eapply stt_ext; [| |apply (H nt); lia].
    - intros i j Hi Hj. unfold X1. destruct (x_el i Hi) as (I1 & _).
      replace (i / nb <? nt) with true by (symmetry; apply Z.ltb_lt; lia). rewrite andb_true_r. reflexivity.
    - intros i c Hi Hc. unfold Y1. destruct (x_el i Hi) as (I1 & _).
      replace (i / nb <? nt) with true by (symmetry; apply Z.ltb_lt; lia). rewrite andb_true_r. reflexivity.
  Qed.

  (* the updates *)
  Lemma gt_step : forall k m p X Y M, 0 <= k < nt -> 0 <= m < nt -> 0 <= p < nt -> stt X Y M ->
    stt (fun i j => if (i / nb =? m) && (j / nb =? k)
           then nadd (nopp (nsum (fun l => nmul (X i l) (Y l (j mod nb))) (p * nb) (p * nb + tsz nb n p))) (X i j) else X i j) Y
      (k_fun (gt k m p) M).
  Proof.
    intros k m p X Y M Hk Hm Hp HS. pose proof (x_sz k Hk) as SK.
    eapply stt_ext; [|reflexivity|apply (stt_setA X Y M m k everywhere
      (fun r c => nadd (nmul (nopp n1) (nsum (fun l => nmul (op_rd M PlasmaNoTrans (tptr bA A m p) (tile_mmain A m) r l)
         (op_rd M PlasmaNoTrans (tptr bW W p 0) (tile_mmain W p) l c)) 0 (tile_nview A p)))
         (nmul n1 (rd M (tptr bA A m k) (tile_mmain A m) r c)))
      (fun i j => nadd (nopp (nsum (fun l => nmul (X i l) (Y l (j mod nb))) (p * nb) (p * nb + tsz nb n p))) (X i j))); auto].
    - intros i j Hi Hj. cbv beta. change (everywhere (i mod nb) (j mod nb)) with true. rewrite andb_true_r. reflexivity.
    - intros r c Hr Hc _. cbv beta. rewrite (stt_rdA X Y) by assumption. rewrite (x_nv p Hp).
      rewrite (nsum_ext _ _ (fun l => nmul (X (m * nb + r) (p * nb + l)) (Y (p * nb + l) c))).
      + rewrite nsum_off0. destruct (x_in k c Hk Hc) as (_ & _ & ->). ring.
      + intros l Hl. unfold op_rd. change (PlasmaNoTrans =? PlasmaNoTrans) with true. cbv iota.
        rewrite (stt_rdA X Y), (stt_rdW X Y) by (try assumption; lia). reflexivity.
  Qed.

  Definition X2 (k : Z) (X Y : Z -> Z -> F) (i j : Z) : F :=
    if j / nb =? k then nadd (nopp (nsum (fun l => nmul (X i l) (Y l (j mod nb))) ((k + 1) * nb) n)) (X i j) else X i j.

  Lemma row_step : forall k m X Y M, 0 <= k < nt -> 0 <= m < nt -> stt X Y M ->
    stt (fun i j => if i / nb =? m then X2 k X Y i j else X i j) Y (krun (map (gt k m) (zrange (k + 1) nt)) M).
  Proof.
    intros k m X Y M Hk Hm HS. pose proof x_pos as XP.
    assert (H : forall t, k + 1 <= t -> t <= nt ->
      stt (fun i j => if (i / nb =? m) && (j / nb =? k)
             then nadd (nopp (nsum (fun l => nmul (X i l) (Y l (j mod nb))) ((k + 1) * nb) (Z.min (t * nb) n))) (X i j) else X i j) Y
        (krun (map (gt k m) (zrange (k + 1) t)) M)).
    { intros t. pattern t. apply (zrange_ind_hi _ (k + 1)); clear t.
      - intros t H1 H2 _. assert (t = k + 1) as -> by lia. rewrite zrange_nil by lia. cbn [map krun fold_left].
        eapply stt_ext; [|reflexivity|exact HS]. intros i j Hi Hj. cbv beta. destruct (_ && _); [|reflexivity].
        rewrite nsum_nil by lia. ring.
      - intros t H1 IH H2 H3. rewrite zrange_snoc by lia. rewrite map_app, krun_app. cbn [map krun fold_left].
        specialize (IH ltac:(lia) ltac:(lia)).
        eapply stt_ext; [|reflexivity|apply gt_step; [assumption|assumption|lia|exact IH]].
        intros i j Hi Hj. cbv beta. destruct ((i / nb =? m) && (j / nb =? k)) eqn:E; [|reflexivity].
        apply andb_true_iff in E. destruct E as [E1 E2].
        assert (TN : t * nb < n) by (apply (ntl_spec nb n t); try lia; apply x_n).
        assert (T2 : t * nb + tsz nb n t = Z.min ((t + 1) * nb) n) by (unfold tsz; lia).
        rewrite T2. rewrite (nsum_ext F (fun l => nmul (if (i / nb =? m) && (l / nb =? k) then _ else X i l) (Y l (j mod nb)))
          (fun l => nmul (X i l) (Y l (j mod nb)))).
        + rewrite (Z.min_l (t * nb) n) by lia.
          rewrite (nsum_app F _ ((k + 1) * nb) (t * nb) (Z.min ((t + 1) * nb) n)) by nia. ring.
        + intros l Hl. replace (l / nb =? k) with false; [rewrite andb_false_r; reflexivity|].
          symmetry. apply Z.eqb_neq. assert (t <= l / nb) by (apply Z.div_le_lower_bound; lia). lia. }
    eapply stt_ext; [|reflexivity|apply (H nt); lia]. intros i j Hi Hj. cbv beta. unfold X2.
    replace (Z.min (nt * nb) n) with n; [|symmetry; apply Z.min_r; apply ntl_top; [assumption|apply x_n]].
    destruct (i / nb =? m); cbn [andb]; [|reflexivity]. destruct (j / nb =? k); reflexivity.
  Qed.

  Lemma updates_step : forall k X Y M, 0 <= k < nt -> stt X Y M -> stt (X2 k X Y) Y (krun (updates k) M).
  Proof.
    intros k X Y M Hk HS. unfold updates.
    assert (H : forall t, 0 <= t -> t <= nt ->
      stt (fun i j => if i / nb <? t then X2 k X Y i j else X i j) Y
        (krun (flat_map (fun m => map (gt k m) (zrange (k + 1) nt)) (zrange 0 t)) M)).
    { intros t. pattern t. apply (zrange_ind_hi _ 0); clear t.
      - intros t H1 H2 _. rewrite (zrange_nil 0 t) by lia. cbn [flat_map krun fold_left].
        eapply stt_ext; [|reflexivity|exact HS]. intros i j Hi Hj. cbv beta. destruct (x_el i Hi) as (I1 & _).
        replace (i / nb <? t) with false by (symmetry; apply Z.ltb_ge; lia). reflexivity.
      - intros t H1 IH H2 H3. rewrite (zrange_snoc 0 t) by lia. rewrite flat_map_app, krun_app. cbn [flat_map]. rewrite app_nil_r.
        specialize (IH ltac:(lia) ltac:(lia)).
        eapply stt_ext; [|reflexivity|apply row_step; [assumption|lia|exact IH]].
        intros i j Hi Hj. cbv beta. destruct (Z.eqb_spec (i / nb) t) as [Ei|Ei].
        + replace (i / nb <? t + 1) with true by (symmetry; apply Z.ltb_lt; lia). unfold X2.
          assert (EF : (i / nb <? t) = false) by (apply Z.ltb_ge; lia). rewrite EF. reflexivity.
        + replace (i / nb <? t + 1) with (i / nb <? t); [reflexivity|].
          destruct (Z.ltb_spec (i / nb) t); symmetry; [apply Z.ltb_lt|apply Z.ltb_ge]; lia. }
    eapply stt_ext; [|reflexivity|apply (H nt); [|lia]].
    - intros i j Hi Hj. cbv beta. destruct (x_el i Hi) as (I1 & _).
      replace (i / nb <? nt) with true by (symmetry; apply Z.ltb_lt; lia). reflexivity.
    - lia.
  Qed.

  (* the solves *)
  Definition LW (k : Z) (Y : Z -> Z -> F) (l r : Z) : F :=
    if l =? r then n1 else if r <=? l then Y (k * nb + l) r else n0.
  Definition X3 (k : Z) (X Y : Z -> Z -> F) (i j : Z) : F :=
    if j / nb =? k
    then solve_along (fun r l => LW k Y l r) [] (zdown (tsz nb n k)) (fun r => X i (k * nb + r)) (j mod nb)
    else X i j.

  Lemma ts_step : forall k m X Y M, 0 <= k < nt -> 0 <= m < nt -> stt X Y M ->
    stt (fun i j => if i / nb =? m then X3 k X Y i j else X i j) Y (k_fun (ts k m) M).
  Proof.
    intros k m X Y M Hk Hm HS. pose proof (x_sz k Hk) as SK.
    eapply stt_ext; [|reflexivity|apply (stt_setA X Y M m k everywhere
      (fun r c => solve_along (fun a l => op_tri M PlasmaNoTrans PlasmaLower PlasmaUnit (tptr bW W k 0) (tile_mmain W k) l a) []
         (zdown (tile_nview A k)) (fun a => nmul n1 (rd M (tptr bA A m k) (tile_mmain A m) r a)) c)
      (fun i j => solve_along (fun r l => LW k Y l r) [] (zdown (tsz nb n k)) (fun r => X i (k * nb + r)) (j mod nb))); auto].
    - intros i j Hi Hj. cbv beta. change (everywhere (i mod nb) (j mod nb)) with true. rewrite andb_true_r. unfold X3.
      destruct (i / nb =? m); cbn [andb]; [|reflexivity]. destruct (j / nb =? k); reflexivity.
    - intros r c Hr Hc _. cbv beta. rewrite (x_nv k Hk). destruct (x_in k c Hk Hc) as (_ & _ & ->).
      apply solve_ext; cbn [app].
      + intros a l Ha Hl. rewrite in_zdown in Ha, Hl. unfold op_tri, tri_rd, LW, uplo_sel.
        change (PlasmaNoTrans =? PlasmaNoTrans) with true. change (PlasmaUnit =? PlasmaUnit) with true.
        change (PlasmaLower =? PlasmaUpper) with false. change (PlasmaLower =? PlasmaLower) with true. cbn [andb]. cbv iota.
        rewrite (stt_rdW X Y) by (try assumption; lia). reflexivity.
      + intros a Ha. rewrite in_zdown in Ha. rewrite (stt_rdA X Y) by assumption. ring.
      + rewrite in_zdown. assumption.
  Qed.

  Lemma solves_step : forall k X Y M, 0 <= k < nt -> stt X Y M -> stt (X3 k X Y) Y (krun (solves k) M).
  Proof.
    intros k X Y M Hk HS. unfold solves.
    assert (H : forall t, 0 <= t -> t <= nt ->
      stt (fun i j => if i / nb <? t then X3 k X Y i j else X i j) Y (krun (map (ts k) (zrange 0 t)) M)).
    { intros t. pattern t. apply (zrange_ind_hi _ 0); clear t.
      - intros t H1 H2 _. rewrite (zrange_nil 0 t) by lia. cbn [map krun fold_left].
        eapply stt_ext; [|reflexivity|exact HS]. intros i j Hi Hj. cbv beta. destruct (x_el i Hi) as (I1 & _).
        replace (i / nb <? t) with false by (symmetry; apply Z.ltb_ge; lia). reflexivity.
      - intros t H1 IH H2 H3. rewrite (zrange_snoc 0 t) by lia. rewrite map_app, krun_app. cbn [map krun fold_left].
        specialize (IH ltac:(lia) ltac:(lia)).
        eapply stt_ext; [|reflexivity|apply ts_step; [assumption|lia|exact IH]].
        intros i j Hi Hj. cbv beta. destruct (Z.eqb_spec (i / nb) t) as [Ei|Ei].
        + replace (i / nb <? t + 1) with true by (symmetry; apply Z.ltb_lt; lia). unfold X3.
          assert (EF : (i / nb <? t) = false) by (apply Z.ltb_ge; lia). rewrite EF. reflexivity.
        + replace (i / nb <? t + 1) with (i / nb <? t); [reflexivity|].
          destruct (Z.ltb_spec (i / nb) t); symmetry; [apply Z.ltb_lt|apply Z.ltb_ge]; lia. }
    eapply stt_ext; [|reflexivity|apply (H nt); [|lia]].
    - intros i j Hi Hj. cbv beta. destruct (x_el i Hi) as (I1 & _).
      replace (i / nb <? nt) with true by (symmetry; apply Z.ltb_lt; lia). reflexivity.
    - lia.
  Qed.

  (* one step: the equations of the columns of tile column k *)
  Lemma astep_step : forall k X Y M, 0 <= k < nt -> stt X Y M -> exists X' Y', stt X' Y' (krun (astep k) M) /\
    (forall i j, 0 <= i < n -> 0 <= j < n -> j / nb <> k -> X' i j = X i j) /\
    (forall i j, 0 <= i < n -> 0 <= j < n -> j / nb = k ->
       nsum (fun l => nmul (X' i l) (factor_L X l j)) 0 n = if j <? i then n0 else X i j).
  Proof.
    intros k X Y M Hk HS. pose proof x_pos as XP. pose proof x_n as XN. pose proof (x_sz k Hk) as SK.
    remember (Y1 k X Y) as Yk eqn:EY. remember (X2 k (X1 k X) Yk) as Xk eqn:EX.
    exists (X3 k Xk Yk), Yk.
    assert (XO : forall i j, j / nb <> k -> Xk i j = X i j).
    { intros i j Hj. rewrite EX. unfold X2, X1. replace (j / nb =? k) with false by (symmetry; apply Z.eqb_neq; assumption). reflexivity. }
    split; [|split].
    - unfold astep. rewrite !krun_app. apply solves_step; [assumption|]. rewrite EX. apply updates_step; [assumption|].
      rewrite EY. apply copies_step; assumption.
    - intros i j Hi Hj Hne. unfold X3. replace (j / nb =? k) with false by (symmetry; apply Z.eqb_neq; assumption). apply XO; assumption.
    - intros i j Hi Hj Ej. destruct (x_el j Hj) as (J1 & J2 & J3). rewrite Ej in J2, J3.
      assert (KN : k * nb < n) by (apply (ntl_spec nb n k); lia).
      assert (KT : k * nb + tsz nb n k = Z.min ((k + 1) * nb) n) by (unfold tsz; lia).
      rewrite (nsum_app F _ 0 (k * nb) n) by nia.
      rewrite (nsum_0 F _ 0 (k * nb)).
      2:{ intros l Hl. unfold factor_L. replace (l =? j) with false by (symmetry; apply Z.eqb_neq; lia).
          replace (j <? l) with false by (symmetry; apply Z.ltb_ge; lia). ring. }
      rewrite (nsum_app F _ (k * nb) (k * nb + tsz nb n k) n) by (unfold tsz in *; lia).
      (* inside tile column k *)
      assert (E1 : nsum (fun l => nmul (X3 k Xk Yk i l) (factor_L X l j)) (k * nb) (k * nb + tsz nb n k) = Xk i j).
      { rewrite nsum_off0.
        assert (SU := solve_upper (F := F) (fun r l => LW k Yk l r) (tsz nb n k) (fun r => Xk i (k * nb + r)) (j mod nb)).
        transitivity (Xk i (k * nb + j mod nb)); [|rewrite <- J3; reflexivity]. rewrite <- SU; clear SU.
        - apply nsum_ext. intros l Hl. destruct (x_in k l Hk Hl) as (L1 & L2 & L3). unfold X3 at 1. rewrite L2, Z.eqb_refl, L3.
          replace (factor_L X (k * nb + l) j) with (LW k Yk l (j mod nb)); [ring|].
          unfold LW, factor_L. destruct (Z.eqb_spec l (j mod nb)) as [El|El].
          + replace (k * nb + l =? j) with true by (symmetry; apply Z.eqb_eq; lia). reflexivity.
          + replace (k * nb + l =? j) with false by (symmetry; apply Z.eqb_neq; lia).
            destruct (Z.leb_spec (j mod nb) l).
            * replace (j <? k * nb + l) with true by (symmetry; apply Z.ltb_lt; lia).
              rewrite EY. unfold Y1. replace (k * nb + j mod nb <=? k * nb + l) with true by (symmetry; apply Z.leb_le; lia).
              replace (j mod nb <? tsz nb n k) with true by (symmetry; apply Z.ltb_lt; lia). cbn [andb]. rewrite <- J3. reflexivity.
            * replace (j <? k * nb + l) with false by (symmetry; apply Z.ltb_ge; lia). reflexivity.
        - intros r Hr. unfold LW. rewrite Z.eqb_refl. exact N10.
        - intros r l Hr Hl. unfold LW. replace (l =? r) with false by (symmetry; apply Z.eqb_neq; lia).
          replace (r <=? l) with false by (symmetry; apply Z.leb_gt; lia). reflexivity.
        - assumption. }
      rewrite E1.
      assert (EXj : Xk i j = nadd (nopp (nsum (fun l => nmul (X1 k X i l) (Yk l (j mod nb))) ((k + 1) * nb) n)) (X1 k X i j)).
      { rewrite EX. unfold X2. rewrite Ej, Z.eqb_refl. reflexivity. }
      rewrite EXj.
      rewrite (nsum_ext F (fun l => nmul (X3 k Xk Yk i l) (factor_L X l j))
        (fun l => nmul (X1 k X i l) (Yk l (j mod nb))) (k * nb + tsz nb n k) n).
      + destruct (Z.le_gt_cases ((k + 1) * nb) n) as [LE|GT].
        * rewrite KT, Z.min_l by lia. 
          replace (X1 k X i j) with (if j <? i then n0 else X i j) by (unfold X1; rewrite Ej, Z.eqb_refl; reflexivity). ring.
        * rewrite KT, Z.min_r by lia. rewrite !(nsum_nil F) by lia.
          replace (X1 k X i j) with (if j <? i then n0 else X i j) by (unfold X1; rewrite Ej, Z.eqb_refl; reflexivity). ring.
      + intros l Hl. assert (KL : k * nb + tsz nb n k = (k + 1) * nb) by (unfold tsz in *; lia).
        assert (LK : k + 1 <= l / nb) by (apply Z.div_le_lower_bound; lia).
        unfold X3. replace (l / nb =? k) with false by (symmetry; apply Z.eqb_neq; lia). rewrite XO by lia.
        unfold X1. replace (l / nb =? k) with false by (symmetry; apply Z.eqb_neq; lia). cbn [andb]. apply f_equal.
        unfold factor_L. replace (l =? j) with false by (symmetry; apply Z.eqb_neq; lia).
        replace (j <? l) with true by (symmetry; apply Z.ltb_lt; lia). rewrite EY. unfold Y1.
        replace (k * nb + j mod nb <=? l) with true by (symmetry; apply Z.leb_le; lia).
        replace (j mod nb <? tsz nb n k) with true by (symmetry; apply Z.ltb_lt; lia). cbn [andb]. rewrite <- J3. reflexivity.
  Qed.
End Aux.
