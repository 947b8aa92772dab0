(* Copying a general band matrix to tiles, followed by tasks that fill a workspace. *)
From Coq Require Import ZArith List Bool Lia.
From Verif Require Import Base NumModel NumProofs FieldModel TaskModel TaskSpec TaskProofs DescModel DescSpec
  DescDriverModel DescProofs DescPackProofs DescProofs3 DescProofs4 MatModel MatSpec MatProofs RegionProofs
  LayoutModel LayoutProofs LayoutProofs2 DriverModel DriverSpec OpProofs OperandProofs GemmProofs
  BandModel BandSpec BandProofs BandLayoutProofs BandGbProofs NormModel NormSpec FillProofs NormBandModel.
From Verif Require Import NormBandSpec.
Import ListNotations.
Open Scope Z_scope.

Record gd_ok (A : desc) (nb m n kl ku : Z) : Prop := {
  gd_sq : sq nb A (in_tb A);
  gd_uplo : d_uplo A = PlasmaGeneral;
  gd_m : d_m A = m; gd_n : d_n A = n; gd_kl : d_kl A = kl; gd_ku : d_ku A = ku;
  gd_klt : d_klt A = 1 + ntl nb kl; gd_kut : d_kut A = 1 + ntl nb (ku + kl);
  gd_mt : d_mt A = ntl nb m; gd_nt : d_nt A = ntl nb n;
  gd_mmain : forall k, tile_mmain A k = nb;
  gd_pos : 0 < nb; gd_kl0 : 0 <= kl < m; gd_ku0 : 0 <= ku < n }.

Lemma gb_create_gd : forall nb m n kl ku A size, 0 <= kl -> 0 <= ku ->
  gb_create nb m n kl ku = CrOk A size -> gd_ok A nb m n kl ku.
Proof.
  intros nb m n kl ku A size Hl Hu E. pose proof (gb_create_ok nb m n kl ku A size Hl Hu E) as P.
  destruct P as (BK & P2 & P3 & P4 & P5 & P6 & P7 & P8 & P9 & P10 & P11).
  assert (SH : shape_ok A /\ d_kl A = kl /\ d_ku A = ku /\ d_uplo A = PlasmaGeneral).
  { unfold gb_create, general_band_create in E. cbv zeta in E.
    destruct (desc_check _ =? PlasmaSuccess) eqn:EC in E; [|discriminate].
    apply Z.eqb_eq in EC. apply band_check_ok in EC; [|reflexivity].
    injection E as EA _. destruct EC as (_&E1&E2&E3&E4&E5&_&_&E8&E9&E10&E11&E12).
    cbn in E1,E2,E3,E4,E5,E8,E9,E10,E11,E12.
    split; [|rewrite <- EA; repeat split; reflexivity].
    constructor; rewrite <- ?EA; cbn; auto; try lia.
    apply Z.mul_nonneg_nonneg; [|lia].
    assert (0 <= (ku + kl + nb - 1) / nb) by (apply Z.div_pos; lia).
    assert (0 <= (kl + nb - 1) / nb) by (apply Z.div_pos; lia). lia. }
  destruct SH as (SH & EL & EU & EG).
  constructor; auto; try lia.
  - constructor; auto. apply band_tiled; assumption.
  - rewrite (mt_aligned_ntl nb A SH P4), P2. reflexivity.
  - rewrite (nt_aligned_ntl nb A SH P5), P3. reflexivity.
  - intros k. unfold tile_mmain. rewrite (bk_type A BK). cbn. assumption.
Qed.

Section Gd.
  Context {N : numbers}.
  Variables (A : desc) (nb m n kl ku b : Z) (p : loc) (ld : Z).
  Hypothesis HA : gd_ok A nb m n kl ku.
  Hypothesis HB : fst p <> b.
  Let Hb := gd_pos _ _ _ _ _ _ HA.
  Let Hkl := gd_kl0 _ _ _ _ _ _ HA.
  Let Hku := gd_ku0 _ _ _ _ _ _ HA.
  (* every tile above the diagonal is nb rows high *)
  Hypothesis SQ : n <= m \/ m mod nb = 0.

  Lemma gd_in_tb : forall i j, in_tb A i j <->
    0 <= i < ntl nb m /\ 0 <= j < ntl nb n /\ j - i <= ntl nb (ku + kl) /\ i - j <= ntl nb kl.
  Proof.
    intros i j. unfold in_tb, in_tiles. rewrite (gd_mt _ _ _ _ _ _ HA), (gd_nt _ _ _ _ _ _ HA), (gd_klt _ _ _ _ _ _ HA), (gd_kut _ _ _ _ _ _ HA).
    lia.
  Qed.

  Lemma le_ntl : forall K x, 0 <= K -> (x <= ntl nb K <-> x * nb <= K + nb - 1).
  Proof.
    intros K x HK. unfold ntl. pose proof (Z.div_mod (K + nb - 1) nb ltac:(lia)) as E.
    pose proof (Z.mod_pos_bound (K + nb - 1) nb ltac:(lia)). split; intros; nia.
  Qed.

  Lemma gd_start : forall i j, 0 <= i -> (bm_start A j <= i <-> j - i <= ntl nb (ku + kl)).
  Proof.
    intros i j Hi. unfold bm_start. rewrite (gd_uplo _ _ _ _ _ _ HA), (sq_nb nb A _ (gd_sq _ _ _ _ _ _ HA)),
      (gd_kl _ _ _ _ _ _ HA), (gd_ku _ _ _ _ _ _ HA). cbn [Z.eqb PlasmaGeneral Pos.eqb].
    rewrite quot_le by lia. rewrite le_ntl by lia. lia.
  Qed.
  Lemma gd_start_pos : forall j, 0 <= bm_start A j.
  Proof.
    intros j. unfold bm_start. rewrite (gd_uplo _ _ _ _ _ _ HA), (sq_nb nb A _ (gd_sq _ _ _ _ _ _ HA)). cbn [Z.eqb PlasmaGeneral Pos.eqb].
    apply Z.quot_pos; lia.
  Qed.
  Lemma gd_end : forall i j, 0 <= j < ntl nb n -> (i <= bm_end A j <-> i * nb < m /\ i - j <= ntl nb kl).
  Proof.
    intros i j Hj. unfold bm_end. rewrite (gd_uplo _ _ _ _ _ _ HA), (sq_nb nb A _ (gd_sq _ _ _ _ _ _ HA)),
      (gd_kl _ _ _ _ _ _ HA), (gd_m _ _ _ _ _ _ HA). cbn [Z.eqb PlasmaGeneral Pos.eqb].
    rewrite le_quot by nia. rewrite le_ntl by lia. lia.
  Qed.

  Lemma gd_idx : forall i j, In (j, i) (idx_in A) <-> in_tb A i j.
  Proof.
    intros i j. unfold idx_in. rewrite in_pairs, !in_zrange, gd_in_tb, (gd_nt _ _ _ _ _ _ HA).
    pose proof (gd_start_pos j) as Q. split.
    - intros (H1 & H2 & H3). assert (H0 : 0 <= i) by lia. apply gd_start in H2; [|assumption].
      assert (H4 : i <= bm_end A j) by lia. apply gd_end in H4; [|assumption]. destruct H4 as [H4 H5].
      split; [split; [assumption|apply ntl_spec; lia]|]. auto.
    - intros (H1 & H2 & H3 & H4). split; [assumption|]. split; [apply gd_start; lia|].
      cut (i <= bm_end A j); [lia|]. apply gd_end; [assumption|]. split; [apply ntl_spec; lia|assumption].
  Qed.

  (* tile (i,j) has rows and columns *)
  Lemma gd_views : forall i j, in_tb A i j -> 0 <= i /\ 0 <= j /\ 0 < tsz nb m i <= nb /\ 0 < tsz nb n j <= nb /\
    tile_mview A i = tsz nb m i /\ tile_nview A j = tsz nb n j.
  Proof.
    intros i j H. pose proof (gd_sq _ _ _ _ _ _ HA) as S.
    destruct (sq_in_m nb A _ S i j H) as [M1 M2]. destruct (sq_in_n nb A _ S i j H) as [N1 N2].
    rewrite (sq_mv nb A _ S i j H), (sq_nv nb A _ S i j H). rewrite (gd_m _ _ _ _ _ _ HA) in *. rewrite (gd_n _ _ _ _ _ _ HA) in *.
    split; [exact M1|]. split; [exact N1|]. split; [exact M2|]. split; [exact N2|]. split; reflexivity.
  Qed.

  Lemma gd_full : forall i j, in_tb A i j -> i < j -> tsz nb m i = nb.
  Proof.
    intros i j H L. apply gd_in_tb in H. destruct H as (Hi & Hj & _). unfold tsz. apply Z.min_l.
    assert (Hj' : j * nb < n) by (apply ntl_spec; lia). assert (Hi' : i * nb < m) by (apply ntl_spec; lia).
    destruct SQ as [S|S].
    - clear -S L Hb Hj'. nia.
    - apply Z.mod_divide in S; [|lia]. destruct S as [q E]. assert (Hq : i < q) by (clear -E Hi' Hb; nia).
      clear -E Hq Hb. nia.
  Qed.

  Lemma gd_in_eq : forall i j, @pb_in N p ld b A i j =
    omp_lapack2tile PlasmaGeneral i j (tsz nb m i) (tsz nb n j) nb kl ku (bandA p ld A i j) (ld - 1) (tptr b A i j) (tile_mmain A i).
  Proof.
    intros i j. unfold pb_in, tile_mmain_band. rewrite !(gd_mmain _ _ _ _ _ _ HA), (gd_uplo _ _ _ _ _ _ HA), (sq_nb nb A _ (gd_sq _ _ _ _ _ _ HA)),
      (sq_mb nb A _ (gd_sq _ _ _ _ _ _ HA)), (gd_kl _ _ _ _ _ _ HA), (gd_ku _ _ _ _ _ _ HA), (gd_m _ _ _ _ _ _ HA), (gd_n _ _ _ _ _ _ HA).
    reflexivity.
  Qed.

  Lemma gd_cut : forall i j, in_tb A i j -> tile_cut PlasmaGeneral i j (tsz nb m i) (tsz nb n j) nb kl ku.
  Proof.
    intros i j H. destruct (gd_views i j H) as (V1 & V2 & V3 & V4 & _). pose proof (gd_full i j H) as FU.
    apply gd_in_tb in H. destruct H as (Hi & Hj & H1 & H2). rewrite le_ntl in H1, H2 by lia.
    unfold tile_cut, bj_start, bj_end, bi_start, bi_end. cbn [Z.eqb PlasmaGeneral Pos.eqb].
    destruct (Z.leb_spec j i) as [L|L]; destruct (Z.leb_spec i j) as [L'|L']; try lia.
    - repeat split; intros; lia.
    - repeat split; intros; nia.
    - rewrite (FU L) in *. repeat split; intros; nia.
  Qed.

  Lemma gd_in_kgood : forall i j, in_tb A i j -> kgood (@pb_in N p ld b A i j).
  Proof.
    intros i j H. rewrite gd_in_eq. apply l2t_kgood; [exact HB|apply gd_cut; assumption|].
    pose proof (sq_ld nb A _ (gd_sq _ _ _ _ _ _ HA) _ _ H) as L. rewrite (gd_m _ _ _ _ _ _ HA) in L. exact L.
  Qed.

  Lemma gd_copy_eq : @pzpb2desc N p ld b A = flat_map (fun km => [pb_in p ld b A (snd km) (fst km)]) (idx_in A).
  Proof. apply pzpb2desc_eq. Qed.
  Lemma gd_copy_kgood : Forall kgood (@pzpb2desc N p ld b A).
  Proof.
    rewrite gd_copy_eq. apply Forall_forall. intros x Hx. apply in_flat_map in Hx.
    destruct Hx as ([j i] & Hi & [<-|[]]). apply gd_in_kgood. apply gd_idx. assumption.
  Qed.

  Lemma gd_copy_kdecl : forall env, In (b, homeD A (in_tb A)) env -> ~ In (fst p) (map fst env) ->
    Forall (kdecl (home_env env)) (@pzpb2desc N p ld b A).
  Proof.
    intros env HD HE. rewrite gd_copy_eq. apply Forall_forall. intros x Hx. apply in_flat_map in Hx.
    destruct Hx as ([j i] & Hi & [<-|[]]). apply gd_idx in Hi. cbn [fst snd].
    destruct (gd_views i j Hi) as (_ & _ & _ & _ & MV & NV). rewrite gd_in_eq.
    apply kdecl_intro; cbn; intros l H.
    - right. apply no_home_block. destruct H as (r & c & _ & _ & ->). cbn. assumption.
    - eexists. split; [right; left; reflexivity|]. split; [|discriminate]. cbn.
      rewrite <- MV, <- NV in H. eapply home_tile; eauto.
  Qed.

  Lemma gd_copy_frame : forall M l, fst l <> b -> krun (@pzpb2desc N p ld b A) M l = M l.
  Proof.
    intros M l Hl. apply krun_frame.
    { eapply Forall_impl; [|apply gd_copy_kgood]. intros x G. apply (kg_sound _ G). }
    intros (x & Hx & W).
    rewrite gd_copy_eq in Hx. apply in_flat_map in Hx.
    destruct Hx as ([j i] & _ & [<-|[]]). cbn [fst snd] in W. rewrite gd_in_eq in W. cbn in W. apply reg_block in W. apply Hl. exact W.
  Qed.

  (* what is read for element (i,j) *)
  Definition gd_src (M : mem N) (i j : Z) : N := M (fst p, snd p + (kl + ku + i - j) + ld * j).
  (* the elements read *)
  Definition gd_read (i j : Z) : Prop := gb_reads nb kl ku i j.

  (* below the diagonal the tiles take what belongs to the columns of the tile *)
  Lemma gd_copy_gen : forall M (a : Z -> Z -> N),
    (forall i j, in_matrix m n i j -> gd_read i j -> gd_src M i j = a i j) ->
    (forall i j, in_matrix m n i j -> ~ (- (kl + ku) <= i - j /\ i < (j / nb + 1) * nb + kl) -> a i j = n0) ->
    forall i j, in_matrix m n i j -> in_tb A (i / nb) (j / nb) ->
    el (krun (@pzpb2desc N p ld b A) M) b A i j = a i j.
  Proof.
    intros M a HR HZ i j HM HT. pose proof (gd_sq _ _ _ _ _ _ HA) as S.
    destruct HM as [Hi Hj].
    destruct (pos_tile nb A _ S i m Hi) as (I1 & I2 & I3). destruct (pos_tile nb A _ S j n Hj) as (J1 & J2 & J3).
    pose proof (sq_ld nb A (in_tb A) S _ _ HT) as LD. rewrite (gd_m _ _ _ _ _ _ HA) in LD.
    assert (EL : (b, elem_off A i j) = at_ (tptr b A (i / nb) (j / nb)) (tile_mmain A (i / nb)) (i mod nb) (j mod nb)).
    { unfold elem_off, at_, tptr. rewrite (sq_mb nb A _ S), (sq_nb nb A _ S). reflexivity. }
    unfold el. rewrite gd_copy_eq.
    rewrite (krun_groups N _ (fun km => [pb_in p ld b A (snd km) (fst km)]) (idx_in A) M (j / nb, i / nb)); cbn [fst snd].
    - rewrite gd_in_eq. cbn [krun fold_left]. cbn [k_fun omp_lapack2tile].
      rewrite l2t_mset; [|assumption|apply gd_cut; assumption|assumption].
      rewrite EL, mset_in by lia. cbn [everywhere]. unfold l2t_val.
      assert (ER : rd M (bandA p ld A (i / nb) (j / nb)) (ld - 1) (i mod nb) (j mod nb) = gd_src M i j).
      { unfold rd, at_, bandA, gd_src, band_offset. cbn [fst snd].
        rewrite (gd_uplo _ _ _ _ _ _ HA), (sq_nb nb A _ S), (sq_mb nb A _ S), (gd_kl _ _ _ _ _ _ HA), (gd_ku _ _ _ _ _ _ HA).
        cbn [Z.eqb PlasmaGeneral PlasmaUpper PlasmaLower Pos.eqb]. f_equal. f_equal.
        clear -I3 J3. revert I3 J3. generalize (i / nb), (i mod nb), (j / nb), (j mod nb). intros i1 i2 j1 j2 -> ->. ring. }
      rewrite ER. clear ER EL.
      assert (DL : i - j = (i / nb - j / nb) * nb + i mod nb - j mod nb) by (clear -I3 J3; revert I3 J3; generalize (i / nb), (i mod nb), (j / nb), (j mod nb); intros i1 i2 j1 j2 -> ->; ring).
      destruct (gd_views _ _ HT) as (V1 & V2 & V3 & V4 & _). pose proof (gd_full _ _ HT) as FU.
      destruct (inb _ _ _ _ _ _ _ _ _ _) eqn:EB.
      + apply inb_true in EB. destruct EB as [B1 B2]. apply HR; [split; assumption|].
        assert (KT : i / nb - j / nb <= (kl + nb - 1) / nb) by (clear -HT HA; destruct HT as [_ HT]; rewrite (gd_klt _ _ _ _ _ _ HA) in HT; unfold ntl in HT; lia).
        split; [|exact KT]. unfold bj_start, bj_end, bi_start, bi_end in *. cbn [Z.eqb PlasmaGeneral Pos.eqb] in *.
        destruct (Z.leb_spec (j / nb) (i / nb)) as [L|L]; destruct (Z.leb_spec (i / nb) (j / nb)) as [L'|L']; try lia.
        * right. split; [nia|]. lia.
        * right. split; [lia|]. nia.
      + apply inb_false in EB. symmetry. apply HZ; [split; assumption|]. intros HK. apply EB. clear EB HR HZ.
        unfold bj_start, bj_end, bi_start, bi_end. cbn [Z.eqb PlasmaGeneral Pos.eqb].
        destruct (Z.leb_spec (j / nb) (i / nb)) as [L|L]; destruct (Z.leb_spec (i / nb) (j / nb)) as [L'|L']; try lia.
    - intros [y x] Hxy. apply gd_idx in Hxy. cbn [fst snd]. pose proof (gd_in_kgood x y Hxy) as G.
      split; (constructor; [|constructor]); [apply (kg_sound _ G)|apply kgood_kdecw; assumption].
    - apply NoDup_pairs; intros; apply NoDup_zrange.
    - intros [k x] [k' x'] l H1 H2 Hne W. apply gd_idx in H1, H2. cbn [fst snd] in *.
      destruct W as (y & [<-|[]] & W). rewrite gd_in_eq in W. cbn in W.
      split; intros (y & [<-|[]] & W'); rewrite gd_in_eq in W'; cbn in W'.
      + destruct (gd_views _ _ H1) as (_ & _ & _ & _ & M1 & N1). destruct (gd_views _ _ H2) as (_ & _ & _ & _ & M2 & N2).
        rewrite <- M2, <- N2 in W. rewrite <- M1, <- N1 in W'.
        destruct (reg_tile_apart A (in_tb A) b (sq_t nb A (in_tb A) S) x' k' x k _ _ l H2 H1 W W'). congruence.
      + apply reg_block in W. destruct W' as (r & c & _ & _ & ->). cbn in W. congruence.
    - apply gd_idx. assumption.
    - left. eexists. split; [left; reflexivity|]. rewrite gd_in_eq. cbn. rewrite EL.
      exists (i mod nb), (j mod nb). repeat split; lia.
  Qed.

  Lemma gd_copy_spec : forall M (a : Z -> Z -> N),
    (forall i j, in_matrix m n i j -> gd_read i j -> gd_src M i j = a i j) ->
    (forall i j, in_matrix m n i j -> ~ (- (kl + ku) <= i - j <= kl) -> a i j = n0) ->
    forall i j, in_matrix m n i j -> in_tb A (i / nb) (j / nb) ->
    el (krun (@pzpb2desc N p ld b A) M) b A i j = a i j.
  Proof.
    intros M a HR HZ. apply gd_copy_gen; [assumption|]. intros i j HM HN. apply HZ; [assumption|]. intros [H1 H2]. apply HN.
    destruct (div_mod_pos j nb Hb) as [E R]. split; [assumption|]. lia.
  Qed.
End Gd.

(* the layout of the tests *)
Lemma zero_padded_zeros : forall (N : numbers) (M : mem N) nb m n kl ku p ld, 0 < nb -> 0 <= kl -> 0 <= ku ->
  ld = ((ku + kl + nb - 1) / nb + (kl + nb - 1) / nb + 1) * nb ->
  zero_padded M n kl ku p ld -> gb_zeros M nb m n kl ku p ld.
Proof.
  intros N M nb m n kl ku p ld Hb Hkl Hku EL HZ i j [Hi Hj] [HR HK] HO. unfold gb_row.
  destruct (div_mod_pos i nb Hb) as [I1 I2]. destruct (div_mod_pos j nb Hb) as [J1 J2].
  destruct (div_mod_pos (kl + nb - 1) nb Hb) as [K1 K2]. destruct (div_mod_pos (ku + kl + nb - 1) nb Hb) as [U1 U2].
  assert (L1 : kl <= (kl + nb - 1) / nb * nb) by lia. assert (L2 : kl + ku <= (ku + kl + nb - 1) / nb * nb) by lia.
  clear K1 K2 U1 U2. revert L1 L2 HK EL. generalize ((kl + nb - 1) / nb), ((ku + kl + nb - 1) / nb).
  intros klt kut L1 L2 HK EL.
  assert (D : i - j <= klt * nb + nb - 1).
  { revert HK I1 J1. generalize (i / nb), (j / nb). intros x y HK I1 J1. nia. }
  assert (E : ld = kut * nb + klt * nb + nb) by (rewrite EL; ring).
  destruct (Z_lt_le_dec (kl + ku + i - j) 0) as [R|R].
  - destruct HR as [HR|HR]; [|lia].
    assert (DJ : - (nb - 1) <= i - j) by (revert HR I1 J1; generalize (i / nb), (j / nb); intros x y HR I1 J1; nia).
    replace (snd p + (kl + ku + i - j) + ld * j) with (snd p + (kl + ku + i - j + ld) + ld * (j - 1)) by ring.
    apply HZ; lia.
  - apply HZ; lia.
Qed.
