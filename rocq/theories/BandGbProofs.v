(* The translation of a general band matrix (zgbtrf, zgbsv) with the leading dimension of LAPACK. *)
From Coq Require Import ZArith List Bool Lia.
From Verif Require Import Base NumModel NumInstances TaskModel TaskSpec TaskProofs DescModel DescSpec
  DescDriverModel DescProofs DescPackProofs DescProofs3 MatModel MatSpec MatProofs RegionProofs
  LayoutModel LayoutProofs LayoutProofs2 BandModel BandSpec BandProofs BandLayoutProofs.
Import ListNotations.
Open Scope Z_scope.

Lemma band_tiled : forall A, band_ok A -> shape_ok A -> tiled A (in_tb A).
Proof.
  intros A BK SH.
  assert (MM : forall k, tile_mmain A k = d_mb A) by (intros k; unfold tile_mmain; rewrite (bk_type A BK); reflexivity).
  assert (EO : forall i j, band_elem_off A i j = elem_off A i j).
  { intros i j. unfold band_elem_off, elem_off, tile_mmain_band. rewrite !MM. reflexivity. }
  constructor; auto.
  - intros m k [H _]. assumption.
  - intros m k [[Hm Hk] _]. rewrite MM. destruct (mview_spec A m SH Hm) as [E R]. lia.
  - intros m k m' k' r c r' c' [[Hm Hn] HB] [[Hm' Hn'] HB'] Hr Hc Hr' Hc' E.
    rewrite <- !elem_off_tile in E by assumption. rewrite <- !EO in E.
    destruct (tile_row A m r SH Hm Hr) as (R1 & R2 & R3).
    destruct (tile_row A m' r' SH Hm' Hr') as (R1' & R2' & R3').
    destruct (tile_col A k c SH Hn Hc) as (C1 & C2 & C3).
    destruct (tile_col A k' c' SH Hn' Hc') as (C1' & C2' & C3').
    apply band_inj in E; auto.
    + destruct E as [E1 E2]. rewrite E1 in R2, R3. rewrite E2 in C2, C3. repeat split; congruence.
    + split; [assumption|]. split; [assumption|]. rewrite R2, C2. assumption.
    + split; [assumption|]. split; [assumption|]. rewrite R2', C2'. assumption.
Qed.

(* order 4, tiles of order 2, one subdiagonal: the descriptor *)
Lemma gb4 : exists A, gb_create 2 4 4 1 0 = CrOk A 24 /\ band_ok A /\ shape_ok A /\
  idx_in A = [(0, 0); (0, 1); (1, 0); (1, 1)] /\
  d_uplo A = PlasmaGeneral /\ d_mb A = 2 /\ d_nb A = 2 /\ d_m A = 4 /\ d_n A = 4 /\ d_mt A = 2 /\ d_nt A = 2 /\
  d_kl A = 1 /\ d_ku A = 0 /\ d_klt A = 2 /\ d_kut A = 2 /\ band_elem_off A 3 0 = tile_addr A 1 0 + 1.
Proof.
  eexists. split; [reflexivity|]. split.
  - eapply (gb_create_ok 2 4 4 1 0 _ 24); try lia. reflexivity.
  - split; [constructor; cbn; try reflexivity; try lia; try discriminate|]. repeat split; reflexivity.
Qed.

Lemma gb_in_wrong : forall N : numbers, exists A, gb_create 2 4 4 1 0 = CrOk A 24 /\
  forall (p : loc) b (M : mem N), fst p <> b ->
    region_ensures (pzpb2desc p 3 b A) M (fun M' => M' (b, band_elem_off A 3 0) = M (fst p, snd p + 4)).
Proof.
  intros N. destruct gb4 as (A & EA & BK & SH & EI & E1 & E2 & E3 & E4 & E5 & E6 & E7 & E8 & E9 & E10 & E11 & E12).
  exists A. split; [assumption|]. intros p b M HP.
  assert (MM : forall k, tile_mmain A k = 2) by (intros k; unfold tile_mmain; rewrite (bk_type A BK); cbn; assumption).
  assert (EQ : forall k m, In (k, m) (idx_in A) -> in_tb A m k /\ exists P, @pb_in N p 3 b A m k =
    omp_lapack2tile PlasmaGeneral m k 2 2 2 1 0 P 2 (tptr b A m k) 2 /\ P = bandA p 3 A m k /\
    tile_cut PlasmaGeneral m k 2 2 2 1 0 /\ tile_mview A m = 2 /\ tile_nview A k = 2).
  { intros k m Hi. assert (Hkm : (k = 0 \/ k = 1) /\ (m = 0 \/ m = 1)).
    { rewrite EI in Hi. cbn in Hi. repeat (destruct Hi as [Hi|Hi]; [injection Hi as <- <-; lia|]). destruct Hi. }
    clear Hi. split.
    - unfold in_tb, in_tiles. rewrite E6, E7, E10, E11. lia.
    - exists (bandA p 3 A m k). split; [|split; [reflexivity|]].
      + unfold pb_in, tile_mmain_band. rewrite !MM, E1, E2, E3, E4, E5, E8, E9.
        replace (Z.min 2 (4 - m * 2)) with 2 by lia. replace (Z.min 2 (4 - k * 2)) with 2 by lia. reflexivity.
      + split.
        * destruct Hkm as [[-> | ->] [-> | ->]]; unfold tile_cut, bj_start, bj_end, bi_start, bi_end; cbn; repeat split; intros; lia.
        * unfold tile_mview, tile_nview. rewrite E2, E3, E4, E5, E6, E7, (bk_i A BK), (bk_j A BK).
          destruct Hkm as [[-> | ->] [-> | ->]]; split; reflexivity. }
  assert (KG : Forall kgood (@pzpb2desc N p 3 b A)).
  { rewrite (pzpb2desc_eq A). apply Forall_forall. intros x Hx. apply in_flat_map in Hx.
    destruct Hx as ([k m] & Hi & [<-|[]]). cbn [fst snd]. destruct (EQ k m Hi) as (_ & P & -> & EP & HC & _).
    apply l2t_kgood; [rewrite EP; assumption|assumption|lia]. }
  apply region_intro; [assumption| |].
  - apply korders_klinked. apply (kdecl_korders N (home_env [(b, homeD A (in_tb A))])).
    + apply home_env_functional; [constructor; [intros []|constructor]|].
      intros b' h [E|[]]. injection E as <- <-. apply homeD_functional. apply band_tiled; assumption.
    + rewrite (pzpb2desc_eq A). apply Forall_forall. intros x Hx. apply in_flat_map in Hx.
      destruct Hx as ([k m] & Hi & [<-|[]]). cbn [fst snd]. destruct (EQ k m Hi) as (HT & P & -> & EP & HC & MV & NV).
      apply kdecl_intro; cbn; intros l H.
      * right. apply no_home_block. destruct H as (r & c & _ & _ & ->). cbn. rewrite EP. cbn. intros [E|[]]. congruence.
      * eexists. split; [right; left; reflexivity|]. split; [|discriminate]. cbn.
        eapply (home_tile _ A (in_tb A) b m k); [left; reflexivity|assumption|]. rewrite MV, NV, MM. exact H.
  - intros M' HM. rewrite HM, (pzpb2desc_eq A), E12.
    rewrite (krun_groups N _ (fun km => [pb_in p 3 b A (snd km) (fst km)]) (idx_in A) M (0, 1)); cbn [fst snd].
    + destruct (EQ 0 1) as (HT & P & -> & EP & HC & _); [rewrite EI; cbn; auto|].
      cbn [krun fold_left]. cbn [k_fun omp_lapack2tile]. rewrite l2t_mset; [|rewrite EP; assumption|assumption|lia].
      replace (b, tile_addr A 1 0 + 1) with (at_ (tptr b A 1 0) 2 1 0) by (unfold at_, tptr; cbn [fst snd]; f_equal; lia).
      rewrite mset_in by lia. cbn. unfold l2t_val. cbn. rewrite EP. unfold rd, at_, bandA, band_offset. cbn [fst snd].
      rewrite E1, E2, E3, E8, E9. cbn. change (1 <? Z.min 2 ((0 - 1) * 2 + 0 + 1 + 2 + 1)) with true. cbv iota. f_equal. f_equal. lia.
    + intros [k m] Hi. cbn [fst snd]. assert (G : kgood (@pb_in N p 3 b A m k)).
      { rewrite Forall_forall in KG. apply KG. rewrite (pzpb2desc_eq A). apply in_flat_map. exists (k, m). split; [assumption|left; reflexivity]. }
      split; (constructor; [|constructor]); [apply (kg_sound _ G)|apply kgood_kdecw; assumption].
    + apply idx_in_NoDup.
    + intros [k m] [k' m'] x H1 H2 Hne W. cbn [fst snd] in *.
      destruct (EQ k m H1) as (HT & P & EP & EPP & _ & MV & NV). destruct (EQ k' m' H2) as (HT' & P' & EP' & EPP' & _ & MV' & NV').
      destruct W as (y & [<-|[]] & W). rewrite EP' in W. cbn in W.
      split; intros (y & [<-|[]] & W'); rewrite EP in W'; cbn in W'.
      * pose proof (reg_tile_apart A (in_tb A) b (band_tiled A BK SH) m' k' m k everywhere everywhere x HT' HT) as RA.
        rewrite MV, MV', NV, NV', !MM in RA. destruct (RA W W'). congruence.
      * apply reg_block in W. destruct W' as (r & c & _ & _ & ->). rewrite EPP in W. cbn in W. congruence.
    + rewrite EI. cbn. auto.
    + destruct (EQ 0 1) as (HT & P & -> & EP & HC & _); [rewrite EI; cbn; auto|].
      left. eexists. split; [left; reflexivity|]. cbn. exists 1, 0. split; [lia|]. split; [lia|]. split; [reflexivity|]. unfold at_, tptr. cbn [fst snd]. f_equal. lia.
Qed.

(* 4 rows, 2 columns: the copies reach past the user's array of 3 x 2 elements *)
Lemma gb_out_of_bounds : forall N : numbers, exists A, gb_create 2 4 2 1 0 = CrOk A 12 /\
  forall (p : loc) b, exists k k' : ktask N,
    In k (pzpb2desc p 3 b A) /\ k_reads k (fst p, snd p + 3 * 2) /\
    In k' (pzdesc2pb b A p 3) /\ k_writes k' (fst p, snd p + 3 * 2).
Proof.
  intros N. eexists. split; [reflexivity|]. intros p b.
  match goal with |- context [pzpb2desc p 3 b ?X] => remember X as A eqn:EA end.
  assert (EI : idx_in A = [(0, 0); (0, 1)]) by (rewrite EA; reflexivity).
  assert (EO : idx_out A = [(0, 0); (0, 1)]) by (rewrite EA; reflexivity).
  exists (pb_in p 3 b A 1 0), (pb_out b A p 3 1 0).
  rewrite (pzpb2desc_eq A), (pzdesc2pb_eq A), EI, EO.
  split; [cbn; auto|]. split; [|split; [cbn; auto|]].
  - rewrite EA. exists 1, 1. split; [cbn; lia|]. split; [cbn; lia|]. unfold at_, bandA. cbn. f_equal. lia.
  - rewrite EA. exists 1, 1. split; [cbn; lia|]. split; [cbn; lia|]. unfold at_, bandA. cbn. f_equal. lia.
Qed.

Lemma gb_refuted : forall N : numbers,
  exists nb n kl ku A size i j, let ld := 2 * kl + ku + 1 in
    gb_create nb n n kl ku = CrOk A size /\ in_tile_band A i j /\ kl < i - j /\
    forall (p : loc) b (M : mem N), fst p <> b ->
      region_ensures (pzpb2desc p ld b A) M (fun M' =>
        M' (b, band_elem_off A i j) = M (fst p, snd p + (ku + kl) + 1 * ld)).
Proof.
  intros N. destruct (gb_in_wrong N) as (A & EA & H). exists 2, 4, 1, 0, A, 24, 3, 0. cbv zeta.
  split; [assumption|]. split.
  - injection EA as <-. repeat split; discriminate.
  - split; [lia|]. intros p b M HP. specialize (H p b M HP).
    replace (snd p + (0 + 1) + 1 * (2 * 1 + 0 + 1)) with (snd p + 4) by lia. exact H.
Qed.

Lemma gb_bounds_refuted : forall N : numbers,
  exists nb m n kl ku A size, let ld := 2 * kl + ku + 1 in
    gb_create nb m n kl ku = CrOk A size /\
    forall (p : loc) b, exists (k k' : ktask N) o, ld * n <= o /\
      In k (pzpb2desc p ld b A) /\ k_reads k (fst p, snd p + o) /\
      In k' (pzdesc2pb b A p ld) /\ k_writes k' (fst p, snd p + o).
Proof.
  intros N. destruct (gb_out_of_bounds N) as (A & EA & H). exists 2, 4, 2, 1, 0, A, 12. cbv zeta.
  split; [assumption|]. intros p b. destruct (H p b) as (k & k' & H1). exists k, k', (3 * 2). split; [lia|]. exact H1.
Qed.
