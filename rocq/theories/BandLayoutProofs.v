(* The translation between the user's band array and band tile storage, for the triangle of a
   Hermitian band matrix. *)
From Coq Require Import ZArith List Bool Lia Ring.
From Verif Require Import Base NumModel NumProofs FieldModel TaskModel TaskSpec TaskProofs DescModel DescSpec
  DescDriverModel DescProofs DescPackProofs DescProofs3 DescProofs4 MatModel MatSpec MatProofs RegionProofs
  GuardModel GuardSpec LayoutModel LayoutProofs LayoutProofs2 OpProofs GemmModel GemmProofs
  RankModel TriModel DriverModel DriverSpec PotrfModel BandModel BandSpec BandProofs.
Import ListNotations.
Open Scope Z_scope.

(* tiles stored by a band descriptor *)
Definition in_tb (A : desc) (m n : Z) : Prop :=
  in_tiles A m n /\ 1 - d_kut A <= m - n <= d_klt A - 1.

Record pb_ok (A : desc) (uplo nb n kd : Z) : Prop := {
  pk_band : band_ok A; pk_shape : shape_ok A;
  pk_u : valid_uplo uplo; pk_uplo : d_uplo A = uplo;
  pk_m : d_m A = n; pk_n : d_n A = n; pk_mb : d_mb A = nb; pk_nb : d_nb A = nb;
  pk_kl : d_kl A = kd; pk_ku : d_ku A = kd;
  pk_klt : d_klt A = (if uplo =? PlasmaUpper then 1 else 1 + (kd + nb - 1) / nb);
  pk_kut : d_kut A = (if uplo =? PlasmaUpper then 1 + (kd + nb - 1) / nb else 1);
  pk_pos : 0 < nb; pk_kd : 0 <= kd < n }.

Lemma pb_create_pb : forall uplo nb n kd A size, 0 <= kd -> valid_uplo uplo ->
  pb_create uplo nb n kd = CrOk A size -> pb_ok A uplo nb n kd.
Proof.
  intros uplo nb n kd A size Hk Hu E. pose proof (pb_create_ok uplo nb n kd A size Hk Hu E) as P.
  destruct P as (P1 & P2 & P3 & P4 & P5 & P6 & P7 & P8 & P9).
  unfold pb_create, general_band_create in E. cbv zeta in E.
  destruct (desc_check _ =? PlasmaSuccess) eqn:EC in E; [|discriminate].
  apply Z.eqb_eq in EC. apply band_check_ok in EC; [|reflexivity].
  injection E as EA _. destruct EC as (_&E1&E2&E3&E4&E5&_&_&E8&E9&E10&E11&E12).
  cbn in E1,E2,E3,E4,E5,E8,E9,E10,E11,E12.
  constructor; auto; try lia; try (rewrite <- EA; reflexivity).
  constructor; rewrite <- ?EA; cbn; auto; try lia.
  - apply Z.mul_nonneg_nonneg; [lia|]. assert (0 <= (kd + nb - 1) / nb) by (apply Z.div_pos; lia). lia.
Qed.

Lemma pb_create_succeeds : forall uplo nb n kd, valid_uplo uplo -> 0 < nb -> 0 <= kd < n ->
  exists A size, pb_create uplo nb n kd = CrOk A size.
Proof.
  intros uplo nb n kd Hu Hb Hk. unfold pb_create, general_band_create. cbv zeta.
  assert (0 <= (kd + nb - 1) / nb) by (apply Z.div_pos; lia).
  assert (EU : nb * ((kd + nb) / nb) <= nb * (1 + (kd + nb - 1) / nb)).
  { apply Z.mul_le_mono_nonneg_l; [lia|]. replace ((kd + nb) / nb) with (kd / nb + 1).
    - assert (kd / nb <= (kd + nb - 1) / nb) by (apply Z.div_le_mono; lia). lia.
    - replace (kd + nb) with (kd + 1 * nb) by lia. rewrite Z.div_add by lia. reflexivity. }
  match goal with |- context [desc_check ?d] => assert (EC : desc_check d = PlasmaSuccess) end.
  { unfold desc_check. cbn -[Z.mul Z.div Z.add]. unfold general_band_check. cbn -[Z.mul Z.div Z.add Z.modulo Z.sub].
    assert (HUG : uplo =? PlasmaGeneral = false) by (destruct Hu as [-> | ->]; reflexivity).
    rewrite HUG. cbn [andb orb].
    replace (nb <=? 0) with false by (symmetry; apply Z.leb_gt; lia).
    replace (n <? 0) with false by (symmetry; apply Z.ltb_ge; lia).
    replace (n <? n) with false by (symmetry; apply Z.ltb_ge; lia).
    replace (nb * (1 + (kd + nb - 1) / nb) <? nb * ((kd + nb) / nb)) with false by (symmetry; apply Z.ltb_ge; lia).
    rewrite !andb_false_r. cbn [orb].
    replace (n <? 0 + n) with false by (symmetry; apply Z.ltb_ge; lia).
    rewrite Z.mod_0_l by lia. cbn [Z.eqb negb orb].
    replace (n <? kd + 1) with false by (symmetry; apply Z.ltb_ge; lia). reflexivity. }
  rewrite EC. cbn. eexists _, _. reflexivity.
Qed.

Lemma in_band_dec : forall uplo kd i j, {in_band uplo kd i j} + {~ in_band uplo kd i j}.
Proof.
  intros uplo kd i j. unfold in_band. destruct (Z.eq_dec uplo PlasmaUpper) as [->|N1].
  - destruct (Z_le_dec 0 (j - i)); destruct (Z_le_dec (j - i) kd); (left; left; split; [reflexivity|lia]) ||
      (right; intros [[_ ?]|[? _]]; [lia|discriminate]).
  - destruct (Z.eq_dec uplo PlasmaLower) as [->|N2].
    + destruct (Z_le_dec 0 (i - j)); destruct (Z_le_dec (i - j) kd); (left; right; split; [reflexivity|lia]) ||
      (right; intros [[? _]|[_ ?]]; [discriminate|lia]).
    + right. intros [[? _]|[? _]]; contradiction.
Qed.

(* different elements of the band have different places *)
Lemma band_loc_inj : forall uplo kd p ld i j i' j', kd < ld -> in_band uplo kd i j -> in_band uplo kd i' j' ->
  band_loc uplo kd p ld i j = band_loc uplo kd p ld i' j' -> i = i' /\ j = j'.
Proof.
  intros uplo kd p ld i j i' j' HL H1 H2 E. unfold band_loc in E. injection E as E.
  destruct H1 as [[-> H1]|[-> H1]]; destruct H2 as [[? H2]|[? H2]]; try discriminate; cbn in E.
  - assert (j = j') by nia. lia.
  - assert (j = j') by nia. lia.
Qed.

Section Tb.
  Variables (A : desc) (uplo nb n kd : Z).
  Hypothesis HP : pb_ok A uplo nb n kd.
  Let SH := pk_shape _ _ _ _ _ HP.
  Let BK := pk_band _ _ _ _ _ HP.

  Lemma tb_mmain : forall k, tile_mmain A k = nb.
  Proof. intros k. unfold tile_mmain. rewrite (bk_type A BK). cbn. apply (pk_mb _ _ _ _ _ HP). Qed.
  Lemma tb_mmain_band : forall m k, tile_mmain_band A m k = tile_mmain A m.
  Proof. intros m k. unfold tile_mmain_band. rewrite !tb_mmain. reflexivity. Qed.

  Lemma tb_elem_off : forall i j, band_elem_off A i j = elem_off A i j.
  Proof. intros i j. unfold band_elem_off, elem_off. rewrite tb_mmain_band. reflexivity. Qed.

  Lemma tb_tiled : tiled A (in_tb A).
  Proof.
    constructor; auto.
    - intros m k [H _]. assumption.
    - intros m k [[Hm Hk] _]. rewrite tb_mmain. rewrite <- (pk_mb _ _ _ _ _ HP).
      destruct (mview_spec A m SH Hm) as [E R]. lia.
    - intros m k m' k' r c r' c' [[Hm Hn] HB] [[Hm' Hn'] HB'] Hr Hc Hr' Hc' E.
      rewrite <- !elem_off_tile in E by assumption. rewrite <- !tb_elem_off in E.
      destruct (tile_row A m r SH Hm Hr) as (R1 & R2 & R3).
      destruct (tile_row A m' r' SH Hm' Hr') as (R1' & R2' & R3').
      destruct (tile_col A k c SH Hn Hc) as (C1 & C2 & C3).
      destruct (tile_col A k' c' SH Hn' Hc') as (C1' & C2' & C3').
      apply band_inj in E; auto.
      + destruct E as [E1 E2]. rewrite E1 in R2, R3. rewrite E2 in C2, C3. repeat split; congruence.
      + split; [assumption|]. split; [assumption|]. rewrite R2, C2. assumption.
      + split; [assumption|]. split; [assumption|]. rewrite R2', C2'. assumption.
  Qed.

  Lemma tb_sq : sq nb A (in_tb A).
  Proof. constructor; [apply tb_tiled|apply (pk_mb _ _ _ _ _ HP)|apply (pk_nb _ _ _ _ _ HP)]. Qed.

  (* number of tile diagonals besides the main one *)
  Definition ktl : Z := (kd + nb - 1) / nb.
  Lemma ktl_bounds : 0 <= ktl /\ kd <= ktl * nb <= kd + nb - 1.
  Proof.
    pose proof (pk_pos _ _ _ _ _ HP) as P1. pose proof (pk_kd _ _ _ _ _ HP) as P2. unfold ktl. pose proof (Z.div_mod (kd + nb - 1) nb ltac:(lia)) as E.
    pose proof (Z.mod_pos_bound (kd + nb - 1) nb ltac:(lia)). assert (0 <= (kd + nb - 1) / nb) by (apply Z.div_pos; lia). nia.
  Qed.

  Lemma tb_mt : d_mt A = ntl nb n.
  Proof. rewrite (mt_aligned_ntl nb A SH (pk_mb _ _ _ _ _ HP)), (pk_m _ _ _ _ _ HP). reflexivity. Qed.
  Lemma tb_nt : d_nt A = ntl nb n.
  Proof. rewrite (nt_aligned_ntl nb A SH (pk_nb _ _ _ _ _ HP)), (pk_n _ _ _ _ _ HP). reflexivity. Qed.

  Lemma in_tb_spec : forall m k, in_tb A m k <-> 0 <= m < ntl nb n /\ 0 <= k < ntl nb n /\
    (if uplo =? PlasmaUpper then 0 <= k - m <= ktl else 0 <= m - k <= ktl).
  Proof.
    intros m k. unfold in_tb, in_tiles. rewrite tb_mt, tb_nt, (pk_klt _ _ _ _ _ HP), (pk_kut _ _ _ _ _ HP). fold ktl.
    destruct (uplo =? PlasmaUpper); lia.
  Qed.

  Lemma tb_tsz : forall k, 0 <= k < ntl nb n -> 0 < tsz nb n k <= nb /\ (k < ntl nb n - 1 -> tsz nb n k = nb) /\
    0 <= k * nb < n.
  Proof.
    intros k Hk. pose proof (pk_pos _ _ _ _ _ HP) as Hb. rewrite <- tb_mt in Hk.
    destruct (mview_spec A k SH Hk) as [E R]. rewrite (pk_m _ _ _ _ _ HP), (pk_mb _ _ _ _ _ HP) in E.
    unfold tsz. split; [lia|]. split; [|nia].
    intros H1. rewrite <- tb_mt in H1. rewrite <- E. unfold tile_mview.
    replace (k <? d_mt A - 1) with true by (symmetry; apply Z.ltb_lt; lia). apply (pk_mb _ _ _ _ _ HP).
  Qed.

  (* the tile band holds the band *)
  Lemma band_tb : forall i j, in_matrix n n i j -> in_band uplo kd i j -> in_tb A (i / nb) (j / nb).
  Proof.
    intros i j [Hi Hj] HB. apply in_tb_spec. pose proof (pk_pos _ _ _ _ _ HP) as Hb.
    pose proof ktl_bounds as KB.
    destruct (row_tile A i SH) as [R1 _]; [rewrite (pk_m _ _ _ _ _ HP); assumption|].
    destruct (row_tile A j SH) as [R2 _]; [rewrite (pk_m _ _ _ _ _ HP); assumption|].
    rewrite (pk_mb _ _ _ _ _ HP), tb_mt in R1, R2. split; [assumption|]. split; [assumption|].
    pose proof (Z.div_mod i nb ltac:(lia)) as Ei. pose proof (Z.mod_pos_bound i nb Hb).
    pose proof (Z.div_mod j nb ltac:(lia)) as Ej. pose proof (Z.mod_pos_bound j nb Hb).
    assert (forall a b, nb * a < nb * b + nb -> a <= b) as L by (intros; nia).
    destruct HB as [[-> HB]|[-> HB]]; cbn.
    - split; [cut (i / nb <= j / nb); [lia|]; apply L; lia|]. cut (j / nb <= i / nb + ktl); [lia|]. apply L. lia.
    - split; [cut (j / nb <= i / nb); [lia|]; apply L; lia|]. cut (i / nb <= j / nb + ktl); [lia|]. apply L. lia.
  Qed.

  (* which elements of a tile belong to the band *)
  Lemma inb_band : forall m k m' k' r c,
    inb uplo m k m' k' nb kd kd r c = true <-> 0 <= r < m' /\ 0 <= c < k' /\ in_band uplo kd (m * nb + r) (k * nb + c).
  Proof.
    intros m k m' k' r c. rewrite inb_true. pose proof (proj1 (pk_kd _ _ _ _ _ HP)) as Hk.
    unfold bj_start, bj_end, bi_start, bi_end, in_band. destruct (pk_u _ _ _ _ _ HP) as [-> | ->]; cbn.
    - split.
      + intros H. split; [lia|]. split; [lia|]. left. split; [reflexivity|lia].
      + intros (H1 & H2 & [[_ H3]|[? _]]); [lia|discriminate].
    - split.
      + intros H. split; [lia|]. split; [lia|]. right. split; [reflexivity|lia].
      + intros (H1 & H2 & [[? _]|[_ H3]]); [discriminate|lia].
  Qed.

  Lemma tb_cut : forall m k, in_tb A m k -> tile_cut uplo m k (tsz nb n m) (tsz nb n k) nb kd kd.
  Proof.
    intros m k HS. apply in_tb_spec in HS. destruct HS as (Hm & Hk & HS).
    pose proof (tb_tsz m Hm) as (T1 & T2 & _). pose proof (tb_tsz k Hk) as (T3 & T4 & _).
    pose proof ktl_bounds as (KB & KC). pose proof (proj1 (pk_kd _ _ _ _ _ HP)) as Hkd. pose proof (pk_pos _ _ _ _ _ HP) as Hb.
    unfold tile_cut, bj_start, bj_end, bi_start, bi_end. destruct (pk_u _ _ _ _ _ HP) as [EU|EU]; rewrite EU in HS |- *; cbn in HS |- *.
    - assert (Q : (m - k) * nb <= 0 /\ - (kd + nb - 1) <= (m - k) * nb) by nia.
      assert (Q2 : (k - m) * nb = - ((m - k) * nb)) by ring.
      assert (Q3 : m = k \/ tsz nb n m = nb) by (destruct (Z.eq_dec m k); [left; assumption|right; apply T2; lia]).
      split; [|split]; [|lia|].
      + destruct Q3 as [->|Q3]; [rewrite Z.sub_diag; cbn|]; lia.
      + intros j Hj. destruct Q3 as [->|Q3]; [rewrite Z.sub_diag in *; cbn in *|]; lia.
    - assert (Q : 0 <= (m - k) * nb <= kd + nb - 1) by nia.
      assert (Q2 : (k - m) * nb = - ((m - k) * nb)) by ring.
      assert (Q3 : m = k \/ (tsz nb n k = nb /\ nb <= (m - k) * nb)).
      { destruct (Z.eq_dec m k); [left; assumption|right]. split; [apply T4; lia|nia]. }
      split; [|split]; [|lia|].
      + destruct Q3 as [->|Q3]; [rewrite Z.sub_diag; cbn|]; lia.
      + intros j Hj. destruct Q3 as [->|Q3]; [rewrite Z.sub_diag in *; cbn in *|]; lia.
  Qed.

  Variables (b : Z) (p : loc) (ld : Z).
  Hypothesis HL : kd < ld.

  Lemma bandA_loc : forall m k r c,
    at_ (bandA p ld A m k) (ld - 1) r c = band_loc uplo kd p ld (m * nb + r) (k * nb + c).
  Proof.
    intros m k r c. unfold at_, bandA, band_loc, band_offset. cbn [fst snd].
    rewrite (pk_uplo _ _ _ _ _ HP), (pk_mb _ _ _ _ _ HP), (pk_nb _ _ _ _ _ HP), (pk_ku _ _ _ _ _ HP).
    destruct (pk_u _ _ _ _ _ HP) as [-> | ->]; cbn; f_equal; ring.
  Qed.

  Lemma tb_window : forall m k m' k', windowed uplo m k m' k' nb kd kd (ld - 1) ((k - m) * nb - (if uplo =? PlasmaUpper then kd else 0)).
  Proof.
    intros m k m' k' r c H. apply inb_band in H. destruct H as (H1 & H2 & H3).
    destruct H3 as [[-> H3]|[-> H3]]; cbn; lia.
  Qed.
End Tb.

(* ------------------------------------------------------------------ *)
(* the two translation loops                                             *)

Lemma le_quot : forall nb x m, 0 < nb -> 0 <= x -> (m <= Z.quot x nb <-> m * nb <= x).
Proof.
  intros nb x m Hb Hx. rewrite Z.quot_div_nonneg by lia. split; intros H.
  - pose proof (Z.div_mod x nb ltac:(lia)). pose proof (Z.mod_pos_bound x nb Hb). nia.
  - apply Z.div_le_lower_bound; lia.
Qed.
Lemma quot_le : forall nb x m, 0 < nb -> 0 <= x -> (Z.quot x nb <= m <-> x < (m + 1) * nb).
Proof.
  intros nb x m Hb Hx. rewrite Z.quot_div_nonneg by lia. split; intros H.
  - pose proof (Z.div_mod x nb ltac:(lia)). pose proof (Z.mod_pos_bound x nb Hb). nia.
  - cut (x / nb < m + 1); [lia|]. apply Z.div_lt_upper_bound; lia.
Qed.

Lemma map_flat_map1 : forall A B (f : A -> B) l, map f l = flat_map (fun x => [f x]) l.
Proof. induction l as [|x l IH]; cbn; [reflexivity|]. rewrite IH. reflexivity. Qed.

Section Loops.
  Variables (A : desc) (uplo nb n kd : Z).
  Hypothesis HP : pb_ok A uplo nb n kd.

  Definition idx_in : list (Z * Z) := pairs (zrange 0 (d_nt A)) (fun k => zrange (bm_start A k) (bm_end A k + 1)).
  Definition idx_out : list (Z * Z) := pairs (zrange 0 (d_nt A)) (fun k => zrange (bm_start_out A k) (bm_end A k + 1)).

  Lemma le_ktl : forall x, x <= ktl nb kd <-> x * nb <= kd + nb - 1.
  Proof.
    intros x. pose proof (pk_pos _ _ _ _ _ HP). pose proof (pk_kd _ _ _ _ _ HP).
    unfold ktl. rewrite <- Z.quot_div_nonneg by lia. apply le_quot; lia.
  Qed.

  Lemma bm_end_spec : forall k m, 0 <= k < ntl nb n -> (m <= bm_end A k <-> m * nb < n /\
    if uplo =? PlasmaUpper then m <= k else m - k <= ktl nb kd).
  Proof.
    intros k m Hk. pose proof (pk_pos _ _ _ _ _ HP) as Hb. pose proof (pk_kd _ _ _ _ _ HP) as Hkd.
    assert (Q : k * nb < n) by (apply (tb_tsz A uplo nb n kd HP) in Hk; lia).
    assert (Q2 : 0 <= k * nb) by nia.
    unfold bm_end. rewrite (pk_uplo _ _ _ _ _ HP), (pk_m _ _ _ _ _ HP), (pk_nb _ _ _ _ _ HP), (pk_kl _ _ _ _ _ HP). pose proof (le_ktl (m - k)) as LK.
    destruct (pk_u _ _ _ _ _ HP) as [EU|EU]; rewrite EU; cbn; rewrite le_quot by lia.
    - split; intros H; [split; [lia|nia]|]. assert (m * nb <= k * nb) by nia. lia.
    - split; intros H; [split; lia|lia].
  Qed.

  Lemma bm_start_spec : forall k m, 0 <= k -> 0 <= m -> (bm_start A k <= m <->
    if uplo =? PlasmaUpper then k - m <= ktl nb kd else k <= m).
  Proof.
    intros k m Hk Hm. pose proof (pk_pos _ _ _ _ _ HP) as Hb. pose proof (pk_kd _ _ _ _ _ HP) as Hkd.
    assert (Q2 : 0 <= k * nb) by nia. assert (Q3 : 0 <= m * nb) by nia.
    unfold bm_start. rewrite (pk_uplo _ _ _ _ _ HP), (pk_nb _ _ _ _ _ HP), (pk_ku _ _ _ _ _ HP). pose proof (le_ktl (k - m)) as LK.
    destruct (pk_u _ _ _ _ _ HP) as [EU|EU]; rewrite EU; cbn; rewrite quot_le by lia.
    - split; intros H; lia.
    - split; intros H; nia.
  Qed.

  Lemma bm_start_pos : forall k, 0 <= bm_start A k.
  Proof.
    intros k. pose proof (pk_pos _ _ _ _ _ HP) as Hb. unfold bm_start. rewrite (pk_nb _ _ _ _ _ HP).
    destruct (d_uplo A =? PlasmaGeneral); [|destruct (d_uplo A =? PlasmaUpper)]; apply Z.quot_pos; lia.
  Qed.
  Lemma bm_start_out_pos : forall k, 0 <= bm_start_out A k.
  Proof.
    intros k. pose proof (pk_pos _ _ _ _ _ HP) as Hb. unfold bm_start_out. rewrite (pk_nb _ _ _ _ _ HP).
    destruct (d_uplo A =? PlasmaGeneral); [|destruct (d_uplo A =? PlasmaUpper)]; apply Z.quot_pos; lia.
  Qed.
  Lemma bm_start_out_le : forall k, bm_start_out A k <= bm_start A k.
  Proof.
    intros k. pose proof (pk_pos _ _ _ _ _ HP) as Hb. pose proof (pk_kd _ _ _ _ _ HP) as Hkd.
    unfold bm_start_out, bm_start. rewrite (pk_nb _ _ _ _ _ HP), (pk_kl _ _ _ _ _ HP), (pk_ku _ _ _ _ _ HP).
    destruct (d_uplo A =? PlasmaGeneral); [lia|]. destruct (d_uplo A =? PlasmaUpper); [|lia].
    rewrite !Z.quot_div_nonneg by lia. apply Z.div_le_mono; lia.
  Qed.

  Lemma idx_in_spec : forall k m, In (k, m) idx_in <-> in_tb A m k.
  Proof.
    intros k m. unfold idx_in. rewrite in_pairs, !in_zrange, (in_tb_spec A uplo nb n kd HP), (tb_nt A uplo nb n kd HP).
    pose proof (bm_start_pos k). pose proof (pk_pos _ _ _ _ _ HP) as Hb. pose proof (pk_kd _ _ _ _ _ HP) as Hkd. split.
    - intros (H1 & H2 & H3). assert (H4 : m <= bm_end A k) by lia. apply bm_end_spec in H4; [|assumption].
      assert (H6 : 0 <= m) by lia. apply bm_start_spec in H2; try lia. destruct H4 as [H4 H5].
      split; [split; [lia|]; apply ntl_spec; lia|]. split; [assumption|].
      destruct (uplo =? PlasmaUpper); lia.
    - intros (H1 & H2 & H3). split; [assumption|]. split.
      + apply bm_start_spec; try lia. destruct (uplo =? PlasmaUpper); lia.
      + cut (m <= bm_end A k); [lia|]. apply bm_end_spec; [assumption|].
        split; [apply (tb_tsz A uplo nb n kd HP) in H1; lia|]. destruct (uplo =? PlasmaUpper); lia.
  Qed.

  Lemma idx_out_sub : forall k m, in_tb A m k -> In (k, m) idx_out.
  Proof.
    intros k m H. apply idx_in_spec in H. unfold idx_in, idx_out in *. rewrite in_pairs, !in_zrange in *.
    pose proof (bm_start_out_le k). lia.
  Qed.
  Lemma idx_out_pos : forall k m, In (k, m) idx_out -> 0 <= k < ntl nb n /\ 0 <= m.
  Proof.
    intros k m H. unfold idx_out in H. rewrite in_pairs, !in_zrange, (tb_nt A uplo nb n kd HP) in H.
    pose proof (bm_start_out_pos k). lia.
  Qed.
  Lemma idx_in_NoDup : NoDup idx_in.
  Proof. apply NoDup_pairs; intros; apply NoDup_zrange. Qed.
  Lemma idx_out_NoDup : NoDup idx_out.
  Proof. apply NoDup_pairs; intros; apply NoDup_zrange. Qed.

  Context {N : numbers}.
  Variables (b : Z) (p : loc) (ld : Z).
  Hypothesis HL : kd < ld.
  Hypothesis HB : fst p <> b.

  Lemma pzpb2desc_eq : @pzpb2desc N p ld b A = flat_map (fun km => [pb_in p ld b A (snd km) (fst km)]) idx_in.
  Proof.
    unfold pzpb2desc, idx_in. rewrite <- (flat_map_pairs _ (fun k m => [@pb_in N p ld b A m k])).
    apply flat_map_ext. intros k. apply map_flat_map1.
  Qed.
  Lemma pzdesc2pb_eq : @pzdesc2pb N b A p ld = flat_map (fun km => [pb_out b A p ld (snd km) (fst km)]) idx_out.
  Proof.
    unfold pzdesc2pb, idx_out. rewrite <- (flat_map_pairs _ (fun k m => [@pb_out N b A p ld m k])).
    apply flat_map_ext. intros k. apply map_flat_map1.
  Qed.

  Lemma pb_in_eq : forall m k, @pb_in N p ld b A m k =
    omp_lapack2tile uplo m k (tsz nb n m) (tsz nb n k) nb kd kd (bandA p ld A m k) (ld - 1) (tptr b A m k) (tile_mmain A m).
  Proof.
    intros m k. unfold pb_in, tsz. rewrite (tb_mmain_band A uplo nb n kd HP).
    rewrite (pk_uplo _ _ _ _ _ HP), (pk_m _ _ _ _ _ HP), (pk_n _ _ _ _ _ HP), (pk_mb _ _ _ _ _ HP), (pk_nb _ _ _ _ _ HP),
      (pk_kl _ _ _ _ _ HP), (pk_ku _ _ _ _ _ HP). reflexivity.
  Qed.
  Lemma pb_out_eq : forall m k, @pb_out N b A p ld m k =
    omp_tile2lapack uplo m k (tsz nb n m) (tsz nb n k) nb kd kd (tptr b A m k) (tile_mmain A m) (bandA p ld A m k) (ld - 1).
  Proof.
    intros m k. unfold pb_out, tsz. rewrite (tb_mmain_band A uplo nb n kd HP).
    rewrite (pk_uplo _ _ _ _ _ HP), (pk_m _ _ _ _ _ HP), (pk_n _ _ _ _ _ HP), (pk_mb _ _ _ _ _ HP), (pk_nb _ _ _ _ _ HP),
      (pk_kl _ _ _ _ _ HP), (pk_ku _ _ _ _ _ HP). reflexivity.
  Qed.

  (* the part of a tile that is copied is its part of the band *)
  Lemma part_spec : forall m k q lq l, 0 <= m -> 0 <= k ->
    band_part uplo m k (tsz nb n m) (tsz nb n k) nb kd kd q lq l ->
    exists r c, 0 <= r < tsz nb n m /\ 0 <= c < tsz nb n k /\ in_matrix n n (m * nb + r) (k * nb + c) /\
      in_band uplo kd (m * nb + r) (k * nb + c) /\ in_tb A m k /\ l = at_ q lq r c.
  Proof.
    intros m k q lq l Hm Hk (r & c & H1 & H2 & E).
    assert (H : inb uplo m k (tsz nb n m) (tsz nb n k) nb kd kd r c = true) by (apply inb_true; tauto).
    apply (inb_band A uplo nb n kd HP) in H. destruct H as (Hr & Hc & HI). exists r, c.
    destruct (tile_pos nb A (in_tb A) (tb_sq A uplo nb n kd HP) m r n Hr Hm) as (P1 & P2 & P3).
    destruct (tile_pos nb A (in_tb A) (tb_sq A uplo nb n kd HP) k c n Hc Hk) as (Q1 & Q2 & Q3).
    assert (HM : in_matrix n n (m * nb + r) (k * nb + c)) by (split; assumption).
    repeat split; try lia; try assumption.
    all: pose proof (band_tb A uplo nb n kd HP _ _ HM HI) as HT; rewrite P2, Q2 in HT; apply HT.
  Qed.

  Lemma pb_in_kgood : forall m k, in_tb A m k -> kgood (@pb_in N p ld b A m k).
  Proof.
    intros m k H. rewrite pb_in_eq. apply l2t_kgood; [assumption|apply (tb_cut A uplo nb n kd HP); assumption|].
    pose proof (sq_ld nb A (in_tb A) (tb_sq A uplo nb n kd HP) m k H) as L. rewrite (pk_m _ _ _ _ _ HP) in L. assumption.
  Qed.
  Lemma pb_out_kgood : forall m k, kgood (@pb_out N b A p ld m k).
  Proof. intros m k. rewrite pb_out_eq. eapply t2l_kgood; [assumption|]. apply (tb_window A uplo nb n kd HP). assumption. Qed.

  Lemma pzpb2desc_kgood : Forall kgood (@pzpb2desc N p ld b A).
  Proof.
    rewrite pzpb2desc_eq. apply Forall_forall. intros x Hx. apply in_flat_map in Hx. destruct Hx as ([k m] & Hi & [<-|[]]).
    apply idx_in_spec in Hi. apply pb_in_kgood. assumption.
  Qed.
  Lemma pzdesc2pb_kgood : Forall kgood (@pzdesc2pb N b A p ld).
  Proof.
    rewrite pzdesc2pb_eq. apply Forall_forall. intros x Hx. apply in_flat_map in Hx. destruct Hx as ([k m] & Hi & [<-|[]]).
    apply pb_out_kgood.
  Qed.

  Lemma pzpb2desc_writes : forall x l, In x (@pzpb2desc N p ld b A) -> k_writes x l -> fst l = b.
  Proof.
    intros x l Hx W. rewrite pzpb2desc_eq in Hx. apply in_flat_map in Hx. destruct Hx as ([k m] & Hi & [<-|[]]).
    rewrite pb_in_eq in W. apply reg_block in W. assumption.
  Qed.
  Lemma pzdesc2pb_writes : forall x l, In x (@pzdesc2pb N b A p ld) -> k_writes x l -> in_user_band uplo kd p ld n l.
  Proof.
    intros x l Hx W. rewrite pzdesc2pb_eq in Hx. apply in_flat_map in Hx. destruct Hx as ([k m] & Hi & [<-|[]]).
    apply idx_out_pos in Hi. cbn [fst snd] in W. rewrite pb_out_eq in W. cbn in W. apply part_spec in W; try lia.
    destruct W as (r & c & Hr & Hc & HM & HI & _ & ->). rewrite (bandA_loc A uplo nb n kd HP).
    exists (m * nb + r), (k * nb + c). auto.
  Qed.

  Lemma pzpb2desc_frame : forall M l, fst l <> b -> krun (@pzpb2desc N p ld b A) M l = M l.
  Proof.
    intros M l H. apply krun_frame.
    - eapply Forall_impl; [|apply pzpb2desc_kgood]. intros x G. apply (kg_sound _ G).
    - intros (x & Hx & W). apply H. eapply pzpb2desc_writes; eauto.
  Qed.
  Lemma pzdesc2pb_frame : forall M l, ~ in_user_band uplo kd p ld n l -> krun (@pzdesc2pb N b A p ld) M l = M l.
  Proof.
    intros M l H. apply krun_frame.
    - eapply Forall_impl; [|apply pzdesc2pb_kgood]. intros x G. apply (kg_sound _ G).
    - intros (x & Hx & W). apply H. eapply pzdesc2pb_writes; eauto.
  Qed.

  Lemma tb_pos : forall i j, in_matrix n n i j -> i = (i / nb) * nb + i mod nb /\ j = (j / nb) * nb + j mod nb /\
    0 <= i mod nb < tsz nb n (i / nb) /\ 0 <= j mod nb < tsz nb n (j / nb).
  Proof.
    intros i j [Hi Hj].
    destruct (pos_tile nb A (in_tb A) (tb_sq A uplo nb n kd HP) i n Hi) as (P1 & P2 & P3).
    destruct (pos_tile nb A (in_tb A) (tb_sq A uplo nb n kd HP) j n Hj) as (Q1 & Q2 & Q3). auto.
  Qed.

  Lemma pzpb2desc_spec : forall M i j, in_matrix n n i j -> in_tb A (i / nb) (j / nb) ->
    el (krun (@pzpb2desc N p ld b A) M) b A i j = if in_band_dec uplo kd i j then bel M uplo kd p ld i j else n0.
  Proof.
    intros M i j HM HT. destruct (tb_pos i j HM) as (E1 & E2 & R1 & R2).
    pose proof (tb_sq A uplo nb n kd HP) as SQ.
    pose proof (sq_ld nb A (in_tb A) SQ _ _ HT) as LD. rewrite (pk_m _ _ _ _ _ HP) in LD.
    assert (EL : (b, elem_off A i j) = at_ (tptr b A (i / nb) (j / nb)) (tile_mmain A (i / nb)) (i mod nb) (j mod nb)).
    { unfold elem_off, at_, tptr. rewrite (pk_mb _ _ _ _ _ HP), (pk_nb _ _ _ _ _ HP). reflexivity. }
    unfold el. rewrite pzpb2desc_eq.
    rewrite (krun_groups N _ (fun km => [pb_in p ld b A (snd km) (fst km)]) idx_in M (j / nb, i / nb)); cbn [fst snd].
    - rewrite pb_in_eq. cbn [krun fold_left]. cbn [k_fun omp_lapack2tile].
      rewrite l2t_mset; [|assumption|apply (tb_cut A uplo nb n kd HP); assumption|assumption].
      rewrite EL, mset_in by lia. cbn [everywhere]. unfold l2t_val.
      destruct (in_band_dec uplo kd i j) as [HI|HI].
      + replace (inb _ _ _ _ _ _ _ _ _ _) with true.
        * unfold rd, bel. rewrite (bandA_loc A uplo nb n kd HP), <- E1, <- E2. reflexivity.
        * symmetry. apply (inb_band A uplo nb n kd HP). rewrite <- E1, <- E2. auto.
      + replace (inb _ _ _ _ _ _ _ _ _ _) with false; [reflexivity|].
        symmetry. apply not_true_is_false. intros H. apply (inb_band A uplo nb n kd HP) in H. rewrite <- E1, <- E2 in H. tauto.
    - intros [k m] Hmn. apply idx_in_spec in Hmn. cbn [fst snd]. pose proof (pb_in_kgood m k Hmn) as G.
      split; (constructor; [|constructor]); [apply (kg_sound _ G)|apply kgood_kdecw; assumption].
    - apply idx_in_NoDup.
    - intros [k m] [k' m'] x H1 H2 Hne W. apply idx_in_spec in H1, H2. cbn [fst snd] in *.
      destruct W as (y & [<-|[]] & W). rewrite pb_in_eq in W. cbn in W.
      split; intros (y & [<-|[]] & W'); rewrite pb_in_eq in W'; cbn in W'.
      + pose proof (sq_mv nb A (in_tb A) SQ) as MV. pose proof (sq_nv nb A (in_tb A) SQ) as NV.
        rewrite (pk_m _ _ _ _ _ HP) in MV. rewrite (pk_n _ _ _ _ _ HP) in NV.
        rewrite <- (MV _ _ H2), <- (NV _ _ H2) in W. rewrite <- (MV _ _ H1), <- (NV _ _ H1) in W'.
        destruct (reg_tile_apart A (in_tb A) b (sq_t nb A (in_tb A) SQ) m' k' m k _ _ x H2 H1 W W'). congruence.
      + apply reg_block in W. destruct W' as (r & c & _ & _ & ->). cbn in W. congruence.
    - apply idx_in_spec. assumption.
    - left. eexists. split; [left; reflexivity|]. rewrite pb_in_eq. cbn. rewrite EL.
      exists (i mod nb), (j mod nb). repeat split; lia.
  Qed.

  Lemma pzdesc2pb_spec : forall M i j, in_matrix n n i j -> in_band uplo kd i j ->
    bel (krun (@pzdesc2pb N b A p ld) M) uplo kd p ld i j = el M b A i j.
  Proof.
    intros M i j HM HI. destruct (tb_pos i j HM) as (E1 & E2 & R1 & R2).
    pose proof (band_tb A uplo nb n kd HP i j HM HI) as HT.
    assert (EI : inb uplo (i / nb) (j / nb) (tsz nb n (i / nb)) (tsz nb n (j / nb)) nb kd kd (i mod nb) (j mod nb) = true).
    { apply (inb_band A uplo nb n kd HP). rewrite <- E1, <- E2. auto. }
    assert (EL : band_loc uplo kd p ld i j = at_ (bandA p ld A (i / nb) (j / nb)) (ld - 1) (i mod nb) (j mod nb)).
    { rewrite (bandA_loc A uplo nb n kd HP), <- E1, <- E2. reflexivity. }
    unfold bel. rewrite pzdesc2pb_eq.
    rewrite (krun_groups N _ (fun km => [pb_out b A p ld (snd km) (fst km)]) idx_out M (j / nb, i / nb)); cbn [fst snd].
    - rewrite pb_out_eq. cbn [krun fold_left]. cbn [k_fun omp_tile2lapack]. rewrite EL.
      erewrite t2l_in; [|assumption|apply (tb_window A uplo nb n kd HP); assumption|assumption].
      unfold rd, at_, tptr, el, elem_off. cbn [fst snd]. rewrite (pk_mb _ _ _ _ _ HP), (pk_nb _ _ _ _ _ HP). reflexivity.
    - intros [k m] Hmn. cbn [fst snd]. pose proof (pb_out_kgood m k) as G.
      split; (constructor; [|constructor]); [apply (kg_sound _ G)|apply kgood_kdecw; assumption].
    - apply idx_out_NoDup.
    - intros [k m] [k' m'] x H1 H2 Hne W. apply idx_out_pos in H1, H2. cbn [fst snd] in *.
      destruct W as (y & [<-|[]] & W). rewrite pb_out_eq in W. cbn in W. apply part_spec in W; try lia.
      destruct W as (r & c & Hr & Hc & _ & HIx & HTx & ->).
      split; intros (y & [<-|[]] & W'); rewrite pb_out_eq in W'; cbn in W'; apply part_spec in W'; try lia.
      + destruct W' as (r' & c' & Hr' & Hc' & _ & HIx' & HTx' & EE). rewrite !(bandA_loc A uplo nb n kd HP) in EE.
        apply band_loc_inj in EE; try assumption. destruct EE as [EE1 EE2].
        pose proof (tb_sq A uplo nb n kd HP) as SQ.
        destruct (tile_pos nb A (in_tb A) SQ m r' n) as (_ & P2 & _); try lia.
        destruct (tile_pos nb A (in_tb A) SQ m' r n) as (_ & P3 & _); try lia.
        destruct (tile_pos nb A (in_tb A) SQ k c' n) as (_ & P4 & _); try lia.
        destruct (tile_pos nb A (in_tb A) SQ k' c n) as (_ & P5 & _); try lia.
        apply Hne. rewrite EE1 in P3. rewrite EE2 in P5. congruence.
      + destruct W' as (r' & c' & _ & _ & _ & _ & _ & EE). injection EE as EE _. cbn in EE. congruence.
    - apply idx_out_sub. assumption.
    - left. eexists. split; [left; reflexivity|]. rewrite pb_out_eq. cbn. rewrite EL.
      apply inb_true in EI. exists (i mod nb), (j mod nb). tauto.
  Qed.
End Loops.
