(* The copy of a band from tiles to band storage. *)
From Coq Require Import ZArith List Bool Lia.
From Verif Require Import Base NumModel NumProofs TaskModel TaskSpec TaskProofs DescModel DescSpec
  DescDriverModel DescProofs DescPackProofs DescProofs3 MatModel MatSpec MatProofs RegionProofs
  LayoutModel LayoutProofs LayoutProofs2 BandSpec SvdBandModel.
Import ListNotations.
Open Scope Z_scope.

Section Copy.
  Context {V : Type}.
  Variables (A : desc) (up : bool) (nb b : Z) (p : loc) (ld : Z).
  Hypothesis HT : tiled A (in_tiles A).
  Hypothesis Hty : d_type A <> PlasmaGeneralBand.
  Hypothesis Hmb : d_mb A = nb.
  Hypothesis Hnb : d_nb A = nb.
  Hypothesis HB : fst p <> b.
  Hypothesis HL : nb < ld.
  Let SH : shape_ok A := td_shape _ _ HT.
  Hypothesis HK : if up then d_nt A <= d_mt A else d_mt A <= d_nt A.

  Definition uplo_of : Z := if up then PlasmaUpper else PlasmaLower.
  Definition kk : Z := if up then d_nt A else d_mt A.
  Definition row_of (x : Z * Z) : Z := if up then fst x else snd x.
  Definition col_of (x : Z * Z) : Z := if up then snd x else fst x.
  Definition sel_of (x : Z * Z) : Z :=
    if fst x =? snd x then uplo_of else if up then PlasmaLower else PlasmaUpper.
  Definition ptr_of (x : Z * Z) : loc :=
    (fst p, snd p + ((if up then nb else 0) + (row_of x - col_of x) * nb + ld * (col_of x * nb))).
  Definition tk (x : Z * Z) : ktask V :=
    omp_zlacpy (sel_of x) (tile_mview A (row_of x)) (tile_nview A (col_of x))
      (tptr b A (row_of x) (col_of x)) (tile_mmain A (row_of x)) (ptr_of x) (ld - 1).
  Definition idx : list (Z * Z) :=
    pairs (zrange 0 kk) (fun j => if j <? kk - 1 then [j; j + 1] else [j]).

  Lemma kk_min : Z.min (d_mt A) (d_nt A) = kk.
  Proof. clear - HK. unfold kk. destruct up; lia. Qed.

  Lemma list_eq : @pzgecpy_tile2lapack_band V uplo_of b A p ld = flat_map (fun x => [tk x]) idx.
  Proof.
    unfold idx. rewrite <- (flat_map_pairs _ (fun m n => [tk (m, n)])).
    unfold pzgecpy_tile2lapack_band. rewrite kk_min, Hmb. unfold uplo_of, tk, sel_of, ptr_of, row_of, col_of, uplo_of, pA_band.
    destruct up; cbn [fst snd].
    - replace (PlasmaUpper =? PlasmaLower) with false by reflexivity. replace (PlasmaUpper =? PlasmaUpper) with true by reflexivity.
      apply flat_map_ext. intros j. destruct (j <? kk - 1); cbn [flat_map app].
      + rewrite Z.eqb_refl. replace (j =? j + 1) with false by (symmetry; apply Z.eqb_neq; lia).
        replace (nb + (j - j) * nb) with nb by ring. replace (nb + (j - (j + 1)) * nb) with 0 by ring. reflexivity.
      + rewrite Z.eqb_refl. replace (nb + (j - j) * nb) with nb by ring. reflexivity.
    - replace (PlasmaLower =? PlasmaLower) with true by reflexivity.
      apply flat_map_ext. intros j. destruct (j <? kk - 1); cbn [flat_map app].
      + rewrite Z.eqb_refl. replace (j =? j + 1) with false by (symmetry; apply Z.eqb_neq; lia).
        replace (0 + (j - j) * nb) with 0 by ring. replace (0 + (j + 1 - j) * nb) with nb by ring. reflexivity.
      + rewrite Z.eqb_refl. replace (0 + (j - j) * nb) with 0 by ring. reflexivity.
  Qed.

  Lemma idx_spec : forall x, In x idx <-> 0 <= fst x /\ (snd x = fst x \/ snd x = fst x + 1) /\ snd x < kk.
  Proof.
    intros [j i]. unfold idx. rewrite in_pairs, in_zrange. cbn [fst snd].
    destruct (Z.ltb_spec j (kk - 1)); cbn [In]; split; intros H1; lia.
  Qed.

  Lemma idx_NoDup : NoDup idx.
  Proof.
    apply NoDup_pairs; [apply NoDup_zrange|]. intros j _. destruct (j <? kk - 1).
    - constructor; [intros [E|[]]; lia|]. constructor; [intros []|constructor].
    - constructor; [intros []|constructor].
  Qed.

  Lemma idx_tiles : forall x, In x idx -> 0 <= row_of x < d_mt A /\ 0 <= col_of x < d_nt A.
  Proof. intros x H. apply idx_spec in H. clear - H HK. unfold row_of, col_of, kk in *. destruct up; lia. Qed.

  Lemma mv_le : forall x, In x idx -> tile_mview A (row_of x) <= ld - 1.
  Proof.
    intros x H. destruct (idx_tiles x H) as [H1 _]. pose proof (mmain_ge_mview A (row_of x) SH Hty H1). lia.
  Qed.

  Lemma at_band : forall x r c, at_ (ptr_of x) (ld - 1) r c = band_loc uplo_of nb p ld (row_of x * nb + r) (col_of x * nb + c).
  Proof.
    intros x r c. unfold at_, ptr_of, band_loc, uplo_of. cbn [fst snd]. destruct up; cbn [Z.eqb]; f_equal.
    - replace (PlasmaUpper =? PlasmaUpper) with true by reflexivity. ring.
    - replace (PlasmaLower =? PlasmaUpper) with false by reflexivity. ring.
  Qed.

  (* what a task writes *)
  Lemma tk_writes : forall x l, In x idx -> k_writes (tk x) l <->
    exists i j, in_matrix (d_m A) (d_n A) i j /\ in_band uplo_of nb i j /\ i / nb = row_of x /\ j / nb = col_of x /\
      l = band_loc uplo_of nb p ld i j.
  Proof.
    intros x l Hx. destruct (idx_tiles x Hx) as [H1 H2]. pose proof Hx as Hy. apply idx_spec in Hy.
    assert (P : 0 < nb) by (rewrite <- Hmb; apply (go_mb A SH)).
    cbn [k_writes tk omp_zlacpy]. split.
    - intros (r & c & Hr & Hc & HS & ->).
      destruct (tile_row A (row_of x) r SH H1 Hr) as (R1 & R2 & R3). destruct (tile_col A (col_of x) c SH H2 Hc) as (C1 & C2 & C3).
      rewrite Hmb in R1, R2, R3. rewrite Hnb in C1, C2, C3.
      pose proof (Z.mod_pos_bound (row_of x * nb + r) nb P) as B1. pose proof (Z.mod_pos_bound (col_of x * nb + c) nb P) as B2.
      rewrite R3 in B1. rewrite C3 in B2.
      exists (row_of x * nb + r), (col_of x * nb + c). split; [split; assumption|]. split; [|split; [assumption|split; [assumption|apply at_band]]].
      clear - HS Hy B1 B2. unfold in_band, sel_of, uplo_of, row_of, col_of, uplo_sel in *. destruct x as [j i]. cbn [fst snd] in *.
      destruct (Z.eqb_spec j i) as [<-|N].
      + destruct up; [left|right]; (split; [reflexivity|]).
        * change (PlasmaUpper =? PlasmaUpper) with true in HS. apply Z.leb_le in HS. lia.
        * change (PlasmaLower =? PlasmaUpper) with false in HS. change (PlasmaLower =? PlasmaLower) with true in HS. apply Z.leb_le in HS. lia.
      + assert (E : i = j + 1) by lia. subst i. destruct up; [left|right]; (split; [reflexivity|]).
        * change (PlasmaLower =? PlasmaUpper) with false in HS. change (PlasmaLower =? PlasmaLower) with true in HS. apply Z.leb_le in HS. lia.
        * change (PlasmaUpper =? PlasmaUpper) with true in HS. apply Z.leb_le in HS. lia.
    - intros (i & j & [Ii Ij] & HI & Ei & Ej & ->).
      destruct (row_tile A i SH Ii) as [_ R]. destruct (col_tile A j SH Ij) as [_ C]. rewrite Hmb, Ei in R. rewrite Hnb, Ej in C.
      pose proof (Z.div_mod i nb ltac:(lia)) as Di. pose proof (Z.div_mod j nb ltac:(lia)) as Dj. rewrite Ei in Di. rewrite Ej in Dj.
      exists (i mod nb), (j mod nb). split; [assumption|]. split; [assumption|]. split.
      + clear - HI Hy Di Dj P. unfold in_band, sel_of, uplo_of, row_of, col_of, uplo_sel in *. destruct x as [y z]. cbn [fst snd] in *.
        destruct (Z.eqb_spec y z) as [<-|N].
        * destruct up; [change (PlasmaUpper =? PlasmaUpper) with true|change (PlasmaLower =? PlasmaUpper) with false; change (PlasmaLower =? PlasmaLower) with true];
            cbn [negb]; apply Z.leb_le; destruct HI as [[E HI]|[E HI]]; discriminate || lia.
        * assert (E : z = y + 1) by lia. subst z.
          destruct up; [change (PlasmaLower =? PlasmaUpper) with false; change (PlasmaLower =? PlasmaLower) with true|change (PlasmaUpper =? PlasmaUpper) with true];
            cbn [negb]; apply Z.leb_le; destruct HI as [[E HI]|[E HI]]; discriminate || lia.
      + rewrite at_band. f_equal; lia.
  Qed.

  Lemma band_loc_inj : forall i j i' j', in_band uplo_of nb i j -> in_band uplo_of nb i' j' ->
    band_loc uplo_of nb p ld i j = band_loc uplo_of nb p ld i' j' -> i = i' /\ j = j'.
  Proof.
    intros i j i' j' H H' E. unfold band_loc in E. injection E as E.
    assert (X : exists o o', 0 <= o < ld /\ 0 <= o' < ld /\ o = (if uplo_of =? PlasmaUpper then nb else 0) + i - j /\
      o' = (if uplo_of =? PlasmaUpper then nb else 0) + i' - j').
    { clear E. unfold in_band, uplo_of in *. destruct up.
      - change (PlasmaUpper =? PlasmaUpper) with true. destruct H as [[_ H]|[E _]]; [|discriminate]. destruct H' as [[_ H']|[E _]]; [|discriminate].
        eexists. eexists. repeat split; lia.
      - change (PlasmaLower =? PlasmaUpper) with false. destruct H as [[E _]|[_ H]]; [discriminate|]. destruct H' as [[E _]|[_ H']]; [discriminate|].
        eexists. eexists. repeat split; lia. }
    destruct X as (o & o' & O & O' & Eo & Eo'). rewrite <- Eo, <- Eo' in E.
    assert (J : j = j') by nia. split; [|exact J]. lia.
  Qed.

  Lemma tk_kgood : Forall kgood (flat_map (fun x => [tk x]) idx).
  Proof.
    apply Forall_forall. intros k Hk. apply in_flat_map in Hk. destruct Hk as (x & Hx & [<-|[]]).
    apply omp_zlacpy_kgood. apply mv_le. exact Hx.
  Qed.

  Lemma tk_reads_b : forall x l, k_reads (tk x) l -> fst l = b.
  Proof. intros x l (r & c & _ & _ & _ & ->). reflexivity. Qed.
  Lemma tk_writes_p : forall x l, k_writes (tk x) l -> fst l = fst p.
  Proof. intros x l (r & c & _ & _ & _ & ->). reflexivity. Qed.
  Lemma tk_disjoint : forall x y l, In x idx -> In y idx -> k_writes (tk x) l -> k_writes (tk y) l -> x = y.
  Proof.
    intros x y l Hx Hy W W'. apply tk_writes in W; [|exact Hx]. apply tk_writes in W'; [|exact Hy].
    destruct W as (i & j & _ & I1 & E1 & E2 & ->). destruct W' as (i' & j' & _ & I2 & E3 & E4 & E).
    destruct (band_loc_inj i j i' j' I1 I2 E) as [<- <-]. rewrite E1 in E3. rewrite E2 in E4.
    clear - E3 E4. destruct x, y. unfold row_of, col_of in *. cbn in *. destruct up; congruence.
  Qed.

  Lemma korders_idx : forall l, NoDup l -> (forall x, In x l -> In x idx) -> korders (flat_map (fun x => [tk x]) l).
  Proof.
    induction l as [|x l IH]; intros HN HI; cbn; [constructor|]. inversion HN as [|? ? N1 N2]; subst. constructor.
    - intros k' Hk (c & HC). exfalso. apply in_flat_map in Hk. destruct Hk as (y & Hy & [<-|[]]).
      destruct HC as [[W [R|W']]|[R W]].
      + apply tk_reads_b in R. apply tk_writes_p in W. congruence.
      + apply N1. rewrite (tk_disjoint x y c); auto; apply HI; [left; reflexivity|right; assumption].
      + apply tk_reads_b in R. apply tk_writes_p in W. congruence.
    - apply IH; auto. intros y Hy. apply HI. right; assumption.
  Qed.

  Lemma band_tile : forall i j, in_matrix (d_m A) (d_n A) i j -> in_band uplo_of nb i j ->
    exists x, In x idx /\ row_of x = i / nb /\ col_of x = j / nb.
  Proof.
    intros i j [Ii Ij] HI. destruct (row_tile A i SH Ii) as [R _]. destruct (col_tile A j SH Ij) as [C _].
    rewrite Hmb in R. rewrite Hnb in C. assert (P : 0 < nb) by (rewrite <- Hmb; apply (go_mb A SH)).
    pose proof (Z.div_mod i nb ltac:(lia)) as Di. pose proof (Z.div_mod j nb ltac:(lia)) as Dj.
    pose proof (Z.mod_pos_bound i nb P) as Mi. pose proof (Z.mod_pos_bound j nb P) as Mj.
    exists (if up then (i / nb, j / nb) else (j / nb, i / nb)). rewrite idx_spec.
    generalize dependent (i / nb). intros qi. intros. generalize dependent (j / nb). intros qj. intros.
    generalize dependent (i mod nb). intros ri. intros. generalize dependent (j mod nb). intros rj. intros.
    unfold row_of, col_of, kk, in_band, uplo_of in *. destruct up; cbn [fst snd].
    - destruct HI as [[_ HI]|[E _]]; [|discriminate]. split; [|split; reflexivity].
      clear - HI Di Dj Mi Mj R C P HK. assert (qi <= qj) by nia. assert (qj <= qi + 1) by nia. lia.
    - destruct HI as [[E _]|[_ HI]]; [discriminate|]. split; [|split; reflexivity].
      clear - HI Di Dj Mi Mj R C P HK. assert (qj <= qi) by nia. assert (qi <= qj + 1) by nia. lia.
  Qed.

  Lemma copy_value : forall M i j, in_matrix (d_m A) (d_n A) i j -> in_band uplo_of nb i j ->
    krun (flat_map (fun x => [tk x]) idx) M (band_loc uplo_of nb p ld i j) = el M b A i j.
  Proof.
    intros M i j [Ii Ij] HI. destruct (band_tile i j (conj Ii Ij) HI) as (x & Hx & Er & Ec).
    assert (W : k_writes (tk x) (band_loc uplo_of nb p ld i j)).
    { apply tk_writes; [exact Hx|]. exists i, j. repeat split; auto; try apply Ii; try apply Ij. }
    rewrite (krun_groups V _ (fun x => [tk x]) idx M x).
    - cbn [krun tk omp_zlacpy k_fun]. unfold core_zlacpy.
      destruct (mset_val V (ptr_of x) (ld - 1) (tile_mview A (row_of x)) (tile_nview A (col_of x)) (uplo_sel (sel_of x))
        (fun i j => rd M (tptr b A (row_of x) (col_of x)) (tile_mmain A (row_of x)) i j) M (band_loc uplo_of nb p ld i j) (mv_le x Hx) W)
        as (r & c & Hr & Hc & HS & E & ->).
      destruct (idx_tiles x Hx) as [H1 H2].
      destruct (tile_row A (row_of x) r SH H1 Hr) as (R1 & R2 & R3). destruct (tile_col A (col_of x) c SH H2 Hc) as (C1 & C2 & C3).
      rewrite Hmb in R1, R2, R3. rewrite Hnb in C1, C2, C3.
      assert (P : 0 < nb) by (rewrite <- Hmb; apply (go_mb A SH)).
      pose proof (Z.div_mod i nb ltac:(lia)) as Di. pose proof (Z.div_mod j nb ltac:(lia)) as Dj. rewrite <- Er in Di. rewrite <- Ec in Dj.
      pose proof (Z.mod_pos_bound i nb P) as Mi. pose proof (mv_le x Hx) as ML.
      assert (Y : i = row_of x * nb + r /\ j = col_of x * nb + c).
      { assert (E' : at_ (ptr_of x) (ld - 1) (i mod nb) (j mod nb) = at_ (ptr_of x) (ld - 1) r c).
        { rewrite <- E, at_band. f_equal; lia. }
        unfold at_ in E'. injection E' as E'. clear - E' Di Dj Mi ML Hr HL.
        generalize dependent (i mod nb). generalize dependent (j mod nb). intros y Dj x' E' Mi Di.
        assert (y = c) by nia. subst y. lia. }
      destruct Y as [-> ->]. unfold rd, el, at_, tptr. cbn [fst snd].
      rewrite <- Hmb at 1. rewrite <- Hnb at 1. rewrite (elem_off_tile A (row_of x) (col_of x) r c SH H1 H2 Hr Hc). reflexivity.
    - intros y Hy. split; (constructor; [|constructor]).
      + apply omp_zlacpy_ksound. apply mv_le. exact Hy.
      + apply omp_zlacpy_kdecw. apply mv_le. exact Hy.
    - apply idx_NoDup.
    - intros y z l Hy Hz N (k & [<-|[]] & W1). split; intros (k & [<-|[]] & W2).
      + apply N. exact (tk_disjoint y z l Hy Hz W2 W1).
      + apply tk_reads_b in W2. apply tk_writes_p in W1. congruence.
    - exact Hx.
    - left. eexists. split; [left; reflexivity|]. exact W.
  Qed.

  Lemma copy_region : forall M,
    region_ensures (@pzgecpy_tile2lapack_band V uplo_of b A p ld) M (fun M' =>
      (forall i j, in_matrix (d_m A) (d_n A) i j -> in_band uplo_of nb i j -> bel M' uplo_of nb p ld i j = el M b A i j) /\
      (forall l, (forall i j, in_matrix (d_m A) (d_n A) i j -> in_band uplo_of nb i j -> l <> band_loc uplo_of nb p ld i j) ->
         M' l = M l)).
  Proof.
    intros M. rewrite list_eq. apply region_intro; [apply tk_kgood|apply korders_klinked; apply korders_idx; [apply idx_NoDup|auto]|].
    intros M' EM. split.
    - intros i j Hij HI. unfold bel. rewrite EM. apply copy_value; assumption.
    - intros l Hl. rewrite EM. apply krun_frame.
      + eapply Forall_impl; [|apply tk_kgood]. intros k Hk. apply (kg_sound _ Hk).
      + intros (k & Hk & W). apply in_flat_map in Hk. destruct Hk as (x & Hx & [<-|[]]).
        apply tk_writes in W; [|exact Hx]. destruct W as (i & j & Hij & HI & _ & _ & E). exact (Hl i j Hij HI E).
  Qed.
End Copy.

Lemma tiles_le : forall a b nb, 0 < nb -> 0 <= a -> a <= b ->
  (if a =? 0 then 0 else (0 + a - 1) / nb - 0 / nb + 1) <= (if b =? 0 then 0 else (0 + b - 1) / nb - 0 / nb + 1).
Proof.
  intros a b nb Hb Ha H. rewrite Z.div_0_l by lia. destruct (Z.eqb_spec a 0), (Z.eqb_spec b 0); try lia.
  - pose proof (Z.div_pos (0 + b - 1) nb ltac:(lia) Hb). lia.
  - pose proof (Z.div_le_mono (0 + a - 1) (0 + b - 1) nb Hb ltac:(lia)). lia.
Qed.

Lemma copy_main : forall V (upper : bool) nb m n A size b p ld (M : mem V),
  let uplo := if upper then PlasmaUpper else PlasmaLower in
  ge_create nb m n = CrOk A size -> (if upper then n <= m else m <= n) -> nb < ld -> fst p <> b ->
  region_ensures (@pzgecpy_tile2lapack_band V uplo b A p ld) M (fun M' =>
    (forall i j, in_matrix m n i j -> in_band uplo nb i j -> bel M' uplo nb p ld i j = el M b A i j) /\
    (forall l, ~ in_user_band uplo nb p ld (Z.min m n) l -> M' l = M l)).
Proof.
  intros V upper nb m n A size b p ld M uplo HC Hmn Hl HB. unfold ge_create in HC.
  destruct (create_dims _ _ _ _ _ _ _ _ _ _ _ (Z.le_refl 0) (Z.le_refl 0) HC) as (HT & E1 & E2).
  destruct (general_create_ok _ _ _ _ _ _ _ _ _ _ _ (Z.le_refl 0) (Z.le_refl 0) HC) as (G & EA & _).
  assert (E3 : d_mb A = nb) by (rewrite EA; reflexivity). assert (E4 : d_nb A = nb) by (rewrite EA; reflexivity).
  pose proof (td_shape _ _ HT) as SH.
  assert (HK : if upper then d_nt A <= d_mt A else d_mt A <= d_nt A).
  { pose proof (go_mb A SH). pose proof (go_m A SH). pose proof (go_n A SH).
    rewrite (go_mt A SH), (go_nt A SH), E1, E2, E3, E4. replace (d_i A) with 0 by (rewrite EA; reflexivity).
    replace (d_j A) with 0 by (rewrite EA; reflexivity). destruct upper; apply tiles_le; lia. }
  eapply region_mono; [|apply (copy_region A upper nb b p ld HT); try assumption].
  - cbv beta. rewrite E1, E2. unfold uplo_of. intros M' [H1 H2]. split; [exact H1|].
    intros l Hn. apply H2. intros i j [Ii Ij] HI ->. apply Hn. exists i, j. split; [|split; [exact HI|reflexivity]].
    clear - Ii Ij HI Hmn. unfold in_band, in_matrix in *. destruct upper; destruct HI as [[E HI]|[E HI]]; try discriminate; lia.
  - rewrite (gk_type A G). discriminate.
Qed.

Lemma band_off : forall uplo nb i j, in_band uplo nb i j ->
  exists o, 0 <= o <= nb /\ o = (if uplo =? PlasmaUpper then nb else 0) + i - j.
Proof.
  intros uplo nb i j [[-> H]|[-> H]]; eexists; (split; [|reflexivity]).
  - change (PlasmaUpper =? PlasmaUpper) with true. cbv iota. lia.
  - change (PlasmaLower =? PlasmaUpper) with false. cbv iota. lia.
Qed.

(* the band storage of zgesdd: zeros, and the band in the middle rows *)
Lemma svd_main : forall V (zero : V) nb m n A size b p (M : mem V), ge_create nb m n = CrOk A size -> p <> b ->
  region_ensures (svd_copy nb b A p) (svd_memset zero nb (Z.min m n) p M) (fun M' =>
    (forall r j, 0 <= r < 3 * nb + 1 -> 0 <= j < Z.min m n ->
      let i := j + (r - nb) - (if n <=? m then nb else 0) in
      M' (p, r + j * (3 * nb + 1)) = if (nb <=? r) && (r <=? 2 * nb) && (0 <=? i) && (i <? Z.min m n) then el M b A i j else zero) /\
    (forall l, fst l <> p \/ snd l < 0 \/ (3 * nb + 1) * Z.min m n <= snd l -> M' l = M l)).
Proof.
  intros V zero nb m n A size b p M HC HB. pose (uplo := if n <=? m then PlasmaUpper else PlasmaLower).
  destruct (create_dims _ _ _ _ _ _ _ _ _ _ _ (Z.le_refl 0) (Z.le_refl 0) HC) as (HT & E1 & E2).
  pose proof (td_shape _ _ HT) as SH.
  destruct (general_create_ok _ _ _ _ _ _ _ _ _ _ _ (Z.le_refl 0) (Z.le_refl 0) HC) as (G & EA & _).
  assert (E3 : d_mb A = nb) by (rewrite EA; reflexivity). pose proof (go_mb A SH) as P. rewrite E3 in P. clear G EA.
  unfold svd_copy, svd_uplo. rewrite E1, E2.
  assert (EM : forall i j, el (svd_memset zero nb (Z.min m n) p M) b A i j = el M b A i j).
  { intros i j. unfold el, svd_memset. cbn [fst]. replace (b =? p) with false by (symmetry; apply Z.eqb_neq; congruence). reflexivity. }
  eapply region_mono; [|apply (copy_main V (n <=? m) nb m n A size b (p, nb) (svd_lda_band nb))].
  2: exact HC. 2: destruct (Z.leb_spec n m); lia. 2: unfold svd_lda_band; lia. 2: exact HB.
  cbv beta. fold uplo. intros M' [H1 H2]. split.
  - intros r j Hr Hj. cbv zeta. remember (j + (r - nb) - (if n <=? m then nb else 0)) as i eqn:Ei.
    assert (X : r + j * (3 * nb + 1) = nb + ((if uplo =? PlasmaUpper then nb else 0) + i - j) + j * svd_lda_band nb).
    { rewrite Ei. unfold uplo, svd_lda_band. destruct (n <=? m).
      - change (PlasmaUpper =? PlasmaUpper) with true. cbv iota. lia.
      - change (PlasmaLower =? PlasmaUpper) with false. cbv iota. lia. }
    assert (BI : in_band uplo nb i j <-> nb <= r <= 2 * nb).
    { rewrite Ei. unfold in_band, uplo. destruct (n <=? m); split; intros H.
      - destruct H as [[_ H]|[E _]]; [lia|discriminate].
      - left. split; [reflexivity|lia].
      - destruct H as [[E _]|[_ H]]; [discriminate|lia].
      - right. split; [reflexivity|lia]. }
    destruct ((nb <=? r) && (r <=? 2 * nb) && (0 <=? i) && (i <? Z.min m n)) eqn:C.
    + rewrite !andb_true_iff, !Z.leb_le, Z.ltb_lt in C. rewrite <- EM. rewrite <- H1.
      * unfold bel, band_loc. cbn [fst snd]. rewrite X. reflexivity.
      * unfold in_matrix. lia.
      * apply BI. lia.
    + assert (N : ~ (nb <= r <= 2 * nb /\ 0 <= i < Z.min m n)).
      { intros N. rewrite (proj2 (Z.leb_le nb r)), (proj2 (Z.leb_le r (2 * nb))), (proj2 (Z.leb_le 0 i)), (proj2 (Z.ltb_lt i (Z.min m n))) in C by lia. discriminate. }
      rewrite H2.
      * unfold svd_memset. cbn [fst snd]. rewrite Z.eqb_refl.
        assert (0 <= r + j * (3 * nb + 1) < svd_lda_band nb * Z.min m n) by (unfold svd_lda_band; nia).
        rewrite (proj2 (Z.leb_le 0 _)), (proj2 (Z.ltb_lt _ _)) by lia. reflexivity.
      * intros (i' & j' & Hij & HI & E). unfold band_loc in E. cbn [fst snd] in E. injection E as E. rewrite X in E.
        assert (O : exists o, 0 <= o <= nb /\ o = (if uplo =? PlasmaUpper then nb else 0) + i' - j') by (apply band_off; exact HI).
        destruct O as (o & O & Eo). rewrite <- Eo in E. destruct Hij as [Hi' Hj'].
        assert (J : j = j').
        { rewrite <- X in E. unfold svd_lda_band in E. clear - E Hr O P. nia. }
        subst j'. assert (i = i') by lia. subst i'. apply N. split; [apply BI; exact HI|exact Hi'].
  - intros l Hl. rewrite H2.
    + unfold svd_memset. destruct (Z.eqb_spec (fst l) p); [|reflexivity].
      destruct (Z.leb_spec 0 (snd l)); [|reflexivity]. destruct (Z.ltb_spec (snd l) (svd_lda_band nb * Z.min m n)) as [H3|]; [|reflexivity].
      exfalso. unfold svd_lda_band in H3. lia.
    + intros (i & j & [Ii Ij] & HI & ->). unfold band_loc in Hl. cbn [fst snd] in Hl.
      assert (O : exists o, 0 <= o <= nb /\ o = (if uplo =? PlasmaUpper then nb else 0) + i - j) by (apply band_off; exact HI).
      destruct O as (o & O & Eo). rewrite <- Eo in Hl. unfold svd_lda_band in Hl. clear - Hl O P Ij.
      destruct Hl as [H|[H|H]]; [congruence| |]; nia.
Qed.
