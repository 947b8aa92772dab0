(* plasma_zlange and plasma_dzamax. *)
From Coq Require Import ZArith List Bool Lia Ring.
From Verif Require Import Base NumModel NumProofs FieldModel TaskModel TaskSpec TaskProofs DescModel DescSpec
  DescProofs DescProofs4 DescDriverModel MatModel MatSpec MatProofs RegionProofs
  LayoutModel LayoutProofs LayoutProofs2 DriverModel DriverSpec SimProofs OpProofs OperandProofs GemmProofs
  EwProofs SwpModel NormModel NormSpec FillProofs NormProofs NormDriverProofs NormPhaseProofs.
Import ListNotations.
Open Scope Z_scope.

Section Zlange.
  Context {N : normed}.
  Add Ring num_ring_nz : (nring N).

  Lemma is_norm_empty : forall nsqrt norm m n (a : Z -> Z -> N), valid_norm norm -> Z.min n m = 0 ->
    0 <= m -> 0 <= n -> is_norm nsqrt norm m n a n0.
  Proof.
    intros nsqrt norm m n a HV HM Hm Hn.
    assert (LE : forall (f : Z -> N) K, (forall i, 0 <= i < K -> f i = n0) -> largest (fun i => 0 <= i < K) f n0).
    { intros f K HF. split.
      - intros x Hx. rewrite HF by assumption. pose proof (nltb_0 N n0) as Z0. rewrite nabs_0 in Z0. exact Z0.
      - destruct (Z_lt_le_dec 0 K); [left; exists 0; split; [lia|symmetry; apply HF; lia]|right].
        split; [intros x Hx; lia|reflexivity]. }
    destruct HV as [->|[->|[->| ->]]].
    - left. split; [reflexivity|]. split; [intros [i j] [? ?]; cbn [fst snd] in *; lia|].
      right. split; [|reflexivity]. intros [i j] [? ?]; cbn [fst snd] in *; lia.
    - right; left. split; [reflexivity|]. apply LE. intros j Hj. apply nsum_nil. lia.
    - right; right; left. split; [reflexivity|]. apply LE. intros j Hj. apply nsum_nil. lia.
    - right; right; right. split; [reflexivity|]. exists n0, n1. split; [apply nabs_0|]. split; [apply nabs_1|].
      split; [ring|]. transitivity (@n0 N); [ring|]. symmetry.
      destruct (Z_lt_le_dec 0 n); [|apply nsum_nil; lia].
      apply nsum_0. intros; apply nsum_nil; lia.
  Qed.

  Lemma sum_tiles_2d : forall (f : Z -> Z -> N) nb m n, 0 < nb -> 0 < m -> 0 < n ->
    nsum (fun J => nsum (fun I => nsum (fun y => nsum (fun x => f x y) (I * nb) (Z.min ((I + 1) * nb) m))
       (J * nb) (Z.min ((J + 1) * nb) n)) 0 (ntl nb m)) 0 (ntl nb n)
    = nsum (fun j => nsum (fun i => f i j) 0 m) 0 n.
  Proof.
    intros f nb m n Hb Hm Hn.
    rewrite <- (all_tiles (fun j => nsum (fun i => f i j) 0 m) nb n) by assumption.
    apply nsum_ext. intros J _. rewrite nsum_swap. apply nsum_ext. intros y _.
    apply (all_tiles (fun x => f x y)); assumption.
  Qed.

  Lemma zlange_norm : forall lassq nsqrt nb norm m n pA lda bA bW (value : loc) (M : mem N),
    0 < nb -> valid_norm norm -> 0 <= m -> 0 <= n -> Z.max 1 m <= lda ->
    fst pA <> bA -> fst pA <> bW -> bA <> bW -> fst value <> bA -> fst value <> bW ->
    lassq_ok lassq ->
    valued_ensures (zlange lassq nsqrt nb norm m n pA lda bA bW value) M
      (fun v M' => is_norm nsqrt norm m n (ul M pA lda) v /\
                   (forall l, fst l <> bA -> fst l <> bW -> l <> value -> M' l = M l)).
  Proof.
    intros lassq nsqrt nb norm m n pA lda bA bW value M Hb HV Hm Hn HL B1 B2 B3 B4 B5 HQ.
    unfold zlange.
    replace (norm_ok norm) with true.
    2: { destruct HV as [->|[->|[->| ->]]]; reflexivity. }
    cbn [negb].
    replace (m <? 0) with false by (symmetry; apply Z.ltb_ge; lia).
    replace (n <? 0) with false by (symmetry; apply Z.ltb_ge; lia).
    replace (lda <? Z.max 1 m) with false by (symmetry; apply Z.ltb_ge; lia).
    destruct (Z.eqb_spec (Z.min n m) 0) as [E0|E0].
    - cbn [valued_ensures]. split; [reflexivity|]. split; [|reflexivity]. apply is_norm_empty; assumption.
    - destruct (ge_create_succeeds nb m n) as (A & EA & _); [lia..|].
      rewrite EA. cbn [with_vdesc valued_ensures].
      destruct (ge_create_dn nb m n A _ EA) as (HA & Em & En & _).
      assert (LA : d_m A <= lda) by lia.
      assert (Emt : d_mt A = ntl nb m) by (rewrite (dn_mt nb A HA), Em; reflexivity).
      assert (Ent : d_nt A = ntl nb n) by (rewrite (dn_nt nb A HA), En; reflexivity).
      destruct HV as [->|[->|[->| ->]]]; unfold pzlange, norm_phases; cbn [Z.eqb PlasmaMaxNorm PlasmaOneNorm PlasmaInfNorm PlasmaFrobeniusNorm Pos.eqb];
        cbn [phases_ensures].
      + eapply region_mono; [|apply (max_phase nb bA A pA lda bW); assumption].
        intros M1 (E1 & E2). rewrite Emt, Ent, Em, En in *.
        pose proof (max_final nb m n bW value (fun i j => nabs (ul M pA lda i j)) M1 Hb ltac:(lia) ltac:(lia) B5
          (fun i c => isabs_abs _)) as F. cbn [phases_ensures] in F.
        eapply region_mono; [|apply F].
        * intros M2 [G1 G2]. split; [left; auto|]. intros l L1 L2 L3. rewrite G2, E2 by assumption. reflexivity.
        * intros i j Hi Hj. apply E1. split; rewrite ?Emt, ?Ent; assumption.
      + eapply region_mono; [|apply (one_phase nb bA A pA lda bW); assumption].
        intros M1 (E1 & E2). rewrite Emt, Em, En in *.
        pose proof (rowsum_final nb n m bW value (fun j i => nabs (ul M pA lda i j)) M1 Hb ltac:(lia) ltac:(lia) B5
          (fun i c => isabs_abs _)) as F. cbn [phases_ensures] in F.
        eapply region_mono; [|apply F].
        * intros M2 [G1 G2]. split; [right; left; auto|]. intros l L1 L2 L3. rewrite G2, E2 by assumption. reflexivity.
        * intros i k Hi Hk. apply E1; assumption.
      + eapply region_mono; [|apply (inf_phase nb bA A pA lda bW); assumption].
        intros M1 (E1 & E2). rewrite Ent, Em, En in *.
        pose proof (rowsum_final nb m n bW value (fun i j => nabs (ul M pA lda i j)) M1 Hb ltac:(lia) ltac:(lia) B5
          (fun i c => isabs_abs _)) as F. cbn [phases_ensures] in F.
        eapply region_mono; [|apply F].
        * intros M2 [G1 G2]. split; [right; right; left; auto|]. intros l L1 L2 L3. rewrite G2, E2 by assumption. reflexivity.
        * intros i k Hi Hk. apply E1; assumption.
      + eapply region_mono; [|apply (fro_phase nb bA A pA lda bW) with (lassq := lassq); assumption].
        intros M1 (E1 & E2). rewrite Emt, Ent, Em, En in *.
        pose proof (ntl_pos nb m Hb ltac:(lia)). pose proof (ntl_pos nb n Hb ltac:(lia)).
        pose proof (fro_final nsqrt (ntl nb m) (ntl nb n) bW value
          (fun i j => nsum (fun y => nsum (fun x => nmul (nabs (ul M pA lda x y)) (nabs (ul M pA lda x y)))
            (i * nb) (Z.min ((i + 1) * nb) m)) (j * nb) (Z.min ((j + 1) * nb) n)) M1 ltac:(lia) ltac:(lia) B5) as F.
        cbn [phases_ensures] in F. eapply region_mono; [|apply F].
        * intros M2 [(s & q & G1 & G1' & G1'' & G3) G2]. split.
          -- right; right; right. split; [reflexivity|]. exists s, q. split; [assumption|]. split; [assumption|].
             split; [assumption|]. rewrite G3.
             apply (sum_tiles_2d (fun x y => nmul (nabs (ul M pA lda x y)) (nabs (ul M pA lda x y)))); lia.
          -- intros l L1 L2 L3. rewrite G2, E2 by assumption. reflexivity.
        * intros i j Hi Hj. apply E1. split; rewrite ?Emt, ?Ent; assumption.
  Qed.
End Zlange.

Section Dzamax.
  Context {N : normed}.

  (* the largest of the largest of each tile *)
  Lemma amax_final : forall nb R K bW (values : loc) (G : Z -> Z -> N) M, 0 < nb -> 0 < K -> 0 < R ->
    fst values <> bW -> (forall i c, isabs (G i c)) ->
    (forall i k, 0 <= i < R -> 0 <= k < ntl nb K ->
       largest (fun c => 0 <= c < Z.min nb (K - k * nb)) (fun c => G i (k * nb + c)) (M (bW, R * k + i))) ->
    phases_ensures [[omp_amax_row nabs R (ntl nb K) (bW, 0) R values]] M
      (fun M' => (forall i, 0 <= i < R -> largest (fun c => 0 <= c < K) (G i) (M' (pplus values i))) /\
                 (forall l, fst l <> bW -> ~ seg values R l -> M' l = M l)).
  Proof.
    intros nb R K bW values G M Hb HK HR HV HG HM. pose proof (ntl_pos nb K Hb HK) as HP. cbn [phases_ensures].
    apply single_region; [apply amax_row_kgood; assumption|]. intros M' E. cbn [k_fun omp_amax_row] in E. split.
    - intros i Hi. unfold pplus. rewrite E, fill_in by assumption.
      assert (LV : largest (fun k => 0 <= k < ntl nb K) (fun k => nabs (rd M (bW, 0) R i k))
                     (amax_row nabs (ntl nb K) (rd M (bW, 0) R) i)).
      { apply (fold_largest_first (fun k => nabs (rd M (bW, 0) R i k))); [assumption|]. intros; apply isabs_abs. }
      assert (AV : isabs (amax_row nabs (ntl nb K) (rd M (bW, 0) R) i)).
      { eapply largest_abs; [|exact LV]. intros; apply isabs_abs. }
      eapply (largest_nested Z Z (fun k => 0 <= k < ntl nb K)
        (fun k c => exists r, 0 <= r < Z.min nb (K - k * nb) /\ c = k * nb + r)
        _ _ (fun k => M (bW, R * k + i))); auto.
      + intros k Hk. pose proof (ntl_lt nb K k Hb HK Hk). exists (k * nb + 0), 0. split; [lia|reflexivity].
      + intros c. split.
        * intros Hc. destruct (div_mod_pos c nb Hb) as [Ex Rx].
          assert (0 <= c / nb) by (apply Z.div_pos; lia).
          exists (c / nb). split; [split; [assumption|]; apply ntl_spec; lia|]. exists (c mod nb). lia.
        * intros (k & Hk & r & Hr & ->). nia.
      + intros k Hk. destruct (HM i k Hi Hk) as [L1 L2]. split.
        * intros q (r & Hr & ->). apply (L1 r). assumption.
        * destruct L2 as [(r & Hr & Ev)|[Hno _]].
          -- left. exists (k * nb + r). split; [exists r; auto|exact Ev].
          -- exfalso. apply (Hno 0). pose proof (ntl_lt nb K k Hb HK Hk). lia.
      + eapply largest_ext; [|exact LV]. intros k Hk. cbn beta. unfold rd, at_. cbn [fst snd].
        replace (0 + i + k * R) with (R * k + i) by lia.
        apply (largest_abs _ _ _ _ (fun _ _ => HG _ _) (HM i k Hi Hk)).
    - intros l L1 L2. rewrite E, fill_out by assumption. reflexivity.
  Qed.

  Section Phase.
  Variables (nb bA : Z) (A : desc) (pA : loc) (lda bW : Z).
  Hypothesis HA : dn nb A.
  Hypothesis Hb : 0 < nb.
  Hypothesis LA : d_m A <= lda.
  Hypothesis H1 : fst pA <> bA.
  Hypothesis H2 : fst pA <> bW.
  Hypothesis H3 : bA <> bW.
  Variable M : mem N.

  Lemma amax_col_phase : region_ensures (pzge2desc pA lda bA A ++ amax_col_tiles bA A (bW, 0)) M
    (fun M' => (forall c k, 0 <= c < d_n A -> 0 <= k < d_mt A ->
                  largest (fun i => 0 <= i < Z.min nb (d_m A - k * nb)) (fun i => ncabs1 (ul M pA lda (k * nb + i) c))
                    (M' (bW, d_n A * k + c))) /\
               (forall l, fst l <> bA -> fst l <> bW -> M' l = M l)).
  Proof.
    pose (t := fun p : Z * Z => omp_amax_col (N := N) ncabs1 (tile_mview A (fst p)) (tile_nview A (snd p))
      (tptr bA A (fst p) (snd p)) (tile_mmain A (fst p)) (pplus (bW, 0) (d_n A * fst p + snd p * d_nb A))).
    replace (amax_col_tiles bA A (bW, 0)) with (map t (idx_all A)) by (symmetry; exact (tasks_map A t)).
    eapply region_mono; [|apply (seg1_region nb bA A pA lda bW HA Hb LA H1 H2 H3 M t (fun p => d_n A * fst p + snd p * d_nb A) (fun p => tile_nview A (snd p))
      (fun p => amax_col ncabs1 (tile_mview A (fst p))))].
    - intros M' (E1 & E2). split; [|assumption]. intros c k Hc Hk.
      pose proof (pos_tile nb A _ HA c (d_n A) Hc) as (P1 & P2 & P3).
      assert (HI : in_tiles A k (c / nb)).
      { split; [assumption|]. rewrite (dn_nt nb A HA). split; [assumption|]. unfold tsz in P2. apply ntl_spec; lia. }
      pose proof (E1 (k, c / nb) (c mod nb) HI) as E. cbn [fst snd] in E. unfold tsz in P2.
      rewrite (nview_eq nb A HA k (c / nb) HI) in E. specialize (E P2).
      rewrite (sq_nb nb A _ HA) in E. replace (d_n A * k + c / nb * nb + c mod nb) with (d_n A * k + c) in E by lia.
      rewrite E. destruct (views nb A HA k (c / nb) HI) as (V1 & V2 & V3 & _).
      rewrite <- (mview_eq nb A HA k (c / nb) HI).
      eapply largest_ext; [|apply (fold_largest_first (fun i => ncabs1 (tile_of nb pA lda M k (c / nb) i (c mod nb))));
        [lia|intros; apply nabs_cabs1]].
      intros i _. cbn beta. unfold tile_of. rewrite <- P3. reflexivity.
    - intros p Hp. apply amax_col_kgood. destruct (views nb A HA _ _ Hp). lia.
    - intros p. reflexivity.
    - intros p F F' r Hp HF Hr. destruct (views nb A HA _ _ Hp) as (V1 & V2 & V3 & _).
      unfold amax_col. rewrite (HF 0 r) by lia. apply fold_left_ext_in. intros i v Hi. apply in_zrange in Hi.
      rewrite (HF i r) by lia. reflexivity.
    - intros p q r r' Hp Hq Hr Hr' E. rewrite (sq_nb nb A _ HA) in E.
      destruct (views nb A HA _ _ Hp) as (_ & _ & _ & V4 & V5 & V6). destruct (views nb A HA _ _ Hq) as (_ & _ & _ & W4 & W5 & W6).
      apply (tile_off_inj nb p q r r' (d_n A) snd fst); try lia; [|nia..].
      intros [] []; cbn; congruence.
  Qed.

  Lemma amax_row_phase : region_ensures (pzge2desc pA lda bA A ++ amax_row_tiles bA A (bW, 0)) M
    (fun M' => (forall i k, 0 <= i < d_m A -> 0 <= k < d_nt A ->
                  largest (fun j => 0 <= j < Z.min nb (d_n A - k * nb)) (fun j => ncabs1 (ul M pA lda i (k * nb + j)))
                    (M' (bW, d_m A * k + i))) /\
               (forall l, fst l <> bA -> fst l <> bW -> M' l = M l)).
  Proof.
    pose (t := fun p : Z * Z => omp_amax_row (N := N) ncabs1 (tile_mview A (fst p)) (tile_nview A (snd p))
      (tptr bA A (fst p) (snd p)) (tile_mmain A (fst p)) (pplus (bW, 0) (d_m A * snd p + fst p * d_mb A))).
    replace (amax_row_tiles bA A (bW, 0)) with (map t (idx_all A)) by (symmetry; exact (tasks_map A t)).
    eapply region_mono; [|apply (seg1_region nb bA A pA lda bW HA Hb LA H1 H2 H3 M t (fun p => d_m A * snd p + fst p * d_mb A) (fun p => tile_mview A (fst p))
      (fun p => amax_row ncabs1 (tile_nview A (snd p))))].
    - intros M' (E1 & E2). split; [|assumption]. intros i k Hi Hk.
      pose proof (pos_tile nb A _ HA i (d_m A) Hi) as (P1 & P2 & P3).
      assert (HI : in_tiles A (i / nb) k).
      { split; [|assumption]. rewrite (dn_mt nb A HA). split; [assumption|]. unfold tsz in P2. apply ntl_spec; lia. }
      pose proof (E1 (i / nb, k) (i mod nb) HI) as E. cbn [fst snd] in E. unfold tsz in P2.
      rewrite (mview_eq nb A HA (i / nb) k HI) in E. specialize (E P2).
      rewrite (sq_mb nb A _ HA) in E. replace (d_m A * k + i / nb * nb + i mod nb) with (d_m A * k + i) in E by lia.
      rewrite E. destruct (views nb A HA (i / nb) k HI) as (V1 & V2 & V3 & V4 & V5 & V6).
      rewrite <- (nview_eq nb A HA (i / nb) k HI).
      eapply largest_ext; [|apply (fold_largest_first (fun j => ncabs1 (tile_of nb pA lda M (i / nb) k (i mod nb) j)));
        [lia|intros; apply nabs_cabs1]].
      intros j _. cbn beta. unfold tile_of. rewrite <- P3. reflexivity.
    - intros p Hp. apply amax_row_kgood. destruct (views nb A HA _ _ Hp). lia.
    - intros p. reflexivity.
    - intros p F F' r Hp HF Hr. destruct (views nb A HA _ _ Hp) as (V1 & V2 & V3 & V4 & V5 & V6).
      unfold amax_row. rewrite (HF r 0) by lia. apply fold_left_ext_in. intros i v Hi. apply in_zrange in Hi.
      rewrite (HF r i) by lia. reflexivity.
    - intros p q r r' Hp Hq Hr Hr' E. rewrite (sq_mb nb A _ HA) in E.
      destruct (views nb A HA _ _ Hp) as (V4 & V5 & V6 & _). destruct (views nb A HA _ _ Hq) as (W4 & W5 & W6 & _).
      apply (tile_off_inj nb p q r r' (d_m A) fst snd); try lia; [|nia..].
      intros [] []; cbn; congruence.
  Qed.
  End Phase.

  Lemma dzamax_largest : forall nb colrow m n pA lda bA bW (values : loc) (M : mem N),
    0 < nb -> colrow = PlasmaColumnwise \/ colrow = PlasmaRowwise -> 0 < m -> 0 < n -> m <= lda ->
    fst pA <> bA -> fst pA <> bW -> bA <> bW -> fst values <> bA -> fst values <> bW ->
    valued_ensures (dzamax nb colrow m n pA lda bA bW values) M
      (fun _ M' =>
         (colrow = PlasmaColumnwise -> forall j, 0 <= j < n ->
            largest (fun i => 0 <= i < m) (fun i => ncabs1 (ul M pA lda i j)) (M' (fst values, snd values + j))) /\
         (colrow = PlasmaRowwise -> forall i, 0 <= i < m ->
            largest (fun j => 0 <= j < n) (fun j => ncabs1 (ul M pA lda i j)) (M' (fst values, snd values + i))) /\
         (forall l, fst l <> bA -> fst l <> bW ->
            ~ seg values (if colrow =? PlasmaColumnwise then n else m) l -> M' l = M l)).
  Proof.
    intros nb colrow m n pA lda bA bW values M Hb HC Hm Hn HL B1 B2 B3 B4 B5. unfold dzamax.
    replace ((colrow =? PlasmaColumnwise) || (colrow =? PlasmaRowwise)) with true
      by (destruct HC as [->| ->]; reflexivity).
    cbn [negb].
    replace (m <? 0) with false by (symmetry; apply Z.ltb_ge; lia).
    replace (n <? 0) with false by (symmetry; apply Z.ltb_ge; lia).
    replace (lda <? Z.max 1 m) with false by (symmetry; apply Z.ltb_ge; lia).
    replace (Z.min n m =? 0) with false by (symmetry; apply Z.eqb_neq; lia).
    destruct (ge_create_succeeds nb m n) as (A & EA & _); [lia..|].
    rewrite EA. cbn [with_vdesc valued_ensures].
    destruct (ge_create_dn nb m n A _ EA) as (HA & Em & En & _).
    assert (LA : d_m A <= lda) by lia.
    assert (Emt : d_mt A = ntl nb m) by (rewrite (dn_mt nb A HA), Em; reflexivity).
    assert (Ent : d_nt A = ntl nb n) by (rewrite (dn_nt nb A HA), En; reflexivity).
    destruct HC as [->| ->]; unfold pdzamax, norm_phases; cbn [Z.eqb PlasmaColumnwise PlasmaRowwise Pos.eqb];
      cbn [phases_ensures].
    - eapply region_mono; [|apply (amax_col_phase nb bA A pA lda bW); assumption].
      intros M1 (E1 & E2). rewrite Emt, Em, En in *.
      pose proof (amax_final nb n m bW values (fun j i => ncabs1 (ul M pA lda i j)) M1 Hb Hm Hn B5
        (fun i c => nabs_cabs1 N _)) as F. cbn [phases_ensures] in F.
      eapply region_mono; [|apply F].
      + intros M2 [G1 G2]. split; [intros _; exact G1|]. split; [discriminate|].
        intros l L1 L2 L3. rewrite G2, E2 by assumption. reflexivity.
      + intros i k Hi Hk. apply E1; assumption.
    - eapply region_mono; [|apply (amax_row_phase nb bA A pA lda bW); assumption].
      intros M1 (E1 & E2). rewrite Ent, Em, En in *.
      pose proof (amax_final nb m n bW values (fun i j => ncabs1 (ul M pA lda i j)) M1 Hb Hn Hm B5
        (fun i c => nabs_cabs1 N _)) as F. cbn [phases_ensures] in F.
      eapply region_mono; [|apply F].
      + intros M2 [G1 G2]. split; [discriminate|]. split; [intros _; exact G1|].
        intros l L1 L2 L3. rewrite G2, E2 by assumption. reflexivity.
      + intros i k Hi Hk. apply E1; assumption.
  Qed.
End Dzamax.
