(* Phases of pzlantr. *)
From Coq Require Import ZArith List Bool Lia Ring.
From Verif Require Import Base NumModel NumProofs FieldModel TaskModel TaskSpec TaskProofs DescModel DescSpec
  DescProofs DescProofs4 DescDriverModel MatModel MatSpec MatProofs RegionProofs
  LayoutModel LayoutProofs LayoutProofs2 DriverModel DriverSpec SimProofs OpProofs OperandProofs GemmProofs
  EwProofs NormModel NormTriModel NormSpec FillProofs NormProofs NormDriverProofs NormPhaseProofs NormZlangeProofs
  NormTriProofs NormTriProofs2 NormTriPhaseProofs NormTriExtProofs NormSyProofs.
Import ListNotations.
Open Scope Z_scope.

Section Tr.
  Context {N : normed}.
  Add Ring num_ring_tr : (nring N).
  Variables (nb bA : Z) (A : desc) (pA : loc) (lda bW m n : Z).
  Hypothesis HA : dn nb A.
  Hypothesis Hb : 0 < nb.
  Hypothesis Hm : 0 < m.
  Hypothesis Hn : 0 < n.
  Hypothesis Em : d_m A = m.
  Hypothesis En : d_n A = n.
  Hypothesis LA : m <= lda.
  Hypothesis H1 : fst pA <> bA.
  Hypothesis H2 : fst pA <> bW.
  Hypothesis H3 : bA <> bW.
  Variable M : mem N.
  Variables (uplo diag : Z).
  Hypothesis HD : valid_diag diag.
  Hypothesis HU : valid_uplo uplo.

  Let R := ntl nb m.
  Let C := ntl nb n.
  Lemma R_mt : d_mt A = R.
  Proof. unfold R. rewrite (dn_mt nb A HA), Em. reflexivity. Qed.
  Lemma C_nt : d_nt A = C.
  Proof. unfold C. rewrite (dn_nt nb A HA), En. reflexivity. Qed.
  Lemma in_RC : forall i j, in_tiles A i j <-> 0 <= i < R /\ 0 <= j < C.
  Proof. intros i j. unfold in_tiles. rewrite R_mt, C_nt. tauto. Qed.
  Lemma tmv : forall i, 0 <= i < R -> tile_mview A i = Z.min nb (m - i * nb).
  Proof.
    intros i Hi. assert (HI : in_tiles A i 0) by (apply in_RC; pose proof (ntl_pos nb n Hb Hn); unfold C; lia).
    rewrite (mview_eq nb A HA i 0 HI), Em. reflexivity.
  Qed.
  Lemma tnv : forall j, 0 <= j < C -> tile_nview A j = Z.min nb (n - j * nb).
  Proof.
    intros j Hj. assert (HI : in_tiles A 0 j) by (apply in_RC; pose proof (ntl_pos nb m Hb Hm); unfold R; lia).
    rewrite (nview_eq nb A HA 0 j HI), En. reflexivity.
  Qed.
  Lemma tmv_pos : forall i, 0 <= i < R -> 0 < Z.min nb (m - i * nb).
  Proof. intros i Hi. pose proof (ntl_lt nb m i Hb Hm Hi). lia. Qed.
  Lemma tnv_pos : forall i, 0 <= i < C -> 0 < Z.min nb (n - i * nb).
  Proof. intros i Hi. pose proof (ntl_lt nb n i Hb Hn Hi). lia. Qed.
  Lemma st_in : forall i j, In (i, j) (idx_st uplo A) <-> (0 <= i < R /\ 0 <= j < C) /\ stored uplo i j = true.
  Proof. intros i j. rewrite (idx_st_in uplo A i j HU), in_RC. reflexivity. Qed.

  Notation F := (ul M pA lda).
  Notation G := (gt uplo diag F).

  (* PlasmaMaxNorm *)
  Lemma tr_max_phase : region_ensures (pzge2desc pA lda bA A ++
      tri_tiles uplo A
         (fun m n => [omp_zlange_max (tile_mview A m) (tile_nview A n) (tptr bA A m n) (tile_mmain A m)
                        (pplus (bW, 0) (d_mt A * n + m))])
         (fun m => omp_zlantr_max uplo diag (tile_mview A m) (tile_nview A m) (tptr bA A m m) (tile_mmain A m)
                        (pplus (bW, 0) (d_mt A * m + m)))) M
    (fun M' => (forall i j, 0 <= i < R -> 0 <= j < C -> stored uplo i j = true ->
       largest (fun p => in_matrix (Z.min nb (m - i * nb)) (Z.min nb (n - j * nb)) (fst p) (snd p))
               (fun p : Z * Z => G (i * nb + fst p) (j * nb + snd p)) (M' (bW, R * j + i))) /\
               (forall l, fst l <> bA -> fst l <> bW -> M' l = M l)).
  Proof.
    pose (t := fun p : Z * Z => if fst p =? snd p
      then omp_zlantr_max uplo diag (tile_mview A (fst p)) (tile_nview A (fst p)) (tptr bA A (fst p) (fst p)) (tile_mmain A (fst p))
                        (pplus (bW, 0) (d_mt A * fst p + fst p))
      else omp_zlange_max (N := N) (tile_mview A (fst p)) (tile_nview A (snd p))
      (tptr bA A (fst p) (snd p)) (tile_mmain A (fst p)) (pplus (bW, 0) (d_mt A * snd p + fst p))).
    pose (val := fun (p : Z * Z) (f : Z -> Z -> N) (_ : Z) => if fst p =? snd p
      then lantr_max uplo diag (tile_mview A (fst p)) (tile_nview A (fst p)) f else lange_max (tile_mview A (fst p)) (tile_nview A (snd p)) f).
    match goal with |- region_ensures (_ ++ ?x) _ _ => replace x with (map t (idx_st uplo A)) end.
    2: { rewrite tri_tiles_eq. induction (idx_st uplo A) as [|[a b] L IH]; [reflexivity|]. cbn [map flat_map fst snd].
         rewrite <- IH. unfold t at 1. cbn [fst snd]. destruct (a =? b); reflexivity. }
    assert (HI : forall x, In x (idx_st uplo A) -> (0 <= fst x < R /\ 0 <= snd x < C) /\ stored uplo (fst x) (snd x) = true).
    { intros [a b] H. apply st_in in H. exact H. }
    pose proof R_mt as MT.
    eapply region_mono; [|apply (seg1_gen nb bA A pA lda bW HA Hb) with (tm := fst) (tn := snd)
      (off := fun p => d_mt A * snd p + fst p) (len := fun _ => 1) (val := val); auto using idx_st_NoDup].
    - intros M' (E1 & E2). split.
      + intros i j Hi Hj HS.
        pose proof (E1 (i, j) 0) as E. cbn [fst snd] in E. rewrite Z.add_0_r, MT in E.
        rewrite E; [|apply st_in; auto|lia].
        unfold val. cbn [fst snd]. rewrite (tmv i Hi). 
        destruct (Z.eqb_spec i j) as [->|NE].
        * rewrite (tnv j Hj). eapply largest_ext; [|apply lantr_max_largest; [assumption|apply tmv_pos; assumption|apply tnv_pos; assumption]].
          intros [r c] Hrc. cbn [fst snd]. symmetry. apply (gt_diag uplo diag (j * nb) F r c).
        * rewrite (tnv j Hj). eapply largest_ext; [|apply lange_max_largest].
          intros [r c] [Hr Hc]. cbn [fst snd] in *. symmetry.
          rewrite (gt_off uplo diag nb F i j r c) by lia. rewrite HS. reflexivity.
      + intros l L1 L2. apply E2; [assumption|]. intros x Hx (r & _ & ->). apply L2. reflexivity.
    - lia.
    - intros x Hx. apply in_RC. apply HI. assumption.
    - intros [a b] f f' r Hx HF Hr. unfold val. cbn [fst snd] in *.
      destruct (Z.eqb_spec a b) as [->|NE]; [apply lantr_max_ext|apply lange_max_ext]; exact HF.
    - intros [a b] [a' b'] r r' Hx Hy Hr Hr' E. apply HI in Hx, Hy. cbn [fst snd] in *. rewrite MT in E.
      destruct Hx as [[X1 X2] _], Hy as [[Y1 Y2] _].
      destruct (pos_inj R b b' a a') as [-> ->]; auto; lia.
    - intros [a b] Hx. unfold t, val. cbn [fst snd] in *.
      destruct (Z.eqb_spec a b) as [->|NE]; reflexivity.
  Qed.

  (* PlasmaOneNorm *)
  Lemma tr_one_phase : (forall k c, 0 <= k < R -> 0 <= c < n -> M (bW, n * k + c) = n0) ->
    region_ensures (pzge2desc pA lda bA A ++
      tri_tiles uplo A
         (fun m n => [omp_zlange_aux_one (tile_mview A m) (tile_nview A n) (tptr bA A m n) (tile_mmain A m)
                        (pplus (bW, 0) (d_n A * m + n * d_nb A))])
         (fun m => omp_zlantr_one uplo diag (tile_mview A m) (tile_nview A m) (tptr bA A m m) (tile_mmain A m)
                        (pplus (bW, 0) (d_n A * m + m * d_nb A)))) M
    (fun M' => (forall c k, 0 <= c < n -> 0 <= k < R ->
                  M' (bW, n * k + c) = nsum (fun i => G i c) (k * nb) (Z.min ((k + 1) * nb) m)) /\
               (forall l, fst l <> bA -> fst l <> bW -> M' l = M l)).
  Proof.
    intros HZ.
    pose (t := fun p : Z * Z => if fst p =? snd p
      then omp_zlantr_one uplo diag (tile_mview A (fst p)) (tile_nview A (fst p)) (tptr bA A (fst p) (fst p)) (tile_mmain A (fst p))
                        (pplus (bW, 0) (d_n A * fst p + fst p * d_nb A))
      else omp_zlange_aux_one (N := N) (tile_mview A (fst p)) (tile_nview A (snd p))
      (tptr bA A (fst p) (snd p)) (tile_mmain A (fst p)) (pplus (bW, 0) (d_n A * fst p + snd p * d_nb A))).
    pose (val := fun (p : Z * Z) (f : Z -> Z -> N) => if fst p =? snd p
      then lantr_one uplo diag (tile_mview A (fst p)) (tile_nview A (fst p)) f else aux_one (tile_mview A (fst p)) f).
    match goal with |- region_ensures (_ ++ ?x) _ _ => replace x with (map t (idx_st uplo A)) end.
    2: { rewrite tri_tiles_eq. induction (idx_st uplo A) as [|[a b] L IH]; [reflexivity|]. cbn [map flat_map fst snd].
         rewrite <- IH. unfold t at 1. cbn [fst snd]. destruct (a =? b); reflexivity. }
    assert (HI : forall x, In x (idx_st uplo A) -> (0 <= fst x < R /\ 0 <= snd x < C) /\ stored uplo (fst x) (snd x) = true).
    { intros [a b] H. apply st_in in H. exact H. }
    assert (NB : d_nb A = nb) by (exact (sq_nb nb A _ HA)).
    eapply region_mono; [|apply (seg1_gen nb bA A pA lda bW HA Hb) with (tm := fst) (tn := snd)
      (off := fun x => d_n A * fst x + snd x * d_nb A) (len := fun x => Z.min nb (n - snd x * nb)) (val := val); auto using idx_st_NoDup].
    - intros M' (E1 & E2). split.
      + intros c k Hc Hk.
        pose proof (pos_tile nb A _ HA c n Hc) as (P1 & P2 & P3). unfold tsz in P2.
        assert (Hj : 0 <= c / nb < C). { split; [assumption|]. apply ntl_spec; lia. }
        rewrite <- (tile_sum (fun i => G i c)).
        rewrite (nsum_ext N (fun r => G (k * nb + r) c) (fun r => G (k * nb + r) (c / nb * nb + c mod nb))) by (intros; rewrite <- P3; reflexivity).
        destruct (stored uplo k (c / nb)) eqn:HS.
        * pose proof (E1 (k, c / nb) (c mod nb)) as E. cbn [fst snd] in E. rewrite NB, En in E.
          replace (n * k + c / nb * nb + c mod nb) with (n * k + c) in E by lia.
          rewrite E; [|apply st_in; auto|assumption].
          unfold val. cbn [fst snd]. rewrite (tmv k Hk). pose proof (tmv_pos k Hk) as V2.
          destruct (Z.eqb_spec k (c / nb)) as [EK|NE].
          -- rewrite <- EK in *. rewrite (tnv k Hj). rewrite lantr_one_sum by assumption.
             apply nsum_ext. intros r Hr. symmetry; apply (gt_diag uplo diag (k * nb) F).
          -- rewrite aux_one_sum by assumption. apply nsum_ext. intros r Hr.
             rewrite (gt_off uplo diag nb F) by lia. rewrite HS. reflexivity.
        * assert (NE : k <> c / nb) by (intros E; rewrite E, stored_refl in HS; discriminate).
          rewrite E2; [|cbn; lia|].
          -- rewrite HZ by assumption. symmetry. apply nsum_0. intros r Hr.
             rewrite (gt_off uplo diag nb F) by lia. rewrite HS. reflexivity.
          -- intros x Hx (r & Hr & E). cbn [fst snd] in E. injection E as E. destruct (HI x Hx) as [[X1 X2] X3].
             assert (x = (k, c / nb)) as ->; [|cbn [fst snd] in X3; congruence].
             apply (tile_off_inj nb x (k, c / nb) r (c mod nb) n snd fst); cbn [fst snd]; try lia; [|nia..].
             intros [] []; cbn; congruence.
      + intros l L1 L2. apply E2; [assumption|]. intros x Hx (r & _ & ->). apply L2. reflexivity.
    - lia.
    - intros x Hx. apply in_RC. apply HI. assumption.
    - intros [a b] f f' r Hx HF Hr. destruct (HI _ Hx) as [[Ha Hb'] _]. unfold val. cbn [fst snd] in *.
      rewrite (tmv a Ha), (tnv b Hb') in HF. pose proof (tmv_pos a Ha). rewrite (tmv a Ha).
      destruct (Z.eqb_spec a b) as [->|NE].
      + rewrite (tnv b Hb'). apply lantr_one_ext; assumption.
      + eapply aux_one_ext; eauto.
    - intros x y r r' Hx Hy Hr Hr' E. apply HI in Hx, Hy. rewrite NB, En in E.
      destruct Hx as [[X1 X2] _], Hy as [[Y1 Y2] _].
      apply (tile_off_inj nb x y r r' n snd fst); try lia; [|nia..].
      intros [] []; cbn; congruence.
    - intros [a b] Hx. destruct (HI _ Hx) as [[Ha Hb'] _]. unfold t, val. cbn [fst snd] in *.
      destruct (Z.eqb_spec a b) as [->|NE]; rewrite (tnv b Hb'); reflexivity.
  Qed.

  (* PlasmaInfNorm *)
  Lemma tr_inf_phase : (forall k c, 0 <= k < C -> 0 <= c < m -> M (bW, m * k + c) = n0) ->
    region_ensures (pzge2desc pA lda bA A ++
      tri_tiles uplo A
         (fun m n => [omp_zlange_aux_inf (tile_mview A m) (tile_nview A n) (tptr bA A m n) (tile_mmain A m)
                        (pplus (bW, 0) (d_m A * n + m * d_mb A))])
         (fun m => omp_zlantr_inf uplo diag (tile_mview A m) (tile_nview A m) (tptr bA A m m) (tile_mmain A m)
                        (pplus (bW, 0) (d_m A * m + m * d_nb A)))) M
    (fun M' => (forall i k, 0 <= i < m -> 0 <= k < C ->
                  M' (bW, m * k + i) = nsum (fun j => G i j) (k * nb) (Z.min ((k + 1) * nb) n)) /\
               (forall l, fst l <> bA -> fst l <> bW -> M' l = M l)).
  Proof.
    intros HZ.
    assert (NB : d_nb A = nb) by (exact (sq_nb nb A _ HA)).
    assert (MB : d_mb A = nb) by (exact (sq_mb nb A _ HA)).
    pose (t := fun p : Z * Z => if fst p =? snd p
      then omp_zlantr_inf uplo diag (tile_mview A (fst p)) (tile_nview A (fst p)) (tptr bA A (fst p) (fst p)) (tile_mmain A (fst p))
                        (pplus (bW, 0) (d_m A * fst p + fst p * d_nb A))
      else omp_zlange_aux_inf (N := N) (tile_mview A (fst p)) (tile_nview A (snd p))
      (tptr bA A (fst p) (snd p)) (tile_mmain A (fst p)) (pplus (bW, 0) (d_m A * snd p + fst p * d_mb A))).
    pose (val := fun (p : Z * Z) (f : Z -> Z -> N) => if fst p =? snd p
      then lantr_inf uplo diag (tile_mview A (fst p)) (tile_nview A (fst p)) f else aux_inf (tile_nview A (snd p)) f).
    match goal with |- region_ensures (_ ++ ?x) _ _ => replace x with (map t (idx_st uplo A)) end.
    2: { rewrite tri_tiles_eq. induction (idx_st uplo A) as [|[a b] L IH]; [reflexivity|]. cbn [map flat_map fst snd].
         rewrite <- IH. unfold t at 1. cbn [fst snd]. destruct (a =? b); reflexivity. }
    assert (HI : forall x, In x (idx_st uplo A) -> (0 <= fst x < R /\ 0 <= snd x < C) /\ stored uplo (fst x) (snd x) = true).
    { intros [a b] H. apply st_in in H. exact H. }
    eapply region_mono; [|apply (seg1_gen nb bA A pA lda bW HA Hb) with (tm := fst) (tn := snd)
      (off := fun x => d_m A * snd x + fst x * nb) (len := fun x => Z.min nb (m - fst x * nb)) (val := val); auto using idx_st_NoDup].
    - intros M' (E1 & E2). split.
      + intros i k Hi Hk.
        pose proof (pos_tile nb A _ HA i m Hi) as (P1 & P2 & P3). unfold tsz in P2.
        assert (Hj : 0 <= i / nb < R). { split; [assumption|]. apply ntl_spec; lia. }
        rewrite <- (tile_sum (fun j => G i j)).
        rewrite (nsum_ext N (fun r => G i (k * nb + r)) (fun r => G (i / nb * nb + i mod nb) (k * nb + r))) by (intros; rewrite <- P3; reflexivity).
        destruct (stored uplo (i / nb) k) eqn:HS.
        * pose proof (E1 (i / nb, k) (i mod nb)) as E. cbn [fst snd] in E. rewrite Em in E.
          replace (m * k + i / nb * nb + i mod nb) with (m * k + i) in E by lia.
          rewrite E; [|apply st_in; auto|assumption].
          unfold val. cbn [fst snd]. rewrite (tnv k Hk). pose proof (tnv_pos k Hk) as V2.
          destruct (Z.eqb_spec (i / nb) k) as [EK|NE].
          -- rewrite EK in *. rewrite (tmv k Hj), (tnv k Hk). rewrite lantr_inf_sum by assumption.
             apply nsum_ext. intros r Hr. symmetry; apply (gt_diag uplo diag (k * nb) F).
          -- rewrite aux_inf_sum. apply nsum_ext. intros r Hr.
             rewrite (gt_off uplo diag nb F) by lia. rewrite HS. reflexivity.
        * assert (NE : i / nb <> k) by (intros E; rewrite E, stored_refl in HS; discriminate).
          rewrite E2; [|cbn; lia|].
          -- rewrite HZ by assumption. symmetry. apply nsum_0. intros r Hr.
             rewrite (gt_off uplo diag nb F) by lia. rewrite HS. reflexivity.
          -- intros x Hx (r & Hr & E). cbn [fst snd] in E. injection E as E. destruct (HI x Hx) as [[X1 X2] X3].
             assert (x = (i / nb, k)) as ->; [|cbn [fst snd] in X3; congruence].
             apply (tile_off_inj nb x (i / nb, k) r (i mod nb) m fst snd); cbn [fst snd]; try lia; [|nia..].
             intros [] []; cbn; congruence.
      + intros l L1 L2. apply E2; [assumption|]. intros x Hx (r & _ & ->). apply L2. reflexivity.
    - lia.
    - intros x Hx. apply in_RC. apply HI. assumption.
    - intros [a b] f f' r Hx HF Hr. destruct (HI _ Hx) as [[Ha Hb'] _]. unfold val. cbn [fst snd] in *.
      rewrite (tmv a Ha), (tnv b Hb') in HF. pose proof (tnv_pos b Hb'). rewrite (tmv a Ha), (tnv b Hb').
      destruct (Z.eqb_spec a b) as [->|NE].
      + rewrite (tnv b Hb'). apply lantr_inf_ext; assumption.
      + eapply lange_row_ext; eauto.
    - intros x y r r' Hx Hy Hr Hr' E. apply HI in Hx, Hy. rewrite Em in E.
      destruct Hx as [[X1 X2] _], Hy as [[Y1 Y2] _].
      apply (tile_off_inj nb x y r r' m fst snd); try lia; [|nia..].
      intros [] []; cbn; congruence.
    - intros [a b] Hx. destruct (HI _ Hx) as [[Ha Hb'] _]. unfold t, val. cbn [fst snd] in *.
      destruct (Z.eqb_spec a b) as [->|NE]; rewrite ?NB, ?MB; rewrite (tmv _ Ha); reflexivity.
  Qed.

  (* PlasmaFrobeniusNorm *)
  Lemma tr_fro_phase : forall lassq, lassq_ok lassq ->
    (forall k, 0 <= k < 2 * R * C -> M (bW, k) = n0) -> region_ensures (pzge2desc pA lda bA A ++
      tri_tiles uplo A
         (fun m n => [omp_zgessq lassq (tile_mview A m) (tile_nview A n) (tptr bA A m n) (tile_mmain A m)
               (pplus (bW, 0) (d_mt A * n + m)) (pplus (pplus (bW, 0) (d_mt A * d_nt A)) (d_mt A * n + m))])
         (fun m => omp_ztrssq uplo diag (tile_mview A m) (tile_nview A m) (tptr bA A m m) (tile_mmain A m)
               (pplus (bW, 0) (d_mt A * m + m)) (pplus (pplus (bW, 0) (d_mt A * d_nt A)) (d_mt A * m + m)))) M
    (fun M' => (forall i j, 0 <= i < R -> 0 <= j < C ->
       ssq_ok (M' (bW, R * j + i), M' (bW, R * C + (R * j + i)))
         (nsum (fun y => nsum (fun x => nmul (G x y) (G x y)) (i * nb) (Z.min ((i + 1) * nb) m)) (j * nb) (Z.min ((j + 1) * nb) n))) /\
               (forall l, fst l <> bA -> fst l <> bW -> M' l = M l)).
  Proof.
    intros lassq HL HZ.
    pose (t := fun x : Z * Z => if fst x =? snd x
      then omp_ztrssq uplo diag (tile_mview A (fst x)) (tile_nview A (fst x)) (tptr bA A (fst x) (fst x)) (tile_mmain A (fst x))
               (pplus (bW, 0) (d_mt A * fst x + fst x)) (pplus (pplus (bW, 0) (d_mt A * d_nt A)) (d_mt A * fst x + fst x))
      else omp_zgessq lassq (tile_mview A (fst x)) (tile_nview A (snd x)) (tptr bA A (fst x) (snd x)) (tile_mmain A (fst x))
               (pplus (bW, 0) (d_mt A * snd x + fst x)) (pplus (pplus (bW, 0) (d_mt A * d_nt A)) (d_mt A * snd x + fst x))).
    pose (val := fun (x : Z * Z) (f : Z -> Z -> N) => if fst x =? snd x
      then trssq uplo diag (tile_mview A (fst x)) (tile_nview A (fst x)) f else gessq lassq (tile_mview A (fst x)) (tile_nview A (snd x)) f).
    match goal with |- region_ensures (_ ++ ?x) _ _ => replace x with (map t (idx_st uplo A)) end.
    2: { rewrite tri_tiles_eq. induction (idx_st uplo A) as [|[a b] L IH]; [reflexivity|]. cbn [map flat_map fst snd].
         rewrite <- IH. unfold t at 1. cbn [fst snd]. destruct (a =? b); reflexivity. }
    assert (HI : forall x, In x (idx_st uplo A) -> (0 <= fst x < R /\ 0 <= snd x < C) /\ stored uplo (fst x) (snd x) = true).
    { intros [a b] H. apply st_in in H. exact H. }
    pose proof R_mt as MT. pose proof C_nt as NT.
    eapply region_mono; [|apply (seg2_gen nb bA A pA lda bW HA Hb) with (tm := fst) (tn := snd)
      (off := fun x => R * snd x + fst x) (S := R * C) (val := val); auto using idx_st_NoDup].
    - intros M' (E1 & E2). split.
      + intros i j Hi Hj.
        rewrite <- (tile_sum (fun y => nsum (fun z => nmul (G z y) (G z y)) (i * nb) (Z.min ((i + 1) * nb) m)) nb j).
        rewrite (nsum_ext N _ (fun c => nsum (fun r => nmul (G (i * nb + r) (j * nb + c)) (G (i * nb + r) (j * nb + c)))
             0 (Z.min nb (m - i * nb)))).
        2: { intros c _. symmetry. apply (tile_sum (fun z => nmul (G z (j * nb + c)) (G z (j * nb + c)))). }
        destruct (stored uplo i j) eqn:HS.
        * pose proof (E1 (i, j)) as E. cbn [fst snd] in E. rewrite E by (apply st_in; auto). clear E.
          pose proof (tmv_pos _ Hi) as V2. pose proof (tnv_pos _ Hj) as W2.
          unfold val. cbn [fst snd]. rewrite (tmv i Hi). destruct (Z.eqb_spec i j) as [EQ|NE].
          -- rewrite <- EQ in *. rewrite (tnv i Hj).
             eassert (K : _); [apply (trssq_ok uplo diag (Z.min nb (m - i * nb)) (Z.min nb (n - i * nb)) (tile_of nb pA lda M i i) HD V2 W2)|].
             match type of K with ssq_ok _ ?u => match goal with |- ssq_ok _ ?v => replace v with u; [exact K|] end end.
             apply nsum_ext. intros c _. apply nsum_ext. intros r _. rewrite (gt_diag uplo diag (i * nb) F). reflexivity.
          -- rewrite (tnv j Hj).
             eassert (K : _); [apply (gessq_ok lassq (Z.min nb (m - i * nb)) (Z.min nb (n - j * nb)) (tile_of nb pA lda M i j) HL)|].
             match type of K with ssq_ok _ ?u => match goal with |- ssq_ok _ ?v => replace v with u; [exact K|] end end.
             apply nsum_ext. intros c Hc. apply nsum_ext. intros r Hr. rewrite (gt_off uplo diag nb F) by lia. rewrite HS. reflexivity.
        * assert (NE : i <> j) by (intros E; rewrite E, stored_refl in HS; discriminate).
          assert (OUT : forall x, In x (idx_st uplo A) -> R * snd x + fst x <> R * j + i).
          { intros [a b] Hx E. cbn [fst snd] in E. apply HI in Hx. cbn [fst snd] in Hx. destruct Hx as [[X1 X2] X3].
            destruct (pos_inj R b j a i) as [-> ->]; auto. congruence. }
          assert (OB : 0 <= R * j + i < R * C) by nia.
          rewrite !E2; cbn [fst]; try lia.
          -- rewrite !HZ by lia. rewrite nsum_0.
             ++ split; [apply nabs_0|]. split; [apply nabs_0|]. cbn. ring.
             ++ intros c Hc. apply nsum_0. intros r Hr. rewrite (gt_off uplo diag nb F) by lia. rewrite HS. ring.
          -- intros [a b] Hx. pose proof (OUT _ Hx). pose proof (HI _ Hx) as [[X1 X2] _]. cbn [fst snd] in *.
             split; intros E; injection E as E; [nia|lia].
          -- intros [a b] Hx. pose proof (OUT _ Hx). pose proof (HI _ Hx) as [[X1 X2] _]. cbn [fst snd] in *.
             split; intros E; injection E as E; [lia|nia].
      + intros l L1 L2. apply E2; [assumption|]. intros x Hx. split; intros ->; apply L2; reflexivity.
    - lia.
    - intros x Hx. apply in_RC. apply HI. assumption.
    - intros [a b] f f' Hx HF. destruct (HI _ Hx) as [[Ha Hb'] _]. unfold val. cbn [fst snd] in *.
      destruct (Z.eqb_spec a b) as [->|NE]; [|apply (gessq_ext _ _ _ _ _ HF)].
      apply trssq_ext; [rewrite (tmv b Ha); apply tmv_pos; assumption|exact HF].
    - intros [a b] Hx. destruct (HI _ Hx) as [[Ha Hb'] _]. cbn [fst snd] in *. nia.
    - intros [a b] [a' b'] Hx Hy E. apply HI in Hx, Hy. cbn [fst snd] in *.
      destruct Hx as [[X1 X2] _], Hy as [[Y1 Y2] _].
      destruct (pos_inj R b b' a a') as [-> ->]; auto.
    - intros [a b] Hx. destruct (HI _ Hx) as [[Ha Hb'] _]. unfold t, val. cbn [fst snd] in *.
      destruct (Z.eqb_spec a b) as [->|NE]; rewrite MT, NT; reflexivity.
  Qed.
End Tr.
