From Coq Require Import ZArith List Bool Lia.
From Verif Require Import Base NumModel NumProofs TaskModel TaskSpec TaskProofs DescModel DescSpec
  DescDriverModel DescProofs DescPackProofs DescProofs3 MatModel MatSpec MatProofs RegionProofs
  LayoutModel LayoutProofs.
Import ListNotations.
Open Scope Z_scope.

Lemma omp_zlacpy_kgood : forall V uplo m n X ldx Y ldy, m <= ldy ->
  kgood (@omp_zlacpy V uplo m n X ldx Y ldy).
Proof.
  intros. constructor; [apply omp_zlacpy_ksound; assumption|apply finite_reg|apply finite_reg].
Qed.

(* packed triangles are tiled *)
Lemma tri_tiled : forall A upper nb n, tri_ok A upper nb n -> tiled A (in_tri A).
Proof.
  intros A upper nb n H. pose proof (tk_shape _ _ _ _ H) as SH.
  assert (0 < nb) by (rewrite <- (tk_mb _ _ _ _ H); destruct SH; assumption).
  assert (0 <= n) by (rewrite <- (tk_gm _ _ _ _ H); destruct SH; assumption).
  constructor; auto.
  - intros x y [I _]. exact I.
  - intros x y [[I _] _]. apply mmain_ge_mview; auto. rewrite (tk_type _ _ _ _ H).
    destruct upper; discriminate.
  - intros x y x' y' r c r' c' [[Hm Hn] HS] [[Hm' Hn'] HS'] Hr Hc Hr' Hc' E.
    rewrite <- !elem_off_tile in E by assumption.
    destruct (tile_row A x r SH Hm Hr) as (R1 & R2 & R3).
    destruct (tile_row A x' r' SH Hm' Hr') as (R1' & R2' & R3').
    destruct (tile_col A y c SH Hn Hc) as (C1 & C2 & C3).
    destruct (tile_col A y' c' SH Hn' Hc') as (C1' & C2' & C3').
    rewrite (tk_type _ _ _ _ H) in HS, HS'.
    rewrite (tk_m _ _ _ _ H) in R1, R1'. rewrite (tk_n _ _ _ _ H) in C1, C1'.
    rewrite (tk_mb _ _ _ _ H) in *. rewrite (tk_nb _ _ _ _ H) in *.
    rewrite !(tri_elem_off A upper nb n) in E by assumption.
    destruct (taddr_inj upper nb n H0 H1 (x * nb + r) (y * nb + c) (x' * nb + r') (y' * nb + c'))
      as [E1 E2]; auto.
    + unfold in_stored_tile. rewrite R2, C2. repeat split; try lia.
      destruct upper; cbn in HS; lia.
    + unfold in_stored_tile. rewrite R2', C2'. repeat split; try lia.
      destruct upper; cbn in HS'; lia.
    + rewrite E1 in R2, R3. rewrite E2 in C2, C3. repeat split; congruence.
Qed.

Lemma tri_stored : forall A upper nb n i j, tri_ok A upper nb n ->
  in_stored_tile upper nb n i j -> in_tri A (i / d_mb A) (j / d_nb A).
Proof.
  intros A upper nb n i j H (Hi & Hj & HU). pose proof (tk_shape _ _ _ _ H) as SH.
  rewrite <- (tk_m _ _ _ _ H) in Hi. rewrite <- (tk_n _ _ _ _ H) in Hj.
  split.
  - split; [apply (row_tile A i SH Hi)|apply (col_tile A j SH Hj)].
  - rewrite (tk_type _ _ _ _ H), (tk_mb _ _ _ _ H), (tk_nb _ _ _ _ H). destruct upper; cbn; exact HU.
Qed.

Lemma tri_stored_inv : forall A upper nb n i j, tri_ok A upper nb n ->
  0 <= i < n -> 0 <= j < n -> in_tri A (i / d_mb A) (j / d_nb A) -> in_stored_tile upper nb n i j.
Proof.
  intros A upper nb n i j H Hi Hj [_ HU].
  rewrite (tk_type _ _ _ _ H), (tk_mb _ _ _ _ H), (tk_nb _ _ _ _ H) in HU.
  repeat split; try lia. destruct upper; exact HU.
Qed.

Lemma tri_square : forall A upper nb n, tri_ok A upper nb n -> d_mt A = d_nt A.
Proof.
  intros A upper nb n H. destruct (tk_shape _ _ _ _ H). rewrite go_mt, go_nt.
  rewrite (tk_m _ _ _ _ H), (tk_n _ _ _ _ H), (tk_i _ _ _ _ H), (tk_j _ _ _ _ H),
    (tk_mb _ _ _ _ H), (tk_nb _ _ _ _ H). reflexivity.
Qed.

Section Ensures.
  Context {V : Type}.
  Variables (A : desc) (S : Z -> Z -> Prop) (b : Z) (pA : loc) (lda : Z).
  Hypothesis HT : tiled A S.
  Variable idx : list (Z * Z).
  Hypothesis Hidx : forall m n, In (m, n) idx <-> S m n.
  Hypothesis HND : NoDup idx.
  Hypothesis HB : fst pA <> b.

  Lemma copy_in_kgood : Forall kgood (@copy_in_all V A b pA lda idx).
  Proof.
    apply Forall_flat_map_intro. intros [m n] Hmn. constructor; [|constructor].
    apply Hidx in Hmn. cbn [fst snd]. rewrite copy_in_eq with (S := S) by assumption.
    apply omp_zlacpy_kgood. apply (td_ld A S HT m n Hmn).
  Qed.

  Lemma copy_in_ensures : forall M,
    region_ensures (@copy_in_all V A b pA lda idx) M (fun M' =>
      (forall i j, 0 <= i < d_m A -> 0 <= j < d_n A -> S (i / d_mb A) (j / d_nb A) ->
         el M' b A i j = ul M pA lda i j) /\
      (forall l, fst l <> b -> M' l = M l)).
  Proof.
    intros M. apply (region_env V [(b, homeD A S)]).
    - cbn. constructor; [intros []|constructor].
    - intros b' h [E|[]]. injection E as <- <-. apply homeD_functional; assumption.
    - apply copy_in_kgood.
    - eapply copy_in_kdecl; eauto. left; reflexivity. left. intros l Hl.
      apply in_user_block in Hl. apply no_home_block. cbn. intros [E|[]]. congruence.
    - intros M' E. split.
      + intros i j Hi Hj HS. unfold el. rewrite E. eapply copy_in_spec; eauto.
      + intros l Hl. rewrite E. eapply copy_in_frame; eauto.
  Qed.

  Hypothesis Hlda : d_m A <= lda.

  Lemma copy_out_kgood : Forall kgood (@copy_out_all V A b pA lda idx).
  Proof.
    apply Forall_flat_map_intro. intros [m n] Hmn. constructor; [|constructor].
    apply Hidx in Hmn. cbn [fst snd]. rewrite copy_out_eq with (S := S) by assumption.
    apply omp_zlacpy_kgood. eapply tile_m_le_lda; eauto.
  Qed.

  Lemma both_env : NoDup (map fst [(b, homeD A S); (fst pA, homeU A S pA lda)]) /\
    (forall b' h, In (b', h) [(b, homeD A S); (fst pA, homeU A S pA lda)] -> functionalZ h).
  Proof.
    split.
    - cbn. constructor; [|constructor; [intros []|constructor]]. intros [E|[]]; congruence.
    - intros b' h [E|[E|[]]]; injection E as <- <-.
      + apply homeD_functional; assumption.
      + apply homeU_functional; assumption.
  Qed.

  Lemma copy_out_ensures : forall M,
    region_ensures (@copy_out_all V A b pA lda idx) M (fun M' =>
      (forall i j, 0 <= i < d_m A -> 0 <= j < d_n A -> S (i / d_mb A) (j / d_nb A) ->
         ul M' pA lda i j = el M b A i j) /\
      (forall l, (forall i j, 0 <= i < d_m A -> 0 <= j < d_n A -> S (i / d_mb A) (j / d_nb A) ->
                    l <> (fst pA, snd pA + i + j * lda)) -> M' l = M l)).
  Proof.
    intros M. destruct both_env as [E1 E2]. eapply (region_env V); eauto.
    - apply copy_out_kgood.
    - eapply copy_out_kdecl; eauto. left; reflexivity. right; left; reflexivity.
    - intros M' E. split.
      + intros i j Hi Hj HS. unfold ul. rewrite E. eapply copy_out_spec; eauto.
      + intros l Hl. rewrite E. eapply copy_out_frame; eauto.
  Qed.

  (* both translations in one region, without a barrier between them *)
  Lemma round_trip_ensures : forall M,
    region_ensures (@copy_in_all V A b pA lda idx ++ copy_out_all A b pA lda idx) M (fun M' =>
      (forall i j, 0 <= i < d_m A -> 0 <= j < d_n A -> S (i / d_mb A) (j / d_nb A) ->
         el M' b A i j = ul M pA lda i j) /\
      (forall l, fst l <> b -> M' l = M l)).
  Proof.
    intros M. destruct both_env as [E1 E2]. eapply (region_env V); eauto.
    - apply Forall_app. split; [apply copy_in_kgood|apply copy_out_kgood].
    - apply Forall_app. split.
      + eapply copy_in_kdecl; eauto. left; reflexivity. right. right; left; reflexivity.
      + eapply copy_out_kdecl; eauto. left; reflexivity. right; left; reflexivity.
    - intros M' E. rewrite krun_app in E. split.
      + intros i j Hi Hj HS. unfold el. rewrite E.
        rewrite (copy_out_frame A S b pA lda HT idx); auto.
        * eapply copy_in_spec; eauto.
        * intros i' j' _ _ _ Q. injection Q as Q _. congruence.
      + intros l Hl. rewrite E.
        destruct (finite_dec (kwrites (@copy_out_all V A b pA lda idx)) l) as [W|W].
        { unfold kwrites.
          assert (G := copy_out_kgood). clear -G. induction G as [|k ks Hk G [L IH]].
          - exists []. intros l. split; [intros []|]. intros (k & [] & _).
          - destruct (kg_writes _ Hk) as [L' H']. exists (L' ++ L). intros l.
            rewrite in_app_iff, IH, H'. split.
            + intros [H|(k' & H1 & H2)]; [exists k; split; [left; reflexivity|assumption]|].
              exists k'. split; [right; assumption|assumption].
            + intros (k' & [<-|H1] & H2); [left; assumption|right; exists k'; auto]. }
        * destruct W as (k & Hk & W). apply in_flat_map in Hk.
          destruct Hk as ([m n] & Hmn & [<-|[]]). apply Hidx in Hmn. cbn [fst snd] in W.
          rewrite copy_out_eq with (S := S) in W by assumption. cbn in W.
          destruct W as (r & c & Hr & Hc & _ & ->).
          destruct (td_in A S HT m n Hmn) as [Hm Hn].
          destruct (tile_row A m r (td_shape A S HT) Hm Hr) as (R1 & R2 & R3).
          destruct (tile_col A n c (td_shape A S HT) Hn Hc) as (C1 & C2 & C3).
          assert (Q := ul_loc A S pA lda HT (m * d_mb A + r) (n * d_nb A + c)).
          rewrite R2, R3, C2, C3 in Q. rewrite <- Q.
          change (ul (krun (@copy_out_all V A b pA lda idx) (krun (copy_in_all A b pA lda idx) M)) pA lda
                   (m * d_mb A + r) (n * d_nb A + c) = ul M pA lda (m * d_mb A + r) (n * d_nb A + c)).
          rewrite (copy_out_spec A S b pA lda HT idx); auto; [|rewrite R2, C2; assumption].
          apply (copy_in_spec A S b pA lda HT idx); auto. rewrite R2, C2; assumption.
        * rewrite krun_frame; auto.
          -- eapply copy_in_frame; eauto.
          -- apply kgood_sound, copy_out_kgood.
  Qed.
End Ensures.

(* ------------------------------------------------------------------ *)
(* statements used by the property files                                 *)

Lemma create_dims : forall prec mb nb lm ln i j m n A size, 0 <= i -> 0 <= j ->
  general_create prec mb nb lm ln i j m n = CrOk A size ->
  tiled A (in_tiles A) /\ d_m A = m /\ d_n A = n.
Proof.
  intros prec mb nb lm ln i j m n A size Hi Hj H.
  destruct (general_create_ok _ _ _ _ _ _ _ _ _ _ _ Hi Hj H) as (G & -> & _).
  split; [apply dense_tiled; assumption|]. split; reflexivity.
Qed.

Lemma in_tiles_pos : forall A i j, shape_ok A -> 0 <= i < d_m A -> 0 <= j < d_n A ->
  in_tiles A (i / d_mb A) (j / d_nb A).
Proof. intros A i j SH Hi Hj. split; [apply (row_tile A i SH Hi)|apply (col_tile A j SH Hj)]. Qed.

Lemma ge2desc_main : forall V prec mb nb lm ln i0 j0 m n A size pA lda b M,
  0 <= i0 -> 0 <= j0 -> general_create prec mb nb lm ln i0 j0 m n = CrOk A size -> fst pA <> b ->
  region_ensures (@pzge2desc V pA lda b A) M (fun M' =>
    (forall i j, in_matrix m n i j -> el M' b A i j = ul M pA lda i j) /\
    (forall l, fst l <> b -> M' l = M l)).
Proof.
  intros V prec mb nb lm ln i0 j0 m n A size pA lda b M Hi Hj H HB.
  destruct (create_dims _ _ _ _ _ _ _ _ _ _ _ Hi Hj H) as (HT & <- & <-).
  rewrite pzge2desc_eq. eapply region_mono; [|eapply (copy_in_ensures A (in_tiles A)); eauto].
  - intros M' [H1 H2]. split; auto. intros i j [Ii Ij]. apply H1; auto.
    apply in_tiles_pos; auto. apply (td_shape _ _ HT).
  - apply idx_all_in.
  - apply idx_all_NoDup.
Qed.

Lemma desc2ge_main : forall V prec mb nb lm ln i0 j0 m n A size pA lda b M,
  0 <= i0 -> 0 <= j0 -> general_create prec mb nb lm ln i0 j0 m n = CrOk A size -> fst pA <> b ->
  m <= lda ->
  region_ensures (@pzdesc2ge V b A pA lda) M (fun M' =>
    (forall i j, in_matrix m n i j -> ul M' pA lda i j = el M b A i j) /\
    (forall l, ~ in_user pA lda m n l -> M' l = M l)).
Proof.
  intros V prec mb nb lm ln i0 j0 m n A size pA lda b M Hi Hj H HB Hl.
  destruct (create_dims _ _ _ _ _ _ _ _ _ _ _ Hi Hj H) as (HT & <- & <-).
  rewrite pzdesc2ge_eq. eapply region_mono; [|eapply (copy_out_ensures A (in_tiles A)); eauto].
  - intros M' [H1 H2]. split; auto.
    + intros i j [Ii Ij]. apply H1; auto. apply in_tiles_pos; auto. apply (td_shape _ _ HT).
    + intros l Hn. apply H2. intros i j Ii Ij _ E. apply Hn. exists i, j. auto.
  - apply idx_all_in.
  - apply idx_all_NoDup.
Qed.

Lemma ge_round_trip_main : forall V prec mb nb lm ln i0 j0 m n A size pA lda b M,
  0 <= i0 -> 0 <= j0 -> general_create prec mb nb lm ln i0 j0 m n = CrOk A size -> fst pA <> b ->
  m <= lda ->
  region_ensures (@pzge2desc V pA lda b A ++ pzdesc2ge b A pA lda) M
    (fun M' => forall l, fst l <> b -> M' l = M l).
Proof.
  intros V prec mb nb lm ln i0 j0 m n A size pA lda b M Hi Hj H HB Hl.
  destruct (create_dims _ _ _ _ _ _ _ _ _ _ _ Hi Hj H) as (HT & <- & <-).
  rewrite pzdesc2ge_eq, pzge2desc_eq.
  eapply region_mono; [|eapply (round_trip_ensures A (in_tiles A)); eauto].
  - intros M' [H1 H2]. exact H2.
  - apply idx_all_in.
  - apply idx_all_NoDup.
Qed.

(* packed triangles *)
Lemma tr2desc_main : forall V upper nb n A size pA lda b M,
  tr_create (if upper : bool then PlasmaUpper else PlasmaLower) nb n = CrOk A size -> fst pA <> b ->
  region_ensures (@pztr2desc V pA lda b A) M (fun M' =>
    (forall i j, in_stored_tile upper nb n i j -> el M' b A i j = ul M pA lda i j) /\
    (forall l, fst l <> b -> M' l = M l)).
Proof.
  intros V upper nb n A size pA lda b M H HB.
  apply triangular_create_ok in H. destruct H as [H _]. pose proof (tri_tiled _ _ _ _ H) as HT.
  rewrite pztr2desc_eq. eapply region_mono; [|eapply (copy_in_ensures A (in_tri A)); eauto].
  - intros M' [H1 H2]. split; auto. intros i j Hij. apply H1.
    + rewrite (tk_m _ _ _ _ H). apply Hij.
    + rewrite (tk_n _ _ _ _ H). apply Hij.
    + eapply tri_stored; eauto.
  - intros. apply idx_tri_in. eapply tri_square; eauto.
  - apply idx_tri_NoDup.
Qed.

Lemma desc2tr_main : forall V upper nb n A size pA lda b M,
  tr_create (if upper : bool then PlasmaUpper else PlasmaLower) nb n = CrOk A size -> fst pA <> b ->
  n <= lda ->
  region_ensures (@pzdesc2tr V b A pA lda) M (fun M' =>
    (forall i j, in_stored_tile upper nb n i j -> ul M' pA lda i j = el M b A i j) /\
    (forall l, (forall i j, in_stored_tile upper nb n i j -> l <> (fst pA, snd pA + i + j * lda)) ->
       M' l = M l)).
Proof.
  intros V upper nb n A size pA lda b M H HB Hl.
  apply triangular_create_ok in H. destruct H as [H _]. pose proof (tri_tiled _ _ _ _ H) as HT.
  rewrite pzdesc2tr_eq. eapply region_mono; [|eapply (copy_out_ensures A (in_tri A)); eauto].
  - intros M' [H1 H2]. split; auto.
    + intros i j Hij. apply H1.
      * rewrite (tk_m _ _ _ _ H). apply Hij.
      * rewrite (tk_n _ _ _ _ H). apply Hij.
      * eapply tri_stored; eauto.
    + intros l Hn. apply H2. intros i j Ii Ij HS. apply Hn.
      rewrite (tk_m _ _ _ _ H) in Ii. rewrite (tk_n _ _ _ _ H) in Ij.
      eapply tri_stored_inv; eauto.
  - intros. apply idx_tri_in. eapply tri_square; eauto.
  - apply idx_tri_NoDup.
  - rewrite (tk_m _ _ _ _ H). assumption.
Qed.

Lemma tr_round_trip_main : forall V upper nb n A size pA lda b M,
  tr_create (if upper : bool then PlasmaUpper else PlasmaLower) nb n = CrOk A size -> fst pA <> b ->
  n <= lda ->
  region_ensures (@pztr2desc V pA lda b A ++ pzdesc2tr b A pA lda) M
    (fun M' => forall l, fst l <> b -> M' l = M l).
Proof.
  intros V upper nb n A size pA lda b M H HB Hl.
  apply triangular_create_ok in H. destruct H as [H _]. pose proof (tri_tiled _ _ _ _ H) as HT.
  rewrite pzdesc2tr_eq, pztr2desc_eq.
  eapply region_mono; [|eapply (round_trip_ensures A (in_tri A)); eauto].
  - intros M' [H1 H2]. exact H2.
  - intros. apply idx_tri_in. eapply tri_square; eauto.
  - apply idx_tri_NoDup.
  - rewrite (tk_m _ _ _ _ H). assumption.
Qed.

Lemma other_triangle_refuted : exists upper nb n A size pA lda b M,
  tr_create (if upper : bool then PlasmaUpper else PlasmaLower) nb n = CrOk A size /\
  fst pA <> b /\ n <= lda /\
  exists i j, 0 <= i < n /\ 0 <= j < n /\ (if upper then j < i else i < j) /\
    ul (krun (@pzdesc2tr Z b A pA lda) M) pA lda i j <> ul M pA lda i j.
Proof.
  exists false, 2, 2. eexists. exists 4, (0, 0), 2, 1, (fun l => fst l).
  split; [reflexivity|]. split; [cbn; lia|]. split; [lia|].
  exists 0, 1. split; [lia|]. split; [lia|]. split; [lia|]. cbv. discriminate.
Qed.
