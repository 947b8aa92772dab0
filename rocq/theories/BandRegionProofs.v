(* Dependences of the band translation, and a region that works on one band matrix. *)
From Coq Require Import ZArith List Bool Lia Ring.
From Verif Require Import Base NumModel NumProofs FieldModel TaskModel TaskSpec TaskProofs DescModel DescSpec
  DescDriverModel DescProofs DescPackProofs DescProofs3 DescProofs4 MatModel MatSpec MatProofs RegionProofs
  GuardModel GuardSpec GuardProofs GuardProofs2 LayoutModel LayoutProofs LayoutProofs2 OpProofs GemmModel GemmProofs
  RankModel TriModel DriverModel DriverSpec PotrfModel BandModel BandSpec BandProofs BandLayoutProofs.
Import ListNotations.
Open Scope Z_scope.

Lemma in_user_band_dec : forall uplo kd p ld n l, kd < ld -> 0 <= kd ->
  {in_user_band uplo kd p ld n l} + {~ in_user_band uplo kd p ld n l}.
Proof.
  intros uplo kd p ld n l HL Hk.
  remember (snd l - snd p) as o eqn:Eo. remember (o / ld) as j eqn:Ej.
  remember (o mod ld - (if uplo =? PlasmaUpper then kd else 0) + j) as i eqn:Ei.
  assert (EO : o = ld * j + o mod ld) by (rewrite Ej; apply Z.div_mod; lia).
  assert (U : in_user_band uplo kd p ld n l -> in_matrix n n i j /\ in_band uplo kd i j /\ fst l = fst p).
  { intros (i' & j' & HM & HI & E). unfold band_loc in E. rewrite E in Eo. cbn in Eo.
    remember ((if uplo =? PlasmaUpper then kd else 0) + i' - j') as r eqn:Er.
    assert (HR : 0 <= r < ld).
    { rewrite Er. destruct HI as [[-> HI]|[-> HI]]; cbn; lia. }
    assert (j = j') as EJ. { rewrite Ej. symmetry. apply Z.div_unique with r; lia. }
    assert (o mod ld = r) as EM by (symmetry; apply Z.mod_unique with j'; lia).
    assert (i = i') as EI by lia. rewrite EJ, EI. rewrite E. auto. }
  assert (V : in_matrix n n i j -> in_band uplo kd i j -> fst l = fst p -> in_user_band uplo kd p ld n l).
  { intros H1 H2 H3. exists i, j. split; [assumption|]. split; [assumption|]. unfold band_loc.
    destruct l as [lb lo]. cbn in *. rewrite H3. apply f_equal. lia. }
  destruct (in_band_dec uplo kd i j) as [H1|H1]; [|right; tauto].
  destruct (Z.eq_dec (fst l) (fst p)) as [H2|H2]; [|right; tauto].
  destruct (Z_le_dec 0 i); [|right; intros H; apply U in H; unfold in_matrix in H; lia].
  destruct (Z_lt_dec i n); [|right; intros H; apply U in H; unfold in_matrix in H; lia].
  destruct (Z_le_dec 0 j); [|right; intros H; apply U in H; unfold in_matrix in H; lia].
  destruct (Z_lt_dec j n); [|right; intros H; apply U in H; unfold in_matrix in H; lia].
  left. apply V; auto. split; lia.
Qed.

Section BandDecl.
  Variables (A : desc) (uplo nb n kd : Z).
  Hypothesis HP : pb_ok A uplo nb n kd.
  Variables (b : Z) (p : loc) (ld : Z).
  Hypothesis HL : kd < ld.
  Hypothesis HB : fst p <> b.

  (* the home of an element of the user's band is the pointer passed for its tile *)
  Definition homeB (o a : Z) : Prop :=
    exists m k r c, in_tb A m k /\ 0 <= r < tsz nb n m /\ 0 <= c < tsz nb n k /\
      in_band uplo kd (m * nb + r) (k * nb + c) /\
      (fst p, o) = band_loc uplo kd p ld (m * nb + r) (k * nb + c) /\ (fst p, a) = bandA p ld A m k.

  Lemma homeB_functional : functionalZ homeB.
  Proof.
    intros o a a' (m & k & r & c & HT & Hr & Hc & HI & E & Ea) (m' & k' & r' & c' & HT' & Hr' & Hc' & HI' & E' & Ea').
    rewrite E in E'. apply band_loc_inj in E'; try assumption. destruct E' as [E1 E2].
    destruct HT as [[[? _] [? _]] _]. destruct HT' as [[[? _] [? _]] _].
    pose proof (tb_sq A uplo nb n kd HP) as SQ.
    destruct (tile_pos nb A (in_tb A) SQ m r n) as (_ & P2 & _); try lia.
    destruct (tile_pos nb A (in_tb A) SQ m' r' n) as (_ & P3 & _); try lia.
    destruct (tile_pos nb A (in_tb A) SQ k c n) as (_ & P4 & _); try lia.
    destruct (tile_pos nb A (in_tb A) SQ k' c' n) as (_ & P5 & _); try lia.
    rewrite E1, P3 in P2. rewrite E2, P5 in P4. subst. rewrite <- Ea in Ea'. congruence.
  Qed.

  Context {N : numbers}.
  Variable env : list (Z * (Z -> Z -> Prop)).
  Hypothesis HD : In (b, homeD A (in_tb A)) env.

  Lemma home_part : In (fst p, homeB) env -> forall m k l, 0 <= m -> 0 <= k ->
    band_part uplo m k (tsz nb n m) (tsz nb n k) nb kd kd (bandA p ld A m k) (ld - 1) l ->
    home_env env l (bandA p ld A m k).
  Proof.
    intros HE m k l Hm Hk H. apply (part_spec A uplo nb n kd HP) in H; try lia.
    destruct H as (r & c & Hr & Hc & _ & HI & HT & ->). split; [reflexivity|]. exists homeB. split; [exact HE|].
    exists m, k, r, c. split; [assumption|]. split; [assumption|]. split; [assumption|]. split; [assumption|].
    rewrite <- (bandA_loc A uplo nb n kd HP). split; reflexivity.
  Qed.

  Lemma pzpb2desc_kdecl : In (fst p, homeB) env \/ ~ In (fst p) (map fst env) ->
    Forall (kdecl (home_env env)) (@pzpb2desc N p ld b A).
  Proof.
    intros HE. rewrite (pzpb2desc_eq A). apply Forall_forall. intros x Hx. apply in_flat_map in Hx.
    destruct Hx as ([k m] & Hi & [<-|[]]). apply (idx_in_spec A uplo nb n kd HP) in Hi. cbn [fst snd].
    rewrite (pb_in_eq A uplo nb n kd HP). pose proof (proj1 Hi) as [[Hm _] [Hk _]].
    pose proof (sq_mv nb A (in_tb A) (tb_sq A uplo nb n kd HP) m k Hi) as MV. rewrite (pk_m _ _ _ _ _ HP) in MV.
    pose proof (sq_nv nb A (in_tb A) (tb_sq A uplo nb n kd HP) m k Hi) as NV. rewrite (pk_n _ _ _ _ _ HP) in NV.
    apply kdecl_intro; cbn; intros l H.
    - destruct HE as [HE|HE].
      + left. eexists. split; [left; reflexivity|]. cbn. apply home_part; assumption.
      + right. apply no_home_block. destruct H as (r & c & _ & _ & ->). cbn. assumption.
    - eexists. split; [right; left; reflexivity|]. split; [|discriminate]. cbn.
      rewrite <- MV, <- NV in H. eapply home_tile; eauto.
  Qed.

  Lemma pzdesc2pb_kdecl : In (fst p, homeB) env -> Forall (kdecl (home_env env)) (@pzdesc2pb N b A p ld).
  Proof.
    intros HE. rewrite (pzdesc2pb_eq A). apply Forall_forall. intros x Hx. apply in_flat_map in Hx.
    destruct Hx as ([k m] & Hi & [<-|[]]). apply (idx_out_pos A uplo nb n kd HP) in Hi. cbn [fst snd].
    rewrite (pb_out_eq A uplo nb n kd HP). destruct Hi as [Hk Hm].
    apply kdecl_intro; cbn; intros l H.
    - left. eexists. split; [left; reflexivity|]. cbn. apply (part_spec A uplo nb n kd HP) in H; try lia.
      destruct H as (r & c & Hr & Hc & _ & HI & HT & ->).
      pose proof (sq_mv nb A (in_tb A) (tb_sq A uplo nb n kd HP) m k HT) as MV. rewrite (pk_m _ _ _ _ _ HP) in MV.
      pose proof (sq_nv nb A (in_tb A) (tb_sq A uplo nb n kd HP) m k HT) as NV. rewrite (pk_n _ _ _ _ _ HP) in NV.
      rewrite <- MV in Hr. rewrite <- NV in Hc.
      apply (home_tile env A (in_tb A) b m k everywhere); try assumption. exists r, c. repeat split; lia.
    - eexists. split; [right; left; reflexivity|]. split; [|discriminate]. cbn. apply home_part; try lia; assumption.
  Qed.
End BandDecl.

Section BandRegion.
  Context {F : numbers}.
  Variables (A : desc) (uplo nb n kd : Z).
  Hypothesis HP : pb_ok A uplo nb n kd.
  Variables (b : Z) (p : loc) (ld : Z).
  Hypothesis HL : kd < ld.
  Hypothesis HB : fst p <> b.
  Variable comp : list (cktask F).
  Hypothesis CG : Forall kgood (map ck_task comp).
  Hypothesis CS : Forall cksound comp.
  Hypothesis CD : forall env, In (b, homeD A (in_tb A)) env -> Forall (kdecl (home_env env)) (map ck_task comp).
  Hypothesis CW : forall k l, In k comp -> k_writes (ck_task k) l -> fst l = b.
  Hypothesis CC : forall tail, ch None (comp ++ map sure tail).

  Lemma pb_gregion : forall M,
    gregion_ensures (map sure (pzpb2desc p ld b A) ++ comp ++ map sure (pzdesc2pb b A p ld)) M
      (fun M' st => exists M3,
        (forall i j, in_matrix n n i j -> in_tb A (i / nb) (j / nb) ->
           el M3 b A i j = if in_band_dec uplo kd i j then bel M uplo kd p ld i j else n0) /\
        (forall l, fst l <> b -> M3 l = M l) /\
        st = first_code (kcodes comp M3) /\
        (st = 0 ->
          (forall i j, in_matrix n n i j -> in_band uplo kd i j ->
             bel M' uplo kd p ld i j = el (krun (map ck_task comp) M3) b A i j)) /\
        (forall l, fst l <> b -> ~ in_user_band uplo kd p ld n l -> M' l = M l)).
  Proof.
    intros M. apply gregion_intro.
    - rewrite !map_app, !map_sure, !Forall_app. split; [|split; [assumption|]].
      + apply (pzpb2desc_kgood A uplo nb n kd HP); assumption.
      + apply (pzdesc2pb_kgood A uplo nb n kd HP); assumption.
    - rewrite !Forall_app. split; [apply cksound_sure|]. split; [assumption|apply cksound_sure].
    - rewrite !map_app, !map_sure. remember [(b, homeD A (in_tb A)); (fst p, homeB A uplo nb n kd p ld)] as env eqn:Ee.
      assert (I1 : In (b, homeD A (in_tb A)) env) by (rewrite Ee; left; reflexivity).
      assert (I2 : In (fst p, homeB A uplo nb n kd p ld) env) by (rewrite Ee; right; left; reflexivity).
      apply korders_klinked. apply (kdecl_korders F (home_env env)).
      + apply home_env_functional.
        * rewrite Ee. cbn. constructor; [intros [E|[]]; congruence|]. constructor; [intros []|constructor].
        * rewrite Ee. intros b' h [E|[E|[]]]; injection E as <- <-.
          -- apply homeD_functional. apply (tb_tiled A uplo nb n kd HP).
          -- apply homeB_functional; assumption.
      + rewrite !Forall_app. split; [|split].
        * apply (pzpb2desc_kdecl A uplo nb n kd HP); auto.
        * apply CD. assumption.
        * apply (pzdesc2pb_kdecl A uplo nb n kd HP); auto.
    - apply (ch_fail_chain _ None). apply ch_sure_none. apply CC.
    - intros M' st Est E0 HF. exists (krun (pzpb2desc p ld b A) M).
      split; [intros; apply (pzpb2desc_spec A uplo nb n kd HP); assumption|].
      split; [intros; apply (pzpb2desc_frame A uplo nb n kd HP); assumption|].
      split; [|split].
      + rewrite Est, gseq_codes, kcodes_app, first_code_app, kcodes_sure. cbn [Z.eqb].
        rewrite kcodes_app, first_code_app, map_sure, kcodes_sure.
        destruct (first_code (kcodes comp (krun (pzpb2desc p ld b A) M)) =? 0) eqn:E; [|reflexivity].
        apply Z.eqb_eq in E. congruence.
      + intros Z0 i j HM HI. specialize (E0 Z0). rewrite !map_app, !map_sure, !krun_app in E0.
        unfold bel at 1. rewrite E0. apply (pzdesc2pb_spec A uplo nb n kd HP); assumption.
      + intros l H1 H2. apply HF. intros k Hk W. rewrite !in_app_iff in Hk. destruct Hk as [Hk|[Hk|Hk]].
        * apply in_map_iff in Hk. destruct Hk as (x & <- & Hx). apply H1. eapply pzpb2desc_writes; eauto.
        * apply H1. eapply CW; eauto.
        * apply in_map_iff in Hk. destruct Hk as (x & <- & Hx). apply H2. eapply pzdesc2pb_writes; eauto.
  Qed.
End BandRegion.

(* ------------------------------------------------------------------ *)
(* the translations as regions of their own                              *)

Section BandTrans.
  Context {N : numbers}.

  Lemma tb_in_tile_band : forall A uplo nb n kd i j, pb_ok A uplo nb n kd -> in_tile_band A i j ->
    in_matrix n n i j /\ in_tb A (i / nb) (j / nb).
  Proof.
    intros A uplo nb n kd i j HP (Hi & Hj & HB). rewrite (pk_m _ _ _ _ _ HP) in Hi. rewrite (pk_n _ _ _ _ _ HP) in Hj.
    rewrite (pk_mb _ _ _ _ _ HP), (pk_nb _ _ _ _ _ HP) in HB. split; [split; assumption|]. split; [|assumption].
    destruct (row_tile A i (pk_shape _ _ _ _ _ HP)) as [R _]; [rewrite (pk_m _ _ _ _ _ HP); assumption|].
    destruct (col_tile A j (pk_shape _ _ _ _ _ HP)) as [C _]; [rewrite (pk_n _ _ _ _ _ HP); assumption|].
    rewrite (pk_mb _ _ _ _ _ HP) in R. rewrite (pk_nb _ _ _ _ _ HP) in C. split; assumption.
  Qed.

  Lemma band_env : forall A uplo nb n kd b p ld, pb_ok A uplo nb n kd -> kd < ld -> fst p <> b ->
    functional (home_env [(b, homeD A (in_tb A)); (fst p, homeB A uplo nb n kd p ld)]).
  Proof.
    intros A uplo nb n kd b p ld HP HL HB. apply home_env_functional.
    - cbn. constructor; [intros [E|[]]; congruence|]. constructor; [intros []|constructor].
    - intros b' h [E|[E|[]]]; injection E as <- <-.
      + apply homeD_functional. apply (tb_tiled A uplo nb n kd HP).
      + apply homeB_functional; assumption.
  Qed.

  Lemma pb_in_region : forall uplo nb n kd A size p ld b (M : mem N),
    valid_uplo uplo -> 0 <= kd -> pb_create uplo nb n kd = CrOk A size -> kd < ld -> fst p <> b ->
    region_ensures (pzpb2desc p ld b A) M (fun M' =>
      (forall i j, in_tile_band A i j ->
         (in_band uplo kd i j -> M' (b, band_elem_off A i j) = bel M uplo kd p ld i j) /\
         (~ in_band uplo kd i j -> M' (b, band_elem_off A i j) = n0)) /\
      (forall l, fst l <> b -> M' l = M l)).
  Proof.
    intros uplo nb n kd A size p ld b M Hu Hk E HL HB. pose proof (pb_create_pb _ _ _ _ _ _ Hk Hu E) as HP.
    apply region_intro.
    - apply (pzpb2desc_kgood A uplo nb n kd HP); assumption.
    - apply korders_klinked. eapply kdecl_korders; [apply (band_env A uplo nb n kd b p ld); assumption|].
      apply (pzpb2desc_kdecl A uplo nb n kd HP); try assumption; [left; reflexivity|]. left. right. left. reflexivity.
    - intros M' HM. split.
      + intros i j Hij. destruct (tb_in_tile_band _ _ _ _ _ _ _ HP Hij) as [H1 H2].
        pose proof (pzpb2desc_spec A uplo nb n kd HP b p ld HB M i j H1 H2) as S. unfold el in S.
        rewrite !HM, (tb_elem_off A uplo nb n kd HP), S. destruct (in_band_dec uplo kd i j); tauto.
      + intros l Hl. rewrite HM. apply (pzpb2desc_frame A uplo nb n kd HP); assumption.
  Qed.

  Lemma pb_out_region : forall uplo nb n kd A size p ld b (M : mem N),
    valid_uplo uplo -> 0 <= kd -> pb_create uplo nb n kd = CrOk A size -> kd < ld -> fst p <> b ->
    region_ensures (pzdesc2pb b A p ld) M (fun M' =>
      (forall i j, in_matrix n n i j -> in_band uplo kd i j ->
         bel M' uplo kd p ld i j = M (b, band_elem_off A i j)) /\
      (forall l, ~ in_user_band uplo kd p ld n l -> M' l = M l)).
  Proof.
    intros uplo nb n kd A size p ld b M Hu Hk E HL HB. pose proof (pb_create_pb _ _ _ _ _ _ Hk Hu E) as HP.
    apply region_intro.
    - apply (pzdesc2pb_kgood A uplo nb n kd HP); assumption.
    - apply korders_klinked. eapply kdecl_korders; [apply (band_env A uplo nb n kd b p ld); assumption|].
      apply (pzdesc2pb_kdecl A uplo nb n kd HP); try assumption; [left; reflexivity|]. right. left. reflexivity.
    - intros M' HM. split.
      + intros i j H1 H2. pose proof (pzdesc2pb_spec A uplo nb n kd HP b p ld HL HB M i j H1 H2) as S.
        unfold bel, el in *. rewrite HM, (tb_elem_off A uplo nb n kd HP), S. reflexivity.
      + intros l Hl. rewrite HM. apply (pzdesc2pb_frame A uplo nb n kd HP); assumption.
  Qed.

  Lemma pb_roundtrip : forall uplo nb n kd A size p ld b (M : mem N),
    valid_uplo uplo -> 0 <= kd -> pb_create uplo nb n kd = CrOk A size -> kd < ld -> fst p <> b ->
    region_ensures (pzpb2desc p ld b A ++ pzdesc2pb b A p ld) M (fun M' => forall l, fst l <> b -> M' l = M l).
  Proof.
    intros uplo nb n kd A size p ld b M Hu Hk E HL HB. pose proof (pb_create_pb _ _ _ _ _ _ Hk Hu E) as HP.
    apply region_intro.
    - apply Forall_app. split; [apply (pzpb2desc_kgood A uplo nb n kd HP)|apply (pzdesc2pb_kgood A uplo nb n kd HP)]; assumption.
    - apply korders_klinked. eapply kdecl_korders; [apply (band_env A uplo nb n kd b p ld); assumption|].
      apply Forall_app. split.
      + apply (pzpb2desc_kdecl A uplo nb n kd HP); try assumption; [left; reflexivity|]. left. right. left. reflexivity.
      + apply (pzdesc2pb_kdecl A uplo nb n kd HP); try assumption; [left; reflexivity|]. right. left. reflexivity.
    - intros M' HM l Hl. rewrite HM, krun_app.
      destruct (in_user_band_dec uplo kd p ld n l HL Hk) as [HI|HI].
      + destruct HI as (i & j & H1 & H2 & ->).
        pose proof (pzdesc2pb_spec A uplo nb n kd HP b p ld HL HB (krun (pzpb2desc p ld b A) M) i j H1 H2) as S.
        unfold bel in S. rewrite S. rewrite (pzpb2desc_spec A uplo nb n kd HP) by (first [assumption|apply (band_tb A uplo nb n kd HP); assumption]).
        destruct (in_band_dec uplo kd i j); [reflexivity|contradiction].
      + rewrite (pzdesc2pb_frame A uplo nb n kd HP) by assumption. apply (pzpb2desc_frame A uplo nb n kd HP); assumption.
  Qed.
End BandTrans.
