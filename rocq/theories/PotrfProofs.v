(* plasma_pzpotrf on the lower view of the matrix: for PlasmaUpper the element (i,j) of the
   view is the conjugate of the stored element (j,i). *)
From Coq Require Import ZArith List Bool Lia Ring.
From Verif Require Import Base NumModel NumProofs FieldModel TaskModel TaskSpec TaskProofs DescModel DescSpec
  DescDriverModel DescProofs DescPackProofs DescProofs3 DescProofs4 MatModel MatSpec MatProofs RegionProofs
  GuardModel GuardSpec GuardProofs GuardProofs2
  LayoutModel LayoutProofs LayoutProofs2 DriverModel DriverSpec OpProofs SimProofs OperandProofs
  GemmModel GemmProofs GemmDriverProofs RankModel RankProofs RankDriverProofs LasetModel LasetProofs
  TriModel TriSpec TriVecProofs TriProofs TrmmProofs PotrfModel CholProofs.
Import ListNotations.
Open Scope Z_scope.

Lemma map_flat_map : forall A B C (g : B -> C) (f : A -> list B) l,
  map g (flat_map f l) = flat_map (fun x => map g (f x)) l.
Proof. intros. induction l as [|x l IH]; cbn; [reflexivity|]. rewrite map_app, IH. reflexivity. Qed.

Section Lo.
  Context {F : fields}.
  Add Ring num_ring_lo : (nring F).
  Variables (nb n : Z) (A : desc) (bA uplo : Z).
  Hypothesis Hu : valid_uplo uplo.
  Hypothesis HT : tri_ok A (uplo =? PlasmaUpper) nb n.
  Let HQ : sq nb A (in_tri A) := tri_sq _ _ _ _ HT.
  Let Hb : 0 < nb := sq_pos nb A _ HQ.
  Let Hn : 0 <= n.
  Proof. rewrite <- (tk_m _ _ _ _ HT). apply (go_m A (tk_shape _ _ _ _ HT)). Qed.
  Let nt := ntl nb n.
  Let DM : d_m A = n := tk_m _ _ _ _ HT.
  Let DN : d_n A = n := tk_n _ _ _ _ HT.

  Definition low : bool := uplo =? PlasmaLower.
  Lemma up_low : (uplo =? PlasmaUpper) = negb low.
  Proof. unfold low. destruct Hu as [->| ->]; reflexivity. Qed.

  (* tile (m,k) of the view, and element (a,c) of a tile *)
  Definition tm (m k : Z) : Z := if low then m else k.
  Definition tn (m k : Z) : Z := if low then k else m.
  Definition tp (m k : Z) : loc := tptr bA A (tm m k) (tn m k).
  Definition tld (m k : Z) : Z := tile_mmain A (tm m k).

  Lemma tp_S : forall m k, 0 <= k <= m -> m < nt -> in_tri A (tm m k) (tn m k).
  Proof.
    intros m k Hk Hm. apply (tri_tiles uplo nb n A Hu HT).
    - rewrite DN. fold nt. unfold tm. destruct low; lia.
    - rewrite DN. fold nt. unfold tn. destruct low; lia.
    - unfold uplo_sel, tm, tn. rewrite up_low. fold low. destruct low; cbn; apply Z.leb_le; lia.
  Qed.
  Lemma tp_mv : forall m k, 0 <= k <= m -> m < nt -> tile_mview A (tm m k) = tsz nb n (tm m k).
  Proof. intros m k Hk Hm. rewrite (sq_mv nb A _ HQ _ _ (tp_S m k Hk Hm)), DM. reflexivity. Qed.
  Lemma tp_nv : forall m k, 0 <= k <= m -> m < nt -> tile_nview A (tn m k) = tsz nb n (tn m k).
  Proof. intros m k Hk Hm. rewrite (sq_nv nb A _ HQ _ _ (tp_S m k Hk Hm)), DN. reflexivity. Qed.
  Lemma tp_ld : forall m k, 0 <= k <= m -> m < nt -> tsz nb n (tm m k) <= tld m k.
  Proof. intros m k Hk Hm. unfold tld. rewrite <- DM. apply (sq_ld nb A _ HQ _ _ (tp_S m k Hk Hm)). Qed.
  Lemma mv_eq : forall k, 0 <= k < nt -> tile_mview A k = tsz nb n k.
  Proof. intros k Hk. pose proof (tp_mv k k ltac:(lia) ltac:(lia)) as H. unfold tm in H. destruct low; assumption. Qed.
  Lemma nv_eq : forall k, 0 <= k < nt -> tile_nview A k = tsz nb n k.
  Proof. intros k Hk. pose proof (tp_nv k k ltac:(lia) ltac:(lia)) as H. unfold tn in H. destruct low; assumption. Qed.
  Lemma tsz_full : forall k m, 0 <= k < m -> m < nt -> tsz nb n k = nb.
  Proof. intros k m Hk Hm. apply ntl_spec in Hm; auto; [|lia]. unfold tsz. nia. Qed.
  Lemma tsz_pos : forall k, 0 <= k < nt -> 0 < tsz nb n k <= nb.
  Proof. intros k [H1 H2]. apply ntl_spec in H2; auto. unfold tsz. lia. Qed.

  Definition stored (i j : Z) : Prop := 0 <= i < n /\ 0 <= j < n /\ j / nb <= i / nb.
  Definition VV (M : mem F) (i j : Z) : F := if low then el M bA A i j else nconj (el M bA A j i).

  Variable M0 : mem F.
  Definition rel (X : Z -> Z -> F) (M : mem F) : Prop :=
    (forall l, fst l <> bA -> M l = M0 l) /\ forall i j, stored i j -> VV M i j = X i j.

  Lemma rel_ext : forall X X' M, (forall i j, stored i j -> X i j = X' i j) -> rel X M -> rel X' M.
  Proof. intros X X' M H [R1 R2]. split; [assumption|]. intros i j Hij. rewrite <- H by assumption. auto. Qed.

  Lemma pos_el : forall m a, 0 <= m < nt -> 0 <= a < tsz nb n m ->
    0 <= m * nb + a < n /\ (m * nb + a) / nb = m /\ (m * nb + a) mod nb = a.
  Proof. intros m a Hm Ha. apply (tile_pos nb A _ HQ); lia. Qed.

  Lemma el_pos : forall i, 0 <= i < n -> 0 <= i / nb < nt /\ 0 <= i mod nb < tsz nb n (i / nb) /\ i = i / nb * nb + i mod nb.
  Proof.
    intros i Hi. destruct (pos_tile nb A _ HQ i n Hi) as (P1 & P2 & P3). split; [|auto].
    split; [assumption|]. apply ntl_spec; auto. unfold tsz in P2. lia.
  Qed.

  Lemma rel_rd : forall X M m k a c, rel X M -> 0 <= k <= m -> m < nt ->
    0 <= a < tsz nb n m -> 0 <= c < tsz nb n k ->
    low_rd M uplo (tp m k) (tld m k) a c = X (m * nb + a) (k * nb + c).
  Proof.
    intros X M m k a c [_ R2] Hk Hm Ha Hc. pose proof (tp_S m k Hk Hm) as TS.
    destruct (pos_el m a ltac:(lia) Ha) as (P1 & P2 & P3). destruct (pos_el k c ltac:(lia) Hc) as (Q1 & Q2 & Q3).
    rewrite <- R2; [|split; [assumption|split; [assumption|]]; rewrite P2, Q2; lia].
    unfold low_rd, VV, tp, tld, tm, tn in *. fold low. destruct low.
    - apply (sq_rd nb A _ HQ); [assumption|rewrite DM; assumption|rewrite DN; assumption].
    - apply f_equal. apply (sq_rd nb A _ HQ); [assumption|rewrite DM; assumption|rewrite DN; assumption].
  Qed.

  (* writing a part of tile (m,k) *)
  Lemma rel_set : forall X X' M m k P P' f, rel X M -> 0 <= k <= m -> m < nt ->
    (forall a c, P (tm a c) (tn a c) = P' a c) ->
    (forall a c, 0 <= a < tsz nb n m -> 0 <= c < tsz nb n k -> P' a c = true ->
       (if low then f a c else nconj (f c a)) = X' (m * nb + a) (k * nb + c)) ->
    (forall i j, stored i j -> ~ (i / nb = m /\ j / nb = k /\ P' (i mod nb) (j mod nb) = true) -> X' i j = X i j) ->
    rel X' (mset (tp m k) (tld m k) (tsz nb n (tm m k)) (tsz nb n (tn m k)) P f M).
  Proof.
    intros X X' M m k P P' f [R1 R2] Hk Hm HP H1 H2. pose proof (tp_S m k Hk Hm) as TS.
    assert (E1 : mset (tp m k) (tld m k) (tsz nb n (tm m k)) (tsz nb n (tn m k)) P f M
      = mset (tptr bA A (tm m k) (tn m k)) (tile_mmain A (tm m k)) (tile_mview A (tm m k)) (tile_nview A (tn m k)) P f M).
    { rewrite tp_mv, tp_nv by assumption. reflexivity. }
    split.
    - intros l Hl. rewrite <- R1 by assumption. apply mset_out. intros RG. apply reg_block in RG. cbn in RG. congruence.
    - intros i j Hij. pose proof Hij as (Hi & Hj & HS).
      assert (TS' : in_tri A (tm (i / nb) (j / nb)) (tn (i / nb) (j / nb))).
      { apply tp_S; [|apply (el_pos i Hi)]. split; [apply Z.div_pos; lia|assumption]. }
      assert (VE : VV (mset (tp m k) (tld m k) (tsz nb n (tm m k)) (tsz nb n (tn m k)) P f M) i j
        = if (i / nb =? m) && (j / nb =? k) && P' (i mod nb) (j mod nb)
          then (if low then f (i mod nb) (j mod nb) else nconj (f (j mod nb) (i mod nb))) else VV M i j).
      { rewrite E1. rewrite <- HP. unfold VV, tm, tn in *. destruct low.
        - rewrite (sq_set nb A _ HQ); auto; rewrite ?DM, ?DN; auto.
        - rewrite (sq_set nb A _ HQ); auto; rewrite ?DM, ?DN; auto. rewrite (andb_comm (j / nb =? k)).
          destruct ((i / nb =? m) && (j / nb =? k) && P (j mod nb) (i mod nb)); reflexivity. }
      rewrite VE. destruct ((i / nb =? m) && (j / nb =? k) && P' (i mod nb) (j mod nb)) eqn:E.
      + rewrite !andb_true_iff, !Z.eqb_eq in E. destruct E as [[E2 E3] E4].
        destruct (el_pos i Hi) as (_ & A1 & A2). destruct (el_pos j Hj) as (_ & B1 & B2). rewrite E2 in A1, A2. rewrite E3 in B1, B2.
        rewrite H1 by assumption. rewrite <- A2, <- B2. reflexivity.
      + rewrite R2 by assumption. symmetry. apply H2; [assumption|]. intros (E2 & E3 & E4).
        rewrite E2, E3, E4, !Z.eqb_refl in E. discriminate.
  Qed.

  Lemma sel_view : forall a c, uplo_sel uplo (tm a c) (tn a c) = (c <=? a).
  Proof. intros a c. unfold uplo_sel, tm, tn. rewrite up_low. fold low. destruct low; reflexivity. Qed.

  Lemma tp_diag : forall k, tp k k = tptr bA A k k.
  Proof. intros k. unfold tp, tm, tn. destruct low; reflexivity. Qed.
  Lemma tld_diag : forall k, tld k k = tile_mmain A k.
  Proof. intros k. unfold tld, tm. destruct low; reflexivity. Qed.
  Lemma tm_diag : forall k, tm k k = k.
  Proof. intros k. unfold tm. destruct low; reflexivity. Qed.
  Lemma tn_diag : forall k, tn k k = k.
  Proof. intros k. unfold tn. destruct low; reflexivity. Qed.

  (* ---- the tasks ---- *)
  Variable R : roots F.
  Variable rp : F -> F.

  Definition ptask (k : Z) : cktask F :=
    omp_zpotrf R rp uplo (tsz nb n k) (tp k k) (tld k k) (nb * k).
  Definition stask (k m : Z) : ktask F :=
    omp_ztrsm (if low then PlasmaRight else PlasmaLeft) uplo PlasmaConjTrans PlasmaNonUnit
      (tsz nb n (tm m k)) (tsz nb n (tn m k)) n1 (tp k k) (tld k k) (tp m k) (tld m k).
  Definition htask (k m : Z) : ktask F :=
    omp_rank_k rp PlasmaConjTrans uplo (if low then PlasmaNoTrans else PlasmaConjTrans)
      (tsz nb n m) (tsz nb n k) (nopp n1) (tp m k) (tld m k) n1 (tp m m) (tld m m).
  Definition utask (k m j : Z) : ktask F :=
    omp_zgemm (if low then PlasmaNoTrans else PlasmaConjTrans) (if low then PlasmaConjTrans else PlasmaNoTrans)
      (tsz nb n (tm m j)) (tsz nb n (tn m j)) (tsz nb n k) (nopp n1)
      (tp (tm m j) k) (tld (tm m j) k) (tp (tn m j) k) (tld (tn m j) k) n1 (tp m j) (tld m j).
  Definition prest (k : Z) : list (ktask F) :=
    map (stask k) (zrange (k + 1) nt)
    ++ flat_map (fun m => htask k m :: map (utask k m) (zrange (k + 1) m)) (zrange (k + 1) nt).

  Lemma pzpotrf_eq : pzpotrf R rp uplo bA A
    = flat_map (fun k => ptask k :: map sure (prest k)) (zrange 0 nt).
  Proof.
    assert (MT : d_mt A = nt) by (unfold nt; rewrite <- DM; apply (mt_aligned_ntl nb A (tk_shape _ _ _ _ HT) (tk_mb _ _ _ _ HT))).
    assert (NT : d_nt A = nt) by (unfold nt; rewrite <- DN; apply (nt_aligned_ntl nb A (tk_shape _ _ _ _ HT) (tk_nb _ _ _ _ HT))).
    unfold pzpotrf. rewrite MT, NT, (tk_mb _ _ _ _ HT), (tk_nb _ _ _ _ HT).
    assert (EU : uplo = if low then PlasmaLower else PlasmaUpper) by (unfold low; destruct Hu as [->| ->]; reflexivity).
    fold low. unfold ptask, prest, stask, htask, utask, tp, tld, tm, tn.
    destruct low; rewrite EU; apply flat_map_ext_in; intros k Hk; apply in_zrange in Hk.
    - rewrite mv_eq by lia. apply f_equal2; [reflexivity|]. rewrite map_app. apply f_equal2.
      + rewrite map_map. apply map_ext_in. intros m Hm. apply in_zrange in Hm.
        rewrite mv_eq by lia. rewrite (tsz_full k m) by lia. reflexivity.
      + rewrite map_flat_map. apply flat_map_ext_in. intros m Hm. apply in_zrange in Hm.
        rewrite mv_eq by lia. rewrite (tsz_full k m) by lia. cbn [map]. apply f_equal2; [reflexivity|].
        rewrite map_map. apply map_ext_in. intros j Hj. apply in_zrange in Hj.
        rewrite (tsz_full j m) by lia. reflexivity.
    - rewrite nv_eq by lia. apply f_equal2; [reflexivity|]. rewrite map_app. apply f_equal2.
      + rewrite map_map. apply map_ext_in. intros m Hm. apply in_zrange in Hm.
        rewrite nv_eq by lia. rewrite (tsz_full k m) by lia. reflexivity.
      + rewrite map_flat_map. apply flat_map_ext_in. intros m Hm. apply in_zrange in Hm.
        rewrite nv_eq by lia. rewrite (tsz_full k m) by lia. cbn [map]. apply f_equal2; [reflexivity|].
        rewrite map_map. apply map_ext_in. intros j Hj. apply in_zrange in Hj.
        rewrite (tsz_full j m) by lia. reflexivity.
  Qed.

  Lemma low_rd_local : forall (M M' : mem F) s i j p ld, 0 <= j <= i -> i < s ->
    (forall x, reg p ld s s (uplo_sel uplo) x -> M x = M' x) ->
    low_rd M uplo p ld i j = low_rd M' uplo p ld i j.
  Proof.
    intros M M' s i j p ld Hj Hi H. unfold low_rd. fold low.
    assert (SV := sel_view i j). unfold tm, tn in SV.
    assert (LE : (j <=? i) = true) by (apply Z.leb_le; lia). rewrite LE in SV.
    destruct low.
    - apply H. exists i, j. repeat split; auto; lia.
    - apply f_equal. apply H. exists j, i. repeat split; auto; lia.
  Qed.

  Lemma ptask_kgood : forall k, 0 <= k < nt -> kgood (ck_task (ptask k)).
  Proof.
    intros k Hk. unfold ptask, omp_zpotrf. cbn [ck_task]. apply mset_kgood.
    - pose proof (tp_ld k k ltac:(lia) ltac:(lia)) as H. rewrite tm_diag in H. assumption.
    - apply finite_reg.
    - intros M M' i j Hi Hj HP HX. cbv zeta.
      destruct (potf2_ext R rp (tsz nb n k) (low_rd M uplo (tp k k) (tld k k)) (low_rd M' uplo (tp k k) (tld k k))) as [U _].
      + lia.
      + intros a c Hc Ha. eapply low_rd_local; eauto.
      + assert (LE : if low then j <= i else i <= j).
        { assert (SV := sel_view (if low then i else j) (if low then j else i)). unfold tm, tn in SV.
          destruct low; rewrite HP in SV; symmetry in SV; apply Z.leb_le in SV; assumption. }
        fold low. destruct low; [|apply f_equal]; apply U; lia.
  Qed.

  Lemma ptask_sound : forall k, cksound (ptask k).
  Proof.
    intros k. split; [|discriminate]. intros M M' H. cbn in *. unfold core_zpotrf_info.
    destruct (Z_lt_le_dec (tsz nb n k) 0) as [L|L].
    - unfold potf2. rewrite !zrange_nil by lia. reflexivity.
    - destruct (potf2_ext R rp (tsz nb n k) (low_rd M uplo (tp k k) (tld k k)) (low_rd M' uplo (tp k k) (tld k k))) as [_ U].
      + lia.
      + intros a c Hc Ha. eapply low_rd_local; eauto.
      + rewrite U. reflexivity.
  Qed.

  Lemma stask_kgood : forall k m, 0 <= k < m -> m < nt -> kgood (stask k m).
  Proof. intros k m Hk Hm. apply omp_ztrsm_kgood. apply tp_ld; lia. Qed.
  Lemma htask_kgood : forall k m, 0 <= k < m -> m < nt -> kgood (htask k m).
  Proof.
    intros k m Hk Hm. apply omp_rank_k_kgood; [discriminate|].
    pose proof (tp_ld m m ltac:(lia) ltac:(lia)) as H. rewrite tm_diag in H. assumption.
  Qed.
  Lemma utask_kgood : forall k m j, 0 <= k < m -> m < nt -> k < j < m -> kgood (utask k m j).
  Proof. intros k m j Hk Hm Hj. apply omp_zgemm_kgood. apply tp_ld; lia. Qed.

  Lemma prest_all : forall (P : ktask F -> Prop) k, 0 <= k < nt ->
    (forall m, k < m < nt -> P (stask k m)) -> (forall m, k < m < nt -> P (htask k m)) ->
    (forall m j, k < j < m -> m < nt -> P (utask k m j)) -> Forall P (prest k).
  Proof.
    intros P k Hk H1 H2 H3. unfold prest. apply Forall_app. split.
    - apply Forall_forall. intros x Hx. apply in_map_iff in Hx. destruct Hx as (m & <- & Hm).
      apply in_zrange in Hm. apply H1. lia.
    - apply Forall_flat_map_intro. intros m Hm. apply in_zrange in Hm. constructor; [apply H2; lia|].
      apply Forall_forall. intros x Hx. apply in_map_iff in Hx. destruct Hx as (j & <- & Hj).
      apply in_zrange in Hj. apply H3; lia.
  Qed.

  Definition plist : list (cktask F) := flat_map (fun k => ptask k :: map sure (prest k)) (zrange 0 nt).

  Lemma plist_all : forall (P : cktask F -> Prop),
    (forall k, 0 <= k < nt -> P (ptask k)) ->
    (forall k m, 0 <= k < m -> m < nt -> P (sure (stask k m))) ->
    (forall k m, 0 <= k < m -> m < nt -> P (sure (htask k m))) ->
    (forall k m j, 0 <= k < j -> j < m -> m < nt -> P (sure (utask k m j))) -> Forall P plist.
  Proof.
    intros P H0 H1 H2 H3. unfold plist. apply Forall_flat_map_intro. intros k Hk. apply in_zrange in Hk.
    constructor; [apply H0; lia|]. apply Forall_forall. intros x Hx. apply in_map_iff in Hx.
    destruct Hx as (y & <- & Hy). revert y Hy. apply Forall_forall.
    apply (prest_all (fun y => P (sure y))); intros; [assumption|apply H1|apply H2|apply H3]; lia.
  Qed.

  Lemma plist_kgood : Forall kgood (map ck_task plist).
  Proof.
    apply Forall_forall. intros x Hx. apply in_map_iff in Hx. destruct Hx as (y & <- & Hy). revert y Hy.
    apply Forall_forall. apply (plist_all (fun y => kgood (ck_task y))); intros; cbn [sure ck_task].
    - apply ptask_kgood; assumption.
    - apply stask_kgood; assumption.
    - apply htask_kgood; assumption.
    - apply utask_kgood; lia.
  Qed.

  Lemma plist_sound : Forall cksound plist.
  Proof. apply plist_all; intros; [apply ptask_sound| | |]; split; auto. Qed.

  Lemma tp_block : forall m k, fst (tp m k) = bA.
  Proof. reflexivity. Qed.

  Lemma plist_writes : forall k l, In k plist -> k_writes (ck_task k) l -> fst l = bA.
  Proof.
    intros k l Hk. revert k Hk.
    apply (proj1 (Forall_forall (fun k => k_writes (ck_task k) l -> fst l = bA) plist)).
    apply plist_all; intros; cbn in *;
      match goal with H : reg _ _ _ _ _ _ |- _ => apply reg_block in H; exact H end.
  Qed.

  Section Decl.
    Variable env : list (Z * (Z -> Z -> Prop)).
    Hypothesis EA : In (bA, homeD A (in_tri A)) env.

    Lemma tp_home : forall m k mm kk P l, 0 <= k <= m -> m < nt ->
      mm <= tsz nb n (tm m k) -> kk <= tsz nb n (tn m k) ->
      reg (tp m k) (tld m k) mm kk P l -> home_env env l (tp m k).
    Proof.
      intros m k mm kk P l Hk Hm H1 H2 HR. eapply home_tile with (P := P); eauto.
      - apply tp_S; eassumption.
      - rewrite tp_mv, tp_nv by assumption. eapply reg_sub; [exact H1|exact H2| |exact HR]. auto.
    Qed.

    Lemma plist_kdecl : Forall (kdecl (home_env env)) (map ck_task plist).
    Proof.
      apply Forall_forall. intros x Hx. apply in_map_iff in Hx. destruct Hx as (y & <- & Hy). revert y Hy.
      apply Forall_forall. apply (plist_all (fun y => kdecl (home_env env) (ck_task y))); cbn [sure ck_task].
      - intros k Hk. assert (HH : forall l, reg (tp k k) (tld k k) (tsz nb n k) (tsz nb n k) (uplo_sel uplo) l -> home_env env l (tp k k)).
        { intros l. apply tp_home; rewrite ?tm_diag, ?tn_diag; lia. }
        apply kdecl_intro; cbn; intros l HR.
        + left. eexists. split; [left; reflexivity|]. cbn. auto.
        + eexists. split; [left; reflexivity|]. split; [|discriminate]. cbn. auto.
      - intros k m Hk Hm. apply kdecl_intro; cbn; intros l HR.
        + left. destruct HR as [HR|HR].
          * eexists. split; [left; reflexivity|]. cbn. eapply tp_home; [| | | |exact HR]; rewrite ?tm_diag, ?tn_diag; try lia;
              unfold tm, tn; destruct low; cbn; try lia.
          * eexists. split; [right; left; reflexivity|]. cbn. eapply tp_home; [| | | |exact HR]; lia.
        + eexists. split; [right; left; reflexivity|]. split; [|discriminate]. cbn. eapply tp_home; [| | | |exact HR]; lia.
      - intros k m Hk Hm. apply kdecl_intro; cbn; intros l HR.
        + left. destruct HR as [HR|HR].
          * eexists. split; [left; reflexivity|]. cbn. unfold op_reg in HR.
            assert (E : (if low then PlasmaNoTrans else PlasmaConjTrans) =? PlasmaNoTrans = low) by (destruct low; reflexivity).
            rewrite E in HR. unfold tp in *. destruct (Sumbool.sumbool_of_bool low) as [L|L]; rewrite L in HR.
            -- eapply tp_home; [| | | |exact HR]; try lia; unfold tm, tn; rewrite L; lia.
            -- eapply tp_home; [| | | |exact HR]; try lia; unfold tm, tn; rewrite L; lia.
          * eexists. split; [right; left; reflexivity|]. cbn. eapply tp_home; [| | | |exact HR]; rewrite ?tm_diag, ?tn_diag; lia.
        + eexists. split; [right; left; reflexivity|]. split; [|discriminate]. cbn.
          eapply tp_home; [| | | |exact HR]; rewrite ?tm_diag, ?tn_diag; lia.
      - intros k m j Hk Hj Hm. 
        assert (E : (if low then PlasmaNoTrans else PlasmaConjTrans) =? PlasmaNoTrans = low) by (destruct low; reflexivity).
        assert (E' : (if low then PlasmaConjTrans else PlasmaNoTrans) =? PlasmaNoTrans = negb low) by (destruct low; reflexivity).
        apply kdecl_intro; cbn; intros l HR.
        + left. destruct HR as [HR|[HR|HR]].
          * eexists. split; [left; reflexivity|]. cbn. unfold op_reg in HR. rewrite E in HR.
            destruct (Sumbool.sumbool_of_bool low) as [L|L]; rewrite L in HR;
              (eapply tp_home; [| | | |exact HR]; unfold tm, tn; rewrite L; lia).
          * eexists. split; [right; left; reflexivity|]. cbn. unfold op_reg in HR. rewrite E' in HR.
            destruct (Sumbool.sumbool_of_bool low) as [L|L]; rewrite L in HR; cbn [negb] in HR;
              (eapply tp_home; [| | | |exact HR]; unfold tm, tn; rewrite L; lia).
          * eexists. split; [right; right; left; reflexivity|]. cbn. eapply tp_home; [| | | |exact HR]; lia.
        + eexists. split; [right; right; left; reflexivity|]. split; [|discriminate]. cbn.
          eapply tp_home; [| | | |exact HR]; lia.
    Qed.
  End Decl.

  (* the factorizations of the diagonal tiles wait for each other *)
  Lemma plist_chain : forall tail : list (ktask F), ch None (plist ++ map sure tail).
  Proof.
    intros tail. apply ch_blocks; auto.
    - intros prev. apply ch_sure_end.
    - intros k Hk Hk1. cbn [ptask omp_zpotrf ck_task]. unfold prest. rewrite zrange_cons by lia. cbn [map flat_map].
      remember (map (stask k) (zrange (k + 1 + 1) nt)) as ts eqn:Ets.
      match goal with |- linked _ ((?s :: ts) ++ (?h :: ?us) ++ ?rest) _ =>
        change (linked (ck_task (ptask k)) ([] ++ s :: (ts ++ h :: (us ++ rest))) (ck_task (ptask (k + 1)))) end.
      apply ln_trans; [|apply ln_trans]; apply ln_direct.
      + exists (dep_inout (tp k k)), (dep_in (tp k k)). cbn. repeat split; auto. intros [H _]; discriminate.
      + exists (dep_inout (tp (k + 1) k)), (dep_in (tp (k + 1) k)). cbn. repeat split; auto. intros [H _]; discriminate.
      + exists (dep_inout (tp (k + 1) (k + 1))), (dep_inout (tp (k + 1) (k + 1))). cbn. repeat split; auto. intros [H _]; discriminate.
  Qed.

  (* ---- what the tasks do to the view ---- *)
  Lemma op1_view : forall (M : mem F) p ld a l,
    op_rd M (if low then PlasmaNoTrans else PlasmaConjTrans) p ld a l = low_rd M uplo p ld a l.
  Proof. intros. unfold low_rd. fold low. destruct low; reflexivity. Qed.
  Lemma op2_view : forall (M : mem F) p ld l j,
    op_rd M (if low then PlasmaConjTrans else PlasmaNoTrans) p ld l j = nconj (low_rd M uplo p ld j l).
  Proof. intros. unfold low_rd. fold low. destruct low; cbn; [reflexivity|]. rewrite nconj_conj. reflexivity. Qed.
  Lemma rd_view : forall (M : mem F) p ld a c,
    rd M p ld a c = if low then low_rd M uplo p ld a c else nconj (low_rd M uplo p ld c a).
  Proof. intros. unfold low_rd. fold low. destruct low; [reflexivity|]. rewrite nconj_conj. reflexivity. Qed.

  Lemma ptask_step : forall X X' M k, rel X M -> 0 <= k < nt ->
    (forall a c, 0 <= c <= a -> a < tsz nb n k ->
       fst (potf2 R rp (tsz nb n k) (fun a c => X (k * nb + a) (k * nb + c))) a c = X' (k * nb + a) (k * nb + c)) ->
    (forall i j, stored i j -> ~ (i / nb = k /\ j / nb = k /\ j <= i) -> X' i j = X i j) ->
    rel X' (k_fun (ck_task (ptask k)) M) /\
    ck_info (ptask k) M = (let s := snd (potf2 R rp (tsz nb n k) (fun a c => X (k * nb + a) (k * nb + c))) in
                           if s =? 0 then 0 else k * nb + s).
  Proof.
    intros X X' M k HR Hk H1 H2.
    destruct (potf2_ext R rp (tsz nb n k) (low_rd M uplo (tp k k) (tld k k))
      (fun a c => X (k * nb + a) (k * nb + c))) as [U1 U2].
    { pose proof (tsz_pos k Hk). lia. }
    { intros i j Hj Hi. apply rel_rd; auto; lia. }
    split.
    - cbn [ptask omp_zpotrf ck_task k_fun]. unfold core_zpotrf.
      assert (G : forall f, (forall a c, 0 <= c <= a -> a < tsz nb n k ->
          (if low then f a c else nconj (f c a)) = X' (k * nb + a) (k * nb + c)) ->
          rel X' (mset (tp k k) (tld k k) (tsz nb n k) (tsz nb n k) (uplo_sel uplo) f M)).
      { intros f HF. pose proof (rel_set X X' M k k (uplo_sel uplo) (fun a c => c <=? a) f HR) as G.
        rewrite tm_diag, tn_diag in G. apply G; try lia.
        - intros a c. apply sel_view.
        - intros a c Ha Hc HP. apply Z.leb_le in HP. apply HF; lia.
        - intros i j Hij HN. apply H2; [assumption|]. intros (E1 & E2 & E3). apply HN. repeat split; auto.
          apply Z.leb_le. destruct Hij as (Hi & Hj & _).
          destruct (el_pos i Hi) as (_ & _ & A2). destruct (el_pos j Hj) as (_ & _ & B2). rewrite E1 in A2. rewrite E2 in B2. lia. }
      apply G. intros a c Hc Ha. rewrite <- H1, <- U1 by lia. cbv zeta. fold low. destruct low; [reflexivity|].
      rewrite nconj_conj. reflexivity.
    - cbn [ptask omp_zpotrf ck_info]. unfold core_zpotrf_info. cbv zeta. rewrite U2.
      rewrite (Z.mul_comm nb k). reflexivity.
  Qed.

  Lemma htask_step : forall X X' M k m, rel X M -> 0 <= k < m -> m < nt ->
    (forall x, nconj x = x -> rp x = x) ->
    (forall a c, 0 <= c <= a -> a < tsz nb n m ->
       X' (m * nb + a) (m * nb + c) = nsub (X (m * nb + a) (m * nb + c))
         (nsum (fun l => nmul (X (m * nb + a) (k * nb + l)) (nconj (X (m * nb + c) (k * nb + l)))) 0 nb)) ->
    (forall a, 0 <= a < tsz nb n m -> nconj (X' (m * nb + a) (m * nb + a)) = X' (m * nb + a) (m * nb + a)) ->
    (forall i j, stored i j -> ~ (i / nb = m /\ j / nb = m /\ j <= i) -> X' i j = X i j) ->
    rel X' (k_fun (htask k m) M).
  Proof.
    intros X X' M k m HR Hk Hm Hrp H1 H3 H2. cbn [htask omp_rank_k k_fun]. unfold core_rank_k.
    pose proof (rel_set X X' M m m (uplo_sel uplo) (fun a c => c <=? a)) as G.
    rewrite tm_diag, tn_diag in G. apply G; auto; try lia; clear G.
    - intros a c. apply sel_view.
    - intros a c Ha Hc HP. apply Z.leb_le in HP. rewrite (tsz_full k m) by lia.
      assert (T2 : rank_t2 PlasmaConjTrans (if low then PlasmaNoTrans else PlasmaConjTrans)
                   = if low then PlasmaConjTrans else PlasmaNoTrans) by (destruct low; reflexivity).
      rewrite T2.
      assert (V : forall i j, 0 <= i < tsz nb n m -> 0 <= j < tsz nb n m -> 
        nadd (nmul (nopp n1) (nsum (fun l => nmul (op_rd M (if low then PlasmaNoTrans else PlasmaConjTrans) (tp m k) (tld m k) i l)
            (op_rd M (if low then PlasmaConjTrans else PlasmaNoTrans) (tp m k) (tld m k) l j)) 0 nb))
          (nmul n1 (rd M (tp m m) (tld m m) i j))
        = nsub (if low then X (m * nb + i) (m * nb + j) else nconj (X (m * nb + j) (m * nb + i)))
          (nsum (fun l => nmul (X (m * nb + i) (k * nb + l)) (nconj (X (m * nb + j) (k * nb + l)))) 0 nb)).
      { intros i j Hi Hj.
        rewrite (nsum_ext F _ (fun l => nmul (X (m * nb + i) (k * nb + l)) (nconj (X (m * nb + j) (k * nb + l))))).
        2:{ intros l Hl. rewrite op1_view, op2_view. rewrite !(rel_rd X) by (auto; rewrite ?(tsz_full k m) by lia; lia). reflexivity. }
        rewrite rd_view. rewrite !(rel_rd X) by (auto; lia). destruct low; ring. }
      destruct (Sumbool.sumbool_of_bool low) as [L|L]; rewrite !L.
      + rewrite L in V. rewrite V by lia. rewrite <- H1 by lia. destruct (a =? c) eqn:E; [|reflexivity].
        apply Z.eqb_eq in E. subst c. apply Hrp. apply H3. assumption.
      + rewrite L in V. rewrite V by lia.
        assert (V2 : nconj (nsub (nconj (X (m * nb + a) (m * nb + c)))
          (nsum (fun l => nmul (X (m * nb + c) (k * nb + l)) (nconj (X (m * nb + a) (k * nb + l)))) 0 nb))
          = X' (m * nb + a) (m * nb + c)).
        { rewrite H1 by lia. rewrite nconj_sub, nconj_conj, nconj_sum. f_equal. apply nsum_ext. intros l _.
          rewrite nconj_mul, nconj_conj. ring. }
        destruct (c =? a) eqn:E; [|exact V2].
        apply Z.eqb_eq in E. subst c. rewrite Hrp; [exact V2|].
        pose proof (H3 a Ha) as H4. rewrite <- V2 in H4. rewrite !nconj_conj in H4. symmetry. exact H4.
    - intros i j Hij HN. apply H2; [assumption|]. intros (E1 & E2 & E3). apply HN. repeat split; auto.
      apply Z.leb_le. destruct Hij as (Hi & Hj & _).
      destruct (el_pos i Hi) as (_ & _ & A2). destruct (el_pos j Hj) as (_ & _ & B2). rewrite E1 in A2. rewrite E2 in B2. lia.
  Qed.

  Lemma utask_step : forall X X' M k m j, rel X M -> 0 <= k < j -> j < m -> m < nt ->
    (forall a c, 0 <= a < tsz nb n m -> 0 <= c < nb ->
       X' (m * nb + a) (j * nb + c) = nsub (X (m * nb + a) (j * nb + c))
         (nsum (fun l => nmul (X (m * nb + a) (k * nb + l)) (nconj (X (j * nb + c) (k * nb + l)))) 0 nb)) ->
    (forall i c, stored i c -> ~ (i / nb = m /\ c / nb = j) -> X' i c = X i c) ->
    rel X' (k_fun (utask k m j) M).
  Proof.
    intros X X' M k m j HR Hk Hj Hm H1 H2. cbn [utask omp_zgemm k_fun]. unfold core_zgemm.
    apply (rel_set X X' M m j everywhere (fun _ _ => true)); auto; try lia.
    - intros a c Ha Hc _. rewrite (tsz_full j m) in Hc by lia. rewrite H1 by lia. rewrite (tsz_full k m) by lia.
      assert (V : forall u v i l, 0 <= k <= u -> u < nt -> 0 <= k <= v -> v < nt -> 0 <= i < tsz nb n u -> 0 <= l < tsz nb n v ->
        nsum (fun q => nmul (op_rd M (if low then PlasmaNoTrans else PlasmaConjTrans) (tp u k) (tld u k) i q)
            (op_rd M (if low then PlasmaConjTrans else PlasmaNoTrans) (tp v k) (tld v k) q l)) 0 nb
        = nsum (fun q => nmul (X (u * nb + i) (k * nb + q)) (nconj (X (v * nb + l) (k * nb + q)))) 0 nb).
      { intros u v i l Hu1 Hu2 Hv1 Hv2 Hi Hl. apply nsum_ext. intros q Hq. rewrite op1_view, op2_view.
        rewrite !(rel_rd X) by (auto; rewrite ?(tsz_full k m) by lia; lia). reflexivity. }
      pose proof (tsz_full j m ltac:(lia) Hm) as TJ.
      destruct (Sumbool.sumbool_of_bool low) as [L|L].
      + rewrite !L. rewrite L in V. unfold tm, tn. rewrite !L. rewrite V by lia. rewrite rd_view, L.
        rewrite (rel_rd X) by (auto; lia). ring.
      + rewrite !L. rewrite L in V. unfold tm, tn. rewrite !L. rewrite V by lia. rewrite rd_view, L.
        rewrite (rel_rd X) by (auto; lia). rewrite nconj_add, !nconj_mul, nconj_sum, nconj_opp, nconj_1, nconj_conj.
        rewrite (nsum_ext F _ (fun l => nmul (X (m * nb + a) (k * nb + l)) (nconj (X (j * nb + c) (k * nb + l))))).
        * ring.
        * intros l _. rewrite nconj_mul, nconj_conj. ring.
    - intros i c Hic HN. apply H2; [assumption|]. intros [E1 E2]. apply HN. auto.
  Qed.

  Lemma stask_step : forall X X' M k m, rel X M -> 0 <= k < m -> m < nt ->
    (forall r, 0 <= r < nb -> X (k * nb + r) (k * nb + r) <> n0) ->
    (forall a r, 0 <= a < tsz nb n m -> 0 <= r < nb ->
       nsum (fun l => nmul (X' (m * nb + a) (k * nb + l)) (nconj (X (k * nb + r) (k * nb + l)))) 0 (r + 1)
       = X (m * nb + a) (k * nb + r)) ->
    (forall i c, stored i c -> ~ (i / nb = m /\ c / nb = k) -> X' i c = X i c) ->
    rel X' (k_fun (stask k m) M).
  Proof.
    intros X X' M k m HR Hk Hm HD H1 H2. cbn [stask omp_ztrsm k_fun]. unfold core_ztrsm.
    apply (rel_set X X' M m k everywhere (fun _ _ => true)); auto; try lia.
    2:{ intros i c Hic HN. apply H2; [assumption|]. intros [E1 E2]. apply HN. auto. }
    intros a c Ha Hc _. pose proof (tsz_full k m Hk Hm) as TK. rewrite TK in Hc.
    assert (NZ : forall x : F, x <> n0 -> nconj x <> n0).
    { intros x Hx Hc'. apply Hx. rewrite <- (nconj_conj F x), Hc'. apply nconj_0. }
    assert (SV : forall i j, 0 <= i < nb -> 0 <= j < nb ->
      op_tri M PlasmaConjTrans uplo PlasmaNonUnit (tp k k) (tld k k) (tn i j) (tm i j)
      = if j <=? i then (if low then nconj (X (k * nb + i) (k * nb + j)) else X (k * nb + i) (k * nb + j)) else n0).
    { intros i j Hi Hj. unfold op_tri, tri_rd. cbn [PlasmaConjTrans PlasmaNoTrans PlasmaTrans PlasmaNonUnit PlasmaUnit Z.eqb Pos.eqb andb].
      change (PlasmaNonUnit =? PlasmaUnit) with false. cbn [andb].
      rewrite sel_view. destruct (Z.leb_spec j i) as [LE|LE].
      - rewrite rd_view. pose proof (rel_rd X M k k i j HR ltac:(lia) ltac:(lia) ltac:(lia) ltac:(lia)) as RD.
        unfold tm, tn in *. destruct low; rewrite RD; [reflexivity|apply nconj_conj].
      - apply nconj_0. }
    unfold tm, tn in *. destruct (Sumbool.sumbool_of_bool low) as [L|L].
    - rewrite !L. rewrite L in SV. change (PlasmaRight =? PlasmaLeft) with false. cbv iota.
      assert (UP : op_up uplo PlasmaConjTrans = true).
      { unfold low in L. apply Z.eqb_eq in L. rewrite L. reflexivity. }
      rewrite UP, TK. symmetry. symmetry.
      apply (solve_unique (fun r l => op_tri M PlasmaConjTrans uplo PlasmaNonUnit (tp k k) (tld k k) l r)
        nb _ (fun r => X' (m * nb + a) (k * nb + r))); [| | |assumption].
      + intros i Hi. rewrite SV, Z.leb_refl by lia. apply NZ, HD. assumption.
      + intros r l Hr Hl. rewrite SV by lia. replace (l <=? r) with false by (symmetry; apply Z.leb_gt; lia). reflexivity.
      + intros r Hr. rewrite (nsum_ext F _ (fun l => nmul (X' (m * nb + a) (k * nb + l)) (nconj (X (k * nb + r) (k * nb + l))))).
        * rewrite H1 by lia. rewrite rd_view, L. rewrite (rel_rd X) by (auto; lia). ring.
        * intros l Hl. rewrite SV by lia. replace (l <=? r) with true by (symmetry; apply Z.leb_le; lia). ring.
    - rewrite !L. rewrite L in SV. change (PlasmaLeft =? PlasmaLeft) with true. cbv iota.
      assert (UP : op_up uplo PlasmaConjTrans = false).
      { assert (E : uplo = PlasmaUpper).
        { pose proof up_low as E. rewrite L in E. apply Z.eqb_eq in E. exact E. }
        rewrite E. reflexivity. }
      rewrite UP, TK.
      transitivity (nconj (nconj (X' (m * nb + a) (k * nb + c)))); [|apply nconj_conj]. apply f_equal.
      apply (solve_unique (fun r l => op_tri M PlasmaConjTrans uplo PlasmaNonUnit (tp k k) (tld k k) r l)
        nb _ (fun r => nconj (X' (m * nb + a) (k * nb + r)))); [| | |assumption].
      + intros i Hi. rewrite SV, Z.leb_refl by lia. apply HD. assumption.
      + intros r l Hr Hl. rewrite SV by lia. replace (l <=? r) with false by (symmetry; apply Z.leb_gt; lia). reflexivity.
      + intros r Hr. rewrite rd_view, L. rewrite (rel_rd X) by (auto; lia). rewrite <- H1 by lia. rewrite nconj_sum.
        transitivity (nsum (fun l => nconj (nmul (X' (m * nb + a) (k * nb + l)) (nconj (X (k * nb + r) (k * nb + l))))) 0 (r + 1)); [|ring].
        apply nsum_ext. intros l Hl. rewrite SV by lia. replace (l <=? r) with true by (symmetry; apply Z.leb_le; lia).
        rewrite nconj_mul, nconj_conj. ring.
  Qed.

  (* ---- the loops ---- *)
  Hypothesis Hrp : forall x, nconj x = x -> rp x = x.
  Variables SS L : Z -> Z -> F.
  Hypothesis HE : chol_eqs R rp n SS L.
  Hypothesis HSr : forall j, 0 <= j < n -> nconj (SS j j) = SS j j.

  Definition W (k i j : Z) : F := nsub (SS i j) (nsum (fun l => nmul (L i l) (nconj (L j l))) 0 (k * nb)).

  Lemma W_step : forall k i j, 0 <= k ->
    W (k + 1) i j = nsub (W k i j) (nsum (fun l => nmul (L i (k * nb + l)) (nconj (L j (k * nb + l)))) 0 nb).
  Proof.
    intros k i j Hk. unfold W. rewrite (nsum_app _ _ 0 (k * nb) ((k + 1) * nb)) by nia.
    pose proof (nsum_shift F (fun l => nmul (L i l) (nconj (L j l))) (k * nb) 0 nb) as SH.
    replace (0 + k * nb) with (k * nb) in SH by lia. replace (nb + k * nb) with ((k + 1) * nb) in SH by lia. rewrite SH.
    rewrite (nsum_ext F (fun i0 => nmul (L i (i0 + k * nb)) (nconj (L j (i0 + k * nb))))
      (fun l => nmul (L i (k * nb + l)) (nconj (L j (k * nb + l))))).
    - ring.
    - intros l _. rewrite (Z.add_comm l). reflexivity.
  Qed.

  Definition XT (k u i j : Z) : F :=
    if i <? j then SS i j
    else if (j / nb <? k) || ((j / nb =? k) && (i / nb <? u)) then L i j else W k i j.
  Definition XU (k u w i j : Z) : F :=
    if i <? j then SS i j
    else if j / nb <=? k then L i j
    else if (i / nb <? u) || ((i / nb =? u) && ((j / nb <? w) || ((j / nb =? u) && (k <? w))))
      then W (k + 1) i j else W k i j.

  Ltac bcase := repeat match goal with
    | |- context [?a <? ?b] => destruct (Z.ltb_spec a b)
    | |- context [?a <=? ?b] => destruct (Z.leb_spec a b)
    | |- context [?a =? ?b] => destruct (Z.eqb_spec a b)
    end; cbn [andb orb]; try reflexivity; try lia.

  Lemma stored_lt : forall i j, stored i j -> 0 <= j / nb <= i / nb /\ i / nb < nt.
  Proof.
    intros i j (Hi & Hj & H). destruct (el_pos i Hi) as ((A1 & A2) & _). destruct (el_pos j Hj) as ((B1 & B2) & _). lia.
  Qed.

  Lemma ptask_XT : forall k, 0 <= k < nt ->
    gh (rel (XT k k)) [ptask k] (first_bad (fun j => badp R (rp (piv L SS j))) (k * nb) (k * nb + tsz nb n k)) (rel (XT k (k + 1))).
  Proof.
    intros k Hk M HR. pose proof (tsz_pos k Hk) as TP.
    destruct (potf2_block R rp n SS L (k * nb) (tsz nb n k) (fun a c => XT k k (k * nb + a) (k * nb + c)) HE) as [B1 B2]; try nia.
    { unfold tsz. lia. }
    { intros i j Hj Hi. destruct (pos_el k i Hk ltac:(lia)) as (_ & P2 & _). destruct (pos_el k j Hk ltac:(lia)) as (_ & Q2 & _).
      unfold XT. rewrite P2, Q2. bcase. }
    destruct (ptask_step (XT k k) (XT k (k + 1)) M k HR Hk) as [S1 S2].
    - intros a c Hc Ha. rewrite B1 by lia. destruct (pos_el k a Hk ltac:(lia)) as (_ & P2 & _).
      destruct (pos_el k c Hk ltac:(lia)) as (_ & Q2 & _). unfold XT. rewrite P2, Q2. bcase.
    - intros i j Hij HN. pose proof (stored_lt i j Hij). unfold XT. bcase.
    - split; [exact S1|]. cbn [kcodes first_code]. rewrite S2. cbv zeta in B2 |- *. rewrite B2. 
      destruct (first_bad (fun j => badp R (rp (piv L SS j))) (k * nb) (k * nb + tsz nb n k) =? 0) eqn:E.
      + apply Z.eqb_eq in E. auto.
      + reflexivity.
  Qed.

  Lemma stask_XT : forall k m M, 0 <= k < m -> m < nt -> rel (XT k m) M -> rel (XT k (m + 1)) (k_fun (stask k m) M).
  Proof.
    intros k m M Hk Hm HR. pose proof (tsz_full k m Hk Hm) as TK.
    assert (PK : forall r, 0 <= r < nb -> 0 <= k * nb + r < n /\ (k * nb + r) / nb = k).
    { intros r Hr. destruct (pos_el k r ltac:(lia) ltac:(lia)) as (P1 & P2 & _). auto. }
    apply (stask_step (XT k m)); auto.
    - intros r Hr. destruct (PK r Hr) as (P1 & P2). unfold XT. rewrite P2. bcase.
      apply (chol_diag_nz R rp n SS L HE). assumption.
    - intros a r Ha Hr. destruct (PK r Hr) as (P1 & P2). destruct (pos_el m a ltac:(lia) Ha) as (Q1 & Q2 & _).
      assert (LT : k * nb + r < m * nb + a) by nia.
      pose proof (chol_row R rp n SS L HE (m * nb + a) (k * nb + r) ltac:(lia) ltac:(lia)) as CR.
      rewrite (nsum_app _ _ 0 (k * nb) (k * nb + r + 1)) in CR by nia.
      pose proof (nsum_shift F (fun l => nmul (L (m * nb + a) l) (nconj (L (k * nb + r) l))) (k * nb) 0 (r + 1)) as SH.
      replace (0 + k * nb) with (k * nb) in SH by lia. replace (r + 1 + k * nb) with (k * nb + r + 1) in SH by lia.
      rewrite SH in CR.
      transitivity (nsum (fun i => nmul (L (m * nb + a) (i + k * nb)) (nconj (L (k * nb + r) (i + k * nb)))) 0 (r + 1)).
      + apply nsum_ext. intros l Hl. destruct (PK l ltac:(lia)) as (R1 & R2). unfold XT. rewrite P2, Q2, R2.
        rewrite (Z.add_comm l). bcase; nia.
      + transitivity (W k (m * nb + a) (k * nb + r)).
        * unfold W. rewrite <- CR. ring.
        * unfold XT. rewrite P2, Q2. bcase.
    - intros i j Hij HN. pose proof (stored_lt i j Hij). unfold XT. bcase.
  Qed.

  Lemma htask_XU : forall k m M, 0 <= k < m -> m < nt -> rel (XU k m k) M -> rel (XU k m (k + 1)) (k_fun (htask k m) M).
  Proof.
    intros k m M Hk Hm HR. pose proof (tsz_full k m Hk Hm) as TK.
    assert (PK : forall r, 0 <= r < nb -> 0 <= k * nb + r < n /\ (k * nb + r) / nb = k).
    { intros r Hr. destruct (pos_el k r ltac:(lia) ltac:(lia)) as (P1 & P2 & _). auto. }
    assert (V : forall a c, 0 <= c <= a -> a < tsz nb n m -> XU k m (k + 1) (m * nb + a) (m * nb + c) = W (k + 1) (m * nb + a) (m * nb + c)).
    { intros a c Hc Ha. destruct (pos_el m a ltac:(lia) ltac:(lia)) as (Q1 & Q2 & _).
      destruct (pos_el m c ltac:(lia) ltac:(lia)) as (R1 & R2 & _). unfold XU. rewrite Q2, R2. bcase. }
    apply (htask_step (XU k m k)); auto.
    - intros a c Hc Ha. rewrite V, W_step by lia. destruct (pos_el m a ltac:(lia) ltac:(lia)) as (Q1 & Q2 & _).
      destruct (pos_el m c ltac:(lia) ltac:(lia)) as (R1 & R2 & _). f_equal.
      + unfold XU. rewrite Q2, R2. bcase.
      + apply nsum_ext. intros l Hl. destruct (PK l Hl) as (P1 & P2). unfold XU. rewrite P2. bcase; nia.
    - intros a Ha. rewrite V by lia. destruct (pos_el m a ltac:(lia) ltac:(lia)) as (Q1 & Q2 & _).
      unfold W. rewrite nconj_sub, HSr, nconj_sum by lia. f_equal. apply nsum_ext. intros l _.
      rewrite nconj_mul, nconj_conj. ring.
    - intros i j Hij HN. pose proof (stored_lt i j Hij). unfold XU. bcase.
  Qed.

  Lemma utask_XU : forall k m j M, 0 <= k < j -> j < m -> m < nt -> rel (XU k m j) M -> rel (XU k m (j + 1)) (k_fun (utask k m j) M).
  Proof.
    intros k m j M Hk Hj Hm HR. pose proof (tsz_full k m ltac:(lia) Hm) as TK. pose proof (tsz_full j m ltac:(lia) Hm) as TJ.
    assert (PK : forall r, 0 <= r < nb -> 0 <= k * nb + r < n /\ (k * nb + r) / nb = k).
    { intros r Hr. destruct (pos_el k r ltac:(lia) ltac:(lia)) as (P1 & P2 & _). auto. }
    apply (utask_step (XU k m j)); auto.
    - intros a c Ha Hc. destruct (pos_el m a ltac:(lia) ltac:(lia)) as (Q1 & Q2 & _).
      destruct (pos_el j c ltac:(lia) ltac:(lia)) as (R1 & R2 & _).
      transitivity (W (k + 1) (m * nb + a) (j * nb + c)).
      + unfold XU. rewrite Q2, R2. bcase; nia.
      + rewrite W_step by lia. f_equal.
        * unfold XU. rewrite Q2, R2. bcase; nia.
        * apply nsum_ext. intros l Hl. destruct (PK l Hl) as (P1 & P2). unfold XU. rewrite P2. bcase; nia.
    - intros i c Hic HN. pose proof (stored_lt i c Hic). unfold XU. bcase.
  Qed.

  Lemma prest_step : forall k, 0 <= k < nt -> gh (rel (XT k (k + 1))) (map sure (prest k)) 0 (rel (XT (k + 1) (k + 1))).
  Proof.
    intros k Hk. unfold prest. rewrite map_app, map_map, map_flat_map.
    apply (gh_app _ (rel (XT k nt)) _ _ _ 0 0); [| |reflexivity].
    - apply (gh_map0 (fun m => rel (XT k m))); [lia|]. intros m M Hm. apply stask_XT; lia.
    - apply (gh_mono (rel (XU k (k + 1) k)) _ (rel (XU k nt k))).
      + intros M. apply rel_ext. intros i j Hij. pose proof (stored_lt i j Hij). unfold XT, XU. bcase.
      + intros M. apply rel_ext. intros i j Hij. pose proof (stored_lt i j Hij). unfold XT, XU. bcase.
      + apply (gh_loop0 (fun m => rel (XU k m k))); [lia|]. intros m Hm. cbn [map]. rewrite map_map.
        apply (gh_cons _ (rel (XU k m (k + 1))) _ _ _ 0 0); [| |reflexivity].
        * apply gh_sure. intros M. apply htask_XU; lia.
        * apply (gh_mono (rel (XU k m (k + 1))) _ (rel (XU k m m))); auto.
          -- intros M. apply rel_ext. intros i j Hij. pose proof (stored_lt i j Hij). unfold XU. bcase.
          -- apply (gh_map0 (fun j => rel (XU k m j))); [lia|]. intros j M Hj. apply utask_XU; lia.
  Qed.

  Lemma plist_step :
    gh (rel SS) plist (first_bad (fun j => badp R (rp (piv L SS j))) 0 n)
       (rel (fun i j => if i <? j then SS i j else L i j)).
  Proof.
    assert (NT : 0 <= nt) by (unfold nt, ntl; apply Z.div_pos; lia).
    apply (gh_mono (rel (XT 0 0)) _ (rel (XT nt nt))).
    - intros M. apply rel_ext. intros i j Hij. pose proof (stored_lt i j Hij). unfold XT, W. 
      change (0 * nb) with 0. rewrite nsum_nil by lia. bcase; ring.
    - intros M. apply rel_ext. intros i j Hij. pose proof (stored_lt i j Hij). unfold XT. bcase.
    - assert (EN : n = Z.min (nt * nb) n).
      { pose proof (ntl_top nb n Hb Hn) as E. fold nt in E. lia. }
      rewrite EN at 1.
      apply (gh_loop (fun k => rel (XT k k)) _ (fun k => first_bad (fun j => badp R (rp (piv L SS j))) (k * nb) (k * nb + tsz nb n k))
        (fun k => first_bad (fun j => badp R (rp (piv L SS j))) 0 (Z.min (k * nb) n))); auto.
      + intros k Hk. apply (gh_cons _ _ _ _ _ _ 0 _ (ptask_XT k Hk) (prest_step k Hk)).
        destruct (first_bad (fun j => badp R (rp (piv L SS j))) (k * nb) (k * nb + tsz nb n k) =? 0) eqn:E; [|reflexivity].
        apply Z.eqb_eq in E. assumption.
      + apply first_bad_nil. lia.
      + intros k Hk. pose proof (tsz_pos k Hk) as TP. unfold tsz in TP. 
        rewrite (first_bad_app _ 0 (Z.min (k * nb) n) (Z.min ((k + 1) * nb) n)) by nia.
        replace (Z.min (k * nb) n) with (k * nb) by lia. 
        replace (Z.min ((k + 1) * nb) n) with (k * nb + tsz nb n k) by (unfold tsz; lia). reflexivity.
  Qed.
End Lo.
