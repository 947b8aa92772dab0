(* The tasks of the inversion of a triangular matrix, through the lower view of the matrix. *)
From Coq Require Import ZArith List Bool Lia Ring.
From Verif Require Import Base NumModel NumProofs FieldModel TaskModel TaskSpec TaskProofs DescModel DescSpec
  DescDriverModel DescProofs DescPackProofs DescProofs3 DescProofs4 MatModel MatSpec MatProofs RegionProofs
  GuardModel GuardSpec GuardProofs GuardProofs2
  LayoutModel LayoutProofs LayoutProofs2 DriverModel DriverSpec OpProofs SimProofs OperandProofs
  GemmModel GemmProofs GemmDriverProofs RankModel RankProofs RankDriverProofs LasetModel LasetProofs
  TriModel TriSpec TriVecProofs TriProofs TrmmProofs TrsmProofs PotrfModel CholProofs PotrfProofs InvProofs ViewProofs TrtriModel.
Import ListNotations.
Open Scope Z_scope.

Lemma mset_same : forall V p ld m n P (f : Z -> Z -> V) (M : mem V) l, m <= ld ->
  (forall i j, f i j = rd M p ld i j) -> mset p ld m n P f M l = M l.
Proof.
  intros V p ld m n P f M l HL HF. destruct (reg_dec p ld m n P l HL) as [(i & j & Hi & Hj & HP & ->)|HN].
  - rewrite mset_in by lia. rewrite HP, HF. reflexivity.
  - apply mset_out. assumption.
Qed.

Section Tasks.
  Context {F : fields}.
  Add Ring num_ring_trtri : (nring F).
  Variables (nb n : Z) (A : desc) (SA : Z -> Z -> Prop) (bA uplo diag : Z).
  Hypothesis Hu : valid_uplo uplo.
  Hypothesis HQ : sq nb A SA.
  Hypotheses (DM : d_m A = n) (DN : d_n A = n).
  Let nt := ntl nb n.
  Hypothesis HSA : forall i j, 0 <= i < nt -> 0 <= j < nt -> uplo_sel uplo i j = true -> SA i j.
  Let Hb : 0 < nb := sq_pos nb A _ HQ.
  Let Hn : 0 <= n.
  Proof. rewrite <- DM. apply (go_m A (td_shape _ _ (sq_t nb A _ HQ))). Qed.

  Local Notation low := (vlow uplo).
  Local Notation tm := (vr uplo).
  Local Notation tn := (vc uplo).
  Local Notation tp := (vp A bA uplo).
  Local Notation tl := (vl A uplo).

  Let t_ld : forall m k, 0 <= k <= m -> m < nt -> tsz nb n (tm m k) <= tl m k
    := vt_ld nb n A SA uplo Hu HQ DM HSA.
  Let t_mv := vt_mv nb n A SA uplo Hu HQ DM HSA.
  Let t_nv := vt_nv nb n A SA uplo Hu HQ DN HSA.
  Let t_S := vt_S nb n SA uplo Hu HSA.
  Let t_full := vt_full nb n A SA HQ DM.
  Let t_pos := vt_pos nb n A SA HQ DM.
  Let t_sel := vsel nb n SA uplo Hu HSA.

  Definition rtask (k m : Z) : ktask F :=
    omp_ztrsm (if low then PlasmaRight else PlasmaLeft) uplo PlasmaNoTrans diag
      (tsz nb n (tm m k)) (tsz nb n (tn m k)) (nopp n1) (tp k k) (tl k k) (tp m k) (tl m k).
  Definition utask (k m j : Z) : ktask F :=
    omp_zgemm PlasmaNoTrans PlasmaNoTrans (tsz nb n (tm m j)) (tsz nb n (tn m j)) (tsz nb n k)
      n1 (if low then tp m k else tp k j) (if low then tl m k else tl k j)
      (if low then tp k j else tp m k) (if low then tl k j else tl m k) n1 (tp m j) (tl m j).
  Definition ltask (k j : Z) : ktask F :=
    omp_ztrsm (if low then PlasmaLeft else PlasmaRight) uplo PlasmaNoTrans diag
      (tsz nb n (tm k j)) (tsz nb n (tn k j)) n1 (tp k k) (tl k k) (tp k j) (tl k j).
  Definition ttask (k : Z) : cktask F :=
    omp_ztrtri uplo diag (tsz nb n k) (tp k k) (tl k k) (nb * k).

  Definition trest (k : Z) : list (ktask F) :=
    map (rtask k) (zrange (k + 1) nt)
    ++ (if low then flat_map (fun m => map (utask k m) (zrange 0 k)) (zrange (k + 1) nt) ++ map (ltask k) (zrange 0 k)
        else flat_map (fun j => map (fun m => utask k m j) (zrange (k + 1) nt) ++ [ltask k j]) (zrange 0 k)).
  Definition tlist : list (cktask F) := flat_map (fun k => map sure (trest k) ++ [ttask k]) (zrange 0 nt).

  Lemma pztrtri_eq : pztrtri uplo diag bA A = tlist.
  Proof.
    assert (MT : d_mt A = nt) by (unfold nt; rewrite <- DM; apply (mt_aligned_ntl nb A (td_shape _ _ (sq_t nb A _ HQ)) (sq_mb nb A _ HQ))).
    assert (NT : d_nt A = nt) by (unfold nt; rewrite <- DN; apply (nt_aligned_ntl nb A (td_shape _ _ (sq_t nb A _ HQ)) (sq_nb nb A _ HQ))).
    assert (MV : forall k, 0 <= k < nt -> tile_mview A k = tsz nb n k) by exact (vmv_eq nb n A SA uplo Hu HQ DM HSA).
    assert (NV : forall k, 0 <= k < nt -> tile_nview A k = tsz nb n k) by exact (vnv_eq nb n A SA uplo Hu HQ DN HSA).
    unfold pztrtri, tlist. rewrite MT, NT, (sq_nb nb A _ HQ).
    fold (vlow uplo). unfold trest, ttask, rtask, utask, ltask, vp, vl, vr, vc.
    destruct (vlow uplo); apply flat_map_ext_in; intros k Hk; apply in_zrange in Hk;
      rewrite MV, NV by lia; rewrite Z.min_id, !map_app, <- !app_assoc; (apply f_equal2; [|apply f_equal2]).
    - rewrite map_map. apply map_ext_in. intros m Hm. apply in_zrange in Hm. rewrite MV by lia. reflexivity.
    - rewrite map_flat_map. apply flat_map_ext_in. intros m Hm. apply in_zrange in Hm.
      rewrite map_map. apply map_ext_in. intros j Hj. apply in_zrange in Hj. rewrite MV, NV by lia. reflexivity.
    - apply f_equal2; [|reflexivity]. rewrite map_map. apply map_ext_in. intros j Hj. apply in_zrange in Hj.
      rewrite NV by lia. reflexivity.
    - rewrite map_map. apply map_ext_in. intros m Hm. apply in_zrange in Hm. rewrite NV by lia. reflexivity.
    - rewrite map_flat_map. apply flat_map_ext_in. intros j Hj. apply in_zrange in Hj. rewrite map_app. cbn [map].
      rewrite MV by lia. apply f_equal2; [|reflexivity].
      rewrite map_map. apply map_ext_in. intros m Hm. apply in_zrange in Hm. rewrite NV by lia. reflexivity.
    - reflexivity.
  Qed.

  Lemma trest_all : forall (P : ktask F -> Prop) k, 0 <= k < nt ->
    (forall m, k < m < nt -> P (rtask k m)) -> (forall m j, 0 <= j < k -> k < m < nt -> P (utask k m j)) ->
    (forall j, 0 <= j < k -> P (ltask k j)) -> Forall P (trest k).
  Proof.
    intros P k Hk H1 H2 H3. unfold trest. apply Forall_app. split.
    { apply Forall_forall. intros x Hx. apply in_map_iff in Hx. destruct Hx as (m & <- & Hm).
      apply in_zrange in Hm. apply H1. lia. }
    destruct (vlow uplo).
    - apply Forall_app. split.
      + apply Forall_flat_map_intro. intros m Hm. apply in_zrange in Hm.
        apply Forall_forall. intros x Hx. apply in_map_iff in Hx. destruct Hx as (j & <- & Hj).
        apply in_zrange in Hj. apply H2; lia.
      + apply Forall_forall. intros x Hx. apply in_map_iff in Hx. destruct Hx as (m & <- & Hm).
        apply in_zrange in Hm. apply H3. lia.
    - apply Forall_flat_map_intro. intros j Hj. apply in_zrange in Hj. apply Forall_app. split.
      + apply Forall_forall. intros x Hx. apply in_map_iff in Hx. destruct Hx as (m & <- & Hm).
        apply in_zrange in Hm. apply H2; lia.
      + constructor; [apply H3; lia|constructor].
  Qed.

  Lemma tlist_all : forall (P : cktask F -> Prop),
    (forall k m, 0 <= k < m -> m < nt -> P (sure (rtask k m))) ->
    (forall k m j, 0 <= j < k -> k < m < nt -> P (sure (utask k m j))) ->
    (forall k j, 0 <= j < k -> k < nt -> P (sure (ltask k j))) ->
    (forall k, 0 <= k < nt -> P (ttask k)) -> Forall P tlist.
  Proof.
    intros P H1 H2 H3 H4. unfold tlist. apply Forall_flat_map_intro. intros k Hk. apply in_zrange in Hk.
    apply Forall_app. split; [|constructor; [apply H4; lia|constructor]].
    apply Forall_forall. intros x Hx. apply in_map_iff in Hx. destruct Hx as (y & <- & Hy). revert y Hy.
    apply Forall_forall. apply (trest_all (fun y => P (sure y))); intros; [assumption|apply H1|apply H2|apply H3]; lia.
  Qed.

  Lemma tri_sel_sub : forall a c, tri_sel uplo diag a c = true -> uplo_sel uplo a c = true.
  Proof. intros a c H. unfold tri_sel in H. apply andb_true_iff in H. apply H. Qed.

  Lemma uplo_diag : forall a, uplo_sel uplo a a = true.
  Proof. intros a. unfold uplo_sel. destruct Hu as [->| ->]; cbn; apply Z.leb_refl. Qed.

  Lemma find_ext : forall (f g : Z -> bool) l, (forall x, In x l -> f x = g x) -> find f l = find g l.
  Proof.
    intros f g. induction l as [|x l IH]; intros H; cbn; [reflexivity|].
    rewrite (H x) by (left; reflexivity). rewrite IH by (intros y Hy; apply H; right; exact Hy). reflexivity.
  Qed.

  Lemma info_ext : forall (M M' : mem F) s p ld, (forall x, reg p ld s s (uplo_sel uplo) x -> M x = M' x) ->
    core_ztrtri_info diag s p ld M = core_ztrtri_info diag s p ld M'.
  Proof.
    intros M M' s p ld H. unfold core_ztrtri_info. destruct (diag =? PlasmaUnit); [reflexivity|].
    rewrite (find_ext _ (fun i => neqb (rd M' p ld i i) n0)); [reflexivity|].
    intros x Hx. apply in_zrange in Hx. unfold rd. rewrite H; [reflexivity|].
    exists x, x. repeat split; try lia. apply uplo_diag.
  Qed.

  Lemma tri_rd_ext : forall (M M' : mem F) s p ld i j, 0 <= i < s -> 0 <= j < s ->
    (forall x, reg p ld s s (uplo_sel uplo) x -> M x = M' x) ->
    tri_rd M uplo diag p ld i j = tri_rd M' uplo diag p ld i j.
  Proof.
    intros M M' s p ld i j Hi Hj H. unfold tri_rd. destruct ((diag =? PlasmaUnit) && (i =? j)); [reflexivity|].
    destruct (uplo_sel uplo i j) eqn:E; [|reflexivity]. unfold rd. apply H. exists i, j. repeat split; auto; lia.
  Qed.

  Lemma ttask_kgood : forall k, 0 <= k < nt -> kgood (ck_task (ttask k)).
  Proof.
    intros k Hk. pose proof (t_ld k k ltac:(lia) ltac:(lia)) as LD. rewrite vr_diag in LD.
    set (f := fun (M : mem F) i j => if core_ztrtri_info diag (tsz nb n k) (tp k k) (tl k k) M =? 0
      then solve_along (fun r l => tri_rd M uplo diag (tp k k) (tl k k) r l) []
             (if uplo =? PlasmaUpper then zdown (tsz nb n k) else zrange 0 (tsz nb n k))
             (fun r => if r =? j then n1 else n0) i
      else rd M (tp k k) (tl k k) i j).
    assert (EQ : forall M l, k_fun (ck_task (ttask k)) M l
      = mset (tp k k) (tl k k) (tsz nb n k) (tsz nb n k) (tri_sel uplo diag) (f M) M l).
    { intros M l. cbn [ttask omp_ztrtri ck_task k_fun]. unfold core_ztrtri, f.
      destruct (core_ztrtri_info diag (tsz nb n k) (tp k k) (tl k k) M =? 0); [reflexivity|].
      symmetry. apply mset_same; [assumption|reflexivity]. }
    assert (G : kgood (mkktask [dep_inout (tp k k)]
       (fun M => mset (tp k k) (tl k k) (tsz nb n k) (tsz nb n k) (tri_sel uplo diag) (f M) M)
       (reg (tp k k) (tl k k) (tsz nb n k) (tsz nb n k) (uplo_sel uplo))
       (reg (tp k k) (tl k k) (tsz nb n k) (tsz nb n k) (tri_sel uplo diag)))).
    { apply mset_kgood; [assumption|apply finite_reg|].
      intros M M' i j Hi Hj HP HX. unfold f. rewrite (info_ext M M') by assumption.
      destruct (_ =? 0).
      - apply solve_ext.
        + intros r l Hr Hl. apply tri_rd_ext with (s := tsz nb n k); auto.
          * destruct (uplo =? PlasmaUpper); [apply in_rev in Hr|]; apply in_zrange in Hr; assumption.
          * cbn [app] in Hl. destruct (uplo =? PlasmaUpper); [apply in_rev in Hl|]; apply in_zrange in Hl; assumption.
        + reflexivity.
        + cbn [app]. destruct (uplo =? PlasmaUpper); [apply -> in_rev|]; apply in_zrange; assumption.
      - unfold rd. apply HX. exists i, j. repeat split; try lia. apply tri_sel_sub. assumption. }
    destruct G as [[G1 G2] G3 G4]. constructor; [|assumption|assumption]. split.
    - intros M l Hl. rewrite EQ. apply G1. assumption.
    - intros M M' HX l Hl. rewrite !EQ. apply G2; assumption.
  Qed.

  Lemma ttask_sound : forall k, cksound (ttask k).
  Proof.
    intros k. split; [|discriminate]. intros M M' H. cbn in *. rewrite (info_ext M M') by assumption. reflexivity.
  Qed.

  Lemma tlist_kgood : Forall kgood (map ck_task tlist).
  Proof.
    apply Forall_forall. intros x Hx. apply in_map_iff in Hx. destruct Hx as (y & <- & Hy). revert y Hy.
    apply Forall_forall. apply (tlist_all (fun y => kgood (ck_task y))); intros; cbn [sure ck_task].
    - apply omp_ztrsm_kgood. apply t_ld; lia.
    - apply omp_zgemm_kgood. apply t_ld; lia.
    - apply omp_ztrsm_kgood. apply t_ld; lia.
    - apply ttask_kgood; assumption.
  Qed.

  Lemma tlist_sound : Forall cksound tlist.
  Proof. apply tlist_all; intros; [| | |apply ttask_sound]; split; auto. Qed.

  Lemma tlist_writes : forall k l, In k tlist -> k_writes (ck_task k) l -> fst l = bA.
  Proof.
    intros k l Hk. revert k Hk.
    apply (proj1 (Forall_forall (fun k => k_writes (ck_task k) l -> fst l = bA) tlist)).
    apply tlist_all; intros; cbn in *;
      match goal with H : reg _ _ _ _ _ _ |- _ => apply reg_block in H; exact H end.
  Qed.

  Section Decl.
    Variable env : list (Z * (Z -> Z -> Prop)).
    Hypothesis EA : In (bA, homeD A SA) env.

    Lemma vp_home : forall m k mm kk P l, 0 <= k <= m -> m < nt ->
      mm <= tsz nb n (tm m k) -> kk <= tsz nb n (tn m k) ->
      reg (tp m k) (tl m k) mm kk P l -> home_env env l (tp m k).
    Proof.
      intros m k mm kk P l Hk Hm H1 H2 HR. apply (home_tile env A SA bA (tm m k) (tn m k) P); [assumption| |].
      - apply t_S; eassumption.
      - rewrite t_mv, t_nv by assumption. eapply reg_sub; [exact H1|exact H2| |exact HR]. auto.
    Qed.

    Lemma tlist_kdecl : Forall (kdecl (home_env env)) (map ck_task tlist).
    Proof.
      apply Forall_forall. intros x Hx. apply in_map_iff in Hx. destruct Hx as (y & <- & Hy). revert y Hy.
      apply Forall_forall. apply (tlist_all (fun y => kdecl (home_env env) (ck_task y))); cbn [sure ck_task].
      - intros k m Hk Hm. apply kdecl_intro; cbn; intros l HR.
        + left. destruct HR as [HR|HR].
          * eexists. split; [left; reflexivity|]. cbn. eapply vp_home; [| | | |exact HR]; rewrite ?vr_diag, ?vc_diag; try lia;
              unfold vr, vc; destruct (vlow uplo); cbn; try lia.
          * eexists. split; [right; left; reflexivity|]. cbn. eapply vp_home; [| | | |exact HR]; lia.
        + eexists. split; [right; left; reflexivity|]. split; [|discriminate]. cbn. eapply vp_home; [| | | |exact HR]; lia.
      - intros k m j Hj Hm. apply kdecl_intro; cbn; intros l HR.
        + left. unfold op_reg in HR. cbn in HR. destruct HR as [HR|[HR|HR]].
          * eexists. split; [left; reflexivity|]. cbn. destruct (Sumbool.sumbool_of_bool (vlow uplo)) as [L|L]; rewrite !L in *;
              (eapply vp_home; [| | | |exact HR]; unfold vr, vc; rewrite ?L; lia).
          * eexists. split; [right; left; reflexivity|]. cbn. destruct (Sumbool.sumbool_of_bool (vlow uplo)) as [L|L]; rewrite !L in *;
              (eapply vp_home; [| | | |exact HR]; unfold vr, vc; rewrite ?L; lia).
          * eexists. split; [right; right; left; reflexivity|]. cbn. eapply vp_home; [| | | |exact HR]; lia.
        + eexists. split; [right; right; left; reflexivity|]. split; [|discriminate]. cbn.
          eapply vp_home; [| | | |exact HR]; lia.
      - intros k j Hj Hk. apply kdecl_intro; cbn; intros l HR.
        + left. destruct HR as [HR|HR].
          * eexists. split; [left; reflexivity|]. cbn. eapply vp_home; [| | | |exact HR]; rewrite ?vr_diag, ?vc_diag; try lia;
              unfold vr, vc; destruct (vlow uplo); cbn; try lia.
          * eexists. split; [right; left; reflexivity|]. cbn. eapply vp_home; [| | | |exact HR]; lia.
        + eexists. split; [right; left; reflexivity|]. split; [|discriminate]. cbn. eapply vp_home; [| | | |exact HR]; lia.
      - intros k Hk.
        apply kdecl_intro; cbn; intros l HR.
        + left. eexists. split; [left; reflexivity|]. cbn. eapply vp_home; [| | | |exact HR]; rewrite ?vr_diag, ?vc_diag; lia.
        + eexists. split; [left; reflexivity|]. split; [|discriminate]. cbn. eapply vp_home; [| | | |exact HR]; rewrite ?vr_diag, ?vc_diag; lia.
    Qed.
  End Decl.
End Tasks.
