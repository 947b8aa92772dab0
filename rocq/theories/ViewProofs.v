(* The lower view of a triangular matrix in a tile matrix: for PlasmaUpper the element (i,j) of
   the view is the conjugate of the stored element (j,i). *)
From Coq Require Import ZArith List Bool Lia Ring.
From Verif Require Import Base NumModel NumProofs FieldModel TaskModel TaskSpec TaskProofs DescModel DescSpec
  DescDriverModel DescProofs DescPackProofs DescProofs3 DescProofs4 MatModel MatSpec MatProofs RegionProofs
  GuardModel GuardSpec GuardProofs GuardProofs2
  LayoutModel LayoutProofs LayoutProofs2 DriverModel DriverSpec OpProofs SimProofs OperandProofs
  GemmModel GemmProofs GemmDriverProofs RankModel RankProofs RankDriverProofs LasetModel LasetProofs
  TriModel TriSpec TriVecProofs TriProofs TrmmProofs PotrfModel.
Import ListNotations.
Open Scope Z_scope.

Section View.
  Context {F : fields}.
  Add Ring num_ring_view : (nring F).
  Variables (nb n : Z) (A : desc) (SA : Z -> Z -> Prop) (bA uplo : Z).
  Hypothesis Hu : valid_uplo uplo.
  Hypothesis HQ : sq nb A SA.
  Hypotheses (DM : d_m A = n) (DN : d_n A = n).
  Let nt := ntl nb n.
  Hypothesis HSA : forall i j, 0 <= i < nt -> 0 <= j < nt -> uplo_sel uplo i j = true -> SA i j.
  Let Hb : 0 < nb := sq_pos nb A _ HQ.
  Let Hn : 0 <= n.
  Proof. rewrite <- DM. apply (go_m A (td_shape _ _ (sq_t nb A _ HQ))). Qed.

  Definition vlow : bool := uplo =? PlasmaLower.
  Lemma v_up : (uplo =? PlasmaUpper) = negb vlow.
  Proof. unfold vlow. destruct Hu as [->| ->]; reflexivity. Qed.

  (* tile (m,k) of the view, and element (a,c) of a tile *)
  Definition vr (m k : Z) : Z := if vlow then m else k.
  Definition vc (m k : Z) : Z := if vlow then k else m.
  Definition vp (m k : Z) : loc := tptr bA A (vr m k) (vc m k).
  Definition vl (m k : Z) : Z := tile_mmain A (vr m k).

  Lemma vt_S : forall m k, 0 <= k <= m -> m < nt -> SA (vr m k) (vc m k).
  Proof.
    intros m k Hk Hm. apply HSA.
    - unfold vr. destruct vlow; lia.
    - unfold vc. destruct vlow; lia.
    - unfold uplo_sel, vr, vc. rewrite v_up. fold vlow. destruct vlow; cbn; apply Z.leb_le; lia.
  Qed.
  Lemma vt_mv : forall m k, 0 <= k <= m -> m < nt -> tile_mview A (vr m k) = tsz nb n (vr m k).
  Proof. intros m k Hk Hm. rewrite (sq_mv nb A _ HQ _ _ (vt_S m k Hk Hm)), DM. reflexivity. Qed.
  Lemma vt_nv : forall m k, 0 <= k <= m -> m < nt -> tile_nview A (vc m k) = tsz nb n (vc m k).
  Proof. intros m k Hk Hm. rewrite (sq_nv nb A _ HQ _ _ (vt_S m k Hk Hm)), DN. reflexivity. Qed.
  Lemma vt_ld : forall m k, 0 <= k <= m -> m < nt -> tsz nb n (vr m k) <= vl m k.
  Proof. intros m k Hk Hm. unfold vl. rewrite <- DM. apply (sq_ld nb A _ HQ _ _ (vt_S m k Hk Hm)). Qed.
  Lemma vmv_eq : forall k, 0 <= k < nt -> tile_mview A k = tsz nb n k.
  Proof. intros k Hk. pose proof (vt_mv k k ltac:(lia) ltac:(lia)) as H. unfold vr in H. destruct vlow; assumption. Qed.
  Lemma vnv_eq : forall k, 0 <= k < nt -> tile_nview A k = tsz nb n k.
  Proof. intros k Hk. pose proof (vt_nv k k ltac:(lia) ltac:(lia)) as H. unfold vc in H. destruct vlow; assumption. Qed.
  Lemma vt_full : forall k m, 0 <= k < m -> m < nt -> tsz nb n k = nb.
  Proof. intros k m Hk Hm. apply ntl_spec in Hm; auto; [|lia]. unfold tsz. nia. Qed.
  Lemma vt_pos : forall k, 0 <= k < nt -> 0 < tsz nb n k <= nb.
  Proof. intros k [H1 H2]. apply ntl_spec in H2; auto. unfold tsz. lia. Qed.

  Definition vstored (i j : Z) : Prop := 0 <= i < n /\ 0 <= j < n /\ j / nb <= i / nb.
  Definition vview (M : mem F) (i j : Z) : F := if vlow then el M bA A i j else nconj (el M bA A j i).

  Variable M0 : mem F.
  Definition vrel (X : Z -> Z -> F) (M : mem F) : Prop :=
    (forall l, fst l <> bA -> M l = M0 l) /\ forall i j, vstored i j -> vview M i j = X i j.

  Lemma vrel_ext : forall X X' M, (forall i j, vstored i j -> X i j = X' i j) -> vrel X M -> vrel X' M.
  Proof. intros X X' M H [R1 R2]. split; [assumption|]. intros i j Hij. rewrite <- H by assumption. auto. Qed.

  Lemma vpos_el : forall m a, 0 <= m < nt -> 0 <= a < tsz nb n m ->
    0 <= m * nb + a < n /\ (m * nb + a) / nb = m /\ (m * nb + a) mod nb = a.
  Proof. intros m a Hm Ha. apply (tile_pos nb A _ HQ); lia. Qed.

  Lemma vel_pos : forall i, 0 <= i < n -> 0 <= i / nb < nt /\ 0 <= i mod nb < tsz nb n (i / nb) /\ i = i / nb * nb + i mod nb.
  Proof.
    intros i Hi. destruct (pos_tile nb A _ HQ i n Hi) as (P1 & P2 & P3). split; [|auto].
    split; [assumption|]. apply ntl_spec; auto. unfold tsz in P2. lia.
  Qed.

  Lemma vrel_rd : forall X M m k a c, vrel X M -> 0 <= k <= m -> m < nt ->
    0 <= a < tsz nb n m -> 0 <= c < tsz nb n k ->
    low_rd M uplo (vp m k) (vl m k) a c = X (m * nb + a) (k * nb + c).
  Proof.
    intros X M m k a c [_ R2] Hk Hm Ha Hc. pose proof (vt_S m k Hk Hm) as TS.
    destruct (vpos_el m a ltac:(lia) Ha) as (P1 & P2 & P3). destruct (vpos_el k c ltac:(lia) Hc) as (Q1 & Q2 & Q3).
    rewrite <- R2; [|split; [assumption|split; [assumption|]]; rewrite P2, Q2; lia].
    unfold low_rd, vview, vp, vl, vr, vc in *. fold vlow. destruct vlow.
    - apply (sq_rd nb A _ HQ); [assumption|rewrite DM; assumption|rewrite DN; assumption].
    - apply f_equal. apply (sq_rd nb A _ HQ); [assumption|rewrite DM; assumption|rewrite DN; assumption].
  Qed.

  (* writing a part of tile (m,k) *)
  Lemma vrel_set : forall X X' M m k P P' f, vrel X M -> 0 <= k <= m -> m < nt ->
    (forall a c, P (vr a c) (vc a c) = P' a c) ->
    (forall a c, 0 <= a < tsz nb n m -> 0 <= c < tsz nb n k -> P' a c = true ->
       (if vlow then f a c else nconj (f c a)) = X' (m * nb + a) (k * nb + c)) ->
    (forall i j, vstored i j -> ~ (i / nb = m /\ j / nb = k /\ P' (i mod nb) (j mod nb) = true) -> X' i j = X i j) ->
    vrel X' (mset (vp m k) (vl m k) (tsz nb n (vr m k)) (tsz nb n (vc m k)) P f M).
  Proof.
    intros X X' M m k P P' f [R1 R2] Hk Hm HP H1 H2. pose proof (vt_S m k Hk Hm) as TS.
    assert (E1 : mset (vp m k) (vl m k) (tsz nb n (vr m k)) (tsz nb n (vc m k)) P f M
      = mset (tptr bA A (vr m k) (vc m k)) (tile_mmain A (vr m k)) (tile_mview A (vr m k)) (tile_nview A (vc m k)) P f M).
    { rewrite vt_mv, vt_nv by assumption. reflexivity. }
    split.
    - intros l Hl. rewrite <- R1 by assumption. apply mset_out. intros RG. apply reg_block in RG. cbn in RG. congruence.
    - intros i j Hij. pose proof Hij as (Hi & Hj & HS).
      assert (TS' : SA (vr (i / nb) (j / nb)) (vc (i / nb) (j / nb))).
      { apply vt_S; [|apply (vel_pos i Hi)]. split; [apply Z.div_pos; lia|assumption]. }
      assert (VE : vview (mset (vp m k) (vl m k) (tsz nb n (vr m k)) (tsz nb n (vc m k)) P f M) i j
        = if (i / nb =? m) && (j / nb =? k) && P' (i mod nb) (j mod nb)
          then (if vlow then f (i mod nb) (j mod nb) else nconj (f (j mod nb) (i mod nb))) else vview M i j).
      { rewrite E1. rewrite <- HP. unfold vview, vr, vc in *. destruct vlow.
        - rewrite (sq_set nb A _ HQ); auto; rewrite ?DM, ?DN; auto.
        - rewrite (sq_set nb A _ HQ); auto; rewrite ?DM, ?DN; auto. rewrite (andb_comm (j / nb =? k)).
          destruct ((i / nb =? m) && (j / nb =? k) && P (j mod nb) (i mod nb)); reflexivity. }
      rewrite VE. destruct ((i / nb =? m) && (j / nb =? k) && P' (i mod nb) (j mod nb)) eqn:E.
      + rewrite !andb_true_iff, !Z.eqb_eq in E. destruct E as [[E2 E3] E4].
        destruct (vel_pos i Hi) as (_ & A1 & A2). destruct (vel_pos j Hj) as (_ & B1 & B2). rewrite E2 in A1, A2. rewrite E3 in B1, B2.
        rewrite H1 by assumption. rewrite <- A2, <- B2. reflexivity.
      + rewrite R2 by assumption. symmetry. apply H2; [assumption|]. intros (E2 & E3 & E4).
        rewrite E2, E3, E4, !Z.eqb_refl in E. discriminate.
  Qed.

  Lemma vsel : forall a c, uplo_sel uplo (vr a c) (vc a c) = (c <=? a).
  Proof. intros a c. unfold uplo_sel, vr, vc. rewrite v_up. fold vlow. destruct vlow; reflexivity. Qed.

  Lemma vp_diag : forall k, vp k k = tptr bA A k k.
  Proof. intros k. unfold vp, vr, vc. destruct vlow; reflexivity. Qed.
  Lemma vl_diag : forall k, vl k k = tile_mmain A k.
  Proof. intros k. unfold vl, vr. destruct vlow; reflexivity. Qed.
  Lemma vr_diag : forall k, vr k k = k.
  Proof. intros k. unfold vr. destruct vlow; reflexivity. Qed.
  Lemma vc_diag : forall k, vc k k = k.
  Proof. intros k. unfold vc. destruct vlow; reflexivity. Qed.
End View.
