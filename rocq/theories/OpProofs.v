(* Tile kernels seen as operations on matrix elements. *)
From Coq Require Import ZArith List Bool Lia Ring.
From Verif Require Import Base NumModel NumProofs TaskModel TaskSpec TaskProofs DescModel DescSpec
  DescProofs MatModel MatSpec MatProofs RegionProofs LayoutModel LayoutProofs LayoutProofs2.
Import ListNotations.
Open Scope Z_scope.

Section Sq.
  Variable nb : Z.

  (* square tiles of size nb *)
  Record sq (A : desc) (S : Z -> Z -> Prop) : Prop := {
    sq_t : tiled A S; sq_mb : d_mb A = nb; sq_nb : d_nb A = nb }.

  (* size of tile k of n rows (columns) *)
  Definition tsz (n k : Z) : Z := Z.min nb (n - k * nb).

  Variables (A : desc) (S : Z -> Z -> Prop).
  Hypothesis HQ : sq A S.
  Let HT := sq_t A S HQ.
  Let SH := td_shape A S HT.

  Lemma sq_pos : 0 < nb.
  Proof. rewrite <- (sq_mb A S HQ). apply (go_mb A SH). Qed.

  Lemma sq_mv : forall m n, S m n -> tile_mview A m = tsz (d_m A) m.
  Proof.
    intros m n HS. destruct (td_in A S HT m n HS) as [Hm Hn].
    destruct (mview_spec A m SH Hm) as [E R]. unfold tsz. rewrite <- (sq_mb A S HQ). assumption.
  Qed.

  Lemma sq_nv : forall m n, S m n -> tile_nview A n = tsz (d_n A) n.
  Proof.
    intros m n HS. destruct (td_in A S HT m n HS) as [Hm Hn].
    destruct (nview_spec A n SH Hn) as [E R]. unfold tsz. rewrite <- (sq_nb A S HQ). assumption.
  Qed.

  Lemma sq_in_m : forall m n, S m n -> 0 <= m /\ 0 < tsz (d_m A) m <= nb.
  Proof.
    intros m n HS. destruct (td_in A S HT m n HS) as [Hm Hn].
    destruct (mview_spec A m SH Hm) as [E R]. unfold tsz. rewrite <- (sq_mb A S HQ). lia.
  Qed.

  Lemma sq_in_n : forall m n, S m n -> 0 <= n /\ 0 < tsz (d_n A) n <= nb.
  Proof.
    intros m n HS. destruct (td_in A S HT m n HS) as [Hm Hn].
    destruct (nview_spec A n SH Hn) as [E R]. unfold tsz. rewrite <- (sq_nb A S HQ). lia.
  Qed.

  Lemma sq_ld : forall m n, S m n -> tsz (d_m A) m <= tile_mmain A m.
  Proof. intros m n HS. rewrite <- (sq_mv m n HS). apply (td_ld A S HT m n HS). Qed.

  Context {V : Type}.
  Variable b : Z.

  Lemma sq_rd : forall (M : mem V) m n r c, S m n -> 0 <= r < tsz (d_m A) m -> 0 <= c < tsz (d_n A) n ->
    rd M (tptr b A m n) (tile_mmain A m) r c = el M b A (m * nb + r) (n * nb + c).
  Proof.
    intros M m n r c HS Hr Hc. rewrite (el_tile A S b HT); auto.
    - rewrite (sq_mb A S HQ), (sq_nb A S HQ). reflexivity.
    - rewrite (sq_mv m n HS). assumption.
    - rewrite (sq_nv m n HS). assumption.
  Qed.

  Lemma sq_set : forall (M : mem V) m n P f i j, S m n -> S (i / nb) (j / nb) ->
    0 <= i < d_m A -> 0 <= j < d_n A ->
    el (mset (tptr b A m n) (tile_mmain A m) (tile_mview A m) (tile_nview A n) P f M) b A i j
    = if (i / nb =? m) && (j / nb =? n) && P (i mod nb) (j mod nb)
      then f (i mod nb) (j mod nb) else el M b A i j.
  Proof.
    intros M m n P f i j HS HS' Hi Hj.
    rewrite (el_mset A S b HT); auto; rewrite (sq_mb A S HQ), (sq_nb A S HQ); auto.
  Qed.

  (* global position of a tile element *)
  Lemma tile_pos : forall k r n, 0 <= r < tsz n k -> 0 <= k -> 
    0 <= k * nb + r < n /\ (k * nb + r) / nb = k /\ (k * nb + r) mod nb = r.
  Proof.
    intros k r n Hr Hk. pose proof sq_pos. unfold tsz in Hr. split; [nia|]. split.
    - apply div_eq with r; lia.
    - apply mod_eq with k; lia.
  Qed.

  Lemma pos_tile : forall i n, 0 <= i < n ->
    0 <= i / nb /\ 0 <= i mod nb < tsz n (i / nb) /\ i = (i / nb) * nb + i mod nb.
  Proof.
    intros i n Hi. pose proof sq_pos as HP. destruct (div_mod_pos i nb HP) as [E R].
    assert (0 <= i / nb) by (apply Z.div_pos; lia). unfold tsz. repeat split; lia.
  Qed.
End Sq.

Section Op.
  Context {N : numbers}.
  Add Ring num_ring_op : (nring N).

  (* element (i,j) of op(A), A stored by tiles *)
  Definition op_el (M : mem N) (trans b : Z) (A : desc) (i j : Z) : N :=
    if trans =? PlasmaNoTrans then el M b A i j
    else if trans =? PlasmaTrans then el M b A j i
    else nconj (el M b A j i).

  Definition op_tile (trans b : Z) (A : desc) (m n : Z) : loc :=
    if trans =? PlasmaNoTrans then tptr b A m n else tptr b A n m.
  Definition op_ld (trans : Z) (A : desc) (m n : Z) : Z :=
    if trans =? PlasmaNoTrans then tile_mmain A m else tile_mmain A n.
  Definition op_S (trans : Z) (S : Z -> Z -> Prop) (m n : Z) : Prop :=
    if trans =? PlasmaNoTrans then S m n else S n m.
  Definition op_m (trans : Z) (A : desc) : Z := if trans =? PlasmaNoTrans then d_m A else d_n A.
  Definition op_n (trans : Z) (A : desc) : Z := if trans =? PlasmaNoTrans then d_n A else d_m A.

  Variable nb : Z.

  Lemma op_rd_el : forall A S b M trans m k r l, sq nb A S -> op_S trans S m k ->
    0 <= r < tsz nb (op_m trans A) m -> 0 <= l < tsz nb (op_n trans A) k ->
    op_rd M trans (op_tile trans b A m k) (op_ld trans A m k) r l
    = op_el M trans b A (m * nb + r) (k * nb + l).
  Proof.
    intros A S b M trans m k r l HQ HS Hr Hl.
    unfold op_rd, op_tile, op_ld, op_el, op_S, op_m, op_n in *.
    destruct (trans =? PlasmaNoTrans).
    - apply (sq_rd nb A S HQ); assumption.
    - destruct (trans =? PlasmaTrans); [|f_equal]; apply (sq_rd nb A S HQ); assumption.
  Qed.

  (* the tile that holds op tile (m,k) *)
  Lemma op_reg_tile : forall A S b trans m k mm kk l, sq nb A S -> op_S trans S m k ->
    mm <= tsz nb (op_m trans A) m -> kk <= tsz nb (op_n trans A) k ->
    op_reg trans (op_tile trans b A m k) (op_ld trans A m k) mm kk l ->
    exists x y, S x y /\ op_tile trans b A m k = tptr b A x y /\
      reg (tptr b A x y) (tile_mmain A x) (tile_mview A x) (tile_nview A y) everywhere l.
  Proof.
    intros A S b trans m k mm kk l HQ HS Hm Hk HR.
    unfold op_reg, op_tile, op_ld, op_S, op_m, op_n in *.
    destruct (trans =? PlasmaNoTrans).
    - exists m, k. split; [assumption|]. split; [reflexivity|].
      rewrite (sq_mv nb A S HQ m k HS), (sq_nv nb A S HQ m k HS).
      eapply reg_sub; [exact Hm|exact Hk| |exact HR]. auto.
    - exists k, m. split; [assumption|]. split; [reflexivity|].
      rewrite (sq_mv nb A S HQ k m HS), (sq_nv nb A S HQ k m HS).
      eapply reg_sub; [exact Hk|exact Hm| |exact HR]. auto.
  Qed.

  Lemma op_reg_home : forall env A S b trans m k mm kk l, sq nb A S -> op_S trans S m k ->
    In (b, homeD A S) env ->
    mm <= tsz nb (op_m trans A) m -> kk <= tsz nb (op_n trans A) k ->
    op_reg trans (op_tile trans b A m k) (op_ld trans A m k) mm kk l ->
    home_env env l (op_tile trans b A m k).
  Proof.
    intros env A S b trans m k mm kk l HQ HS HE Hm Hk HR.
    destruct (op_reg_tile A S b trans m k mm kk l HQ HS Hm Hk HR) as (x & y & Hxy & -> & HX).
    eapply home_tile; eauto.
  Qed.

  Lemma op_reg_fin : forall trans p ld m n, finite_set (op_reg trans p ld m n).
  Proof. intros. unfold op_reg. apply finite_if; apply finite_reg. Qed.

  Lemma op_rd_local : forall trans p ld m n (M M' : mem N) i j, 0 <= i < m -> 0 <= j < n ->
    (forall x, op_reg trans p ld m n x -> M x = M' x) ->
    op_rd M trans p ld i j = op_rd M' trans p ld i j.
  Proof.
    intros trans p ld m n M M' i j Hi Hj H. unfold op_rd, op_reg, rd in *.
    destruct (trans =? PlasmaNoTrans).
    - apply H. exists i, j. auto.
    - destruct (trans =? PlasmaTrans); [|f_equal]; apply H; exists j, i; auto.
  Qed.

  Lemma omp_zgemm_kgood : forall ta tb m n k (alpha : N) A lda B ldb beta C ldc, m <= ldc ->
    kgood (omp_zgemm ta tb m n k alpha A lda B ldb beta C ldc).
  Proof.
    intros. apply mset_kgood; auto.
    - apply finite_or; [apply op_reg_fin|]. apply finite_or; [apply op_reg_fin|apply finite_reg].
    - intros M M' i j Hi Hj _ HX. f_equal.
      + f_equal. apply nsum_ext. intros l Hl. f_equal.
        * eapply op_rd_local; eauto.
        * eapply op_rd_local; eauto.
      + f_equal. apply HX. right. right. exists i, j. auto.
  Qed.

  (* dependences of a gemm task *)
  Lemma omp_zgemm_kdecl : forall env A SA bA B SB bB C SC bC ta tb m n mi ki kj nj kk (alpha beta : N),
    sq nb A SA -> sq nb B SB -> sq nb C SC ->
    In (bA, homeD A SA) env -> In (bB, homeD B SB) env -> In (bC, homeD C SC) env ->
    op_S ta SA mi ki -> op_S tb SB kj nj -> SC m n ->
    tile_mview C m <= tsz nb (op_m ta A) mi -> kk <= tsz nb (op_n ta A) ki ->
    kk <= tsz nb (op_m tb B) kj -> tile_nview C n <= tsz nb (op_n tb B) nj ->
    kdecl (home_env env) (omp_zgemm ta tb (tile_mview C m) (tile_nview C n) kk alpha
      (op_tile ta bA A mi ki) (op_ld ta A mi ki) (op_tile tb bB B kj nj) (op_ld tb B kj nj) beta
      (tptr bC C m n) (tile_mmain C m)).
  Proof.
    intros. apply kdecl_intro; cbn; intros l HR.
    - left. destruct HR as [HR|[HR|HR]].
      + eexists. split; [left; reflexivity|]. cbn. eapply op_reg_home; [..|exact HR]; eauto.
      + eexists. split; [right; left; reflexivity|]. cbn. eapply op_reg_home; [..|exact HR]; eauto.
      + eexists. split; [right; right; left; reflexivity|]. cbn. eapply home_tile; eauto.
    - eexists. split; [right; right; left; reflexivity|]. split; [|discriminate]. cbn. eapply home_tile; eauto.
  Qed.

  (* effect of a gemm task on the matrix C *)
  Lemma gemm_el : forall A SA bA B SB bB C SC bC ta tb m n mi ki kj nj kk (alpha beta : N) M i j,
    sq nb A SA -> sq nb B SB -> sq nb C SC ->
    op_S ta SA mi ki -> op_S tb SB kj nj -> SC m n -> SC (i / nb) (j / nb) ->
    tile_mview C m <= tsz nb (op_m ta A) mi -> kk <= tsz nb (op_n ta A) ki ->
    kk <= tsz nb (op_m tb B) kj -> tile_nview C n <= tsz nb (op_n tb B) nj ->
    0 <= i < d_m C -> 0 <= j < d_n C ->
    el (core_zgemm ta tb (tile_mview C m) (tile_nview C n) kk alpha
      (op_tile ta bA A mi ki) (op_ld ta A mi ki) (op_tile tb bB B kj nj) (op_ld tb B kj nj) beta
      (tptr bC C m n) (tile_mmain C m) M) bC C i j
    = if (i / nb =? m) && (j / nb =? n)
      then nadd (nmul alpha (nsum (fun l => nmul (op_el M ta bA A (mi * nb + i mod nb) l)
                                       (op_el M tb bB B (l + (kj - ki) * nb) (nj * nb + j mod nb)))
                         (ki * nb) (ki * nb + kk)))
                (nmul beta (el M bC C i j))
      else el M bC C i j.
  Proof.
    intros A SA bA B SB bB C SC bC ta tb m n mi ki kj nj kk alpha beta M i j
      HA HB HC H1 H2 HS HS' L1 L2 L3 L4 Hi Hj.
    unfold core_zgemm. rewrite (sq_set nb C SC HC); auto. cbn [everywhere]. unfold everywhere.
    rewrite andb_true_r.
    destruct ((i / nb =? m) && (j / nb =? n)) eqn:E; [|reflexivity].
    rewrite andb_true_iff, !Z.eqb_eq in E. destruct E as [<- <-].
    destruct (pos_tile nb C SC HC i (d_m C) Hi) as (P1 & P2 & P3).
    destruct (pos_tile nb C SC HC j (d_n C) Hj) as (Q1 & Q2 & Q3).
    rewrite (sq_mv nb C SC HC _ _ HS) in *. rewrite (sq_nv nb C SC HC _ _ HS) in *.
    f_equal.
    - f_equal. rewrite <- (Z.add_0_l (ki * nb)) at 1. rewrite (Z.add_comm (ki * nb) kk).
      rewrite nsum_shift. apply nsum_ext. intros l Hl.
      rewrite (op_rd_el A SA), (op_rd_el B SB); auto; try lia.
      f_equal; f_equal; ring.
    - f_equal. rewrite (sq_rd nb C SC HC); auto; try lia. rewrite <- P3, <- Q3. reflexivity.
  Qed.
End Op.

(* kernels leave other blocks alone *)
Lemma gemm_other : forall (N : numbers) ta tb m n k (alpha : N) A lda B ldb beta C ldc M l,
  fst l <> fst C -> core_zgemm ta tb m n k alpha A lda B ldb beta C ldc M l = M l.
Proof.
  intros. apply mset_out. intros R. apply reg_block in R. congruence.
Qed.
