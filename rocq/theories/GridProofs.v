(* Kernels that work on a matrix whose elements lie at different places in memory: their effect
   on the matrix. *)
From Coq Require Import ZArith List Bool Lia Ring.
From Verif Require Import Base NumModel NumProofs FieldModel TaskModel TaskSpec MatModel MatProofs
  TaskProofs DescModel LayoutModel TriModel TriProofs TriVecProofs SwpModel SwpSpec SwpProofs LuProofs.
Import ListNotations.
Open Scope Z_scope.

(* rows r0, ..., r0+h-1 and columns c0, ..., c0+w-1 *)
Definition ablk (r0 h c0 w i j : Z) : bool := (r0 <=? i) && (i <? r0 + h) && (c0 <=? j) && (j <? c0 + w).

Lemma ablk_spec : forall r0 h c0 w i j,
  reflect (r0 <= i < r0 + h /\ c0 <= j < c0 + w) (ablk r0 h c0 w i j).
Proof.
  intros. apply iff_reflect. unfold ablk. rewrite !andb_true_iff, !Z.leb_le, !Z.ltb_lt. lia.
Qed.

(* rows a and b exchanged in the columns c0, ..., c0+w-1 *)
Definition a_swap {V} (a b c0 w : Z) (X : Z -> Z -> V) (i j : Z) : V :=
  if (c0 <=? j) && (j <? c0 + w) then X (transposed a b i) j else X i j.

Lemma a_swap_fold : forall V (piv : Z -> Z) c0 w lo hi (X : Z -> Z -> V) i j,
  fold_left (fun X t => a_swap t (piv t) c0 w X) (zrange lo hi) X i j =
  if (c0 <=? j) && (j <? c0 + w) then X (perm piv lo hi i) j else X i j.
Proof.
  intros V piv c0 w lo hi X. pattern hi. apply (zrange_ind_hi _ lo); clear hi.
  - intros hi H i j. rewrite zrange_nil by assumption. cbn. rewrite perm_same by assumption. destruct (_ && _); reflexivity.
  - intros hi H IH i j. rewrite zrange_snoc, fold_left_app by assumption. cbn [fold_left].
    unfold a_swap at 1. rewrite !IH. rewrite perm_snoc by assumption. destruct (_ && _); reflexivity.
Qed.

Section Grid.
  Context {V : Type}.
  Variables (m n : Z) (L : Z -> Z -> loc).
  Hypothesis LI : forall s c s' c', 0 <= s < m -> 0 <= c < n -> 0 <= s' < m -> 0 <= c' < n ->
    L s c = L s' c' -> s = s' /\ c = c'.

  Definition repr (M : mem V) (X : Z -> Z -> V) : Prop :=
    forall i j, 0 <= i < m -> 0 <= j < n -> M (L i j) = X i j.

  (* f does g to the matrix and nothing else *)
  Definition eff (f : mem V -> mem V) (g : (Z -> Z -> V) -> Z -> Z -> V) : Prop :=
    forall M X, repr M X -> repr (f M) (g X) /\ (forall l, ~ panel m n L l -> f M l = M l).

  Lemma eff_ext : forall f g g', eff f g ->
    (forall X i j, 0 <= i < m -> 0 <= j < n -> g X i j = g' X i j) -> eff f g'.
  Proof.
    intros f g g' H E M X R. destruct (H M X R) as [H1 H2]. split; [|assumption].
    intros i j Hi Hj. rewrite H1 by assumption. apply E; assumption.
  Qed.

  Lemma eff_id : eff (fun M => M) (fun X => X).
  Proof. intros M X R. split; auto. Qed.

  Lemma eff_comp : forall f g f' g', eff f g -> eff f' g' -> eff (fun M => f' (f M)) (fun X => g' (g X)).
  Proof.
    intros f g f' g' H H' M X R. destruct (H M X R) as [H1 H2]. destruct (H' _ _ H1) as [H3 H4].
    split; [assumption|]. intros l Hl. rewrite H4, H2 by assumption. reflexivity.
  Qed.

  Lemma eff_if : forall (c : bool) f g f' g', eff f g -> eff f' g' ->
    eff (fun M => if c then f M else f' M) (fun X => if c then g X else g' X).
  Proof. intros c f g f' g' H H'. destruct c; assumption. Qed.

  Lemma eff_fold : forall (op : mem V -> Z -> mem V) aop ls,
    (forall l, In l ls -> eff (fun M => op M l) (fun X => aop X l)) ->
    eff (fun M => fold_left op ls M) (fun X => fold_left aop ls X).
  Proof.
    intros op aop ls. induction ls as [|l ls IH]; intros H.
    - apply eff_id.
    - cbn [fold_left]. apply (eff_comp (fun M => op M l) (fun X => aop X l)).
      + apply H. left; reflexivity.
      + apply IH. intros l' Hl. apply H. right; assumption.
  Qed.

  (* a kernel that assigns to a block *)
  Lemma eff_block : forall p ld h w (fv : mem V -> Z -> Z -> V) gv r0 c0,
    0 <= r0 -> r0 + h <= m -> 0 <= c0 -> c0 + w <= n -> h <= ld ->
    (forall i c, 0 <= i < h -> 0 <= c < w -> at_ p ld i c = L (r0 + i) (c0 + c)) ->
    (forall M X, repr M X -> forall i c, 0 <= i < h -> 0 <= c < w -> fv M i c = gv X (r0 + i) (c0 + c)) ->
    eff (fun M => mset p ld h w everywhere (fv M) M)
        (fun X i j => if ablk r0 h c0 w i j then gv X i j else X i j).
  Proof.
    intros p ld h w fv gv r0 c0 H1 H2 H3 H4 H5 HL HV M X R. split.
    - intros i j Hi Hj. destruct (ablk_spec r0 h c0 w i j) as [[Bi Bj]|B].
      + replace i with (r0 + (i - r0)) by lia. replace j with (c0 + (j - c0)) by lia.
        rewrite <- HL by lia. rewrite mset_in by lia. unfold everywhere. apply HV; [assumption|lia|lia].
      + rewrite mset_out; [apply R; assumption|]. intros (i' & j' & Hi' & Hj' & _ & E).
        rewrite HL in E by lia. apply LI in E; lia.
    - intros l Hl. apply mset_out. intros (i' & j' & Hi' & Hj' & _ & ->). apply Hl.
      rewrite HL by lia. exists (r0 + i'), (c0 + j'). repeat split; lia.
  Qed.

  Lemma zswap_same : forall w X incx (M : mem V) l, zswap w X incx X incx M l = M l.
  Proof.
    intros w X incx M l. unfold zswap. generalize (zrange 0 w) as idx. intros idx. revert M.
    induction idx as [|i idx IH]; intros M; [reflexivity|]. cbn [fold_left]. rewrite IH.
    destruct (loc_eqb_spec l (at_ X incx 0 i)) as [->|E]; [apply swap_loc_1|apply swap_loc_3; assumption].
  Qed.

  Lemma eff_swap : forall a b c0 w X incx Y incy, 0 <= a < m -> 0 <= b < m -> 0 <= c0 -> 0 <= w -> c0 + w <= n ->
    (forall c, 0 <= c < w -> at_ X incx 0 c = L a (c0 + c)) ->
    (forall c, 0 <= c < w -> at_ Y incy 0 c = L b (c0 + c)) ->
    (a = b -> X = Y /\ incx = incy) ->
    eff (zswap w X incx Y incy) (a_swap a b c0 w).
  Proof.
    intros a b c0 w PX incx PY incy Ha Hb H1 H2 H3 HX HY HE M X R. destruct (Z.eq_dec a b) as [E|E].
    - destruct (HE E) as [-> ->]. split.
      + intros i j Hi Hj. rewrite zswap_same. unfold a_swap. rewrite <- E, transposed_same.
        rewrite R by assumption. destruct (_ && _); reflexivity.
      + intros l _. apply zswap_same.
    - destruct (@zswap_lines V m w (fun s c => L s (c0 + c))) with (a := a) (b := b) (M := M) (X := PX) (incx := incx)
        (Y := PY) (incy := incy) as [A1 A2]; try assumption.
      { intros s c s' c' Hs Hc Hs' Hc' E'. apply LI in E'; lia. }
      split.
      + intros i j Hi Hj. unfold a_swap. destruct (Z.leb_spec c0 j), (Z.ltb_spec j (c0 + w)); cbn [andb].
        * replace j with (c0 + (j - c0)) by lia. rewrite A1 by lia. apply R; [apply transposed_range|]; lia.
        * rewrite A2; [apply R; assumption|]. intros (s & c & Hs & Hc & E'). apply LI in E'; lia.
        * rewrite A2; [apply R; assumption|]. intros (s & c & Hs & Hc & E'). apply LI in E'; lia.
        * lia.
      + intros l Hl. apply A2. intros (s & c & Hs & Hc & ->). apply Hl. exists s, (c0 + c). repeat split; lia.
  Qed.
End Grid.

Section Kernels.
  Context {F : fields}.
  Add Ring num_ring_grid : (nring F).
  Local Open Scope num_scope.
  Variables (m n : Z) (L : Z -> Z -> loc).
  Hypothesis LI : forall s c s' c', (0 <= s < m -> 0 <= c < n -> 0 <= s' < m -> 0 <= c' < n ->
    L s c = L s' c' -> s = s' /\ c = c')%Z.

  (* C := C - A*B for three blocks of the matrix: rows r0.., r0.., k0.. and columns c0.., k0.., c0.. *)
  Definition a_gemm (r0 h c0 w k0 kb : Z) (X : Z -> Z -> F) (i j : Z) : F :=
    if ablk r0 h c0 w i j
    then X i j + - nsum (fun t => X i t * X t j) k0 (k0 + kb)%Z
    else X i j.

  Lemma eff_gemm : forall r0 h c0 w k0 kb pA lda pB ldb pC ldc,
    (0 <= r0 -> r0 + h <= m -> 0 <= c0 -> c0 + w <= n -> h <= ldc -> 0 <= k0 -> 0 <= kb -> k0 + kb <= m -> k0 + kb <= n ->
    (forall i l, 0 <= i < h -> 0 <= l < kb -> at_ pA lda i l = L (r0 + i) (k0 + l)) ->
    (forall l c, 0 <= l < kb -> 0 <= c < w -> at_ pB ldb l c = L (k0 + l) (c0 + c)) ->
    (forall i c, 0 <= i < h -> 0 <= c < w -> at_ pC ldc i c = L (r0 + i) (c0 + c)) ->
    eff m n L (core_zgemm PlasmaNoTrans PlasmaNoTrans h w kb (nopp n1) pA lda pB ldb n1 pC ldc)
              (a_gemm r0 h c0 w k0 kb))%Z.
  Proof.
    intros r0 h c0 w k0 kb pA lda pB ldb pC ldc H1 H2 H3 H4 H5 H6 H7 H8 H9 HA HB HC.
    unfold a_gemm, core_zgemm.
    apply (eff_block m n L LI pC ldc h w
      (fun M i j => nadd (nmul (nopp n1) (nsum (fun l => nmul (op_rd M PlasmaNoTrans pA lda i l)
                                                         (op_rd M PlasmaNoTrans pB ldb l j)) 0 kb))
                       (nmul n1 (rd M pC ldc i j)))
      (fun X i j => X i j + - nsum (fun t => X i t * X t j) k0 (k0 + kb)%Z)); try assumption.
    intros M X R i c Hi Hc. unfold op_rd. change (PlasmaNoTrans =? PlasmaNoTrans)%Z with true. cbv iota. unfold rd.
    rewrite HC by assumption. rewrite R by lia.
    rewrite (nsum_ext F _ (fun l => X (r0 + i)%Z (k0 + l)%Z * X (k0 + l)%Z (c0 + c)%Z)).
    - pose proof (nsum_shift F (fun t => X (r0 + i)%Z t * X t (c0 + c)%Z) k0 0 kb) as E.
      replace (0 + k0)%Z with k0 in E by lia. replace (kb + k0)%Z with (k0 + kb)%Z in E by lia. rewrite E.
      rewrite (nsum_ext F (fun t => X (r0 + i)%Z (t + k0)%Z * X (t + k0)%Z (c0 + c)%Z)
                 (fun l => X (r0 + i)%Z (k0 + l)%Z * X (k0 + l)%Z (c0 + c)%Z)); [ring|].
      intros l _. replace (l + k0)%Z with (k0 + l)%Z by lia. reflexivity.
    - intros l Hl. rewrite HA, HB by lia. rewrite !R by lia. reflexivity.
  Qed.

  (* the triangular solve with the unit lower triangle of rows and columns k0, ..., k0+kb-1 *)
  Definition a_trsm (k0 kb c0 w : Z) (X : Z -> Z -> F) (i j : Z) : F :=
    if ablk k0 kb c0 w i j
    then solve_along (fun r l => if (r =? l)%Z then n1 else if (l <=? r)%Z then X (k0 + r)%Z (k0 + l)%Z else n0) []
           (zrange 0 kb) (fun r => n1 * X (k0 + r)%Z j) (i - k0)%Z
    else X i j.

  Lemma eff_trsm : forall k0 kb c0 w pA lda pB ldb,
    (0 <= k0 -> 0 <= kb -> k0 + kb <= m -> k0 + kb <= n -> 0 <= c0 -> c0 + w <= n -> kb <= ldb ->
    (forall i l, 0 <= i < kb -> 0 <= l < kb -> at_ pA lda i l = L (k0 + i) (k0 + l)) ->
    (forall l c, 0 <= l < kb -> 0 <= c < w -> at_ pB ldb l c = L (k0 + l) (c0 + c)) ->
    eff m n L (core_ztrsm PlasmaLeft PlasmaLower PlasmaNoTrans PlasmaUnit kb w n1 pA lda pB ldb)
              (a_trsm k0 kb c0 w))%Z.
  Proof.
    intros k0 kb c0 w pA lda pB ldb H1 H2 H3 H4 H5 H6 H7 HA HB. unfold a_trsm, core_ztrsm.
    apply (eff_block m n L LI pB ldb kb w
      (fun M i j =>
        if (PlasmaLeft =? PlasmaLeft)%Z
        then solve_along (fun r l => op_tri M PlasmaNoTrans PlasmaLower PlasmaUnit pA lda r l) []
               (if op_up PlasmaLower PlasmaNoTrans then zdown kb else zrange 0 kb)
               (fun r => nmul n1 (rd M pB ldb r j)) i
        else solve_along (fun r l => op_tri M PlasmaNoTrans PlasmaLower PlasmaUnit pA lda l r) []
               (if op_up PlasmaLower PlasmaNoTrans then zrange 0 w else zdown w)
               (fun r => nmul n1 (rd M pB ldb i r)) j)
      (fun X i j =>
        solve_along (fun r l => if (r =? l)%Z then n1 else if (l <=? r)%Z then X (k0 + r)%Z (k0 + l)%Z else n0) []
           (zrange 0 kb) (fun r => n1 * X (k0 + r)%Z j) (i - k0)%Z)); try assumption.
    intros M X R i c Hi Hc. change (PlasmaLeft =? PlasmaLeft)%Z with true. cbv iota.
    change (op_up PlasmaLower PlasmaNoTrans) with false. cbv iota.
    replace (k0 + i - k0)%Z with i by lia. apply solve_ext.
    - intros r l Hr Hl. cbn [app] in Hl. apply in_zrange in Hr. apply in_zrange in Hl.
      unfold op_tri, tri_rd. change (PlasmaNoTrans =? PlasmaNoTrans)%Z with true.
      change (PlasmaUnit =? PlasmaUnit)%Z with true. cbn [andb]. destruct (r =? l)%Z; [reflexivity|].
      unfold uplo_sel. change (PlasmaLower =? PlasmaUpper)%Z with false. change (PlasmaLower =? PlasmaLower)%Z with true.
      cbv iota. destruct (l <=? r)%Z; [|reflexivity]. unfold rd. rewrite HA by lia. apply R; lia.
    - intros r Hr. cbn [app] in Hr. apply in_zrange in Hr. unfold rd. rewrite HB by lia. rewrite R by lia. reflexivity.
    - cbn [app]. apply in_zrange. assumption.
  Qed.

  Lemma trivial_field : (n1 : F) = n0 -> forall x y : F, x = y.
  Proof. intros E x y. transitivity (n1 * x); [ring|]. rewrite E. transitivity ((n0 : F) * y); [ring|]. rewrite <- E. ring. Qed.

  (* what the triangular solve computes *)
  Lemma a_trsm_spec : forall k0 kb c0 w (X : Z -> Z -> F) i j, (0 <= kb)%Z -> (k0 <= i < k0 + kb)%Z -> (c0 <= j < c0 + w)%Z ->
    X i j = nsum (fun t => X i t * a_trsm k0 kb c0 w X t j) k0 i + a_trsm k0 kb c0 w X i j.
  Proof.
    intros k0 kb c0 w X i j Hk Hi Hj.
    destruct (neqb (n1 : F) n0) eqn:D.
    { apply trivial_field. apply neqb_eq. assumption. }
    assert (D1 : (n1 : F) <> n0) by (intros E; apply neqb_eq in E; congruence).
    set (T := fun r l : Z => if (r =? l)%Z then (n1 : F) else if (l <=? r)%Z then X (k0 + r)%Z (k0 + l)%Z else n0).
    set (y := solve_along T [] (zrange 0 kb) (fun r => n1 * X (k0 + r)%Z j)).
    assert (E : forall t, (k0 <= t < k0 + kb)%Z -> a_trsm k0 kb c0 w X t j = y (t - k0)%Z).
    { intros t Ht. unfold a_trsm. destruct (ablk_spec k0 kb c0 w t j) as [_|B]; [reflexivity|lia]. }
    rewrite (E i) by lia.
    rewrite (nsum_ext F _ (fun t => X i t * y (t - k0)%Z)) by (intros t Ht; rewrite E by lia; reflexivity).
    assert (S : nsum (fun l => T (i - k0)%Z l * y l) 0 kb = n1 * X (k0 + (i - k0))%Z j).
    { apply (solve_lower T kb (fun r => n1 * X (k0 + r)%Z j) (i - k0)%Z).
      - intros r Hr. unfold T. rewrite Z.eqb_refl. assumption.
      - intros r l Hr Hl. unfold T. destruct (Z.eqb_spec r l); [lia|]. destruct (Z.leb_spec l r); [lia|reflexivity].
      - lia. }
    replace (k0 + (i - k0))%Z with i in S by lia.
    transitivity (n1 * X i j); [ring|]. rewrite <- S.
    rewrite (nsum_app F _ 0 (i - k0)%Z kb) by lia.
    rewrite (nsum_app F _ (i - k0)%Z (i - k0 + 1)%Z kb) by lia.
    rewrite nsum_one.
    rewrite (nsum_ext F (fun l => T (i - k0)%Z l * y l) (fun l => X i (k0 + l)%Z * y l) 0 (i - k0)%Z).
    2:{ intros l Hl. unfold T. destruct (Z.eqb_spec (i - k0) l); [lia|]. destruct (Z.leb_spec l (i - k0)); [|lia].
        replace (k0 + (i - k0))%Z with i by lia. reflexivity. }
    rewrite (nsum_0 F (fun l => T (i - k0)%Z l * y l) (i - k0 + 1)%Z kb).
    2:{ intros l Hl. unfold T. destruct (Z.eqb_spec (i - k0) l); [lia|]. destruct (Z.leb_spec l (i - k0)); [lia|]. ring. }
    replace (T (i - k0)%Z (i - k0)%Z) with (n1 : F) by (unfold T; rewrite Z.eqb_refl; reflexivity).
    replace (nsum (fun t => X i t * y (t - k0)%Z) k0 i) with (nsum (fun l => X i (k0 + l)%Z * y l) 0 (i - k0)%Z); [ring|].
    pose proof (nsum_shift F (fun t => X i t * y (t - k0)%Z) k0 0 (i - k0)%Z) as Es.
    replace (0 + k0)%Z with k0 in Es by lia. replace (i - k0 + k0)%Z with i in Es by lia. rewrite Es.
    apply nsum_ext. intros l _. replace (l + k0)%Z with (k0 + l)%Z by lia. replace (k0 + l - k0)%Z with l by lia. reflexivity.
  Qed.
End Kernels.
