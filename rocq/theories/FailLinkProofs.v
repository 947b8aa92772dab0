(* The tasks of two triangular solves wait for the factorization of every diagonal tile, and what
   copies a tile of the solution back waits for them. *)
From Coq Require Import ZArith List Bool Lia.
From Verif Require Import Base NumModel NumProofs FieldModel TaskModel TaskSpec TaskProofs DescModel DescProofs MatModel
  LayoutModel GuardModel GuardSpec TriModel TriSpec PotrfModel BandModel PosvModel PbtrsModel DriverSpec GesvLiftProofs.
Import ListNotations.
Open Scope Z_scope.

Section March.
  Context {V : Type}.

  (* a task somewhere in the rest of the list *)
  Lemma linked_then : forall (x t y : ktask V) l r, linked x l t -> In t r -> deps_order (k_deps t) (k_deps y) ->
    linked x (l ++ r) y.
  Proof.
    intros x t y l r H1 HI H2. apply in_split in HI. destruct HI as (p & q & ->).
    apply (linked_sub V x (l ++ t :: q) y).
    - apply ln_trans; [assumption|]. apply ln_direct. assumption.
    - apply sub_app; [apply sub_refl|]. apply sub_pre.
  Qed.

  (* a chain through consecutive blocks, each with two tasks of the chain *)
  Lemma march : forall (T G : Z -> ktask V) (g : Z -> list (ktask V)) x L0 k last,
    0 <= k -> linked x (L0 ++ flat_map g (zrange 0 k)) (T k) ->
    (forall j, k <= j < last -> exists p q, g j = p ++ q /\ In (T j) p /\ In (G j) q) ->
    (forall j, k <= j < last -> deps_order (k_deps (T j)) (k_deps (G j))) ->
    (forall j, k <= j < last -> deps_order (k_deps (G j)) (k_deps (T (j + 1)))) ->
    forall r, k <= r <= last -> linked x (L0 ++ flat_map g (zrange 0 r)) (T r).
  Proof.
    intros T G g x L0 k last Hk HB HI H1 H2 r. pattern r. revert r.
    apply (zrange_ind_hi _ k).
    - intros r Hr [Hr' _]. replace r with k by lia. assumption.
    - intros r Hr IH Hl. destruct (HI r ltac:(lia)) as (p & q & E & I1 & I2).
      rewrite zrange_snoc, flat_map_app by lia. cbn [flat_map]. rewrite app_nil_r, E, !app_assoc.
      apply (linked_then x (G r)); [|assumption|apply H2; lia].
      apply (linked_then x (T r)); [|assumption|apply H1; lia]. apply IH. lia.
  Qed.
End March.

(* the tasks of a column of tiles of B *)
Section Column.
  Context {V : Type}.
  Variables (bB : Z) (B : desc) (n : Z).
  Definition has (t : ktask V) (r : Z) : Prop := In (dep_inout (tptr bB B r n)) (k_deps t).
  Definition uses (t : ktask V) (r : Z) : Prop := In (dep_in (tptr bB B r n)) (k_deps t).

  Lemma has_has : forall t u r, has t r -> has u r -> deps_order (k_deps t) (k_deps u).
  Proof. intros t u r H1 H2. exists (dep_inout (tptr bB B r n)), (dep_inout (tptr bB B r n)). repeat split; auto. intros [E _]. discriminate E. Qed.
  Lemma has_uses : forall t u r, has t r -> uses u r -> deps_order (k_deps t) (k_deps u).
  Proof. intros t u r H1 H2. exists (dep_inout (tptr bB B r n)), (dep_in (tptr bB B r n)). repeat split; auto. intros [E _]. discriminate E. Qed.

  Variable mt : Z.
  Variables (T G T' G' : Z -> ktask V) (g h : Z -> list (ktask V)) (x : ktask V).
  Hypothesis HT : forall r, 0 <= r < mt -> has (T r) r.
  Hypothesis HG : forall r, 0 <= r -> r + 1 < mt -> uses (G r) r /\ has (G r) (r + 1).
  Hypothesis Hg : forall r, 0 <= r -> r + 1 < mt -> exists p q, g r = p ++ q /\ In (T r) p /\ In (G r) q.
  Hypothesis Hlast : In (T (mt - 1)) (g (mt - 1)).
  Hypothesis HT' : forall j, 0 <= j < mt -> has (T' j) (mt - 1 - j).

  (* every row of the forward solve is waited for by the last one *)
  Lemma forward_linked : forall k y, 0 <= k < mt -> deps_order (k_deps x) (k_deps (T k)) ->
    deps_order (k_deps (T (mt - 1))) (k_deps y) -> linked x (flat_map g (zrange 0 mt)) y.
  Proof.
    intros k y Hk HX HY.
    assert (L : linked x ([] ++ flat_map g (zrange 0 (mt - 1))) (T (mt - 1))).
    { apply (march T G g x [] k (mt - 1)); try lia.
      - apply ln_direct. assumption.
      - intros j Hj. apply Hg; lia.
      - intros j Hj. apply (has_uses _ _ j); [apply HT|apply HG]; lia.
      - intros j Hj. apply (has_has _ _ (j + 1)); [apply HG|apply HT]; lia. }
    replace mt with (mt - 1 + 1) at 1 by lia. rewrite zrange_snoc, flat_map_app by lia. cbn [flat_map]. rewrite app_nil_r.
    apply (linked_then x (T (mt - 1))); assumption.
  Qed.

  Lemma in_block : forall (t : ktask V) j, 0 <= j < mt -> In t (h j) -> exists r, flat_map h (zrange 0 mt) = flat_map h (zrange 0 j) ++ r /\ In t r.
  Proof.
    intros t j Hj HI. exists (flat_map h (zrange j mt)). split.
    - rewrite <- flat_map_app, <- zrange_app by lia. reflexivity.
    - apply in_flat_map. exists j. split; [apply in_zrange; lia|assumption].
  Qed.

  (* backward solve that updates the rows above as soon as a row is known *)
  Lemma backward_linked : forall L0 y j, 0 <= j < mt -> linked x L0 (T' 0) ->
    (forall i, 0 <= i -> i + 1 < mt -> uses (G' i) (mt - 1 - i) /\ has (G' i) (mt - 1 - i - 1)) ->
    (forall i, 0 <= i -> i + 1 < mt -> exists p q, h i = p ++ q /\ In (T' i) p /\ In (G' i) q) ->
    In (T' j) (h j) -> deps_order (k_deps (T' j)) (k_deps y) -> linked x (L0 ++ flat_map h (zrange 0 mt)) y.
  Proof.
    intros L0 y j Hj HB HG' Hh HI HY.
    assert (L : linked x (L0 ++ flat_map h (zrange 0 j)) (T' j)).
    { apply (march T' G' h x L0 0 j); try lia.
      - change (flat_map h (zrange 0 0)) with (@nil (ktask V)). rewrite app_nil_r. assumption.
      - intros i Hi. apply Hh; lia.
      - intros i Hi. apply (has_uses _ _ (mt - 1 - i)); [apply HT'|apply HG']; lia.
      - intros i Hi. apply (has_has _ _ (mt - 1 - i - 1)); [apply HG'; lia|].
        replace (mt - 1 - i - 1) with (mt - 1 - (i + 1)) by lia. apply HT'. lia. }
    destruct (in_block (T' j) j Hj HI) as (r & -> & HI2). rewrite app_assoc. apply (linked_then x (T' j)); assumption.
  Qed.

  (* backward solve that updates a row from the rows below before it is solved *)
  Lemma backward_linked2 : forall L0 y j, 0 <= j < mt -> linked x L0 (T' 0) ->
    (forall i, 0 < i < mt -> uses (G' i) (mt - 1 - i + 1) /\ has (G' i) (mt - 1 - i)) ->
    (forall i, 0 < i < mt -> exists p q, h i = p ++ q /\ In (G' i) p /\ In (T' i) q) ->
    In (T' 0) (h 0) -> In (T' j) (h j) -> deps_order (k_deps (T' j)) (k_deps y) -> linked x (L0 ++ flat_map h (zrange 0 mt)) y.
  Proof.
    intros L0 y j Hj HB HG' Hh HI0 HI HY.
    destruct (in_block (T' j) j Hj HI) as (r & E & HI2).
    destruct (Z.eq_dec j 0) as [->|N0].
    { apply (linked_then x (T' 0)); [assumption| |assumption]. rewrite E. apply in_or_app. right. assumption. }
    assert (L : linked x (L0 ++ flat_map h (zrange 0 j)) (G' j)).
    { apply (march G' T' h x L0 1 j); try lia.
      - change (flat_map h (zrange 0 1)) with (h 0 ++ []). rewrite app_nil_r.
        apply (linked_then x (T' 0)); [assumption|assumption|].
        apply (has_uses _ _ (mt - 1)); [replace (mt - 1) with (mt - 1 - 0) by lia; apply HT'; lia|].
        replace (mt - 1) with (mt - 1 - 1 + 1) by lia. apply HG'. lia.
      - intros i Hi. apply Hh; lia.
      - intros i Hi. apply (has_has _ _ (mt - 1 - i)); [apply HG'|apply HT']; lia.
      - intros i Hi. apply (has_uses _ _ (mt - 1 - i)); [apply HT'; lia|].
        replace (mt - 1 - i) with (mt - 1 - (i + 1) + 1) by lia. apply HG'. lia. }
    destruct (Hh j ltac:(lia)) as (p & q & EH & I1 & I2).
    replace (flat_map h (zrange 0 mt)) with (flat_map h (zrange 0 j) ++ p ++ q ++ flat_map h (zrange (j + 1) mt)).
    - rewrite !app_assoc. rewrite <- (app_assoc _ q). apply (linked_then x (T' j)); [|apply in_or_app; left; assumption|assumption].
      apply (linked_then x (G' j)); [assumption|assumption|]. apply (has_has _ _ (mt - 1 - j)); [apply HG'; lia|apply HT'; lia].
    - rewrite (zrange_app 0 j mt), flat_map_app by lia. rewrite (zrange_cons j mt) by lia. cbn [flat_map]. rewrite EH, <- app_assoc. reflexivity.
  Qed.
End Column.

Section Solves.
  Context {F : fields}.
  Variables (bA : Z) (A : desc) (bB : Z) (B : desc).

  (* the diagonal solve of row r and the update of row m with row r *)
  Definition ts (uplo trans n : Z) (r : Z) : ktask F :=
    omp_ztrsm PlasmaLeft uplo trans PlasmaNonUnit (tile_mview B r) (tile_nview B n) n1
      (tptr bA A r r) (tile_mmain A r) (tptr bB B r n) (tile_mmain B r).

  Lemma ts_has : forall uplo trans n r, has bB B n (ts uplo trans n r) r.
  Proof. intros. right. left. reflexivity. Qed.

  Lemma if_same : forall (c : bool) (v : F), (if c then v else v) = v.
  Proof. intros [|] v; reflexivity. Qed.

  Ltac pick n := match goal with |- In _ (map _ _) => apply in_map_iff; exists n; split; [unfold ts; rewrite ?if_same; reflexivity|apply in_zrange; lia] end.

  Lemma two_solves_linked : forall uplo (x y : ktask F) k m n, valid_uplo uplo -> 0 <= k < d_mt B -> 0 <= m < d_mt B -> 0 <= n < d_nt B ->
    In (dep_inout (tptr bA A k k)) (k_deps x) -> uses bB B n y m -> linked x (two_solves (F := F) uplo bA A bB B) y.
  Proof.
    intros uplo x y k m n Hu Hk Hm Hn HX HY.
    assert (XT : forall u t, deps_order (k_deps x) (k_deps (ts u t n k))).
    { intros u t. exists (dep_inout (tptr bA A k k)), (dep_in (tptr bA A k k)). split; [assumption|]. split; [left; reflexivity|].
      split; [reflexivity|]. intros [E _]. discriminate E. }
    unfold two_solves, pztrsm. destruct Hu as [->| ->].
    - change (PlasmaLeft =? PlasmaLeft) with true. change (PlasmaUpper =? PlasmaUpper) with true.
      change (PlasmaConjTrans =? PlasmaNoTrans) with false. change (PlasmaNoTrans =? PlasmaNoTrans) with true. cbv iota.
      apply (backward_linked bB B n (d_mt B) (fun j => ts PlasmaUpper PlasmaNoTrans n (d_mt B - j - 1))
        (fun j => omp_zgemm PlasmaNoTrans PlasmaNoTrans (d_mb B) (tile_nview B n) (tile_mview B (d_mt B - j - 1)) (nopp n1)
               (tptr bA A (d_mt B - 1 - (j + 1)) (d_mt B - j - 1)) (tile_mmain A (d_mt B - 1 - (j + 1)))
               (tptr bB B (d_mt B - j - 1) n) (tile_mmain B (d_mt B - j - 1))
               n1 (tptr bB B (d_mt B - 1 - (j + 1)) n) (tile_mmain B (d_mt B - 1 - (j + 1))))) with (j := d_mt B - 1 - m); [| lia | | | | |].
      + intros j Hj. replace (d_mt B - 1 - j) with (d_mt B - j - 1) by lia. apply ts_has.
      + apply (forward_linked bB B n (d_mt B) (ts PlasmaUpper PlasmaConjTrans n)
          (fun r => omp_zgemm PlasmaConjTrans PlasmaNoTrans (tile_mview B (r + 1)) (tile_nview B n) (d_mb B) (nopp n1)
               (tptr bA A r (r + 1)) (tile_mmain A r) (tptr bB B r n) (tile_mmain B r)
               n1 (tptr bB B (r + 1) n) (tile_mmain B (r + 1)))) with (k := k); auto.
        * intros r Hr. apply ts_has.
        * intros r Hr Hr'. split; [right; left; reflexivity|right; right; left; reflexivity].
        * intros r Hr Hr'. do 2 eexists. split; [reflexivity|]. split; [pick n|].
          apply in_flat_map. exists (r + 1). split; [apply in_zrange; lia|pick n].
        * apply in_or_app. left. pick n.
        * apply (has_has bB B n _ _ (d_mt B - 1)); [apply ts_has|]. replace (d_mt B - 0 - 1) with (d_mt B - 1) by lia. apply ts_has.
      + intros j Hj Hj'. replace (d_mt B - 1 - j - 1) with (d_mt B - 1 - (j + 1)) by lia.
        replace (d_mt B - 1 - j) with (d_mt B - j - 1) by lia.
        split; [right; left; reflexivity|right; right; left; reflexivity].
      + intros j Hj Hj'. do 2 eexists. split; [reflexivity|]. split; [pick n|].
        apply in_flat_map. exists (j + 1). split; [apply in_zrange; lia|pick n].
      + apply in_or_app. left. pick n.
      + apply (has_uses bB B n _ _ m); [|assumption]. replace (d_mt B - (d_mt B - 1 - m) - 1) with m by lia. apply ts_has.
    - change (PlasmaLeft =? PlasmaLeft) with true. change (PlasmaLower =? PlasmaUpper) with false.
      change (PlasmaConjTrans =? PlasmaNoTrans) with false. change (PlasmaNoTrans =? PlasmaNoTrans) with true. cbv iota.
      apply (backward_linked bB B n (d_mt B) (fun j => ts PlasmaLower PlasmaConjTrans n (d_mt B - j - 1))
        (fun j => omp_zgemm PlasmaConjTrans PlasmaNoTrans (d_mb B) (tile_nview B n) (tile_mview B (d_mt B - j - 1)) (nopp n1)
               (tptr bA A (d_mt B - j - 1) (d_mt B - 1 - (j + 1))) (tile_mmain A (d_mt B - j - 1))
               (tptr bB B (d_mt B - j - 1) n) (tile_mmain B (d_mt B - j - 1))
               n1 (tptr bB B (d_mt B - 1 - (j + 1)) n) (tile_mmain B (d_mt B - 1 - (j + 1))))) with (j := d_mt B - 1 - m); [| lia | | | | |].
      + intros j Hj. replace (d_mt B - 1 - j) with (d_mt B - j - 1) by lia. apply ts_has.
      + apply (forward_linked bB B n (d_mt B) (ts PlasmaLower PlasmaNoTrans n)
          (fun r => omp_zgemm PlasmaNoTrans PlasmaNoTrans (tile_mview B (r + 1)) (tile_nview B n) (d_mb B) (nopp n1)
               (tptr bA A (r + 1) r) (tile_mmain A (r + 1)) (tptr bB B r n) (tile_mmain B r)
               n1 (tptr bB B (r + 1) n) (tile_mmain B (r + 1)))) with (k := k); auto.
        * intros r Hr. apply ts_has.
        * intros r Hr Hr'. split; [right; left; reflexivity|right; right; left; reflexivity].
        * intros r Hr Hr'. do 2 eexists. split; [reflexivity|]. split; [pick n|].
          apply in_flat_map. exists (r + 1). split; [apply in_zrange; lia|pick n].
        * apply in_or_app. left. pick n.
        * apply (has_has bB B n _ _ (d_mt B - 1)); [apply ts_has|]. replace (d_mt B - 0 - 1) with (d_mt B - 1) by lia. apply ts_has.
      + intros j Hj Hj'. replace (d_mt B - 1 - j - 1) with (d_mt B - 1 - (j + 1)) by lia.
        replace (d_mt B - 1 - j) with (d_mt B - j - 1) by lia.
        split; [right; left; reflexivity|right; right; left; reflexivity].
      + intros j Hj Hj'. do 2 eexists. split; [reflexivity|]. split; [pick n|].
        apply in_flat_map. exists (j + 1). split; [apply in_zrange; lia|pick n].
      + apply in_or_app. left. pick n.
      + apply (has_uses bB B n _ _ m); [|assumption]. replace (d_mt B - (d_mt B - 1 - m) - 1) with m by lia. apply ts_has.
  Qed.

  Lemma two_band_solves_linked : forall uplo (x y : ktask F) k m n, valid_uplo uplo -> 0 <= k < d_mt B -> 0 <= m < d_mt B -> 0 <= n < d_nt B ->
    d_mt A = d_mt B -> 1 < (if uplo =? PlasmaUpper then d_kut A else d_klt A) ->
    In (dep_inout (tptr bA A k k)) (k_deps x) -> uses bB B n y m -> linked x (two_band_solves (F := F) uplo bA A bB B) y.
  Proof.
    intros uplo x y k m n Hu Hk Hm Hn EM HW HX HY.
    assert (XT : forall u t, deps_order (k_deps x) (k_deps (ts u t n k))).
    { intros u t. exists (dep_inout (tptr bA A k k)), (dep_in (tptr bA A k k)). split; [assumption|]. split; [left; reflexivity|].
      split; [reflexivity|]. intros [E _]. discriminate E. }
    unfold two_band_solves, pztbsm. rewrite EM. destruct Hu as [->| ->].
    - change (PlasmaLeft =? PlasmaLeft) with true. change (PlasmaUpper =? PlasmaUpper) with true in *.
      change (PlasmaConjTrans =? PlasmaNoTrans) with false. change (PlasmaNoTrans =? PlasmaNoTrans) with true. cbv iota in *.
      apply (backward_linked bB B n (d_mt B) (fun j => ts PlasmaUpper PlasmaNoTrans n (d_mt B - j - 1))
        (fun j => omp_zgemm PlasmaNoTrans PlasmaNoTrans (d_mb B) (tile_nview B n) (tile_mview B (d_mt B - j - 1)) (nopp n1)
               (tptr bA A (d_mt B - 1 - (j + 1)) (d_mt B - j - 1)) (tile_mmain A (d_mt B - 1 - (j + 1)))
               (tptr bB B (d_mt B - j - 1) n) (tile_mmain B (d_mt B - j - 1))
               n1 (tptr bB B (d_mt B - 1 - (j + 1)) n) (tile_mmain B (d_mt B - 1 - (j + 1))))) with (j := d_mt B - 1 - m); [| lia | | | | |].
      + intros j Hj. replace (d_mt B - 1 - j) with (d_mt B - j - 1) by lia. apply ts_has.
      + apply (forward_linked bB B n (d_mt B) (ts PlasmaUpper PlasmaConjTrans n)
          (fun r => omp_zgemm PlasmaConjTrans PlasmaNoTrans (tile_mview B (r + 1)) (tile_nview B n) (d_mb B) (nopp n1)
               (tptr bA A r (r + 1)) (tile_mmain A r) (tptr bB B r n) (tile_mmain B r)
               n1 (tptr bB B (r + 1) n) (tile_mmain B (r + 1)))) with (k := k); auto.
        * intros r Hr. apply ts_has.
        * intros r Hr Hr'. split; [right; left; reflexivity|right; right; left; reflexivity].
        * intros r Hr Hr'. do 2 eexists. split; [reflexivity|]. split; [pick n|].
          apply in_flat_map. exists (r + 1). split; [apply in_zrange; lia|pick n].
        * apply in_or_app. left. pick n.
        * apply (has_has bB B n _ _ (d_mt B - 1)); [apply ts_has|]. replace (d_mt B - 0 - 1) with (d_mt B - 1) by lia. apply ts_has.
      + intros j Hj Hj'. replace (d_mt B - 1 - j - 1) with (d_mt B - 1 - (j + 1)) by lia.
        replace (d_mt B - 1 - j) with (d_mt B - j - 1) by lia.
        split; [right; left; reflexivity|right; right; left; reflexivity].
      + intros j Hj Hj'. do 2 eexists. split; [reflexivity|]. split; [pick n|].
        apply in_flat_map. exists (d_mt B - 1 - (j + 1)). split; [apply in_zrange; lia|pick n].
      + apply in_or_app. left. pick n.
      + apply (has_uses bB B n _ _ m); [|assumption]. replace (d_mt B - (d_mt B - 1 - m) - 1) with m by lia. apply ts_has.
    - change (PlasmaLeft =? PlasmaLeft) with true. change (PlasmaLower =? PlasmaUpper) with false in *.
      change (PlasmaConjTrans =? PlasmaNoTrans) with false. change (PlasmaNoTrans =? PlasmaNoTrans) with true. cbv iota in *.
      apply (backward_linked2 bB B n (d_mt B) (fun j => ts PlasmaLower PlasmaConjTrans n (d_mt B - j - 1))
        (fun j => omp_zgemm PlasmaConjTrans PlasmaNoTrans (tile_mview B (d_mt B - j - 1)) (tile_nview B n) (tile_mview B (d_mt B - j - 1 + 1)) (nopp n1)
               (tptr bA A (d_mt B - j - 1 + 1) (d_mt B - j - 1)) (tile_mmain A (d_mt B - j - 1 + 1))
               (tptr bB B (d_mt B - j - 1 + 1) n) (tile_mmain B (d_mt B - j - 1 + 1))
               n1 (tptr bB B (d_mt B - j - 1) n) (tile_mmain B (d_mt B - j - 1)))) with (j := d_mt B - 1 - m); [| lia | | | | | |].
      + intros j Hj. replace (d_mt B - 1 - j) with (d_mt B - j - 1) by lia. apply ts_has.
      + apply (forward_linked bB B n (d_mt B) (ts PlasmaLower PlasmaNoTrans n)
          (fun r => omp_zgemm PlasmaNoTrans PlasmaNoTrans (tile_mview B (r + 1)) (tile_nview B n) (d_mb B) (nopp n1)
               (tptr bA A (r + 1) r) (tile_mmain A (r + 1)) (tptr bB B r n) (tile_mmain B r)
               n1 (tptr bB B (r + 1) n) (tile_mmain B (r + 1)))) with (k := k); auto.
        * intros r Hr. apply ts_has.
        * intros r Hr Hr'. split; [right; left; reflexivity|right; right; left; reflexivity].
        * intros r Hr Hr'. do 2 eexists. split; [reflexivity|]. split; [pick n|].
          apply in_flat_map. exists (r + 1). split; [apply in_zrange; lia|pick n].
        * apply in_or_app. left. pick n.
        * apply (has_has bB B n _ _ (d_mt B - 1)); [apply ts_has|]. replace (d_mt B - 0 - 1) with (d_mt B - 1) by lia. apply ts_has.
      + intros j Hj. replace (d_mt B - 1 - j) with (d_mt B - j - 1) by lia.
        split; [right; left; reflexivity|right; right; left; reflexivity].
      + intros j Hj. do 2 eexists. split; [reflexivity|]. split; [|pick n].
        apply in_flat_map. exists (d_mt B - j - 1 + 1). split; [apply in_zrange; lia|pick n].
      + apply in_or_app. right. pick n.
      + apply in_or_app. right. pick n.
      + apply (has_uses bB B n _ _ m); [|assumption]. replace (d_mt B - (d_mt B - 1 - m) - 1) with m by lia. apply ts_has.
  Qed.
End Solves.
