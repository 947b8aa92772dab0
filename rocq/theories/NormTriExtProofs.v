(* The kernels on a tile look at the tile only; magnitudes of a matrix, tile by tile. *)
From Coq Require Import ZArith List Bool Lia Ring.
From Verif Require Import Base NumModel NumProofs FieldModel TaskModel TaskSpec TaskProofs DescModel DescSpec
  DescProofs DescProofs4 DescDriverModel MatModel MatSpec MatProofs RegionProofs LayoutModel LayoutProofs LayoutProofs2 DriverModel DriverSpec SimProofs OpProofs OperandProofs GemmProofs
  NormModel NormTriModel NormSpec FillProofs NormProofs NormDriverProofs NormTriProofs NormTriProofs2.
Import ListNotations.
Open Scope Z_scope.

Section Ext.
  Context {N : normed}.
  Add Ring num_ring_te : (nring N).

  Lemma gs_ext : forall dg uplo n (F F' : Z -> Z -> N) i j, agree n n F F' -> 0 <= i < n -> 0 <= j < n ->
    gs dg uplo F i j = gs dg uplo F' i j.
  Proof. intros dg uplo n F F' i j H Hi Hj. unfold gs. rewrite (H i j), (H j i) by assumption. reflexivity. Qed.
  Lemma gt_ext : forall uplo diag m n (F F' : Z -> Z -> N) i j, agree m n F F' -> 0 <= i < m -> 0 <= j < n ->
    gt uplo diag F i j = gt uplo diag F' i j.
  Proof. intros uplo diag m n F F' i j H Hi Hj. unfold gt. rewrite (H i j) by assumption. reflexivity. Qed.

  Lemma lansy_max_ext : forall dg uplo n (F F' : Z -> Z -> N), agree n n F F' -> lansy_max dg uplo n F = lansy_max dg uplo n F'.
  Proof.
    intros dg uplo n F F' H. unfold lansy_max. apply fold_left_ext_in. intros j v Hj. apply in_zrange in Hj.
    apply fold_left_ext_in. intros i u Hi. apply (tri_list_in uplo i j n Hj) in Hi. rewrite (H i j) by tauto. reflexivity.
  Qed.
  Lemma lansy_aux_ext : forall dg uplo n (F F' : Z -> Z -> N) k, agree n n F F' -> 0 <= k < n ->
    lansy_aux dg uplo n F k = lansy_aux dg uplo n F' k.
  Proof.
    intros dg uplo n F F' k H Hk. rewrite !lansy_aux_sum by assumption. apply nsum_ext. intros i Hi.
    apply (gs_ext dg uplo n); assumption.
  Qed.
  Lemma syssq_ext : forall lassq dg uplo n (F F' : Z -> Z -> N), agree n n F F' -> syssq lassq dg uplo n F = syssq lassq dg uplo n F'.
  Proof.
    intros lassq dg uplo n F F' H. unfold syssq. 
    assert (E : forall s, fold_left (fun s i => ssq s (dg (F i i))) (zrange 0 n) s
      = fold_left (fun s i => ssq s (dg (F' i i))) (zrange 0 n) s).
    { intros s. apply fold_left_ext_in. intros i u Hi. apply in_zrange in Hi. rewrite (H i i) by lia. reflexivity. }
    rewrite E. f_equal. f_equal. destruct (uplo =? PlasmaUpper).
    - apply fold_left_ext_in. intros j s Hj. apply in_zrange in Hj. apply f_equal2; [|reflexivity].
      apply map_ext_in. intros i Hi. apply in_zrange in Hi. apply H; lia.
    - apply fold_left_ext_in. intros j s Hj. apply in_zrange in Hj. apply f_equal2; [|reflexivity].
      apply map_ext_in. intros i Hi. apply in_zrange in Hi. apply H; lia.
  Qed.
  Lemma lantr_max_ext : forall uplo diag m n (F F' : Z -> Z -> N), agree m n F F' ->
    lantr_max uplo diag m n F = lantr_max uplo diag m n F'.
  Proof.
    intros uplo diag m n F F' H. unfold lantr_max. apply fold_left_ext_in. intros j v Hj. apply in_zrange in Hj.
    apply fold_left_ext_in. intros i u Hi. rewrite (H i j); [reflexivity| |lia].
    destruct (diag =? PlasmaUnit), (uplo =? PlasmaUpper); apply in_zrange in Hi; lia.
  Qed.
  Lemma lantr_one_ext : forall uplo diag m n (F F' : Z -> Z -> N) j, valid_diag diag -> 0 < m -> agree m n F F' -> 0 <= j < n ->
    lantr_one uplo diag m n F j = lantr_one uplo diag m n F' j.
  Proof.
    intros uplo diag m n F F' j HD Hm H Hj. rewrite !lantr_one_sum by assumption. apply nsum_ext. intros i Hi.
    apply (gt_ext uplo diag m n); assumption.
  Qed.
  Lemma lantr_inf_ext : forall uplo diag m n (F F' : Z -> Z -> N) i, valid_diag diag -> 0 < n -> agree m n F F' -> 0 <= i < m ->
    lantr_inf uplo diag m n F i = lantr_inf uplo diag m n F' i.
  Proof.
    intros uplo diag m n F F' i HD Hn H Hi. rewrite !lantr_inf_sum by assumption. apply nsum_ext. intros j Hj.
    apply (gt_ext uplo diag m n); assumption.
  Qed.
  Lemma ssq_fold_ext : forall (F F' : Z -> N) a b s, (forall i, a <= i < b -> F i = F' i) ->
    fold_left (fun s i => ssq s (nabs (F i))) (zrange a b) s = fold_left (fun s i => ssq s (nabs (F' i))) (zrange a b) s.
  Proof. intros F F' a b s H. apply fold_left_ext_in. intros i u Hi. apply in_zrange in Hi. rewrite H by assumption. reflexivity. Qed.
  Lemma trssq_ext : forall uplo diag m n (F F' : Z -> Z -> N), 0 < m -> agree m n F F' -> trssq uplo diag m n F = trssq uplo diag m n F'.
  Proof.
    intros uplo diag m n F F' Hm H. unfold trssq. destruct (uplo =? PlasmaUpper); [destruct (diag =? PlasmaNonUnit)|].
    - apply fold_left_ext_in. intros j s Hj. apply in_zrange in Hj. rewrite (H 0 j) by lia.
      apply (ssq_fold_ext (fun i => F i j) (fun i => F' i j)). intros i Hi. apply H; lia.
    - assert (E : forall s, fold_left (fun s j => fold_left (fun s i => ssq s (nabs (F i j))) (zrange 1 m) (ssq s (nabs (F 0 j))))
          (zrange (Z.min n m) n) s =
        fold_left (fun s j => fold_left (fun s i => ssq s (nabs (F' i j))) (zrange 1 m) (ssq s (nabs (F' 0 j))))
          (zrange (Z.min n m) n) s).
      { intros s0. apply fold_left_ext_in. intros j s Hj. apply in_zrange in Hj. rewrite (H 0 j) by lia.
        apply (ssq_fold_ext (fun i => F i j) (fun i => F' i j)). intros i Hi. apply H; lia. }
      rewrite E. f_equal. apply fold_left_ext_in. intros j s Hj. apply in_zrange in Hj.
      apply (ssq_fold_ext (fun i => F i j) (fun i => F' i j)). intros i Hi. apply H; lia.
    - apply fold_left_ext_in. intros j s Hj. apply in_zrange in Hj. rewrite (H j j) by lia.
      apply (ssq_fold_ext (fun i => F i j) (fun i => F' i j)). intros i Hi. apply H; lia.
  Qed.

  (* magnitudes in a tile *)
  Lemma stored_tile : forall uplo nb a b r c, a <> b -> 0 <= r < nb -> 0 <= c < nb ->
    stored uplo (a * nb + r) (b * nb + c) = stored uplo a b.
  Proof.
    intros uplo nb a b r c H Hr Hc. unfold stored.
    destruct (uplo =? PlasmaUpper); destruct (Z_lt_le_dec a b).
    - replace (a <=? b) with true by lia. apply Z.leb_le. nia.
    - replace (a <=? b) with false by lia. apply Z.leb_gt. nia.
    - replace (b <=? a) with false by lia. apply Z.leb_gt. nia.
    - replace (b <=? a) with true by lia. apply Z.leb_le. nia.
  Qed.
  Lemma stored_shift : forall uplo x r c, stored uplo (x + r) (x + c) = stored uplo r c.
  Proof. intros uplo x r c. unfold stored. destruct (uplo =? PlasmaUpper); apply eq_iff_eq_true; rewrite !Z.leb_le; lia. Qed.
  Lemma stored_swap : forall uplo a b, a <> b -> stored uplo b a = negb (stored uplo a b).
  Proof. intros uplo a b H. unfold stored. destruct (uplo =? PlasmaUpper); [destruct (Z.leb_spec a b)|destruct (Z.leb_spec b a)]; cbn [negb]; lia. Qed.

  Lemma gs_off : forall dg uplo nb (F : Z -> Z -> N) a b r c, a <> b -> 0 <= r < nb -> 0 <= c < nb ->
    gs dg uplo F (a * nb + r) (b * nb + c)
    = if stored uplo a b then nabs (F (a * nb + r) (b * nb + c)) else nabs (F (b * nb + c) (a * nb + r)).
  Proof.
    intros dg uplo nb F a b r c H Hr Hc. unfold gs. replace (a * nb + r =? b * nb + c) with false by nia.
    rewrite stored_tile by assumption. reflexivity.
  Qed.
  Lemma gs_diag : forall dg uplo x (F : Z -> Z -> N) r c,
    gs dg uplo F (x + r) (x + c) = gs dg uplo (fun i j => F (x + i) (x + j)) r c.
  Proof.
    intros dg uplo x F r c. unfold gs. replace (x + r =? x + c) with (r =? c) by lia.
    rewrite stored_shift. reflexivity.
  Qed.
  Lemma gt_off : forall uplo diag nb (F : Z -> Z -> N) a b r c, a <> b -> 0 <= r < nb -> 0 <= c < nb ->
    gt uplo diag F (a * nb + r) (b * nb + c)
    = if stored uplo a b then nabs (F (a * nb + r) (b * nb + c)) else n0.
  Proof.
    intros uplo diag nb F a b r c H Hr Hc. unfold gt. replace (a * nb + r =? b * nb + c) with false by nia.
    rewrite stored_tile by assumption. reflexivity.
  Qed.
  Lemma gt_diag : forall uplo diag x (F : Z -> Z -> N) r c,
    gt uplo diag F (x + r) (x + c) = gt uplo diag (fun i j => F (x + i) (x + j)) r c.
  Proof.
    intros uplo diag x F r c. unfold gt. replace (x + r =? x + c) with (r =? c) by lia.
    rewrite stored_shift. reflexivity.
  Qed.

  (* the largest number of a matrix from those of its tiles *)
  Lemma tiles_largest : forall nb m n (G V : Z -> Z -> N) v, 0 < nb -> 0 < m -> 0 < n -> (forall i c, isabs (G i c)) ->
    (forall i j, 0 <= i < ntl nb m -> 0 <= j < ntl nb n ->
       largest (fun p => in_matrix (Z.min nb (m - i * nb)) (Z.min nb (n - j * nb)) (fst p) (snd p))
               (fun p : Z * Z => G (i * nb + fst p) (j * nb + snd p)) (V i j)) ->
    largest (fun p => in_matrix (ntl nb m) (ntl nb n) (fst p) (snd p)) (fun p : Z * Z => V (fst p) (snd p)) v ->
    largest (fun p => in_matrix m n (fst p) (snd p)) (fun p : Z * Z => G (fst p) (snd p)) v.
  Proof.
    intros nb m n G V v Hb Hm Hn HG HM LV.
    assert (AV : isabs v).
    { eapply largest_abs; [|exact LV]. intros [i j] [Hi Hj]. apply (largest_abs _ _ _ _ (fun _ _ => HG _ _) (HM i j Hi Hj)). }
    eapply (largest_nested (Z * Z) (Z * Z) (fun p => in_matrix (ntl nb m) (ntl nb n) (fst p) (snd p))
      (fun p q => exists r c, in_matrix (Z.min nb (m - fst p * nb)) (Z.min nb (n - snd p * nb)) r c /\
           q = (fst p * nb + r, snd p * nb + c))
      _ _ (fun p => V (fst p) (snd p))); auto.
    - intros [i j] [Hi Hj]. cbn [fst snd] in *.
      pose proof (ntl_lt nb m i Hb Hm Hi) as Hi'. pose proof (ntl_lt nb n j Hb Hn Hj) as Hj'.
      exists (i * nb + 0, j * nb + 0), 0, 0. split; [|reflexivity]. split; lia.
    - intros [x y]. cbn [fst snd]. split.
      + intros [Hx Hy].
        exists (x / nb, y / nb). cbn [fst snd].
        destruct (div_mod_pos x nb Hb) as [Ex Rx]. destruct (div_mod_pos y nb Hb) as [Ey Ry].
        assert (0 <= x / nb) by (apply Z.div_pos; lia). assert (0 <= y / nb) by (apply Z.div_pos; lia).
        split; [split; (split; [assumption|]); apply ntl_spec; lia|].
        exists (x mod nb), (y mod nb). split; [split; lia|]. f_equal; lia.
      + intros ([i j] & [Hi Hj] & r & c & [Hr Hc] & Eq). cbn [fst snd] in *. injection Eq as -> ->.
        split; nia.
    - intros [i j] [Hi Hj]. cbn [fst snd] in *. destruct (HM i j Hi Hj) as [L1 L2]. split.
      + intros q (r & c & Hrc & ->). cbn [fst snd]. apply (L1 (r, c)). assumption.
      + destruct L2 as [((r, c) & Hrc & Ev)|[Hno _]].
        * left. exists (i * nb + r, j * nb + c). split; [exists r, c; auto|exact Ev].
        * exfalso. apply (Hno (0, 0)).
          pose proof (ntl_lt nb m i Hb Hm Hi) as Hi'. pose proof (ntl_lt nb n j Hb Hn Hj) as Hj'. split; cbn; lia.
  Qed.

  (* the last task, writing one value computed from the workspace *)
  Lemma value_region : forall k (value : loc) (f : mem N -> N) M (Q : mem N -> Prop), kgood k ->
    (forall M l, k_fun k M l = fill value 1 (fun _ => f M) M l) ->
    (forall M', M' value = f M -> (forall l, l <> value -> M' l = M l) -> Q M') -> region_ensures [k] M Q.
  Proof.
    intros k value f M Q HK HF HQ. apply single_region; [assumption|]. intros M' E. apply HQ.
    - rewrite E, HF. replace value with (fst value, snd value + 0) at 2 by (destruct value; cbn; f_equal; lia).
      rewrite (fill_in N value 1) by lia. reflexivity.
    - intros l Hl. rewrite E, HF. apply fill_out. intros (r & Hr & ->). apply Hl. destruct value; cbn. f_equal. lia.
  Qed.
End Ext.
