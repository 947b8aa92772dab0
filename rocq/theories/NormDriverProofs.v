(* The norm drivers: tasks on tiles followed by a reduction of the workspace. *)
From Coq Require Import ZArith List Bool Lia Ring.
From Verif Require Import Base NumModel NumProofs FieldModel TaskModel TaskSpec TaskProofs DescModel DescSpec
  DescProofs DescProofs4 DescDriverModel MatModel MatSpec MatProofs RegionProofs
  LayoutModel LayoutProofs LayoutProofs2 DriverModel DriverSpec SimProofs OpProofs OperandProofs GemmProofs
  EwProofs SwpModel NormModel NormSpec FillProofs NormProofs.
Import ListNotations.
Open Scope Z_scope.

Lemma ntl_lt : forall nb K k, 0 < nb -> 0 < K -> 0 <= k < ntl nb K -> k * nb < K.
Proof. intros nb K k Hb HK Hk. apply ntl_spec; lia. Qed.

Section Kernels.
  Context {N : normed}.
  Add Ring num_ring_nd : (nring N).

  Definition agree (m n : Z) (F F' : Z -> Z -> N) : Prop :=
    forall i j, 0 <= i < m -> 0 <= j < n -> F i j = F' i j.

  Lemma lange_max_ext : forall m n F F', agree m n F F' -> lange_max m n F = lange_max m n F'.
  Proof.
    intros m n F F' H. unfold lange_max. apply fold_left_ext_in. intros j v Hj. apply in_zrange in Hj.
    apply fold_left_ext_in. intros i u Hi. apply in_zrange in Hi. rewrite H by assumption. reflexivity.
  Qed.
  Lemma lange_row_ext : forall m n F F' i, agree m n F F' -> 0 <= i < m -> lange_row n F i = lange_row n F' i.
  Proof.
    intros m n F F' i H Hi. unfold lange_row. apply fold_left_ext_in. intros j v Hj. apply in_zrange in Hj.
    rewrite H by assumption. reflexivity.
  Qed.
  Lemma lange_inf_ext : forall m n F F', agree m n F F' -> lange_inf m n F = lange_inf m n F'.
  Proof.
    intros m n F F' H. unfold lange_inf. apply fold_left_ext_in. intros i v Hi. apply in_zrange in Hi.
    rewrite (lange_row_ext m n F F') by assumption. reflexivity.
  Qed.
  Lemma aux_one_ext : forall m n F F' j, 0 < m -> agree m n F F' -> 0 <= j < n -> aux_one m F j = aux_one m F' j.
  Proof.
    intros m n F F' j Hm H Hj. rewrite !aux_one_sum by assumption. apply nsum_ext. intros i Hi.
    rewrite H by assumption. reflexivity.
  Qed.
  Lemma gessq_ext : forall lassq m n F F', agree m n F F' -> gessq lassq m n F = gessq lassq m n F'.
  Proof.
    intros lassq m n F F' H. unfold gessq. apply fold_left_ext_in. intros j v Hj. apply in_zrange in Hj.
    apply f_equal2; [|reflexivity]. apply map_ext_in. intros i Hi. apply in_zrange in Hi. apply H; assumption.
  Qed.

  Lemma agree_reg : forall (M M' : mem N) p ld m n, (forall x, reg p ld m n everywhere x -> M x = M' x) ->
    agree m n (rd M p ld) (rd M' p ld).
  Proof. intros M M' p ld m n H i j Hi Hj. apply H. exists i, j. repeat split; tauto. Qed.

  Lemma zlange_max_kgood : forall m n A lda value, kgood (@omp_zlange_max N m n A lda value).
  Proof.
    intros. apply (fill_kgood N _ value 1 (fun M _ => lange_max m n (rd M A lda))); [apply finite_reg|].
    intros. apply lange_max_ext, agree_reg. assumption.
  Qed.
  Lemma dlange_inf_kgood : forall m n A lda work value, kgood (@omp_dlange_inf N m n A lda work value).
  Proof.
    intros. apply (fill2_kgood N _ work m (fun M => lange_row n (rd M A lda)) value 1 (fun M _ => lange_inf m n (rd M A lda))); [apply finite_reg| |].
    - intros. apply (lange_row_ext m); [apply agree_reg|]; assumption.
    - intros. apply lange_inf_ext, agree_reg. assumption.
  Qed.
  Lemma zlange_aux_one_kgood : forall m n A lda value, 0 < m -> kgood (@omp_zlange_aux_one N m n A lda value).
  Proof.
    intros. apply (fill_kgood N _ value n (fun M => aux_one m (rd M A lda))); [apply finite_reg|].
    intros. apply (aux_one_ext m n); [assumption|apply agree_reg; assumption|assumption].
  Qed.
  Lemma zlange_aux_inf_kgood : forall m n A lda value, kgood (@omp_zlange_aux_inf N m n A lda value).
  Proof.
    intros. apply (fill_kgood N _ value m (fun M => aux_inf n (rd M A lda))); [apply finite_reg|].
    intros. apply (lange_row_ext m n); [apply agree_reg; assumption|assumption].
  Qed.
  Lemma zgessq_kgood : forall lassq m n A lda scale sumsq, kgood (@omp_zgessq N lassq m n A lda scale sumsq).
  Proof.
    intros. apply (fill2_kgood N _ scale 1 (fun M _ => fst (gessq lassq m n (rd M A lda)))
      sumsq 1 (fun M _ => snd (gessq lassq m n (rd M A lda)))); [apply finite_reg| |];
    intros; rewrite (gessq_ext lassq m n (rd M A lda) (rd M' A lda)); auto using agree_reg.
  Qed.
  Lemma dgessq_aux_kgood : forall nsqrt n scale sumsq value, kgood (@omp_dgessq_aux N nsqrt n scale sumsq value).
  Proof.
    intros. apply (fill_kgood N _ value 1 (fun M _ =>
      let s := fold_left (fun s i => ssq_add s (M (pplus scale i)) (M (pplus sumsq i))) (zrange 0 n) (n0, n1) in
           nmul (fst s) (nsqrt (snd s)))); [apply finite_or; apply finite_seg|].
    intros M M' r _ H. cbn beta. assert (E :
      fold_left (fun s i => ssq_add s (M (pplus scale i)) (M (pplus sumsq i))) (zrange 0 n) (n0, n1) =
      fold_left (fun s i => ssq_add s (M' (pplus scale i)) (M' (pplus sumsq i))) (zrange 0 n) (n0, n1)).
    { apply fold_left_ext_in. intros i s Hi. apply in_zrange in Hi.
      rewrite (H (pplus scale i)), (H (pplus sumsq i)); [reflexivity|right; exists i|left; exists i]; auto. }
    cbn zeta. rewrite E. reflexivity.
  Qed.
  Lemma amax_row_kgood : forall mag m n A lda values, 0 < n -> kgood (@omp_amax_row N mag m n A lda values).
  Proof.
    intros. apply (fill_kgood N _ values m (fun M => amax_row mag n (rd M A lda))); [apply finite_reg|].
    intros M M' r Hr HM. apply agree_reg in HM. unfold amax_row. rewrite (HM r 0) by lia.
    apply fold_left_ext_in. intros i v Hi. apply in_zrange in Hi. rewrite (HM r i) by lia. reflexivity.
  Qed.
  Lemma amax_col_kgood : forall mag m n A lda values, 0 < m -> kgood (@omp_amax_col N mag m n A lda values).
  Proof.
    intros. apply (fill_kgood N _ values n (fun M => amax_col mag m (rd M A lda))); [apply finite_reg|].
    intros M M' r Hr HM. apply agree_reg in HM. unfold amax_col. rewrite (HM 0 r) by lia.
    apply fold_left_ext_in. intros i v Hi. apply in_zrange in Hi. rewrite (HM i r) by lia. reflexivity.
  Qed.

  (* sums over a tile *)
  Lemma tile_sum : forall (f : Z -> N) nb k K,
    nsum (fun r => f (k * nb + r)) 0 (Z.min nb (K - k * nb)) = nsum f (k * nb) (Z.min ((k + 1) * nb) K).
  Proof.
    intros f nb k K. replace (Z.min ((k + 1) * nb) K) with (Z.min nb (K - k * nb) + k * nb) by lia.
    rewrite <- (Z.add_0_l (k * nb)) at 2. rewrite nsum_shift. apply nsum_ext. intros i _. f_equal. lia.
  Qed.

  Lemma all_tiles : forall (f : Z -> N) nb K, 0 < nb -> 0 < K ->
    nsum (fun k => nsum f (k * nb) (Z.min ((k + 1) * nb) K)) 0 (ntl nb K) = nsum f 0 K.
  Proof.
    intros f nb K Hb HK. pose proof (ntl_pos nb K Hb HK). pose proof (ntl_top nb K Hb ltac:(lia)).
    assert ((ntl nb K - 1) * nb < K) by (apply ntl_spec; lia).
    rewrite nsum_tiles by lia. f_equal. lia.
  Qed.

  (* the last phase, PlasmaOneNorm and PlasmaInfNorm *)
  Lemma rowsum_final : forall nb R K bW (value : loc) (G : Z -> Z -> N) M, 0 < nb -> 0 < K -> 0 < R ->
    fst value <> bW -> (forall i c, isabs (G i c)) ->
    (forall i k, 0 <= i < R -> 0 <= k < ntl nb K ->
       M (bW, R * k + i) = nsum (G i) (k * nb) (Z.min ((k + 1) * nb) K)) ->
    phases_ensures [[omp_dlange_inf R (ntl nb K) (bW, 0) R (pplus (bW, 0) (ntl nb K * R)) value]] M
      (fun M' => largest (fun i => 0 <= i < R) (fun i => nsum (G i) 0 K) (M' value) /\
                 (forall l, fst l <> bW -> l <> value -> M' l = M l)).
  Proof.
    intros nb R K bW value G M Hb HK HR HV HG HM. cbn [phases_ensures].
    apply single_region; [apply dlange_inf_kgood|]. intros M' E. cbn [k_fun omp_dlange_inf] in E.
    assert (EV : M' value = lange_inf R (ntl nb K) (rd M (bW, 0) R)).
    { rewrite E. replace value with (fst value, snd value + 0) at 2 by (destruct value; cbn; f_equal; lia).
      apply fill_in. lia. }
    rewrite EV. split.
    - eapply largest_ext; [|apply lange_inf_largest]. intros i Hi. cbn beta.
      rewrite <- (all_tiles (G i) nb K) by assumption. apply nsum_ext. intros k Hk.
      unfold rd, at_. cbn [fst snd]. rewrite <- HM by assumption.
      replace (0 + i + k * R) with (R * k + i) by lia. rewrite HM by assumption.
      apply isabs_sum. intros; apply HG.
    - intros l H1 H2. rewrite E, !fill_out; [reflexivity| |].
      + intros (r & _ & ->). apply H1. reflexivity.
      + intros (r & Hr & ->). apply H2. destruct value; cbn. f_equal. lia.
  Qed.

  (* the last phase, PlasmaMaxNorm *)
  Lemma max_final : forall nb m n bW (value : loc) (G : Z -> Z -> N) M, 0 < nb -> 0 < m -> 0 < n ->
    fst value <> bW -> (forall i c, isabs (G i c)) ->
    (forall i j, 0 <= i < ntl nb m -> 0 <= j < ntl nb n ->
       largest (fun p => in_matrix (Z.min nb (m - i * nb)) (Z.min nb (n - j * nb)) (fst p) (snd p))
               (fun p : Z * Z => G (i * nb + fst p) (j * nb + snd p)) (M (bW, ntl nb m * j + i))) ->
    phases_ensures [[omp_zlange_max (ntl nb m) (ntl nb n) (bW, 0) (ntl nb m) value]] M
      (fun M' => largest (fun p => in_matrix m n (fst p) (snd p)) (fun p : Z * Z => G (fst p) (snd p)) (M' value) /\
                 (forall l, fst l <> bW -> l <> value -> M' l = M l)).
  Proof.
    intros nb m n bW value G M Hb Hm Hn HV HG HM. cbn [phases_ensures].
    apply single_region; [apply zlange_max_kgood|]. intros M' E. cbn [k_fun omp_zlange_max] in E.
    assert (EV : M' value = lange_max (ntl nb m) (ntl nb n) (rd M (bW, 0) (ntl nb m))).
    { rewrite E. replace value with (fst value, snd value + 0) at 2 by (destruct value; cbn; f_equal; lia).
      apply (fill_in N value 1 (fun _ => lange_max (ntl nb m) (ntl nb n) (rd M (bW, 0) (ntl nb m)))). lia. }
    rewrite EV. split.
    - assert (LV := lange_max_largest (ntl nb m) (ntl nb n) (rd M (bW, 0) (ntl nb m))).
      assert (AV : isabs (lange_max (ntl nb m) (ntl nb n) (rd M (bW, 0) (ntl nb m)))).
      { eapply largest_abs; [|exact LV]. intros; apply isabs_abs. }
      eapply (largest_nested (Z * Z) (Z * Z) (fun p => in_matrix (ntl nb m) (ntl nb n) (fst p) (snd p))
        (fun p q => exists r c, in_matrix (Z.min nb (m - fst p * nb)) (Z.min nb (n - snd p * nb)) r c /\
             q = (fst p * nb + r, snd p * nb + c))
        _ _ (fun p => M (bW, ntl nb m * snd p + fst p))); auto.
      + intros [i j] [Hi Hj]. cbn [fst snd] in *.
        pose proof (ntl_lt nb m i Hb Hm Hi) as Hi'. pose proof (ntl_lt nb n j Hb Hn Hj) as Hj'.
        exists (i * nb + 0, j * nb + 0), 0, 0. split; [|reflexivity]. split; lia.
      + intros [x y]. cbn [fst snd]. split.
        * intros [Hx Hy].
          exists (x / nb, y / nb). cbn [fst snd].
          destruct (div_mod_pos x nb Hb) as [Ex Rx]. destruct (div_mod_pos y nb Hb) as [Ey Ry].
          assert (0 <= x / nb) by (apply Z.div_pos; lia). assert (0 <= y / nb) by (apply Z.div_pos; lia).
          split; [split; (split; [assumption|]); apply ntl_spec; lia|].
          exists (x mod nb), (y mod nb). split; [split; lia|]. f_equal; lia.
        * intros ([i j] & [Hi Hj] & r & c & [Hr Hc] & Eq). cbn [fst snd] in *. injection Eq as -> ->.
          split; nia.
      + intros [i j] [Hi Hj]. cbn [fst snd] in *. destruct (HM i j Hi Hj) as [L1 L2]. split.
        * intros q (r & c & Hrc & ->). cbn [fst snd]. apply (L1 (r, c)). assumption.
        * destruct L2 as [((r, c) & Hrc & Ev)|[Hno _]].
          -- left. exists (i * nb + r, j * nb + c). split; [exists r, c; auto|exact Ev].
          -- exfalso. apply (Hno (0, 0)).
             pose proof (ntl_lt nb m i Hb Hm Hi) as Hi'. pose proof (ntl_lt nb n j Hb Hn Hj) as Hj'. split; cbn; lia.
      + eapply largest_ext; [|exact LV]. intros [i j] [Hi Hj]. cbn [fst snd] in *. unfold rd, at_. cbn [fst snd].
        replace (0 + i + j * ntl nb m) with (ntl nb m * j + i) by lia.
        apply (largest_abs _ _ _ _ (fun _ _ => HG _ _) (HM i j Hi Hj)).
    - intros l H1 H2. rewrite E, !fill_out; [reflexivity|].
      intros (r & Hr & ->). apply H2. destruct value; cbn. f_equal. lia.
  Qed.

  (* sums over mt*nt entries stored by columns *)
  Lemma sum_2d : forall (f : Z -> N) R C, 0 <= R -> 0 <= C ->
    nsum f 0 (R * C) = nsum (fun j => nsum (fun i => f (R * j + i)) 0 R) 0 C.
  Proof.
    intros f R C HR. pattern C. apply (zrange_ind_hi _ 0); clear C.
    - intros C H HC. rewrite (nsum_nil N _ 0 C) by lia. apply nsum_nil. nia.
    - intros C H IH HC. rewrite nsum_snoc by lia. rewrite <- IH by lia.
      rewrite (nsum_app N f 0 (R * C)) by nia. f_equal.
      replace (R * (C + 1)) with (R + R * C) by lia.
      rewrite <- (Z.add_0_l (R * C)) at 1. rewrite nsum_shift. apply nsum_ext. intros i _. f_equal. lia.
  Qed.

  (* the last phase, PlasmaFrobeniusNorm *)
  Lemma fro_final : forall nsqrt R C bW (value : loc) (t : Z -> Z -> N) M, 0 <= R -> 0 <= C ->
    fst value <> bW ->
    (forall i j, 0 <= i < R -> 0 <= j < C ->
       ssq_ok (M (bW, R * j + i), M (bW, R * C + (R * j + i))) (t i j)) ->
    phases_ensures [[omp_dgessq_aux nsqrt (R * C) (bW, 0) (pplus (bW, 0) (R * C)) value]] M
      (fun M' => (exists s q, nabs s = s /\ nabs q = q /\ M' value = nmul s (nsqrt q) /\
                    nmul (nmul s s) q = nsum (fun j => nsum (fun i => t i j) 0 R) 0 C) /\
                 (forall l, fst l <> bW -> l <> value -> M' l = M l)).
  Proof.
    intros nsqrt R C bW value t M HR HC HV HM. cbn [phases_ensures].
    apply single_region; [apply dgessq_aux_kgood|]. intros M' E. cbn [k_fun omp_dgessq_aux] in E. split.
    - remember (fold_left (fun s i => ssq_add s (M (pplus (bW, 0) i)) (M (pplus (pplus (bW, 0) (R * C)) i)))
        (zrange 0 (R * C)) (n0, n1)) as S eqn:ES.
      assert (EV : M' value = nmul (fst S) (nsqrt (snd S))).
      { rewrite E, ES. replace value with (fst value, snd value + 0) at 2 by (destruct value; cbn; f_equal; lia).
        rewrite (fill_in N value 1) by lia. reflexivity. }
      assert (OK : ssq_ok S (nsum (fun j => nsum (fun i => t i j) 0 R) 0 C)).
      { pose proof (ssq_fold Z (zrange 0 (R * C)) (fun i => M (pplus (bW, 0) i))
          (fun i => M (pplus (pplus (bW, 0) (R * C)) i)) (fun i => t (i mod R) (i / R)) (n0, n1) n0) as F.
        cbn beta in F. rewrite <- ES in F. replace (nsum (fun j => nsum (fun i => t i j) 0 R) 0 C)
          with (nadd n0 (fold_right (fun x u => nadd (t (x mod R) (x / R)) u) n0 (zrange 0 (R * C)))).
        - apply F; [|apply ssq_start]. intros x Hx. apply in_zrange in Hx.
          assert (0 < R) by nia. destruct (div_mod_pos x R) as [Ex Rx]; [assumption|].
          assert (0 <= x / R) by (apply Z.div_pos; lia). assert (x / R < C) by (apply Z.div_lt_upper_bound; lia).
          pose proof (HM (x mod R) (x / R) Rx ltac:(lia)) as K.
          replace (R * (x / R) + x mod R) with x in K by lia. exact K.
        - change (fold_right (fun x u => nadd (t (x mod R) (x / R)) u) n0 (zrange 0 (R * C)))
            with (nsum (fun x => t (x mod R) (x / R)) 0 (R * C)).
          rewrite sum_2d by assumption. transitivity (nsum (fun j => nsum (fun i => t ((R * j + i) mod R) ((R * j + i) / R)) 0 R) 0 C); [ring|].
          apply nsum_ext. intros j Hj. apply nsum_ext. intros i Hi.
          rewrite (mod_eq (R * j + i) R j i), (div_eq (R * j + i) R j i) by lia. reflexivity. }
      destruct OK as (O1 & O2 & O3). exists (fst S), (snd S). auto.
    - intros l H1 H2. rewrite E, !fill_out; [reflexivity|].
      intros (r & Hr & ->). apply H2. destruct value; cbn. f_equal. lia.
  Qed.
End Kernels.
