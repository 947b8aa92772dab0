(* The first tasks of plasma_pzlangb. *)
From Coq Require Import ZArith List Bool Lia Ring FinFun.
From Verif Require Import Base NumModel NumProofs FieldModel TaskModel TaskSpec TaskProofs DescModel DescSpec
  DescDriverModel DescProofs DescPackProofs DescProofs3 DescProofs4 MatModel MatSpec MatProofs RegionProofs
  LayoutModel LayoutProofs LayoutProofs2 DriverModel DriverSpec OpProofs OperandProofs GemmProofs
  BandModel BandSpec BandProofs BandLayoutProofs BandGbProofs EwProofs SwpModel NormModel NormSpec FillProofs
  NormProofs NormDriverProofs NormPhaseProofs NormBandModel NormGbLayoutProofs NormGbRegionProofs.
Import ListNotations.
Open Scope Z_scope.

(* numbering the elements of a list *)
Section Number.
  Context {X : Type}.
  Let numbered (a : Z) (l : list X) := combine (zrange a (a + Z.of_nat (length l))) l.

  Lemma numbered_cons : forall a x l, numbered a (x :: l) = (a, x) :: numbered (a + 1) l.
  Proof.
    intros a x l. unfold numbered. cbn [length]. rewrite zrange_cons by lia. cbn [combine].
    replace (a + Z.of_nat (S (length l))) with (a + 1 + Z.of_nat (length l)) by lia. reflexivity.
  Qed.
  Lemma numbered_range : forall l a k x, In (k, x) (numbered a l) -> a <= k < a + Z.of_nat (length l) /\ In x l.
  Proof.
    induction l as [|y l IH]; intros a k x H.
    - unfold numbered in H. rewrite combine_nil in H. destruct H.
    - rewrite numbered_cons in H. cbn [length]. destruct H as [E|H].
      + injection E as -> ->. split; [lia|left; reflexivity].
      + apply IH in H. split; [lia|right; tauto].
  Qed.
  Lemma numbered_fun : forall l a k x y, In (k, x) (numbered a l) -> In (k, y) (numbered a l) -> x = y.
  Proof.
    induction l as [|z l IH]; intros a k x y H H'.
    - unfold numbered in H. rewrite combine_nil in H. destruct H.
    - rewrite numbered_cons in H, H'. destruct H as [E|H], H' as [E'|H'].
      + congruence.
      + injection E as -> ->. apply numbered_range in H'. lia.
      + injection E' as -> ->. apply numbered_range in H. lia.
      + eapply IH; eauto.
  Qed.
  Lemma numbered_NoDup : forall l a, NoDup (numbered a l).
  Proof.
    induction l as [|z l IH]; intros a.
    - unfold numbered. rewrite combine_nil. constructor.
    - rewrite numbered_cons. constructor; [|apply IH]. intros H. apply numbered_range in H. lia.
  Qed.
  Lemma numbered_elem : forall l a x, In x l -> exists k, In (k, x) (numbered a l).
  Proof.
    induction l as [|z l IH]; intros a x H; [destruct H|]. destruct H as [->|H].
    - exists a. rewrite numbered_cons. left; reflexivity.
    - destruct (IH (a + 1) x H) as [k K]. exists k. rewrite numbered_cons. right; assumption.
  Qed.
  Lemma numbered_pos : forall l a k, a <= k < a + Z.of_nat (length l) -> exists x, In (k, x) (numbered a l).
  Proof.
    induction l as [|z l IH]; intros a k H; [cbn in H; lia|]. destruct (Z.eq_dec k a) as [->|NE].
    - exists z. rewrite numbered_cons. left; reflexivity.
    - destruct (IH (a + 1) k) as [x K]; [cbn [length] in H; lia|]. exists x. rewrite numbered_cons. right; assumption.
  Qed.
End Number.

Section Lists.
  Context {N : normed}.
  Add Ring num_ring_gbl : (nring N).

  (* a sum over tiles of which only those from s to e count *)
  Lemma shifted_sum : forall (T : Z -> N) s e R K, 0 <= s -> e < K -> 0 <= R -> e - s < R ->
    (forall i, 0 <= i < K -> ~ (s <= i <= e) -> T i = n0) ->
    nsum (fun k => if k + s <=? e then T (k + s) else n0) 0 R = nsum T 0 K.
  Proof.
    intros T s e R K Hs He HR HD HT. destruct (Z_le_gt_dec s e) as [L|G].
    - rewrite (nsum_app N T 0 s K), (nsum_app N T s (e + 1) K) by lia.
      rewrite (nsum_0 N T 0 s), (nsum_0 N T (e + 1) K) by (intros; apply HT; lia).
      rewrite (nsum_app N _ 0 (e + 1 - s) R) by lia.
      rewrite (nsum_0 N _ (e + 1 - s) R).
      2: { intros k Hk. replace (k + s <=? e) with false by lia. reflexivity. }
      replace (nsum T s (e + 1)) with (nsum T (0 + s) (e + 1 - s + s)) by (f_equal; lia). rewrite nsum_shift.
      rewrite (nsum_ext N (fun k => if k + s <=? e then T (k + s) else n0) (fun k => T (k + s))).
      2: { intros k Hk. replace (k + s <=? e) with true by lia. reflexivity. }
      ring.
    - rewrite !nsum_0; [reflexivity| |].
      + intros; apply HT; lia.
      + intros k Hk. replace (k + s <=? e) with false by lia. reflexivity.
  Qed.

  Lemma largest_reindex : forall (I J : Type) (P : I -> Prop) (Q : J -> Prop) (f : I -> N) (g : J -> N) v,
    (forall y, Q y -> exists x, P x /\ f x = g y) -> (forall x, P x -> exists y, Q y /\ g y = f x) ->
    largest P f v -> largest Q g v.
  Proof.
    intros I J P Q f g v H1 H2 [V1 V2]. split.
    - intros y Hy. destruct (H1 y Hy) as (x & Hx & <-). auto.
    - destruct V2 as [(x & Hx & ->)|[V2 E]].
      + left. destruct (H2 x Hx) as (y & Hy & E). exists y. auto.
      + right. split; [|assumption]. intros y Hy. destruct (H1 y Hy) as (x & Hx & _). apply (V2 x Hx).
  Qed.

  (* dropping zeros, adding zeros *)
  Lemma largest_drop : forall (I : Type) (P Q : I -> Prop) (f : I -> N) v, (forall x, Q x -> P x) ->
    (forall x, P x -> Q x \/ f x = n0) -> (exists x, Q x) -> (forall x, P x -> isabs (f x)) ->
    largest P f v -> largest Q f v.
  Proof.
    intros I P Q f v H1 H2 [x0 H0] HF [V1 V2]. split; [auto|]. left.
    destruct V2 as [(x & Hx & E)|[V2 E]]; [|destruct (V2 x0); auto].
    destruct (H2 x Hx) as [Q1|Z1]; [exists x; auto|].
    exists x0. split; [assumption|]. rewrite E, Z1. symmetry. apply nle_0_eq; [auto|].
    unfold nle. rewrite <- Z1, <- E. auto.
  Qed.
  Lemma largest_add : forall (I : Type) (P Q : I -> Prop) (f : I -> N) v, (forall x, Q x -> P x) ->
    (forall x, P x -> Q x \/ f x = n0) -> (exists x, P x) -> (forall x, P x -> isabs (f x)) ->
    largest Q f v -> largest P f v.
  Proof.
    intros I P Q f v H1 H2 [x0 H0] HF HV.
    assert (AV : isabs v) by (eapply largest_abs; [|exact HV]; auto).
    destruct HV as [V1 V2]. split.
    - intros x Hx. destruct (H2 x Hx) as [Q1|Z1]; [auto|]. rewrite Z1. apply nle_0. assumption.
    - left. destruct V2 as [(x & Hx & E)|[V2 E]]; [exists x; auto|].
      exists x0. split; [assumption|]. destruct (H2 x0 H0) as [Q1|Z1]; [destruct (V2 x0 Q1)|congruence].
  Qed.

  (* the last task, PlasmaOneNorm and PlasmaInfNorm *)
  Lemma table_final : forall R C bW (value : loc) (W : Z -> Z -> N) o M, 
    fst value <> bW -> (forall i k, isabs (W i k)) ->
    (forall i k, 0 <= i < R -> 0 <= k < C -> M (bW, R * k + i) = W i k) ->
    region_ensures [omp_dlange_inf R C (bW, 0) R (pplus (bW, 0) o) value] M
      (fun M' => largest (fun i => 0 <= i < R) (fun i => nsum (W i) 0 C) (M' value) /\
                 (forall l, fst l <> bW -> l <> value -> M' l = M l)).
  Proof.
    intros R C bW value W o M HV HW HM.
    apply single_region; [apply dlange_inf_kgood|]. intros M' E. cbn [k_fun omp_dlange_inf] in E.
    assert (EV : M' value = lange_inf R C (rd M (bW, 0) R)).
    { rewrite E. replace value with (fst value, snd value + 0) at 2 by (destruct value; cbn; f_equal; lia).
      apply fill_in. lia. }
    rewrite EV. split.
    - eapply largest_ext; [|apply lange_inf_largest]. intros i Hi. cbn beta. apply nsum_ext. intros k Hk.
      unfold rd, at_. cbn [fst snd]. replace (0 + i + k * R) with (R * k + i) by lia. rewrite HM by assumption. apply HW.
    - intros l L1 L2. rewrite E, !fill_out; [reflexivity| |].
      + intros (r & _ & ->). apply L1. reflexivity.
      + intros (r & Hr & ->). apply L2. destruct value; cbn. f_equal. lia.
  Qed.
End Lists.

Section Lb.
  Variables (A : desc) (nb m n kl ku : Z).
  Hypothesis HA : gd_ok A nb m n kl ku.
  Let Hb := gd_pos _ _ _ _ _ _ HA.
  Let Hkl := gd_kl0 _ _ _ _ _ _ HA.
  Let Hku := gd_ku0 _ _ _ _ _ _ HA.

  Lemma lb_start_pos : forall j, 0 <= lb_start A j.
  Proof.
    intros j. unfold lb_start. rewrite (sq_nb nb A _ (gd_sq _ _ _ _ _ _ HA)). apply Z.quot_pos; lia.
  Qed.
  Lemma lb_start_le : forall i j, 0 <= i -> (lb_start A j <= i <-> j * nb - ku < (i + 1) * nb).
  Proof.
    intros i j Hi. unfold lb_start. rewrite (sq_nb nb A _ (gd_sq _ _ _ _ _ _ HA)), (gd_ku _ _ _ _ _ _ HA).
    rewrite quot_le by lia. nia.
  Qed.
  Lemma lb_end_le : forall i j, 0 <= j -> (i <= lb_end A j <-> i * nb < m /\ i * nb < (j + 1) * nb + kl).
  Proof.
    intros i j Hj. unfold lb_end. rewrite (sq_nb nb A _ (gd_sq _ _ _ _ _ _ HA)), (gd_kl _ _ _ _ _ _ HA), (gd_m _ _ _ _ _ _ HA).
    rewrite le_quot by nia. lia.
  Qed.
  Lemma lb_end_mt : forall j, 0 <= j -> lb_end A j < ntl nb m.
  Proof.
    intros j Hj. destruct (Z_lt_ge_dec (lb_end A j) 0) as [L|G].
    - pose proof (ntl_pos nb m Hb ltac:(lia)). lia.
    - apply ntl_spec; try lia. pose proof (proj1 (lb_end_le (lb_end A j) j Hj)) as K. lia.
  Qed.
  Lemma lb_width : lb_ldwork A = ntl nb ku + ntl nb kl + 1.
  Proof.
    unfold lb_ldwork, ntl. rewrite (sq_nb nb A _ (gd_sq _ _ _ _ _ _ HA)), (gd_kl _ _ _ _ _ _ HA), (gd_ku _ _ _ _ _ _ HA).
    rewrite !Z.quot_div_nonneg by lia. reflexivity.
  Qed.
  Lemma lb_span : forall j, 0 <= j -> lb_end A j - lb_start A j < lb_ldwork A.
  Proof.
    intros j Hj. rewrite lb_width. pose proof (lb_start_pos j) as P0.
    pose proof (ntl_top nb ku Hb ltac:(lia)) as T1. pose proof (ntl_top nb kl Hb ltac:(lia)) as T2.
    assert (N1 : 0 <= ntl nb ku) by (apply Z.div_pos; lia). assert (N2 : 0 <= ntl nb kl) by (apply Z.div_pos; lia).
    pose proof (proj1 (lb_start_le (lb_start A j) j P0) ltac:(lia)) as K1.
    pose proof (proj1 (lb_end_le (lb_end A j) j Hj) ltac:(lia)) as [_ K2].
    assert (j - lb_start A j - 1 < ntl nb ku) by (clear -K1 T1 Hb; nia).
    assert (lb_end A j - j - 1 < ntl nb kl) by (clear -K2 T2 Hb; nia). lia.
  Qed.

  Lemma lb_in : forall i j, In (i, j) (lb_tiles A) <-> 0 <= j < ntl nb n /\ lb_start A j <= i <= lb_end A j.
  Proof.
    intros i j. unfold lb_tiles. rewrite in_flat_map, <- (gd_nt _ _ _ _ _ _ HA). split.
    - intros (x & Hx & H). apply in_map_iff in H. destruct H as (y & E & Hy). injection E as -> ->.
      apply in_zrange in Hx, Hy. lia.
    - intros [Hj Hi]. exists j. rewrite in_zrange. split; [assumption|]. apply in_map_iff. exists i.
      rewrite in_zrange. split; [reflexivity|lia].
  Qed.
  Lemma lb_NoDup : NoDup (lb_tiles A).
  Proof.
    assert (E : lb_tiles A = map (fun x => (snd x, fst x)) (pairs (zrange 0 (d_nt A)) (fun j => zrange (lb_start A j) (lb_end A j + 1)))).
    { unfold lb_tiles, pairs. induction (zrange 0 (d_nt A)) as [|j L IH]; [reflexivity|].
      cbn [flat_map]. rewrite map_app, <- IH, map_map. reflexivity. }
    rewrite E. apply Injective_map_NoDup.
    - intros [x y] [x' y'] H. cbn in H. congruence.
    - apply NoDup_pairs; intros; apply NoDup_zrange.
  Qed.
  Lemma lb_tb : forall i j, In (i, j) (lb_tiles A) -> in_tb A i j.
  Proof.
    intros i j H. apply lb_in in H. destruct H as [Hj [Hi He]]. pose proof (lb_start_pos j).
    apply (gd_in_tb A nb m n kl ku HA). pose proof (lb_end_mt j ltac:(lia)).
    assert (0 <= i < ntl nb m) by lia. apply lb_start_le in Hi; [|lia]. apply lb_end_le in He; [|lia].
    rewrite !(le_ntl A nb m n kl ku HA) by lia. split; [lia|]. split; [lia|]. clear -Hi He Hb Hkl. split; nia.
  Qed.

  (* the tiles left out are outside the band *)
  Lemma lb_out : forall i j r c, 0 <= i < ntl nb m -> 0 <= j -> ~ (lb_start A j <= i <= lb_end A j) -> 0 <= r < nb -> 0 <= c < nb ->
    ~ (- ku <= (i * nb + r) - (j * nb + c) <= kl).
  Proof.
    intros i j r c Hi Hj HO Hr Hc HK. apply HO. split.
    - apply lb_start_le; [lia|]. lia.
    - apply lb_end_le; [lia|]. split; [apply ntl_spec; lia|lia].
  Qed.
End Lb.
