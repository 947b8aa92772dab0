(* The conversion of band matrices for the descriptors that plasma_zcgbsv creates. *)
From Coq Require Import ZArith List Bool Lia.
From Verif Require Import Base NumModel NumInstances FieldModel FieldInstances
  TaskModel TaskSpec DescModel DescSpec DescDriverModel MatModel MatSpec GuardModel GuardSpec
  MatProofs LayoutProofs OpProofs BandLayoutProofs GemmProofs GemmProofs NormGbLayoutProofs GetrfModel GetrfInstances GbtrfModel LagModel LagBandModel LagBandSpec LagBandProofs.
Import ListNotations.
Open Scope Z_scope.

Lemma band_conversion : forall (V : Type) (narrow : V -> V) (fits : V -> bool) nb m n kl ku A size bA bS (M : mem V),
  0 <= kl -> 0 <= ku -> gb_create nb m n kl ku = CrOk A size -> bA <> bS ->
  gregion_ensures (pzlag2c_band narrow fits bA A bS A) M (fun M' st =>
    (st = 0 \/ st = 1) /\
    (st = 0 <-> forall i j, in_matrix m n i j -> near_band nb kl ku i j -> fits (el M bA A i j) = true) /\
    (st = 0 -> forall i j, in_matrix m n i j -> near_band nb kl ku i j -> el M' bS A i j = narrow (el M bA A i j)) /\
    (forall l, (forall i j, in_matrix m n i j -> near_band nb kl ku i j -> l <> (bS, elem_off A i j)) -> M' l = M l)).
Proof.
  intros V narrow fits nb m n kl ku A size bA bS M Hl Hu E Hab. apply lb_main; [|assumption].
  exact (gb_create_gd nb m n kl ku A size Hl Hu E).
Qed.

Lemma band_conversion_back : forall (V : Type) (widen : V -> V) nb m n kl ku A size bS bA (M : mem V),
  0 <= kl -> 0 <= ku -> gb_create nb m n kl ku = CrOk A size -> bS <> bA ->
  region_ensures (pclag2z_band widen bS A bA A) M (fun M' =>
    (forall i j, in_matrix m n i j -> near_band nb kl ku i j -> el M' bA A i j = widen (el M bS A i j)) /\
    (forall l, (forall i j, in_matrix m n i j -> near_band nb kl ku i j -> l <> (bA, elem_off A i j)) -> M' l = M l)).
Proof.
  intros V widen nb m n kl ku A size bS bA M Hl Hu E Hab. apply lg_main; [|congruence].
  exact (gb_create_gd nb m n kl ku A size Hl Hu E).
Qed.

Lemma band_is_near : forall nb kl ku i j, 0 < nb -> 0 <= kl -> 0 <= ku -> i - j <= kl -> j - i <= ku ->
  near_band nb kl ku i j.
Proof.
  intros nb kl ku i j Hb Hl Hu H1 H2.
  assert (T : forall a b k, 0 <= k -> a - b <= k -> a / nb - b / nb <= (k + nb - 1) / nb).
  { intros a b k Hk H. apply Z.div_le_lower_bound; [assumption|].
    pose proof (Z.div_mod a nb ltac:(lia)) as Da. pose proof (Z.div_mod b nb ltac:(lia)) as Db.
    pose proof (Z.mod_pos_bound a nb Hb). pose proof (Z.mod_pos_bound b nb Hb).
    revert Da Db. generalize (a / nb), (b / nb). intros. nia. }
  split; apply T; lia.
Qed.

(* the lower bidiagonal matrix (1 0; 2 3): the second row is the pivot *)
Definition fi_mem (x : QI_fields) (l : loc) : cell QI_fields :=
  if fst l =? 1 then (if snd l =? 1 then qi 1 0 else if snd l =? 2 then qi 2 0 else if snd l =? 4 then qi 3 0 else n0, 0)
  else if fst l =? 2 then (x, 0) else (n0, 0).

Lemma fill_in_uninitialised : exists (F : fields) (bigger : F -> F -> bool) (narrow : cell F -> cell F) (fits : cell F -> bool)
    nb n kl ku A size bA bS pI ib mpt (M M' : mem (cell F)) i j,
  gb_create nb n n kl ku = CrOk A size /\ NoDup [bA; bS; fst pI] /\
  (forall l, fst l <> bS -> M l = M' l) /\
  snd (gseq (zcgbsv_factor bigger narrow fits bA A bS pI ib mpt) M) = 0 /\
  snd (gseq (zcgbsv_factor bigger narrow fits bA A bS pI ib mpt) M') = 0 /\
  in_matrix n n i j /\ i - j <= kl /\ j - i <= ku /\
  el (fst (gseq (zcgbsv_factor bigger narrow fits bA A bS pI ib mpt) M)) bS A i j
  <> el (fst (gseq (zcgbsv_factor bigger narrow fits bA A bS pI ib mpt) M')) bS A i j.
Proof.
  exists QI_fields, cabs_bigger, (fun x => x), (fun _ => true), 1, 2, 1, 0.
  eexists. eexists. exists 1, 2, (7, 0), 1, 1, (fi_mem n0), (fi_mem n1), 1, 1.
  split; [reflexivity|].
  split; [repeat constructor; cbn; intuition discriminate|].
  split. { intros l Hl. unfold fi_mem. destruct (fst l =? 1); [reflexivity|]. destruct (Z.eqb_spec (fst l) 2); [contradiction|reflexivity]. }
  split; [lazy; reflexivity|]. split; [lazy; reflexivity|].
  split; [unfold in_matrix; lia|]. split; [lia|]. split; [lia|].
  match goal with |- ?a <> ?b =>
    assert (E : neqb (fst a) (fst b) = false) by (lazy; reflexivity); intros H; rewrite H in E;
    assert (E' : neqb (fst b) (fst b) = true) by (apply neqb_eq; reflexivity); rewrite E' in E; discriminate E
  end.
Qed.

(* which elements the factorization uses *)
Section Uses.
  Context {F : fields}.
  Variables (bigger : F -> F -> bool) (nb n kl ku : Z) (A : desc) (b : Z) (pI : loc) (ib mpt : Z).
  Hypothesis HA : gd_ok A nb n n kl ku.
  Hypothesis HP : fst pI <> b.
  Let Hb := gd_pos _ _ _ _ _ _ HA.

  Lemma part_near : forall k c l, 0 <= k -> k <= c < Z.min (d_nt A) (k + d_kut A) -> gb_part b A k c l ->
    exists i j, in_matrix n n i j /\ i / nb - j / nb <= ntl nb kl /\ j / nb - i / nb <= ntl nb (ku + kl) /\
      l = (b, elem_off A i j).
  Proof.
    intros k c l Hk Hc (x & Hx & HR). destruct HR as (r & s & Hr & Hs & _ & ->).
    assert (HT : in_tb A x c).
    { unfold in_tb, in_tiles. lia. }
    replace (tile_mmain_band A x c) with (tile_mmain A x) by (unfold tile_mmain_band; rewrite !(gd_mmain _ _ _ _ _ _ HA); reflexivity).
    destruct (lb_loc nb n n kl ku A HA b x c r s HT Hr Hs) as (E & R1 & R2 & R3 & R4).
    exists (x * nb + r), (c * nb + s). split; [split; assumption|]. rewrite R3, R4.
    rewrite (gd_klt _ _ _ _ _ _ HA) in Hx. rewrite (gd_kut _ _ _ _ _ _ HA) in Hc.
    split; [lia|]. split; [lia|]. exact E.
  Qed.

  Lemma uses_near : (ku + kl + nb - 1) / nb = (ku + nb - 1) / nb ->
    forall t l, In t (pzgbtrf bigger b A pI ib mpt) -> k_reads (ck_task t) l -> fst l = b ->
    exists i j, in_matrix n n i j /\ near_band nb kl ku i j /\ l = (b, elem_off A i j).
  Proof.
    intros EQ t l Ht HR Hl.
    assert (G : exists k c, 0 <= k /\ k <= c < Z.min (d_nt A) (k + d_kut A) /\ gb_part b A k c l).
    { assert (SEC : forall k q, ipiv_sec (gb_ipiv A pI k) 0 q l -> False)
        by (intros k q (i & _ & ->); apply HP; exact Hl).
      assert (KU : 1 <= d_kut A).
      { rewrite (gd_kut _ _ _ _ _ _ HA). unfold ntl. pose proof (gd_kl0 _ _ _ _ _ _ HA). pose proof (gd_ku0 _ _ _ _ _ _ HA).
        assert (0 <= (ku + kl + nb - 1) / nb) by (apply Z.div_pos; lia). lia. }
      unfold pzgbtrf in Ht. apply in_flat_map in Ht. destruct Ht as (k & Hk & Ht). apply in_zrange in Hk.
      cbn [In] in Ht. destruct Ht as [<-|Ht].
      - cbn [gb_panel ck_task k_reads] in HR. destruct HR as [HR|HR]; [|exfalso; eapply SEC; exact HR].
        exists k, k. split; [lia|]. split; [lia|assumption].
      - apply in_app_iff in Ht. destruct Ht as [Ht|[<-|[]]].
        + apply in_map_iff in Ht. destruct Ht as (c & <- & Hc). apply in_zrange in Hc.
          cbn [sure ck_task gb_update k_reads] in HR. destruct HR as [HR|[HR|HR]]; [| |exfalso; eapply SEC; exact HR].
          * exists k, k. split; [lia|]. split; [lia|assumption].
          * exists k, c. split; [lia|]. split; [lia|assumption].
        + cbn [sure ck_task gb_shift k_reads] in HR. exfalso. eapply SEC. exact HR. }
    destruct G as (k & c & Hk & Hc & G). destruct (part_near k c l Hk Hc G) as (i & j & HI & N1 & N2 & E).
    exists i, j. split; [assumption|]. split; [|assumption]. unfold ntl in N1, N2. split; [assumption|]. rewrite <- EQ. assumption.
  Qed.

  Lemma uses_more : (ku + nb - 1) / nb < (ku + kl + nb - 1) / nb -> (ku + kl + nb - 1) / nb * nb < n ->
    exists t i j, In t (pzgbtrf bigger b A pI ib mpt) /\ in_matrix n n i j /\ ~ near_band nb kl ku i j /\
      k_reads (ck_task t) (b, elem_off A i j).
  Proof.
    intros LT Hn. remember ((ku + kl + nb - 1) / nb) as c eqn:Ec.
    pose proof (gd_kl0 _ _ _ _ _ _ HA) as K1. pose proof (gd_ku0 _ _ _ _ _ _ HA) as K2.
    assert (C0 : 0 <= (ku + nb - 1) / nb) by (apply Z.div_pos; lia).
    assert (CT : c < ntl nb n) by (apply ntl_spec; lia).
    assert (KU : d_kut A = 1 + c) by (rewrite (gd_kut _ _ _ _ _ _ HA), Ec; reflexivity).
    assert (KL : 1 <= d_klt A).
    { rewrite (gd_klt _ _ _ _ _ _ HA). unfold ntl. assert (0 <= (kl + nb - 1) / nb) by (apply Z.div_pos; lia). lia. }
    pose proof (gd_mt _ _ _ _ _ _ HA) as MT. pose proof (gd_nt _ _ _ _ _ _ HA) as NT.
    assert (HT : in_tb A 0 c) by (unfold in_tb, in_tiles; lia).
    destruct (gd_views A nb n n kl ku HA 0 c HT) as (_ & _ & V1 & V2 & V3 & V4).
    assert (Hr : 0 <= 0 < tile_mview A 0) by lia. assert (Hs : 0 <= 0 < tile_nview A c) by lia.
    destruct (lb_loc nb n n kl ku A HA b 0 c 0 0 HT Hr Hs) as (E & R1 & R2 & R3 & R4).
    exists (sure (gb_update b A pI 0 c)), (0 * nb + 0), (c * nb + 0). split.
    - unfold pzgbtrf. apply in_flat_map. exists 0. split; [apply in_zrange; lia|]. right. apply in_or_app. left.
      apply in_map_iff. exists c. split; [reflexivity|]. apply in_zrange. lia.
    - split; [split; assumption|]. split; [unfold near_band; rewrite R3, R4; lia|].
      cbn [sure ck_task gb_update k_reads]. right. left. exists 0. split; [lia|]. exists 0, 0. split; [assumption|].
      split; [assumption|]. split; [reflexivity|].
      replace (tile_mmain_band A 0 c) with (tile_mmain A 0) by (unfold tile_mmain_band; rewrite !(gd_mmain _ _ _ _ _ _ HA); reflexivity).
      symmetry. exact E.
  Qed.
End Uses.

Lemma converted_used : forall (F : fields) (bigger : F -> F -> bool) nb n kl ku A size b pI ib mpt,
  0 <= kl -> 0 <= ku -> gb_create nb n n kl ku = CrOk A size -> fst pI <> b ->
  (ku + kl + nb - 1) / nb = (ku + nb - 1) / nb ->
  forall t l, In t (pzgbtrf bigger b A pI ib mpt) -> k_reads (ck_task t) l -> fst l = b ->
  exists i j, in_matrix n n i j /\ near_band nb kl ku i j /\ l = (b, elem_off A i j).
Proof.
  intros F bigger nb n kl ku A size b pI ib mpt Hl Hu E HP EQ. apply uses_near; [|assumption|assumption].
  exact (gb_create_gd nb n n kl ku A size Hl Hu E).
Qed.

Lemma unconverted_used : forall (F : fields) (bigger : F -> F -> bool) nb n kl ku A size b pI ib mpt,
  0 <= kl -> 0 <= ku -> gb_create nb n n kl ku = CrOk A size ->
  (ku + nb - 1) / nb < (ku + kl + nb - 1) / nb -> (ku + kl + nb - 1) / nb * nb < n ->
  exists t i j, In t (pzgbtrf bigger b A pI ib mpt) /\ in_matrix n n i j /\ ~ near_band nb kl ku i j /\
    k_reads (ck_task t) (b, elem_off A i j).
Proof.
  intros F bigger nb n kl ku A size b pI ib mpt Hl Hu E LT HN. apply uses_more; [|assumption|assumption].
  exact (gb_create_gd nb n n kl ku A size Hl Hu E).
Qed.
