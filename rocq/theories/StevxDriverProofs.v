(* plasma_zstevx2: the bounds, the compression of the arrays, the whole routine. *)
From Coq Require Import ZArith List Bool Lia Sorting.Sorted.
From Verif Require Import Base StevxModel StevxSpec StevxProofs.
Import ListNotations.
Open Scope Z_scope.

(* Strictly increasing lists with the same elements are equal. *)
Lemma sorted_ext : forall l1 l2 : list Z,
  StronglySorted Z.lt l1 -> StronglySorted Z.lt l2 -> (forall x, In x l1 <-> In x l2) -> l1 = l2.
Proof.
  induction l1 as [|a l1 IH]; intros l2 S1 S2 H.
  - destruct l2 as [|b l2]; [reflexivity|]. destruct (proj2 (H b) (or_introl eq_refl)).
  - destruct l2 as [|b l2]; [destruct (proj1 (H a) (or_introl eq_refl))|].
    inversion S1 as [|a' l1' S1' F1]; subst a' l1'. inversion S2 as [|b' l2' S2' F2]; subst b' l2'.
    rewrite Forall_forall in F1, F2.
    assert (a = b).
    { destruct (proj1 (H a) (or_introl eq_refl)) as [E|E]; [auto|].
      destruct (proj2 (H b) (or_introl eq_refl)) as [E'|E']; [auto|].
      specialize (F1 b E'). specialize (F2 a E). lia. }
    subst b. f_equal. apply IH; auto. intros x. split; intros Hx.
    + destruct (proj1 (H x) (or_intror Hx)) as [E|E]; [|exact E]. specialize (F1 x Hx). lia.
    + destruct (proj2 (H x) (or_intror Hx)) as [E|E]; [|exact E]. specialize (F2 x Hx). lia.
Qed.

Lemma zrange_nat_sorted : forall m lo, StronglySorted Z.lt (zrange_nat lo m).
Proof.
  induction m as [|m IH]; intros lo; cbn [zrange_nat]; constructor; [apply IH|].
  apply Forall_forall. intros x Hx. apply in_zrange_nat in Hx. lia.
Qed.

Lemma filter_sorted : forall (f : Z -> bool) l, StronglySorted Z.lt l -> StronglySorted Z.lt (filter f l).
Proof.
  intros f l S. induction S as [|a l S IH F]; cbn [filter]; [constructor|].
  destruct (f a); [|exact IH]. constructor; [exact IH|].
  apply Forall_forall. intros x Hx. apply filter_In in Hx.
  rewrite Forall_forall in F. apply F. apply Hx.
Qed.

Lemma map_sorted : forall (g : Z -> Z) l, StronglySorted Z.lt l ->
  (forall x y, In x l -> In y l -> x < y -> g x < g y) -> StronglySorted Z.lt (map g l).
Proof.
  intros g l S. induction S as [|a l S IH F]; intros H; cbn [map]; [constructor|].
  constructor.
  - apply IH. intros x y Hx Hy. apply H; right; assumption.
  - apply Forall_forall. intros y Hy. apply in_map_iff in Hy. destruct Hy as (x & <- & Hx).
    rewrite Forall_forall in F. apply H; [left; reflexivity | right; exact Hx | apply F; exact Hx].
Qed.

Lemma locations_sorted : forall count lo hi, StronglySorted Z.lt (locations count lo hi).
Proof. intros. apply filter_sorted. apply zrange_nat_sorted. Qed.

Lemma in_locations : forall count lo hi x,
  In x (locations count lo hi) <-> lo <= x < hi /\ count x < count (x + 1).
Proof. intros. unfold locations. rewrite filter_In, in_zrange, Z.ltb_lt. reflexivity. Qed.

(* The multiplicities of an interval add up. *)
Lemma multiplicities_sum : forall n count lo hi, counts n count -> lo <= hi ->
  fold_right Z.add 0 (map (multiplicity count) (locations count lo hi)) = count hi - count lo.
Proof.
  intros n count lo hi Hc H. unfold locations, zrange.
  replace hi with (lo + Z.of_nat (Z.to_nat (hi - lo))) at 2 by lia.
  generalize (Z.to_nat (hi - lo)) as m. clear H hi. intros m. revert lo.
  induction m as [|m IH]; intros lo; cbn [zrange_nat filter].
  - cbn [map fold_right]. replace (lo + Z.of_nat 0) with lo by lia. lia.
  - assert (H1 : count lo <= count (lo + 1)) by (apply Hc; lia).
    replace (lo + Z.of_nat (S m)) with (lo + 1 + Z.of_nat m) by lia.
    destruct (Z.ltb_spec (count lo) (count (lo + 1))) as [H|H]; cbn [map fold_right]; rewrite IH;
      unfold multiplicity; lia.
Qed.

Lemma nth_zrange_nat : forall m lo i, (i < m)%nat -> nth i (zrange_nat lo m) 0 = lo + Z.of_nat i.
Proof.
  induction m as [|m IH]; intros lo i H; [lia|]. cbn [zrange_nat]. destruct i as [|i]; cbn [nth]; [lia|].
  rewrite IH by lia. lia.
Qed.
Lemma nth_zrange : forall lo hi i, Z.of_nat i < hi - lo -> nth i (zrange lo hi) 0 = lo + Z.of_nat i.
Proof. intros. unfold zrange. apply nth_zrange_nat. lia. Qed.

(* ------------------------------------------------------------------ compression *)
Lemma found_filter : forall nev mul,
  vectors_found nev mul = Z.of_nat (length (filter (fun i => 0 <? mul i) (zrange 0 nev))).
Proof.
  intros. unfold vectors_found.
  assert (H : forall l a, fold_left (fun v i => if 0 <? mul i then v + 1 else v) l a =
                          a + Z.of_nat (length (filter (fun i => 0 <? mul i) l))).
  { induction l as [|x l IH]; intros a; cbn [fold_left filter]; [cbn; lia|].
    rewrite IH. destruct (0 <? mul x); cbn [length]; lia. }
  rewrite H. lia.
Qed.

Definition pos (mul : Z -> Z) (i : Z) : list Z := filter (fun i => 0 <? mul i) (zrange 0 i).

Lemma pos_snoc : forall mul i, 0 <= i ->
  pos mul (i + 1) = pos mul i ++ (if 0 <? mul i then [i] else []).
Proof.
  intros mul i H. unfold pos. rewrite (zrange_app 0 i (i + 1)) by lia.
  rewrite (zrange_cons i (i + 1)) by lia. rewrite (zrange_nil (i + 1)) by lia.
  rewrite filter_app. cbn [filter]. reflexivity.
Qed.

Lemma pos_length : forall mul i, 0 <= i -> Z.of_nat (length (pos mul i)) <= i.
Proof.
  intros mul i H. unfold pos.
  assert (H1 : forall l : list Z, (length (filter (fun i => Z.ltb 0 (mul i)) l) <= length l)%nat).
  { induction l as [|x l IH]; cbn [filter length]; [lia|]. destruct (0 <? mul x); cbn [length]; lia. }
  specialize (H1 (zrange 0 i)). rewrite zrange_length in H1. lia.
Qed.

Lemma compress_spec : forall nev val mul, 0 <= nev ->
  let r := compress nev val mul in
  forall p, 0 <= p < Z.of_nat (length (pos mul nev)) ->
    snd (fst r) p = val (nth (Z.to_nat p) (pos mul nev) 0) /\
    snd r p = mul (nth (Z.to_nat p) (pos mul nev) 0).
Proof.
  intros nev val mul Hn.
  assert (H : let r := compress nev val mul in
    fst (fst r) = Z.of_nat (length (pos mul nev)) /\
    (forall p, 0 <= p < Z.of_nat (length (pos mul nev)) ->
       snd (fst r) p = val (nth (Z.to_nat p) (pos mul nev) 0) /\
       snd r p = mul (nth (Z.to_nat p) (pos mul nev) 0)) /\
    (forall p, nev <= p -> snd (fst r) p = val p /\ snd r p = mul p)).
  { pattern nev. apply (natlike_ind _); [| |exact Hn]; clear nev Hn.
    - change (pos mul 0) with (@nil Z). cbn [length Z.of_nat]. split; [reflexivity|].
      split; [intros p Hp; lia | intros p _; split; reflexivity].
    - intros i Hi IH. unfold Z.succ. unfold compress in *.
      rewrite (zrange_app 0 i (i + 1)) by lia.
      rewrite (zrange_cons i (i + 1)) by lia. rewrite (zrange_nil (i + 1)) by lia.
      rewrite fold_left_app. cbn [fold_left].
      remember (fold_left _ (zrange 0 i) (0, val, mul)) as r0 eqn:Er. clear Er.
      destruct r0 as [[j v] m]. cbn [fst snd] in IH. destruct IH as (IH1 & IH2 & IH3).
      destruct (IH3 i ltac:(lia)) as (IHv & IHm). rewrite IHm.
      pose proof (pos_length mul i Hi) as Hl. rewrite <- IH1 in Hl.
      rewrite (pos_snoc mul i Hi). destruct (0 <? mul i); cbn [fst snd].
      + rewrite app_length. cbn [length]. split; [lia|]. split.
        * intros p Hp. unfold put. destruct (Z.eqb_spec p j) as [E|E].
          -- subst p. rewrite app_nth2 by lia.
             replace (Z.to_nat j - length (pos mul i))%nat with 0%nat by lia.
             cbn [nth]. rewrite ?IHv, ?IHm. auto.
          -- rewrite app_nth1 by lia. apply IH2. lia.
        * intros p Hp. unfold put. replace (p =? j) with false by (symmetry; apply Z.eqb_neq; lia).
          apply IH3. lia.
      + rewrite app_nil_r. split; [exact IH1|]. split; [exact IH2|].
        intros p Hp. apply IH3. lia. }
  apply H.
Qed.

Lemma full_pos : forall mul nev, 0 <= nev -> Z.of_nat (length (pos mul nev)) = nev -> pos mul nev = zrange 0 nev.
Proof.
  intros mul nev Hn. pattern nev. apply (natlike_ind _); [| |exact Hn]; clear nev Hn.
  - reflexivity.
  - intros i Hi IH. unfold Z.succ. rewrite (pos_snoc mul i Hi), app_length.
    rewrite (zrange_app 0 i (i + 1)) by lia.
    rewrite (zrange_cons i (i + 1)) by lia. rewrite (zrange_nil (i + 1)) by lia.
    pose proof (pos_length mul i Hi).
    destruct (0 <? mul i); cbn [length]; intros E; [|lia].
    rewrite IH by lia. reflexivity.
Qed.

Lemma finish_spec : forall nev val mul, 0 <= nev ->
  exists v m, finish PlasmaVec nev val mul = Some (Z.of_nat (length (pos mul nev)), v, m) /\
    forall p, 0 <= p < Z.of_nat (length (pos mul nev)) ->
      v p = val (nth (Z.to_nat p) (pos mul nev) 0) /\ m p = mul (nth (Z.to_nat p) (pos mul nev) 0).
Proof.
  intros nev val mul Hn. unfold finish. rewrite found_filter. fold (pos mul nev).
  destruct (Z.ltb_spec (Z.of_nat (length (pos mul nev))) nev) as [H|H].
  - exists (snd (fst (compress nev val mul))), (snd (compress nev val mul)).
    split; [reflexivity|]. apply compress_spec. exact Hn.
  - exists val, mul. split; [reflexivity|].
    pose proof (pos_length mul nev Hn) as Hl.
    rewrite (full_pos mul nev Hn) by lia. rewrite zrange_length. intros p Hp.
    rewrite nth_zrange by lia. replace (0 + Z.of_nat (Z.to_nat p)) with p by lia. auto.
Qed.

(* ------------------------------------------------------------------ the bounds *)
Section Driver.
  Variables (n : Z) (count : Z -> Z) (mid : Z -> Z -> Z).
  Hypothesis Hc : counts n count.
  Hypothesis Hm : midpoint mid.

  Lemma stelg_min_stays : forall fuel lo hi, lo <= hi ->
    (forall x, x < hi -> count x < n) -> fst (stelg_min count mid fuel n lo hi) = lo.
  Proof.
    induction fuel as [|fuel IH]; intros lo hi H Hx; cbn [stelg_min]; [reflexivity|].
    destruct (Hm lo hi H) as (M1 & M2).
    destruct (Z.eqb_spec (mid lo hi) lo) as [E1|E1]; cbn [orb]; [reflexivity|].
    destruct (Z.eqb_spec (mid lo hi) hi) as [E2|E2]; [reflexivity|].
    specialize (Hx (mid lo hi) ltac:(lia)) as Hx'.
    replace (count (mid lo hi) =? n) with false by (symmetry; apply Z.eqb_neq; lia).
    apply IH; [lia|]. intros x Hxx. apply Hx. lia.
  Qed.

  Lemma stelg_max_bound : forall fuel lo hi, lo <= hi -> count (hi + 1) = n ->
    lo <= snd (stelg_max count mid fuel n lo hi) <= hi /\ count (snd (stelg_max count mid fuel n lo hi) + 1) = n.
  Proof.
    induction fuel as [|fuel IH]; intros lo hi H Hh; cbn [stelg_max]; [cbn [snd]; split; [lia|exact Hh]|].
    destruct (Hm lo hi H) as (M1 & M2).
    destruct (Z.eqb_spec (mid lo hi) lo) as [E1|E1]; cbn [orb]; [cbn [snd]; split; [lia|exact Hh]|].
    destruct (Z.eqb_spec (mid lo hi) hi) as [E2|E2]; [cbn [snd]; split; [lia|exact Hh]|].
    destruct (Z.eqb_spec (count (mid lo hi)) n) as [E3|E3].
    - destruct (IH lo (mid lo hi) ltac:(lia)) as (H1 & H2).
      + destruct Hc as (C1 & C2). pose proof (C1 (mid lo hi + 1)). pose proof (C2 (mid lo hi) (mid lo hi + 1)). lia.
      + split; [lia|exact H2].
    - destruct (IH (mid lo hi) hi ltac:(lia) Hh) as (H1 & H2). split; [lia|exact H2].
  Qed.

  Lemma zstelg_bounds : forall gmin gmax, encloses n count mid gmin gmax ->
    fst (zstelg count mid n gmin gmax) = gmin /\
    gmin <= snd (zstelg count mid n gmin gmax) <= gmax /\ count (snd (zstelg count mid n gmin gmax) + 1) = n.
  Proof.
    intros gmin gmax (H1 & H2 & H3 & H4). unfold zstelg. cbn [fst snd]. split.
    - replace (Z.to_nat (gmax - gmin + 1)) with (S (Z.to_nat (gmax - gmin))) by lia.
      cbn [stelg_min]. destruct (Hm gmin gmax H1) as (M1 & M2).
      destruct (Z.eqb_spec (mid gmin gmax) gmin) as [E1|E1]; cbn [orb]; [reflexivity|].
      destruct (Z.eqb_spec (mid gmin gmax) gmax) as [E2|E2]; [reflexivity|].
      assert (H5 : gmin + 1 < gmax) by lia. specialize (H4 H5).
      replace (count (mid gmin gmax) =? n) with false by (symmetry; apply Z.eqb_neq; lia).
      apply stelg_min_stays; [lia|]. intros x Hx.
      pose proof (proj2 Hc x (mid gmin gmax) ltac:(lia)). lia.
    - apply stelg_max_bound; assumption.
  Qed.

  (* What the arrays hold once the bisection is over, as a list. *)
  Lemma outcome_reports : forall c VL VU nev xs mul0 s,
    0 <= nev ->
    (forall i, 0 <= i < nev -> mul0 i <= 0) ->
    outcome count c VL VU mul0 s ->
    StronglySorted Z.lt xs ->
    (forall x, In x xs <-> wanted count c VL VU x) ->
    (forall x, In x xs -> 0 <= idx count c x < nev) ->
    exists found val mul, finish PlasmaVec nev (s_val s) (s_mul s) = Some (found, val, mul) /\
      reports count xs found val mul.
  Proof.
    intros c VL VU nev xs mul0 s Hn Hmul (_ & _ & O1 & O2) Sx Wx Ix.
    destruct (finish_spec nev (s_val s) (s_mul s) Hn) as (v & m & E & Hvm).
    assert (Hpos : pos (s_mul s) nev = map (idx count c) xs).
    { apply sorted_ext.
      - apply filter_sorted. apply zrange_nat_sorted.
      - apply map_sorted; [exact Sx|]. intros x y Hx Hy Hxy. apply Wx in Hx. apply Wx in Hy.
        destruct Hx as (_ & X2 & _).
        pose proof (proj2 Hc (x + 1) y ltac:(lia)). unfold idx.
        destruct (c_range c =? PlasmaRangeI); lia.
      - intros i. unfold pos. rewrite filter_In, in_zrange, Z.ltb_lt, in_map_iff. split.
        + intros (Hi & Hp). destruct (O2 i) as [O|(x & Hx & O)].
          * specialize (Hmul i Hi). lia.
          * exists x. split; [auto|]. apply Wx. exact Hx.
        + intros (x & <- & Hx). split; [apply Ix; exact Hx|].
          destruct (O1 x) as (_ & ->); [apply Wx; exact Hx|].
          apply Wx in Hx. destruct Hx as (_ & X2 & _). unfold multiplicity. lia. }
    rewrite Hpos, map_length in E, Hvm.
    exists (Z.of_nat (length xs)), v, m. split; [exact E|]. split; [reflexivity|].
    intros i Hi. destruct (Hvm i Hi) as (H1 & H2).
    rewrite (nth_indep _ 0 (idx count c 0)) in H1, H2 by (rewrite map_length; lia).
    rewrite map_nth in H1, H2.
    assert (Hin : In (nth (Z.to_nat i) xs 0) xs) by (apply nth_In; lia).
    destruct (O1 _ (proj1 (Wx _) Hin)) as (O3 & O4).
    rewrite O3 in H1. rewrite O4 in H2. auto.
  Qed.

  Variables (k gmin gmax : Z).
  Hypothesis Hn : 0 < n.
  Hypothesis He : encloses n count mid gmin gmax.

  Lemma below_gmin : forall x, x <= gmin -> count x = 0.
  Proof.
    intros x H. destruct He as (_ & H2 & _). pose proof (proj2 Hc x gmin H). pose proof (proj1 Hc x). lia.
  Qed.
  Lemma above : forall y x, count y = n -> y <= x -> count x = n.
  Proof. intros y x H1 H2. pose proof (proj2 Hc y x H2). pose proof (proj1 Hc x). lia. Qed.

  Lemma value_range : forall vl vu il iu val0 mul0,
    vl < vu -> count vu - count vl <= k ->
    (forall i, 0 <= i < count vu - count vl -> mul0 i <= 0) ->
    stevx_ensures count mid k PlasmaVec (zstevx2 count mid PlasmaVec PlasmaRangeV n k gmin gmax vl vu il iu)
      val0 mul0 (reports count (locations count vl vu)).
  Proof.
    intros vl vu il iu val0 mul0 Hv Hk Hmul.
    destruct (zstelg_bounds gmin gmax He) as (Z1 & Z2 & Z3).
    unfold zstevx2. rewrite !Z.eqb_refl. cbn [orb negb andb].
    change (PlasmaRangeV =? PlasmaRangeI) with false. cbn [andb].
    change (PlasmaVec =? PlasmaCount) with false. cbn [orb].
    replace (n <? 0) with false by (symmetry; apply Z.ltb_ge; lia).
    replace (vu <=? vl) with false by (symmetry; apply Z.leb_gt; lia).
    replace (n =? 0) with false by (symmetry; apply Z.eqb_neq; lia).
    rewrite Z1. remember (snd (zstelg count mid n gmin gmax)) as gM eqn:EgM. clear EgM.
    assert (B1 : (if gmin <=? vl then count vl else 0) = count vl).
    { destruct (Z.leb_spec gmin vl) as [H|H]; [reflexivity|]. symmetry. apply below_gmin. lia. }
    assert (B2 : (if vu <=? gM then count vu else n) = count vu).
    { destruct (Z.leb_spec vu gM) as [H|H]; [reflexivity|]. symmetry. apply (above (gM + 1)); [exact Z3|lia]. }
    rewrite B1, B2.
    replace (k <? count vu - count vl) with false by (symmetry; apply Z.ltb_ge; lia).
    cbn [stevx_ensures].
    assert (Hvv : count vl <= count vu) by (apply Hc; lia).
    remember (if gmin <=? vl then vl else gmin) as VL eqn:EVL.
    remember (if vu <=? gM then vu else gM + 1) as VU eqn:EVU.
    assert (CL : count VL = count vl).
    { rewrite EVL. destruct (Z.leb_spec gmin vl) as [H|H]; [reflexivity|].
      rewrite !below_gmin by lia. reflexivity. }
    assert (CU : count VU = count vu).
    { rewrite EVU. destruct (Z.leb_spec vu gM) as [H|H]; [reflexivity|].
      rewrite (above (gM + 1) (gM + 1)) by (auto; lia). symmetry. apply (above (gM + 1)); [exact Z3|lia]. }
    remember {| c_range := PlasmaRangeV; c_il := il; c_iu := iu; c_base := count vl |} as c eqn:Ec.
    assert (Hr : c_range c <> PlasmaRangeI) by (rewrite Ec; cbn [c_range]; discriminate).
    eapply ends_mono; [|apply (root_ends n count mid Hc Hm c k VL VU val0 mul0)].
    - intros s O. split; [apply O|]. split; [apply O|].
      apply (outcome_reports c VL VU (count vu - count vl) (locations count vl vu) mul0 s);
        try assumption; [lia|apply locations_sorted| |].
      + intros x. rewrite in_locations. unfold wanted. split.
        * intros (X1 & X2). split; [|split; [exact X2|intros Hi; contradiction]].
          rewrite EVL, EVU. destruct (Z.leb_spec gmin vl), (Z.leb_spec vu gM).
          -- lia.
          -- split; [lia|]. destruct (Z_lt_le_dec x (gM + 1)) as [L|L]; [exact L|].
             rewrite (above (gM + 1) x Z3 L) in X2. rewrite (above (gM + 1) (x + 1) Z3) in X2 by lia. lia.
          -- split; [|lia]. destruct (Z_lt_le_dec x gmin) as [L|L]; [|exact L].
             rewrite !below_gmin in X2 by lia. lia.
          -- split.
             ++ destruct (Z_lt_le_dec x gmin) as [L|L]; [|exact L].
                rewrite !below_gmin in X2 by lia. lia.
             ++ destruct (Z_lt_le_dec x (gM + 1)) as [L|L]; [exact L|].
                rewrite (above (gM + 1) x Z3 L) in X2. rewrite (above (gM + 1) (x + 1) Z3) in X2 by lia. lia.
        * intros (X1 & X2 & _). split; [|exact X2].
          rewrite EVL, EVU in X1. destruct (Z.leb_spec gmin vl), (Z.leb_spec vu gM); lia.
      + intros x. rewrite in_locations. intros (X1 & X2). unfold idx.
        destruct (Z.eqb_spec (c_range c) PlasmaRangeI) as [E|E]; [contradiction|].
        rewrite Ec. cbn [c_base].
        pose proof (proj2 Hc vl x ltac:(lia)). pose proof (proj2 Hc (x + 1) vu ltac:(lia)). lia.
    - intros E. contradiction.
    - intros _. rewrite Ec. cbn [c_base]. split; lia.
    - unfold root. cbn [b_lo b_hi b_nlo b_nhi]. repeat split; lia.
  Qed.

  Lemma index_range : forall vl vu il iu val0 mul0,
    1 <= il <= iu -> iu <= n -> iu + 1 - il <= k -> (exists a, count a = il - 1) ->
    (forall i, 0 <= i < iu + 1 - il -> mul0 i <= 0) ->
    stevx_ensures count mid k PlasmaVec (zstevx2 count mid PlasmaVec PlasmaRangeI n k gmin gmax vl vu il iu)
      val0 mul0
      (reports count (filter (fun x => (il - 1 <=? count x) && (count x <? iu)) (locations count gmin (gmax + 1)))).
  Proof.
    intros vl vu il iu val0 mul0 Hi Hiu Hk Ha Hmul.
    destruct (zstelg_bounds gmin gmax He) as (Z1 & Z2 & Z3).
    unfold zstevx2. rewrite !Z.eqb_refl. cbn [orb negb andb].
    change (PlasmaRangeI =? PlasmaRangeV) with false. cbn [andb orb negb].
    change (PlasmaVec =? PlasmaCount) with false. cbn [orb].
    replace (n <? 0) with false by (symmetry; apply Z.ltb_ge; lia).
    replace (il <? 1) with false by (symmetry; apply Z.ltb_ge; lia).
    replace (Z.max 1 n <? il) with false by (symmetry; apply Z.ltb_ge; lia).
    replace (iu <? Z.min n il) with false by (symmetry; apply Z.ltb_ge; lia).
    replace (n <? iu) with false by (symmetry; apply Z.ltb_ge; lia). cbn [orb].
    replace (n =? 0) with false by (symmetry; apply Z.eqb_neq; lia).
    rewrite Z1. remember (snd (zstelg count mid n gmin gmax)) as gM eqn:EgM. clear EgM.
    replace (k <? iu + 1 - il) with false by (symmetry; apply Z.ltb_ge; lia).
    cbn [stevx_ensures].
    remember {| c_range := PlasmaRangeI; c_il := il; c_iu := iu; c_base := 0 |} as c eqn:Ec.
    assert (Hr : c_range c = PlasmaRangeI) by (rewrite Ec; reflexivity).
    assert (Hil : c_il c = il) by (rewrite Ec; reflexivity).
    assert (Hciu : c_iu c = iu) by (rewrite Ec; reflexivity).
    assert (G0 : count gmin = 0) by (apply below_gmin; lia).
    eapply ends_mono; [|apply (root_ends n count mid Hc Hm c k gmin (gM + 1) val0 mul0)].
    - intros s O. split; [apply O|]. split; [apply O|].
      apply (outcome_reports c gmin (gM + 1) (iu + 1 - il) _ mul0 s); try assumption; [lia| | |].
      + apply filter_sorted. apply locations_sorted.
      + intros x. rewrite filter_In, in_locations, andb_true_iff, Z.leb_le, Z.ltb_lt.
        unfold wanted. rewrite Hil, Hciu. split.
        * intros ((X1 & X2) & X3). split; [|split; [exact X2|intros _; exact X3]].
          split; [lia|]. destruct (Z_lt_le_dec x (gM + 1)) as [L|L]; [exact L|].
          rewrite (above (gM + 1) x Z3 L) in X2. rewrite (above (gM + 1) (x + 1) Z3) in X2 by lia. lia.
        * intros (X1 & X2 & X3). specialize (X3 Hr). split; [split; [lia|exact X2]|exact X3].
      + intros x. rewrite filter_In, in_locations, andb_true_iff, Z.leb_le, Z.ltb_lt.
        intros (_ & X3). unfold idx. rewrite Hr, Z.eqb_refl, Hil. lia.
    - intros _. rewrite Hil, Hciu, G0, Z3. repeat split; try lia. exact Ha.
    - intros E. contradiction.
    - unfold root. cbn [b_lo b_hi b_nlo b_nhi]. repeat split; lia.
  Qed.

  Lemma value_count : forall vl vu il iu, vl < vu ->
    zstevx2 count mid PlasmaCount PlasmaRangeV n k gmin gmax vl vu il iu = SxCount (count vu - count vl).
  Proof.
    intros vl vu il iu Hv. destruct (zstelg_bounds gmin gmax He) as (Z1 & Z2 & Z3).
    unfold zstevx2. rewrite !Z.eqb_refl.
    change (PlasmaRangeV =? PlasmaRangeI) with false. cbn [andb].
    change (PlasmaCount =? PlasmaVec) with false. change (PlasmaCount =? PlasmaNoVec) with false. cbn [orb negb].
    replace (n <? 0) with false by (symmetry; apply Z.ltb_ge; lia).
    replace (vu <=? vl) with false by (symmetry; apply Z.leb_gt; lia).
    replace (n =? 0) with false by (symmetry; apply Z.eqb_neq; lia).
    rewrite Z1. remember (snd (zstelg count mid n gmin gmax)) as gM eqn:EgM. clear EgM.
    f_equal. f_equal.
    - destruct (Z.leb_spec vu gM) as [H|H]; [reflexivity|]. symmetry. apply (above (gM + 1)); [exact Z3|lia].
    - destruct (Z.leb_spec gmin vl) as [H|H]; [reflexivity|]. symmetry. apply below_gmin. lia.
  Qed.

  Lemma too_small : forall jobtype vl vu il iu, jobtype = PlasmaVec \/ jobtype = PlasmaNoVec ->
    vl < vu -> k < count vu - count vl ->
    zstevx2 count mid jobtype PlasmaRangeV n k gmin gmax vl vu il iu = SxReturns (-4).
  Proof.
    intros jobtype vl vu il iu Hj Hv Hk. destruct (zstelg_bounds gmin gmax He) as (Z1 & Z2 & Z3).
    unfold zstevx2. rewrite !Z.eqb_refl.
    change (PlasmaRangeV =? PlasmaRangeI) with false. cbn [andb orb negb].
    replace (jobtype =? PlasmaCount) with false by (destruct Hj as [-> | ->]; reflexivity).
    replace (negb ((jobtype =? PlasmaVec) || (jobtype =? PlasmaNoVec) || false)) with false
      by (destruct Hj as [-> | ->]; reflexivity).
    replace (n <? 0) with false by (symmetry; apply Z.ltb_ge; lia).
    replace (vu <=? vl) with false by (symmetry; apply Z.leb_gt; lia).
    replace (n =? 0) with false by (symmetry; apply Z.eqb_neq; lia).
    rewrite Z1. remember (snd (zstelg count mid n gmin gmax)) as gM eqn:EgM. clear EgM.
    assert (B1 : (if gmin <=? vl then count vl else 0) = count vl).
    { destruct (Z.leb_spec gmin vl) as [H|H]; [reflexivity|]. symmetry. apply below_gmin. lia. }
    assert (B2 : (if vu <=? gM then count vu else n) = count vu).
    { destruct (Z.leb_spec vu gM) as [H|H]; [reflexivity|]. symmetry. apply (above (gM + 1)); [exact Z3|lia]. }
    rewrite B1, B2.
    replace (k <? count vu - count vl) with true by (symmetry; apply Z.ltb_lt; lia). reflexivity.
  Qed.
End Driver.
