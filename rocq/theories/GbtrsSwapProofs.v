(* The interchanges that the master thread carries out in plasma_pztbsm, and regions with taskwaits. *)
From Coq Require Import ZArith List Bool Lia.
From Verif Require Import Base NumModel NumProofs FieldModel TaskModel TaskSpec TaskProofs DescModel DescSpec DescProofs
  MatModel MatSpec MatProofs RegionProofs FillProofs SimProofs SwpModel SwpSpec SwpProofs SwpDriverProofs NormSpec
  TriProofs GbtrsModel GbtrsSpec GbtrsVecProofs.
Import ListNotations.
Open Scope Z_scope.

(* ------------------------------------------------------------------ *)
(* regions with taskwaits                                                *)

Section Items.
  Context {V : Type}.

  Definition it_task (i : item V) : ktask V := match i with Task k => k | Alone k => k end.
  Definition it_decl (home : loc -> loc -> Prop) (i : item V) : Prop :=
    match i with Task k => kdecl home k | Alone _ => True end.

  Lemma map_it_task : forall l : list (ktask V), map it_task (map Task l) = l.
  Proof. intros l. rewrite map_map. apply map_id. Qed.

  Lemma waits_ensures : forall home, functional home -> forall items cur (M : mem V) (Q : mem V -> Prop),
    Forall kgood cur -> Forall kgood (map it_task items) ->
    Forall (kdecl home) cur -> Forall (it_decl home) items ->
    (forall M', meq M' (krun (cur ++ map it_task items) M) -> Q M') ->
    phases_ensures (waits cur items) M Q.
  Proof.
    intros home HF items. induction items as [|i items IH]; intros cur M Q GC GI DC DI HQ; cbn [waits].
    - cbn [phases_ensures]. apply region_intro; [assumption|apply korders_klinked; eapply kdecl_korders; eassumption|].
      intros M' HM. cbn [map] in HQ. rewrite app_nil_r in HQ. apply HQ. assumption.
    - cbn [map] in GI. inversion GI as [|? ? G1 G2]; inversion DI as [|? ? D1 D2]; subst.
      destruct i as [k|k]; cbn [it_task it_decl] in *.
      + apply IH; try assumption.
        * apply Forall_app; split; [assumption|]. constructor; [assumption|constructor].
        * apply Forall_app; split; [assumption|]. constructor; [assumption|constructor].
        * intros M' HM. apply HQ. rewrite <- app_assoc in HM. exact HM.
      + cbn [phases_ensures]. apply region_intro; [assumption|apply korders_klinked; eapply kdecl_korders; eassumption|].
        intros M1 H1. apply single_region; [assumption|]. intros M2 H2.
        apply IH; try assumption; try constructor.
        intros M' HM. apply HQ. eapply meq_trans; [exact HM|]. cbn [app map it_task].
        rewrite krun_app. cbn [krun fold_left].
        assert (E : meq M2 (k_fun k (krun cur M))).
        { eapply meq_trans; [exact H2|]. apply (krun_meq V [k] M1 (krun cur M)); [constructor; [assumption|constructor]|assumption]. }
        apply (krun_meq V (map it_task items)); assumption.
  Qed.
End Items.

(* ------------------------------------------------------------------ *)
(* some of the interchanges                                              *)

Lemma zrange_map0 : forall lo hi, map (fun t => lo + t) (zrange 0 (hi - lo)) = zrange lo hi.
Proof.
  intros lo hi. unfold zrange. rewrite Z.sub_0_r. generalize (Z.to_nat (hi - lo)). intros m.
  assert (E : forall z, map (fun t => lo + t) (zrange_nat z m) = zrange_nat (lo + z) m).
  { induction m as [|m IH]; intros z; cbn [zrange_nat map]; [reflexivity|].
    rewrite IH. replace (lo + (z + 1)) with (lo + z + 1) by lia. reflexivity. }
  rewrite E. replace (lo + 0) with lo by lia. reflexivity.
Qed.

Lemma swp_idx_fwd : forall k1 k2, swp_indices k1 k2 1 = zrange (k1 - 1) k2.
Proof.
  intros k1 k2. unfold swp_indices. change (0 <? 1) with true. cbv iota. rewrite Z.div_1_r.
  rewrite <- (zrange_map0 (k1 - 1) k2). replace (k2 - (k1 - 1)) with (k2 - k1 + 1) by lia. apply map_ext. intros t. lia.
Qed.

Lemma swp_idx_bwd : forall k1 k2, k1 - 1 <= k2 -> swp_indices k1 k2 (-1) = rev (zrange (k1 - 1) k2).
Proof.
  intros k1 k2 H. unfold swp_indices. change (0 <? -1) with false. cbv iota. change (- (-1)) with 1.
  rewrite Z.div_1_r. rewrite <- (zrange_map0 (k1 - 1) k2), <- map_rev. replace (k2 - (k1 - 1)) with (k2 - k1 + 1) by lia.
  rewrite <- rev_zrange by lia. rewrite map_map. apply map_ext. intros t. lia.
Qed.

Lemma swp_idx_in : forall k1 k2 incx i, k1 - 1 <= k2 -> incx = 1 \/ incx = -1 -> In i (swp_indices k1 k2 incx) ->
  k1 - 1 <= i < k2.
Proof.
  intros k1 k2 incx i Hk [->| ->]; [rewrite swp_idx_fwd|rewrite swp_idx_bwd, <- in_rev by assumption];
    intro H; apply in_zrange in H; assumption.
Qed.

Lemma panel_fin : forall R C (E : Z -> Z -> loc), finite_set (panel R C E).
Proof.
  intros R C E. exists (flat_map (fun s => map (E s) (zrange 0 C)) (zrange 0 R)). intros l. rewrite in_flat_map. split.
  - intros (s & Hs & Hl). apply in_map_iff in Hl. destruct Hl as (c & <- & Hc). apply in_zrange in Hs, Hc. exists s, c. auto.
  - intros (s & c & Hs & Hc & ->). exists s. split; [apply in_zrange; assumption|]. apply in_map_iff. exists c.
    split; [reflexivity|apply in_zrange; assumption].
Qed.

Section Sub.
  Context {V : Type}.
  Variables (b : Z) (W : desc).
  Hypothesis G : gen_ok W.
  Let SH := gk_shape W G.
  Variables (ipiv : Z -> Z) (incx k1 k2 : Z).
  Hypothesis HX : incx = 1 \/ incx = -1.
  Hypothesis K1 : 1 <= k1.
  Hypothesis K2 : k1 - 1 <= k2 <= d_m W.

  Lemma sub_lines : d_n W <= d_nb W -> legal_pivots ipiv (d_m W) -> forall M : mem V,
    lines (d_m W) (d_n W) (fun i c => (b, elem_off W i c)) (source (map (fun i => (i, ipiv i - 1)) (swp_indices k1 k2 incx))) M
      (core_zgeswp PlasmaRowwise b W k1 k2 ipiv incx M).
  Proof.
    intros HN HL M. unfold core_zgeswp. change (PlasmaRowwise =? PlasmaRowwise) with true. cbv iota.
    pose proof (go_m W SH) as Hm0. pose proof (go_n W SH) as Hn0. pose proof (go_nb W SH) as Hnb0.
    assert (LI : forall s c s' c', 0 <= s < d_m W -> 0 <= c < d_n W -> 0 <= s' < d_m W -> 0 <= c' < d_n W ->
       (b, elem_off W s c) = (b, elem_off W s' c') -> s = s' /\ c = c').
    { intros s c s' c' Hs Hc Hs' Hc' E. injection E as E. apply (gen_ok_inj W); assumption. }
    assert (PT : forall i c, 0 <= c < d_n W ->
      at_ (b, tile_addr W (i / d_mb W) 0 + i mod d_mb W) (tile_mmain W (i / d_mb W)) 0 c = (b, elem_off W i c)).
    { intros i c Hc. unfold at_, elem_off. cbn [fst snd]. rewrite (Z.div_small c), (Z.mod_small c) by lia.
      f_equal. lia. }
    apply fold_lines.
    - intros i M1 Hi. apply swp_idx_in in Hi; [|lia|assumption]. cbn [fst snd].
      specialize (HL i ltac:(lia)). unfold swp_row. destruct (Z.eqb_spec (ipiv i - 1) i) as [E|E].
      + rewrite E. apply lines_same. apply transposed_same.
      + cbv zeta. unfold tptr. cbn [fst snd].
        apply zswap_lines; try lia; auto.
    - unfold swaps_in. apply Forall_forall. intros p Hp. apply in_map_iff in Hp. destruct Hp as (i & <- & Hi).
      apply swp_idx_in in Hi; [|lia|assumption]. specialize (HL i ltac:(lia)). cbn [fst snd]. lia.
  Qed.
End Sub.

(* ------------------------------------------------------------------ *)
(* the interchanges of block k in tile column q of B                     *)

Section Swap.
  Context {F : fields}.
  Variables (nb n : Z) (A B : desc) (bB : Z) (ipiv : Z -> Z).
  Hypothesis G : gen_ok B.
  Hypothesis Bmb : d_mb B = nb.
  Hypothesis Bnb : d_nb B = nb.
  Hypothesis Bm : d_m B = n.
  Hypothesis Anb : d_nb A = nb.
  Hypothesis Am : d_m A = n.
  Hypothesis HP : legal_pivots ipiv n.
  Let SH := gk_shape B G.

  (* the interchanges of block k in the order of incx *)
  Definition sws (incx k : Z) : list (Z * Z) := if 0 <? incx then sw nb n ipiv k else rev (sw nb n ipiv k).
  Definition swt (incx k q : Z) : ktask F :=
    tbsm_swap A bB B ipiv incx (k * nb + 1) (Z.min ((k + 1) * nb) n) q.
  Let Er q i c : loc := (bB, elem_off B i (q * nb + c)).

  Lemma sws_in : forall incx k, 0 <= k -> swaps_in n (sws incx k).
  Proof.
    intros incx k Hk. assert (P : 0 < nb) by (rewrite <- Bmb; apply (go_mb B SH)).
    assert (N0 : 0 <= n) by (rewrite <- Bm; apply (go_m B SH)).
    unfold sws. destruct (0 <? incx); [apply sw_in|apply sw_rev_in]; assumption.
  Qed.

  Lemma swt_lines : forall incx k q (M : mem F), incx = 1 \/ incx = -1 -> 0 <= k -> k * nb <= n -> 0 <= q < d_nt B ->
    lines n (tile_nview B q) (Er q) (source (sws incx k)) M (k_fun (swt incx k q) M).
  Proof.
    intros incx k q M HX Hk Hkn Hq. destruct (row_view nb B G Bnb q Hq) as (GW & W1 & W2 & W3 & W4).
    cbn [k_fun swt tbsm_swap]. rewrite Anb, Am, <- Bm, <- Bnb.
    remember (the_view B 0 (q * d_nb B) (d_m B) (tile_nview B q)) as W eqn:EW. clear EW.
    pose proof (go_mb B SH) as P.
    assert (K2 : k * nb + 1 - 1 <= Z.min ((k + 1) * nb) n <= d_m W) by (rewrite W1, Bm; nia).
    pose proof (sub_lines (V := F) bB W GW ipiv incx (k * nb + 1) (Z.min ((k + 1) * nb) n) HX ltac:(nia) K2 W3) as HR.
    rewrite W1, Bm in HR. specialize (HR HP M). rewrite Bm, Bnb.
    assert (E : map (fun i => (i, ipiv i - 1)) (swp_indices (k * nb + 1) (Z.min ((k + 1) * nb) n) incx) = sws incx k).
    { unfold sws, sw, block_swaps. destruct HX as [->| ->].
      - change (0 <? 1) with true. cbv iota. rewrite swp_idx_fwd. replace (k * nb + 1 - 1) with (k * nb) by lia. reflexivity.
      - change (0 <? -1) with false. cbv iota. rewrite swp_idx_bwd by lia. replace (k * nb + 1 - 1) with (k * nb) by lia.
        apply map_rev. }
    rewrite E in HR. eapply lines_ext; [|intros s c; unfold Er; rewrite <- W4; reflexivity|exact HR]. assumption.
  Qed.

  Lemma swt_kgood : forall incx k q, incx = 1 \/ incx = -1 -> 0 <= k -> k * nb <= n -> 0 <= q < d_nt B ->
    kgood (swt incx k q).
  Proof.
    intros incx k q HX Hk Hkn Hq.
    assert (FS : finite_set (col_reg bB B q)).
    { destruct (panel_fin (d_m B) (tile_nview B q) (Er q)) as [L HL]. exists L. intros l. rewrite HL. symmetry.
      apply (col_reg_panel nb bB B G Bnb q l Hq). }
    split; [|exact FS|exact FS].
    apply (lines_sound n (tile_nview B q) (Er q) (source (sws incx k))).
    - intros s Hs. apply source_range; [|assumption]. apply sws_in. assumption.
    - intros M. apply swt_lines; assumption.
    - intros l. rewrite <- Bm. apply (col_reg_panel nb bB B G Bnb q l Hq).
  Qed.

  Lemma swt_writes : forall incx k q l, k_writes (swt incx k q) l -> fst l = bB.
  Proof. intros incx k q l (m & _ & H). apply reg_block in H. exact H. Qed.

  Variables (bA : Z) (M0 : mem F).
  Hypothesis An : d_n A = n.
  Let vst := vstate A B bB PlasmaLeft M0.

  Lemma swt_step : forall incx k q c M x, incx = 1 \/ incx = -1 -> 0 <= k -> k * nb <= n -> 0 <= q < d_nt B ->
    0 <= c < d_n B -> vst c M x ->
    vst c (k_fun (swt incx k q) M) (if c / nb =? q then (fun r => x (source (sws incx k) r)) else x).
  Proof.
    intros incx k q c M x HX Hk Hkn Hq Hc [V1 V2]. destruct (swt_lines incx k q M HX Hk Hkn Hq) as [L1 L2].
    pose proof (go_nb B SH) as P. rewrite Bnb in P. destruct (div_mod_pos c nb P) as [EC RC].
    split.
    - intros l Hl. rewrite L2; [apply V1; assumption|]. intros (s & d & _ & _ & ->). apply Hl. reflexivity.
    - rewrite An in *. intros r Hr. unfold elV in *. cbn [lft] in *. change (lft PlasmaLeft) with true in *. cbv iota in *. unfold el in *.
      destruct (Z.eqb_spec (c / nb) q) as [E|E].
      + specialize (L1 r (c mod nb) Hr). unfold Er in L1.
        replace (q * nb + c mod nb) with c in L1 by (subst q; lia). rewrite L1.
        * apply V2. apply source_range; [apply sws_in; assumption|assumption].
        * destruct (nview_spec B q SH Hq) as [E1 E2]. rewrite Bnb in *. subst q. nia.
      + rewrite L2; [apply V2; assumption|]. intros (s & d & Hs & Hd & EQ). unfold Er in EQ. injection EQ as EQ.
        destruct (tile_col B q d SH Hq Hd) as (C1 & C2 & C3). rewrite Bnb in *.
        apply (gen_ok_inj B) in EQ; try assumption; try (rewrite Bm; assumption). destruct EQ as [_ EQ]. apply E. rewrite EQ. exact C2.
  Qed.
End Swap.
