(* The tasks of plasma_pzgbtrf one after the other factor the band matrix. *)
From Coq Require Import ZArith List Bool Lia Ring.
From Verif Require Import Base NumModel NumProofs FieldModel TaskModel TaskSpec TaskProofs DescModel DescSpec DescProofs
  DescPackProofs DescDriverModel MatModel MatSpec MatProofs RegionProofs LayoutModel OpProofs GemmModel GemmProofs TriModel TriVecProofs
  SwpModel SwpSpec SwpProofs LuProofs GridProofs GuardModel GuardSpec GuardProofs GuardProofs2 BandLayoutProofs NormGbLayoutProofs
  GetrfModel GetrfSpec GetrfAbsProofs GetrfPanelProofs GetrfProofs GetrfRegionProofs GbtrsSpec GbtrfModel GbtrfMathProofs GbtrfTaskProofs
  GbtrfUpdateProofs GbtrfStepProofs.
Import ListNotations.
Open Scope Z_scope.

Section Run.
  Context {F : fields}.
  Add Ring num_ring_gbr : (nring F).
  Variable bigger : F -> F -> bool.
  Variables (A : desc) (nb n kl ku b : Z) (pI : loc) (ib mpt : Z).
  Hypothesis HA : gd_ok A nb n n kl ku.
  Hypothesis BK : band_ok A.
  Hypothesis Hib : 0 < ib.
  Hypothesis Hmpt : 0 < mpt.
  Hypothesis Hpi : fst pI <> b.
  Let T := ntl nb n.
  Let Lg := gE A b.
  Let w := pw nb n.
  Let h := ph nb n kl.
  Let R := gR A nb n.

  Definition tbb (i j : Z) : bool := (j / nb - i / nb <? d_kut A) && (i / nb - j / nb <? d_klt A).
  (* the matrix the tiles hold *)
  Definition matf (M : mem (cell F)) (i j : Z) : F := if tbb i j then fst (M (Lg i j)) else n0.

  Lemma tbb_tbe : forall i j, 0 <= i < n -> 0 <= j < n -> (tbb i j = true <-> tbe A nb n i j).
  Proof. intros i j Hi Hj. unfold tbb, tbe. rewrite andb_true_iff, !Z.ltb_lt. tauto. Qed.
  Lemma matf_in : forall M i j, tbe A nb n i j -> matf M i j = fst (M (Lg i j)).
  Proof. intros M i j H. unfold matf. replace (tbb i j) with true; [reflexivity|]. symmetry. apply tbb_tbe; try assumption; apply H. Qed.
  Lemma matf_same : forall M M' i j, 0 <= i < n -> 0 <= j < n -> (tbe A nb n i j -> fst (M (Lg i j)) = fst (M' (Lg i j))) -> matf M i j = matf M' i j.
  Proof.
    intros M M' i j Hi Hj H. unfold matf. destruct (tbb i j) eqn:E; [|reflexivity]. apply H. apply tbb_tbe; assumption.
  Qed.

  Lemma p_facts' : forall k, 0 <= k < T -> 0 < nb /\ 0 <= k * nb < n /\ 0 < w k <= nb /\ w k <= h k /\ k * nb + h k <= R k /\
      R k <= n /\ k * nb + w k <= n /\ Z.min ((k + 1) * nb) n = k * nb + w k.
  Proof.
    intros k Hk. destruct (p_facts A nb n kl ku mpt HA BK Hmpt k Hk) as (P1 & P2 & P3 & P4 & P5 & P6 & P7 & P8).
    fold (w k) (h k) (R k) in *. assert (0 <= k * nb) by nia. repeat (split; [lia|]). unfold w, pw. lia.
  Qed.

  Lemma col_tbe : forall k c i j, 0 <= k -> k <= c < Z.min T (k + d_kut A) -> k * nb <= i < R k -> c * nb <= j < c * nb + w c -> tbe A nb n i j.
  Proof. intros k c i j. apply (gR_tbe A nb n kl ku HA). Qed.

  (* columns from block k to block k + kut - 1 *)
  Lemma cols_tbe : forall k i j, 0 <= k < T -> k * nb <= i < R k -> k * nb <= j < Z.min n ((k + d_kut A) * nb) -> tbe A nb n i j.
  Proof.
    intros k i j Hk Hi Hj. destruct (p_facts' k Hk) as (P1 & P2 & P3 & P4 & P5 & P6 & P7 & P8).
    assert (D1 : k <= j / nb) by (apply Z.div_le_lower_bound; lia). assert (D2 : j / nb < k + d_kut A) by (apply Z.div_lt_upper_bound; lia).
    pose proof (Z.div_mod j nb ltac:(lia)) as E. pose proof (Z.mod_pos_bound j nb P1) as B.
    apply (col_tbe k (j / nb)); [lia| |assumption|unfold w, pw; lia].
    split; [assumption|]. apply Z.min_glb_lt; [|assumption]. apply (gf_T A nb n kl ku HA); lia.
  Qed.

  (* ---------------- the panel ---------------- *)

  Record panelled (k : Z) (M0 M1 : mem (cell F)) : Prop := {
    pl_piv : forall t, 0 <= t < w k -> t + 1 <= ipiv_rd M1 (gb_ipiv A pI k) t <= h k;
    pl_lu : forall i j, 0 <= i < h k -> 0 <= j < w k ->
      fst (M0 (Lg (k * nb + perm (fun t => ipiv_rd M1 (gb_ipiv A pI k) t - 1) 0 (w k) i) (k * nb + j))) =
      nsum (fun l => nmul (factor_L (fun i j => fst (M1 (Lg (k * nb + i) (k * nb + j)))) i l)
                          (factor_U (fun i j => fst (M1 (Lg (k * nb + i) (k * nb + j)))) l j)) 0 (w k);
    pl_nz : forall t, 0 <= t < w k -> fst (M1 (Lg (k * nb + t) (k * nb + t))) <> n0;
    pl_wp : comparison bigger -> forall i t, 0 <= t < w k -> t < i < h k ->
      bigger (nmul (fst (M1 (Lg (k * nb + i) (k * nb + t)))) (fst (M1 (Lg (k * nb + t) (k * nb + t))))) (fst (M1 (Lg (k * nb + t) (k * nb + t)))) = false;
    pl_other : forall i j, tbe A nb n i j -> ~ (k * nb <= i < k * nb + h k /\ k * nb <= j < k * nb + w k) ->
      fst (M1 (Lg i j)) = fst (M0 (Lg i j));
    pl_pivs : forall t, t < k * nb \/ k * nb + w k <= t -> pivots M1 pI t = pivots M0 pI t }.

  Lemma panel_step : forall k M, 0 <= k < T ->
    let M1 := k_fun (ck_task (gb_panel bigger b A pI ib mpt k)) M in
    let code := ck_info (gb_panel bigger b A pI ib mpt k) M in
    (code = 0 /\ panelled k M M1) \/
    (k * nb + 1 <= code <= k * nb + w k /\
     (comparison bigger -> column_depends (h k) (fun i j => fst (M (Lg (k * nb + i) (k * nb + j)))) (code - 1 - k * nb))).
  Proof.
    intros k M Hk. cbv zeta. destruct (p_facts' k Hk) as (P1 & P2 & P3 & P4 & P5 & P6 & P7 & P8).
    destruct (panel_spec bigger A nb n kl ku b pI ib mpt HA BK Hib Hmpt k Hk M) as (S1 & S2 & S3 & S4).
    unfold gb_panel. cbv zeta. cbn [ck_task ck_info k_fun].
    match type of S2 with lu_outcome _ _ _ _ _ _ ?i => remember i as info eqn:EI in * end. clear EI.
    match type of S1 with snd ?r = _ => remember r as rr eqn:ER in * end. clear ER.
    rewrite S1. fold (w k) (h k) in S2, S3, S4. fold Lg in S2, S3.
    destruct S2 as (O1 & O2 & O3). unfold GetrfSpec.factored, U_regular, well_pivoted in O2. rewrite Z.min_r in O1, O2 by lia.
    destruct (Z.eqb_spec info 0) as [E|E].
    - left. split; [reflexivity|]. destruct (O2 E) as ([Q1 Q2] & Q3 & Q4). constructor.
      + exact Q1.
      + intros i j Hi Hj. specialize (Q2 i j (conj Hi Hj)). rewrite interchanges_z in Q2 by lia. exact Q2.
      + intros t Ht. specialize (Q3 t Ht). unfold factor_U in Q3. rewrite Z.leb_refl in Q3. exact Q3.
      + intros CO i t Ht Hi. specialize (Q4 CO i t Ht Hi). unfold factor_U, factor_L in Q4. rewrite Z.leb_refl in Q4.
        replace (i =? t) with false in Q4 by (symmetry; apply Z.eqb_neq; lia). replace (t <? i) with true in Q4 by (symmetry; apply Z.ltb_lt; lia).
        exact Q4.
      + exact S3.
      + intros t Ht. apply S4. intros (t' & Ht' & E'). unfold ipiv_at, gb_ipiv in E'. cbn [fst snd] in E'.
        rewrite (gf_mb A nb n kl ku HA) in E'. injection E' as E'. lia.
    - right. split; [lia|]. intros CO. replace (k * nb + info - 1 - k * nb) with (info - 1) by lia. apply O3; assumption.
  Qed.

  (* ---------------- the updates ---------------- *)

  Record updated (k c : Z) (M1 M : mem (cell F)) : Prop := {
    ud_snd : forall l, snd (M l) = snd (M1 l);
    ud_other : forall i j, tbe A nb n i j -> ~ (k * nb <= i < R k /\ (k + 1) * nb <= j < c * nb) -> fst (M (Lg i j)) = fst (M1 (Lg i j));
    ud_eq : forall i j, k * nb <= i < R k -> (k + 1) * nb <= j < Z.min n (c * nb) ->
      fst (M1 (Lg (k * nb + perm (fun t => ipiv_rd M1 (gb_ipiv A pI k) t - 1) 0 nb (i - k * nb)) j)) =
      nadd (nsum (fun t => nmul (fst (M1 (Lg i (k * nb + t)))) (fst (M (Lg (k * nb + t) j)))) 0 (Z.min nb (i - k * nb))) (fst (M (Lg i j))) }.

  Lemma perm_in : forall k p i, 0 <= k < T -> (forall t, 0 <= t < w k -> t + 1 <= p t <= h k) -> forall r, h k <= r -> 0 <= i < r ->
    0 <= perm (fun t => p t - 1) 0 (w k) i < r.
  Proof.
    intros k p i Hk HP r Hr Hi. destruct (p_facts' k Hk) as (P1 & P2 & P3 & P4 & P5 & P6 & P7 & P8).
    unfold perm. apply source_range; [|assumption]. unfold swaps_in. apply Forall_forall. intros x Hx.
    apply in_map_iff in Hx. destruct Hx as (t & <- & Ht). apply in_zrange in Ht. cbn [fst snd]. specialize (HP t Ht). lia.
  Qed.

  Lemma w_full : forall k, 0 <= k -> k + 1 < T -> w k = nb /\ k * nb + nb < n.
  Proof.
    intros k Hk H. assert ((k + 1) * nb < n) by (apply (gf_T A nb n kl ku HA); fold T; lia). unfold w, pw. lia.
  Qed.

  Lemma update_step : forall k c M0 M1 M, 0 <= k -> k < c < Z.min T (k + d_kut A) -> panelled k M0 M1 -> updated k c M1 M ->
    updated k (c + 1) M1 (gb_update_fun b A pI k c M).
  Proof.
    intros k c M0 M1 M Hk Hc PL [U1 U2 U3]. pose proof (p_facts' k ltac:(lia)) as (P1 & P2 & P3 & P4 & P5 & P6 & P7 & P8).
    pose proof (p_facts' c ltac:(lia)) as (C1 & C2 & C3 & C4 & C5 & C6 & C7 & C8).
    destruct (w_full k Hk ltac:(lia)) as [WF WN].
    assert (IP : forall t, ipiv_rd M (gb_ipiv A pI k) t = ipiv_rd M1 (gb_ipiv A pI k) t) by (intros t; unfold ipiv_rd; apply U1).
    destruct (update_spec A nb n kl ku b pI HA BK k c Hk Hc M) as (S1 & S2 & S3).
    { intros t Ht. rewrite IP. pose proof (pl_piv k M0 M1 PL t ltac:(lia)). fold (h k). lia. }
    fold (w c) (R k) in S2, S3. fold Lg in S2, S3.
    assert (KC : (k + 1) * nb <= c * nb) by nia.
    assert (KE : (k + 1) * nb = k * nb + nb) by ring.
    constructor.
    - intros l. rewrite S1. apply U1.
    - intros i j TB NR. rewrite S2; [apply U2; [assumption|lia]|assumption|]. lia.
    - intros i j Hi Hj. rewrite Z.min_comm, C8 in Hj. destruct (Z_lt_le_dec j (c * nb)) as [L|L].
      + rewrite U3 by lia. apply (f_equal2 nadd).
        * apply (nsum_ext F). intros t Ht. rewrite S2; [reflexivity| |lia].
          apply (cols_tbe k); try lia. split; [lia|]. apply Z.min_glb_lt; [lia|]. nia.
        * rewrite S2; [reflexivity| |lia]. apply (cols_tbe k); try lia. split; [lia|]. apply Z.min_glb_lt; [lia|]. nia.
      + specialize (S3 i j Hi ltac:(lia)).
        assert (TB : forall r, k * nb <= r < R k -> tbe A nb n r j) by (intros r Hr; apply (col_tbe k c); lia).
        rewrite (perm_ext _ (fun t => ipiv_rd M1 (gb_ipiv A pI k) t - 1)) in S3 by (intros t _; rewrite IP; reflexivity).
        pose proof (perm_in k (ipiv_rd M1 (gb_ipiv A pI k)) (i - k * nb) ltac:(lia) (pl_piv k M0 M1 PL) (R k - k * nb) ltac:(lia) ltac:(lia)) as PR.
        rewrite WF in PR. rewrite (U2 _ j) in S3 by (try (apply TB); lia). rewrite S3. apply (f_equal2 nadd); [|reflexivity].
        apply (nsum_ext F). intros t Ht. pose proof (gf_kut1 A BK) as KU. rewrite U2; [reflexivity|apply (col_tbe k k); lia|lia].
  Qed.

  Lemma updated_start : forall k M, updated k (k + 1) M M.
  Proof. intros k M. constructor; try reflexivity. intros i j Hi Hj. lia. Qed.

  (* ---------------- the whole step ---------------- *)

  Lemma gstep_done : forall k M0 M1 M2, 0 <= k < T -> panelled k M0 M1 -> updated k (Z.min T (k + d_kut A)) M1 M2 ->
    let M3 := k_fun (gb_shift A pI k) M2 in
    gstep bigger nb n kl (d_klt A) (d_kut A) k (matf M0) (matf M3) (pivots M3 pI) /\
    (forall t, t < k * nb -> pivots M0 pI t = pivots M3 pI t).
  Proof.
    intros k M0 M1 M2 Hk [L1 L2 L3 L4 L5 L6] [U1 U2 U3]. cbv zeta.
    destruct (p_facts' k Hk) as (P1 & P2 & P3 & P4 & P5 & P6 & P7 & P8).
    destruct (shift_spec A nb n kl ku pI mpt HA BK Hmpt k Hk M2) as (S1 & S2 & S3). fold (w k) in S2, S3.
    remember (k_fun (gb_shift A pI k) M2) as M3 eqn:E3. clear E3.
    remember (fun t => ipiv_rd M1 (gb_ipiv A pI k) t - 1) as pv eqn:EV.
    assert (KE : (k + 1) * nb = k * nb + nb) by ring.
    pose proof (gf_kut1 A BK) as KU. pose proof (gf_klt1 A BK) as KL1.
    assert (CM : Z.min n (Z.min T (k + d_kut A) * nb) = Z.min n ((k + d_kut A) * nb)).
    { rewrite <- Z.mul_min_distr_nonneg_r by lia. pose proof (gf_T_ge A nb n kl ku HA) as TG. fold T in TG. lia. }
    assert (IP : forall t, 0 <= t < w k -> pivots M3 pI (k * nb + t) = k * nb + ipiv_rd M1 (gb_ipiv A pI k) t).
    { intros t Ht. rewrite S2 by assumption. unfold ipiv_rd. rewrite U1. lia. }
    assert (SRC : forall i, source (block_swaps nb n (pivots M3 pI) k) (k * nb + i) = k * nb + perm pv 0 (w k) i).
    { intros i. unfold block_swaps. rewrite P8. rewrite <- (perm_shift pv (fun t => pivots M3 pI t - 1) (k * nb) 0 (w k) i).
      - rewrite Z.add_0_r. reflexivity.
      - intros t Ht. rewrite IP by assumption. subst pv. lia. }
    assert (PRG : forall i r, h k <= r -> 0 <= i < r -> 0 <= perm pv 0 (w k) i < r).
    { intros i r Hr Hi. subst pv. apply (perm_in k (ipiv_rd M1 (gb_ipiv A pI k)) i Hk L1 r Hr Hi). }
    assert (KW : k * nb + w k <= Z.min n ((k + d_kut A) * nb)) by (apply Z.min_glb; [lia|]; nia).
    assert (PC : forall i j, 0 <= i < R k - k * nb -> 0 <= j < w k -> matf M3 (k * nb + i) (k * nb + j) = fst (M1 (Lg (k * nb + i) (k * nb + j)))).
    { intros i j Hi Hj. rewrite matf_in by (apply (cols_tbe k); lia). rewrite S1. apply U2; [apply (cols_tbe k); lia|]. lia. }
    assert (FO : forall i j, tbe A nb n i j -> ~ (k * nb <= i < R k /\ k * nb <= j < Z.min n ((k + d_kut A) * nb)) ->
      fst (M3 (Lg i j)) = fst (M0 (Lg i j))).
    { intros i j TB NR. rewrite S1, U2, L5; [reflexivity|assumption|lia|assumption|].
      intros [H1 H2]. apply NR. split; [assumption|]. split; [lia|]. rewrite <- CM. destruct TB as (_ & TB & _). lia. }
    split.
    2:{ intros t Ht. rewrite S3 by lia. unfold pivots. rewrite U1. symmetry. apply L6. lia. }
    constructor; fold (w k) (h k).
    - intros t Ht. pose proof (IP (t - k * nb) ltac:(lia)) as E. replace (k * nb + (t - k * nb)) with t in E by lia. rewrite E.
      pose proof (L1 (t - k * nb) ltac:(lia)). lia.
    - intros i j Hi Hj. rewrite SRC. pose proof (PRG i (h k) ltac:(lia) Hi) as PR. rewrite matf_in by (apply (cols_tbe k); lia).
      subst pv. rewrite L2 by assumption. apply (nsum_ext F). intros l Hl. unfold factor_L, factor_U. rewrite !PC by lia. reflexivity.
    - intros t Ht. pose proof (PC (t - k * nb) (t - k * nb) ltac:(lia) ltac:(lia)) as E. replace (k * nb + (t - k * nb)) with t in E by lia.
      rewrite E. pose proof (L3 (t - k * nb) ltac:(lia)) as Q. replace (k * nb + (t - k * nb)) with t in Q by lia. exact Q.
    - intros CO i t Ht Hi. pose proof (L4 CO (i - k * nb) (t - k * nb) ltac:(lia) ltac:(lia)) as Q.
      pose proof (PC (t - k * nb) (t - k * nb) ltac:(lia) ltac:(lia)) as E. pose proof (PC (i - k * nb) (t - k * nb) ltac:(lia) ltac:(lia)) as E'.
      replace (k * nb + (t - k * nb)) with t in * by lia. replace (k * nb + (i - k * nb)) with i in * by lia. rewrite E, E'. exact Q.
    - intros i j Hi Hj Ho. apply matf_same; [lia|lia|]. intros TB. rewrite S1, U2, L5; [reflexivity|assumption|lia|assumption|lia].
    - intros i j Hj Hi. change (Z.min n ((k + d_klt A) * nb)) with (R k) in Hi.
      assert (KT : k + 1 < T) by (apply (gf_T A nb n kl ku HA); lia).
      destruct (w_full k ltac:(lia) KT) as [WF WN].
      pose proof (SRC (i - k * nb)) as SR. replace (k * nb + (i - k * nb)) with i in SR by lia. rewrite SR.
      pose proof (PRG (i - k * nb) (R k - k * nb) ltac:(lia) ltac:(lia)) as PR.
      assert (TB : forall r, k * nb <= r < R k -> tbe A nb n r j) by (intros r Hr; apply (cols_tbe k); lia).
      rewrite matf_in by (apply TB; lia). rewrite <- L5 by (try (apply TB); lia).
      rewrite WF. subst pv. rewrite U3; [|lia|rewrite CM; lia].
      unfold lower_times. rewrite P8, WF. rewrite (matf_in M3 i j) by (apply TB; lia). rewrite S1.
      assert (SE : nsum (fun j0 => if j0 <? i then nmul (matf M3 i j0) (matf M3 j0 j) else n0) (k * nb) (k * nb + nb) =
        nsum (fun t => nmul (fst (M1 (Lg i (k * nb + t)))) (fst (M2 (Lg (k * nb + t) j)))) 0 (Z.min nb (i - k * nb))).
      { pose proof (nsum_shift F (fun j0 => if j0 <? i then nmul (matf M3 i j0) (matf M3 j0 j) else n0) (k * nb) 0 nb) as ES.
        replace (0 + k * nb) with (k * nb) in ES by lia. replace (nb + k * nb) with (k * nb + nb) in ES by lia. rewrite ES.
        rewrite (nsum_app F _ 0 (Z.min nb (i - k * nb)) nb) by lia.
        rewrite (nsum_0 F _ (Z.min nb (i - k * nb)) nb).
        2:{ intros t Ht. destruct (Z.ltb_spec (t + k * nb) i); [lia|reflexivity]. }
        transitivity (nsum (fun i0 => if i0 + k * nb <? i then nmul (matf M3 i (i0 + k * nb)) (matf M3 (i0 + k * nb) j) else n0) 0 (Z.min nb (i - k * nb)));
          [ring|].
        apply (nsum_ext F). intros t Ht. destruct (Z.ltb_spec (t + k * nb) i); [|lia].
        replace (t + k * nb) with (k * nb + t) by lia.
        pose proof (PC (i - k * nb) t ltac:(lia) ltac:(lia)) as E1. replace (k * nb + (i - k * nb)) with i in E1 by lia. rewrite E1.
        rewrite (matf_in M3 (k * nb + t) j) by (apply TB; lia). rewrite S1. reflexivity. }
      rewrite SE. ring.
    - intros i j Hj Hi Ho. apply matf_same; [lia|lia|]. intros TB. apply FO; [assumption|]. unfold R, gR. lia.
    - intros i j Hi Hj Ho. apply matf_same; [lia|lia|]. intros TB. apply FO; [assumption|]. lia.
  Qed.

  (* ---------------- the loop ---------------- *)

  Variable M00 : mem (cell F).
  Let A0 := matf M00.
  Hypothesis Hkl : 0 <= kl.
  Hypothesis Hku : 0 <= ku.
  Hypothesis HB : forall i j, tbe A nb n i j -> j + kl < i \/ i + ku < j -> fst (M00 (Lg i j)) = n0.

  Lemma A0_band : forall i j, 0 <= i < n -> 0 <= j < n -> j + kl < i \/ i + ku < j -> A0 i j = n0.
  Proof.
    intros i j Hi Hj H. unfold A0, matf. destruct (tbb i j) eqn:E; [|reflexivity]. apply HB; [|assumption]. apply tbb_tbe; assumption.
  Qed.

  Definition bad (c : Z) : Prop := 1 <= c <= n /\ (comparison bigger -> column_depends n A0 (c - 1)).
  Definition J (k : Z) (M : mem (cell F)) (c : Z) : Prop :=
    (c = 0 /\ ginv bigger nb n kl ku A0 k (matf M) (pivots M pI)) \/ bad c.
  Definition J2 (k c' : Z) (M : mem (cell F)) (c : Z) : Prop :=
    (c = 0 /\ exists M0 M1, ginv bigger nb n kl ku A0 k (matf M0) (pivots M0 pI) /\ panelled k M0 M1 /\ updated k c' M1 M) \/ bad c.

  Lemma bad_if : forall c x, bad c -> bad (if c =? 0 then x else c).
  Proof. intros c x [H1 H2]. destruct (Z.eqb_spec c 0); [lia|]. split; assumption. Qed.

  Lemma J_panel : forall k, 0 <= k < T -> tr (J k) [gb_panel bigger b A pI ib mpt k] (J2 k (k + 1)).
  Proof.
    intros k Hk. destruct (p_facts' k Hk) as (P1 & P2 & P3 & P4 & P5 & P6 & P7 & P8).
    apply tr_one. intros M c [[-> G]|B]; [|right; apply bad_if; assumption]. cbn [Z.eqb].
    destruct (panel_step k M Hk) as [[E PL]|[R1 R2]].
    - left. split; [assumption|]. exists M, (k_fun (ck_task (gb_panel bigger b A pI ib mpt k)) M).
      split; [assumption|]. split; [assumption|apply updated_start].
    - right. split; [lia|]. intros CO. specialize (R2 CO).
      remember (ck_info (gb_panel bigger b A pI ib mpt k) M) as code eqn:EC. clear EC.
      replace (code - 1) with (k * nb + (code - 1 - k * nb)) by lia.
      apply (ginv_fail bigger nb n kl ku A0 P1 Hkl A0_band k (matf M) (pivots M pI)); try lia; [assumption|fold (w k); lia|].
      fold (h k). destruct R2 as [x Hx]. exists x. intros i Hi. specialize (Hx i Hi).
      assert (MI : forall j, 0 <= j < w k -> matf M (k * nb + i) (k * nb + j) = fst (M (Lg (k * nb + i) (k * nb + j)))).
      { intros j Hj. apply matf_in. apply (col_tbe k k); try lia. pose proof (gf_kut1 A BK). lia. }
      rewrite MI by lia. rewrite Hx. apply (nsum_ext F). intros j Hj. rewrite MI by lia. reflexivity.
  Qed.

  Lemma J_updates : forall k, 0 <= k < T ->
    tr (J2 k (k + 1)) (map (fun c => sure (gb_update b A pI k c)) (zrange (k + 1) (Z.min T (k + d_kut A)))) (J2 k (Z.min T (k + d_kut A))).
  Proof.
    intros k Hk. pose proof (gf_kut1 A BK) as KU. apply (tr_map A (J2 k)); [lia|].
    intros c M code Hc [[-> (M0 & M1 & G & PL & UP)]|B]; [|right; assumption].
    left. split; [reflexivity|]. exists M0, M1. split; [assumption|]. split; [assumption|]. cbn [gb_update k_fun].
    apply (update_step k c M0); try assumption; lia.
  Qed.

  Lemma J_shift : forall k, 0 <= k < T -> tr (J2 k (Z.min T (k + d_kut A))) [sure (gb_shift A pI k)] (J (k + 1)).
  Proof.
    intros k Hk. destruct (p_facts' k Hk) as (P1 & P2 & P3 & P4 & P5 & P6 & P7 & P8).
    apply tr_sure. intros M c [[-> (M0 & M1 & G & PL & UP)]|B]; [|right; assumption].
    left. split; [reflexivity|]. destruct (gstep_done k M0 M1 M Hk PL UP) as [GS PS].
    apply (ginv_step bigger nb n kl ku (d_klt A) (d_kut A) A0 P1 Hkl Hku (gf_klt A nb n kl ku HA) (gf_kut A nb n kl ku HA) A0_band k (matf M0)); try lia; [|assumption].
    apply (ginv_ext bigger nb n kl ku A0 P1 k (matf M0) (pivots M0 pI)); [lia| |assumption]. intros t _ Ht. apply PS. assumption.
  Qed.

  Lemma gbtrf_runs : let ks := pzgbtrf bigger b A pI ib mpt in J T (krun (map ck_task ks) M00) (first_code (kcodes ks M00)).
  Proof.
    cbv zeta. assert (T0 : 0 <= T) by (unfold T, ntl; pose proof (gf_pos A nb n kl ku HA); pose proof (gf_n A nb n kl ku HA); apply Z.div_pos; lia).
    assert (TR : tr (J 0) (pzgbtrf bigger b A pI ib mpt) (J T)).
    { unfold pzgbtrf. rewrite (gd_mt _ _ _ _ _ _ HA), (gd_nt _ _ _ _ _ _ HA). fold T. rewrite Z.min_id.
      apply (tr_loop A J); [assumption|]. intros k Hk.
      change (?a :: ?l) with ([a] ++ l). eapply tr_app; [apply J_panel; assumption|].
      eapply tr_app; [apply J_updates; assumption|apply J_shift; assumption]. }
    specialize (TR M00 0). cbn [Z.eqb] in TR. apply TR. left. split; [reflexivity|]. apply ginv_start. exact A0_band.
  Qed.
End Run.
