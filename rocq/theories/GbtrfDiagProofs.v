(* plasma_pzgbtrf on diagonal matrices: the panels are independent of each other, and any of those that fail may
   be the one whose code is returned *)
From Coq Require Import ZArith List Bool Ring Lia.
From Verif Require Import Base NumModel NumProofs FieldModel TaskModel TaskSpec TaskProofs DescModel DescSpec DescProofs
  DescPackProofs DescDriverModel MatModel MatSpec MatProofs RegionProofs OperandProofs GemmModel GemmProofs
  GuardModel GuardSpec GuardProofs GuardProofs2 GuardAnyProofs BandModel BandProofs NormGbLayoutProofs GetrfModel GetrfSpec
  GbtrfModel GbtrfMathProofs GbtrfTaskProofs GbtrfStepProofs GbtrfRunProofs GbtrfLinkProofs.
Import ListNotations.
Open Scope Z_scope.

Section Diag.
  Context {F : fields}.
  Add Ring num_ring_gbd : (nring F).
  Variable bigger : F -> F -> bool.
  Variables (A : desc) (nb n b : Z) (pI : loc) (ib mpt : Z).
  Hypothesis HA : gd_ok A nb n n 0 0.
  Hypothesis BK : band_ok A.
  Hypothesis Hib : 0 < ib.
  Hypothesis Hmpt : 0 < mpt.
  Hypothesis Hpi : fst pI <> b.
  Hypothesis HK : d_kut A = 1.
  Variables (A0 : Z -> Z -> F) (Ms : mem (cell F)).
  Hypothesis HE : forall i j, tbe A nb n i j -> fst (Ms (gE A b i j)) = A0 i j.
  Hypothesis HO : forall i j, i <> j -> A0 i j = n0.
  Let T := ntl nb n.
  Let st (k : Z) : list (cktask (cell F)) := [gb_panel bigger b A pI ib mpt k; sure (gb_shift A pI k)].

  Lemma diag_tasks : pzgbtrf bigger b A pI ib mpt = flat_map st (zrange 0 T).
  Proof.
    unfold pzgbtrf. rewrite (gd_mt _ _ _ _ _ _ HA), (gd_nt _ _ _ _ _ _ HA). fold T. rewrite Z.min_id.
    apply flat_map_ext. intros k. rewrite HK, (zrange_nil (k + 1)) by lia. reflexivity.
  Qed.

  (* the panels before do not touch the tile of panel k *)
  Lemma diag_before : forall k i j, 0 <= k < T -> tbe A nb n i j -> k * nb <= j < k * nb + pw nb n k ->
    krun (map ck_task (flat_map st (zrange 0 k))) Ms (gE A b i j) = Ms (gE A b i j).
  Proof.
    intros k i j Hk TB Hj. destruct (gbtrf_sound bigger A nb n 0 0 b pI ib mpt HA BK Hib Hmpt Hpi) as [KG _].
    rewrite diag_tasks, (zrange_app 0 k T), flat_map_app, map_app in KG by lia. apply Forall_app in KG. destruct KG as [KG _].
    apply krun_frame; [apply kgood_sound; exact KG|].
    intros (x & Hx & HW). apply in_map_iff in Hx. destruct Hx as (y & <- & Hy). apply in_flat_map in Hy.
    destruct Hy as (c & Hc & Hy). apply in_zrange in Hc. pose proof (gf_pos A nb n 0 0 HA) as NB.
    assert (NS : forall q, ~ ipiv_sec (gb_ipiv A pI c) 0 q (gE A b i j)).
    { intros q (t & _ & E). apply (f_equal fst) in E. cbn in E. congruence. }
    destruct Hy as [<-|[<-|[]]].
    - destruct HW as [HW|HW]; [|exact (NS _ HW)].
      apply (part_incol A nb n 0 0 b HA c c) in HW; [|lia|fold T; lia].
      assert (C : c = k); [|lia].
      apply (incol_fun A nb n 0 0 b HA BK (gE A b i j)); [lia|lia|exact HW|]. exists i, j. auto.
    - exact (NS _ HW).
  Qed.

  Lemma diag_guilty : forall c, c <> 0 -> guilty (pzgbtrf bigger b A pI ib mpt) Ms c ->
    1 <= c <= n /\ (comparison bigger -> column_depends n A0 (c - 1)).
  Proof.
    intros c NZ (l1 & x & l2 & E & EC & _). rewrite diag_tasks in E.
    destruct (flat_map_mid _ st T 0 l1 x l2 E) as (k & u & v & Hk & EF & EL).
    destruct u as [|y [|z u]]; cbn in EF; [| |destruct u; discriminate].
    2: { injection EF as _ EX _. rewrite <- EX in EC. cbn in EC. lia. }
    injection EF as EX _. rewrite app_nil_r in EL. subst x l1.
    remember (krun (map ck_task (flat_map st (zrange 0 k))) Ms) as M eqn:EM.
    pose proof (gf_pos A nb n 0 0 HA) as NB.
    destruct (p_facts' A nb n 0 0 mpt HA BK Hmpt k Hk) as (P1 & P2 & P3 & P4 & P5 & P6 & P7 & P8).
    destruct (panel_step bigger A nb n 0 0 b pI ib mpt HA BK Hib Hmpt k M Hk) as [[Z0 _]|[R1 R2]]; [cbv zeta in Z0; lia|].
    cbv zeta in R1, R2. rewrite EC in R1, R2. split; [lia|]. intros CO. destruct (R2 CO) as (x & Hx). clear R2.
    assert (PH : ph nb n 0 k = pw nb n k) by (unfold ph, pw; lia).
    assert (EE : forall i j, 0 <= i < pw nb n k -> 0 <= j < pw nb n k ->
      fst (M (gE A b (k * nb + i) (k * nb + j))) = A0 (k * nb + i) (k * nb + j)).
    { intros i j Hi Hj. assert (TB : tbe A nb n (k * nb + i) (k * nb + j)).
      { apply (gR_tbe A nb n 0 0 HA k k); lia. }
      rewrite EM, diag_before by (assumption || lia). apply HE. assumption. }
    rewrite PH in Hx.
    exists (fun j => if j <? k * nb then n0 else x (j - k * nb)). intros i Hi.
    rewrite (nsum_app F _ 0 (k * nb) (c - 1)) by lia. rewrite (nsum_0 F _ 0 (k * nb)).
    2: { intros j Hj. replace (j <? k * nb) with true by (symmetry; apply Z.ltb_lt; lia). ring. }
    assert (N0 : forall y : F, nadd n0 y = y) by (intros y; ring). rewrite N0. clear N0.
    destruct (Z_le_gt_dec (k * nb) i) as [L|L]; [destruct (Z_lt_le_dec i (k * nb + pw nb n k)) as [L2|L2]|].
    - specialize (Hx (i - k * nb) ltac:(lia)). rewrite EE in Hx by lia.
      replace (k * nb + (i - k * nb)) with i in Hx by lia. replace (k * nb + (c - 1 - k * nb)) with (c - 1) in Hx by lia.
      rewrite Hx. replace (nsum _ (k * nb) (c - 1)) with
        (nsum (fun j => nmul (A0 i j) (if j <? k * nb then n0 else x (j - k * nb))) (0 + k * nb) (c - 1 - k * nb + k * nb))
        by (f_equal; lia).
      rewrite nsum_shift. apply (nsum_ext F). intros j Hj. replace (j + k * nb <? k * nb) with false by (symmetry; apply Z.ltb_ge; lia).
      replace (j + k * nb - k * nb) with j by lia. replace (j + k * nb) with (k * nb + j) by lia.
      pose proof (EE (i - k * nb) j ltac:(lia) ltac:(lia)) as Q. replace (k * nb + (i - k * nb)) with i in Q by lia. rewrite Q. reflexivity.
    - rewrite HO by lia. symmetry. apply (nsum_0 F). intros j Hj. rewrite HO by lia. ring.
    - rewrite HO by lia. symmetry. apply (nsum_0 F). intros j Hj. rewrite HO by lia. ring.
  Qed.
End Diag.
