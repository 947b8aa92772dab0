(* Interchanges of rows after solves with a triangular matrix: the solves read tiles inside
   a panel that the interchange announces only as read; the order of these accesses comes
   from chains through the first tile of the panel. *)
From Coq Require Import ZArith List Bool Lia.
From Verif Require Import Base NumModel FieldModel TaskModel TaskSpec TaskProofs DescModel DescSpec DescProofs
  DescDriverModel MatModel MatSpec MatProofs RegionProofs LayoutModel LayoutProofs OpProofs OperandProofs
  GemmModel GemmProofs LasetModel RankDriverProofs
  TriModel TriSpec TriVecProofs TriProofs TrmmProofs TrsmProofs SwpModel SwpSpec SwpProofs
  GuardModel GuardSpec GuardProofs GuardProofs2 GroupProofs PanelProofs SwpDriverProofs GetrfLinkProofs.
Import ListNotations.
Open Scope Z_scope.

(* a task names an address, or a later task that waits for it does *)
Definition names {V} (a : loc) (k : ktask V) : Prop := exists d, In d (k_deps k) /\ dep_addr d = a.
Definition reaches {V} (a : loc) (k : ktask V) (l : list (ktask V)) : Prop :=
  names a k \/ exists l1 z l2, l = l1 ++ z :: l2 /\ linked k l1 z /\ names a z.

Section Panels.
  Context {V : Type}.
  Variables (P Q R : Z) (C : Z -> Z) (E : Z -> Z -> Z -> loc) (T : Z -> Z -> loc) (b : Z) (pI : loc)
    (task : Z -> ktask V) (home : loc -> loc -> Prop).
  Hypothesis HF : functional home.
  Hypothesis EI : forall p s c p' s' c', 0 <= p < P -> 0 <= p' < P -> 0 <= s < R -> 0 <= s' < R ->
    0 <= c < C p -> 0 <= c' < C p' -> E p s c = E p' s' c' -> p = p' /\ s = s' /\ c = c'.
  Hypothesis EB : forall p s c, fst (E p s c) = b.
  Hypothesis TD : forall p, k_deps (task p) = [dep_in pI; dep_inout (T p 0); dep_inout (T p (Q - 1))].
  Hypothesis TR : forall p l, 0 <= p < P -> (k_reads (task p) l <-> panel R (C p) (E p) l).
  Hypothesis TW : forall p l, 0 <= p < P -> (k_writes (task p) l <-> panel R (C p) (E p) l).
  Hypothesis HH : forall p l, 0 <= p < P -> panel R (C p) (E p) l -> exists q, 0 <= q < Q /\ home l (T p q).

  Lemma panels_linked_chain : forall ins outs : list (ktask V),
    Forall (kdecl home) ins -> Forall (kdecl home) outs ->
    (forall l1 k l2 p l, ins = l1 ++ k :: l2 -> 0 <= p < P -> k_reads k l -> panel R (C p) (E p) l ->
       k_writes k l \/ reaches (T p 0) k l2) ->
    klinked (ins ++ ptasks P Q T task ++ outs).
  Proof.
    intros ins outs DI DO RI. apply klinked_app.
    - apply korders_klinked. apply (kdecl_korders _ home); assumption.
    - apply (panels_linked P Q R C E T b pI task home HF EI EB TD TR TW HH [] outs); auto.
    - intros l1 x l2 m1 y m2 E1 E2 HC. rewrite Forall_forall in DI, DO.
      assert (DX : kdecl home x) by (apply DI; rewrite E1; apply in_elt).
      destruct (app_mid _ _ _ _ _ _ E2) as [(r & E3 & _)|(r & E3 & E4)].
      + destruct (idle_conflict x y HC) as [_ NY].
        assert (OK : Forall g_ok (map (pgroup Q T task) (zrange 0 P))).
        { apply Forall_forall. intros g Hg. apply in_map_iff in Hg. destruct Hg as (p & <- & _). apply pgroup_ok. }
        unfold ptasks in E3. destruct (busy_group _ OK _ _ _ NY E3) as (gs1 & g & gs2 & EG & -> & E5 & _).
        assert (IG : In g (map (pgroup Q T task) (zrange 0 P))) by (rewrite EG; apply in_elt).
        apply in_map_iff in IG. destruct IG as (p & <- & Hp). apply in_zrange in Hp.
        destruct HC as (l & HC). cbn [g_task pgroup] in HC |- *. rewrite !TR, !TW in HC by assumption.
        assert (X : panel R (C p) (E p) l) by tauto.
        assert (W : k_writes x l \/ reaches (T p 0) x l2).
        { destruct HC as [[Y _]|[Y _]]; [left; assumption|]. eapply RI; eauto. }
        assert (N : forall z r', names (T p 0) z -> linked z r' (task p)).
        { intros z r' (d & D1 & D2). apply ln_direct. rewrite TD.
          apply (deps_by _ _ d (dep_inout (T p 0))); auto; [right; left; reflexivity|right; discriminate]. }
        destruct W as [W|[W|(n1 & z & n2 & -> & L & W)]].
        * pose proof (chained_linked (single x) (pgroup Q T task p) (l2 ++ flat_map g_list gs1)) as CL.
          cbn [single g_task g_post app pgroup] in CL. rewrite E5.
          rewrite <- app_assoc in CL. apply CL.
          apply (names_chained home HF _ _ l true false); [|eapply pgroup_in; eauto|reflexivity].
          apply kdecl_out; auto.
        * apply N. assumption.
        * rewrite <- app_assoc. cbn [app]. apply ln_trans; [assumption|]. apply N. assumption.
      + assert (DY : kdecl home y) by (apply DO; rewrite E3; apply in_elt).
        pose proof (chained_linked (single x) (single y) (l2 ++ m1)) as CL.
        cbn [single g_task g_post g_pre app] in CL. rewrite app_nil_r in CL. apply CL.
        apply (kdecl_chained home HF); auto.
  Qed.
End Panels.

(* suffixes of a list of tasks: whatever touches the column of tiles leads to the address *)
Section Tails.
  Context {V : Type}.
  Variables (W : ktask V -> Prop) (a : loc).
  Definition leads (ks : list (ktask V)) : Prop :=
    forall l1 k l2, ks = l1 ++ k :: l2 -> W k -> reaches a k l2.

  Lemma reaches_app : forall (k : ktask V) l l', reaches a k l -> reaches a k (l ++ l').
  Proof.
    intros k l l' [H|(l1 & z & l2 & -> & L & N)]; [left; assumption|]. right. exists l1, z, (l2 ++ l').
    rewrite <- app_assoc. auto.
  Qed.

  Lemma reaches_in : forall (k z : ktask V) l, In z l -> deps_order (k_deps k) (k_deps z) -> names a z -> reaches a k l.
  Proof.
    intros k z l Hz D N. right. apply in_split in Hz. destruct Hz as (l1 & l2 & ->). exists l1, z, l2.
    split; [reflexivity|]. split; [apply ln_direct; assumption|assumption].
  Qed.

  Lemma leads_app : forall xs ys, leads ys ->
    (forall k, In k xs -> W k -> names a k \/ exists z, In z ys /\ deps_order (k_deps k) (k_deps z) /\ names a z) ->
    leads (xs ++ ys).
  Proof.
    intros xs ys HY HX l1 k l2 E HW. destruct (app_mid _ _ _ _ _ _ E) as [(l & E1 & E2)|(l & E1 & E2)].
    - assert (I : In k xs) by (rewrite E1; apply in_elt). destruct (HX k I HW) as [N|(z & Z1 & Z2 & Z3)].
      + left. assumption.
      + apply (reaches_in k z); auto. rewrite E2. apply in_or_app. right. assumption.
    - apply (HY l k l2); assumption.
  Qed.

  Lemma leads_nil : leads [].
  Proof. intros l1 k l2 E. destruct l1; discriminate. Qed.
End Tails.

(* two solves from the left, the second one from the last tile row to the first *)
Section Chain.
  Context {F : fields}.
  Variables (nb : Z) (A B : desc) (bA bB u1 trans d1 d2 : Z).
  Hypotheses (HA : dn nb A) (HB : dn nb B) (GB : gen_ok B).
  Hypothesis Hu : u1 = PlasmaUpper \/ u1 = PlasmaLower.
  Hypothesis Ht : trans <> PlasmaNoTrans.
  Hypothesis AS : d_m A = d_n A.
  Hypothesis AM : d_n A = d_m B.
  Hypothesis NA : bA <> bB.
  Let nt := ntl nb (d_n A).
  Let nq := ntl nb (d_n B).
  Let SHB := gk_shape B GB.

  Lemma HSAu : forall u i j, 0 <= i < ntl nb (d_n A) -> 0 <= j < ntl nb (d_n A) -> uplo_sel u i j = true -> in_tiles A i j.
  Proof. intros u i j Hi Hj _. unfold in_tiles. rewrite (dn_mt nb A HA), (dn_nt nb A HA), AS. auto. Qed.

  Lemma tptr_inj : forall p q p' q', 0 <= p < d_mt B -> 0 <= q < d_nt B -> 0 <= p' < d_mt B -> 0 <= q' < d_nt B ->
    tptr bB B p q = tptr bB B p' q' -> p = p' /\ q = q'.
  Proof.
    intros p q p' q' Hp Hq Hp' Hq' E. unfold tptr in E. injection E as E.
    destruct (mview_spec B p SHB Hp) as [M1 M2]. destruct (mview_spec B p' SHB Hp') as [M1' M2'].
    destruct (nview_spec B q SHB Hq) as [N1 N2]. destruct (nview_spec B q' SHB Hq') as [N1' N2'].
    pose proof (go_mb B SHB). pose proof (go_nb B SHB).
    assert (X : elem_off B (p * d_mb B + 0) (q * d_nb B + 0) = elem_off B (p' * d_mb B + 0) (q' * d_nb B + 0)).
    { rewrite !elem_off_tile by (try assumption; lia). rewrite E. ring. }
    apply (gen_ok_inj B) in X; try assumption; try nia.
  Qed.

  Lemma one_col : forall q q' l, 0 <= q < d_nt B -> 0 <= q' < d_nt B ->
    col_reg bB B q l -> col_reg bB B q' l -> q = q'.
  Proof.
    intros q q' l Hq Hq' H H'.
    apply (col_reg_panel nb bB B GB (sq_nb _ _ _ HB)) in H; [|assumption].
    apply (col_reg_panel nb bB B GB (sq_nb _ _ _ HB)) in H'; [|assumption].
    destruct H as (s & c & Hs & Hc & ->). destruct H' as (s' & c' & Hs' & Hc' & E).
    apply (row_inj nb bB B GB (sq_nb _ _ _ HB)) in E; try assumption. tauto.
  Qed.

  Definition works (q : Z) (k : ktask F) : Prop :=
    exists p, 0 <= p < nt /\ In (dep_inout (tptr bB B p q)) (k_deps k).

  Lemma nt_mt : d_mt B = nt.
  Proof. unfold nt. rewrite AM. apply (dn_mt nb B HB). Qed.
  Lemma nq_nt : d_nt B = nq.
  Proof. apply (dn_nt nb B HB). Qed.

  Lemma trsm_touch : forall u d, u = PlasmaUpper \/ u = PlasmaLower ->
    Forall (fun k => forall q l, 0 <= q < d_nt B -> k_reads k l -> col_reg bB B q l -> works q k)
      (pztrsm (F := F) PlasmaLeft u trans d n1 bA A bB B).
  Proof.
    intros u d Hu'. apply (trsm_forall nb A B (in_tiles A) bA bB); auto.
    - intros a p q' Hp Hq' q l Hq HR HC. assert (Hq2 : 0 <= q' < d_nt B) by (rewrite nq_nt; exact Hq'). clear Hq'.
      cbn in HR. destruct HR as [HR|HR].
      + exfalso. apply NA. apply reg_block in HR. destruct HC as (m & _ & HC). apply reg_block in HC. cbn in HR, HC. congruence.
      + assert (q' = q) as <-.
        { apply (one_col q' q l); try assumption. exists p. rewrite nt_mt. split; [assumption|exact HR]. }
        exists p. split; [assumption|]. right. left. reflexivity.
    - intros a b p k q' Hp Hk Hq' _ q l Hq HR HC. assert (Hq2 : 0 <= q' < d_nt B) by (rewrite nq_nt; exact Hq'). clear Hq'.
      unfold gtask, lft in HR |- *. rewrite Z.eqb_refl in HR |- *. cbn in HR. destruct HR as [HR|[HR|HR]].
      + exfalso. apply NA. destruct HC as (m & _ & HC). apply reg_block in HC. unfold op_reg, op_tile in HR.
        destruct (trans =? PlasmaNoTrans); apply reg_block in HR; cbn in HR, HC; congruence.
      + assert (q' = q) as <-.
        { apply (one_col q' q l); try assumption. exists k. rewrite nt_mt. split; [assumption|].
          unfold op_reg, op_tile, op_ld in HR. cbn in HR.
          replace (tile_mview B k) with (tsz nb (d_n A) k); [exact HR|].
          destruct (mview_spec B k SHB) as [E _]; [rewrite nt_mt; assumption|]. rewrite E, (sq_mb _ _ _ HB), AM. reflexivity. }
        exists p. split; [assumption|]. do 2 right. left. reflexivity.
      + assert (q' = q) as <-.
        { apply (one_col q' q l); try assumption. exists p. rewrite nt_mt. split; [assumption|exact HR]. }
        exists p. split; [assumption|]. do 2 right. left. reflexivity.
  Qed.

  (* the second solve *)
  Let s2 := ss (F := F) nb A B bA bB PlasmaLeft PlasmaLower trans d2 n1.
  Let g2 := sg (F := F) nb A B bA bB PlasmaLeft PlasmaLower trans n1.
  Let so := sord nb A PlasmaLeft PlasmaLower trans.
  Let zq q := tptr bB B 0 q.

  Lemma so_eq : forall t, so t = nt - 1 - t.
  Proof.
    intros t. unfold so, sord. replace (tup PlasmaLeft PlasmaLower trans) with true; [reflexivity|].
    unfold tup, lft, op_up. rewrite Z.eqb_refl. destruct (Z.eqb_spec trans PlasmaNoTrans); [contradiction|reflexivity].
  Qed.

  Lemma s2_deps : forall t q, k_deps (s2 t q) = [dep_in (tptr bA A (so t) (so t)); dep_inout (tptr bB B (so t) q)].
  Proof. reflexivity. Qed.
  Lemma g2_deps : forall t m q, exists a, k_deps (g2 t m q) = [dep_in a; dep_in (tptr bB B (so t) q); dep_inout (tptr bB B (so m) q)].
  Proof.
    intros t m q. unfold g2, sg, gtask, lft. rewrite Z.eqb_refl. eexists. reflexivity.
  Qed.

  Lemma works_dep : forall p q, 0 <= p < nt -> 0 <= q < nq -> forall p' q', 0 <= p' < nt -> 0 <= q' < nq ->
    dep_inout (tptr bB B p q) = dep_inout (tptr bB B p' q') -> p = p' /\ q = q'.
  Proof.
    intros p q Hp Hq p' q' Hp' Hq' E. injection E as E. apply tptr_inj; rewrite ?nt_mt, ?nq_nt; auto.
    unfold tptr. rewrite E. reflexivity.
  Qed.

  Lemma g2_names : forall t q, 0 <= q < nq -> 0 <= t < nt -> names (zq q) (g2 t (nt - 1) q).
  Proof.
    intros t q Hq Ht'. destruct (g2_deps t (nt - 1) q) as (a & E). exists (dep_inout (tptr bB B (so (nt - 1)) q)).
    rewrite E. split; [do 2 right; left; reflexivity|]. rewrite so_eq. cbn [dep_addr dep_inout].
    replace (nt - 1 - (nt - 1)) with 0 by lia. reflexivity.
  Qed.

  (* a task that updates tile (p,q), p > 0, is followed by one that reads it and updates tile (0,q) *)
  Lemma g2_after : forall (k : ktask F) p q, 0 < p < nt -> 0 <= q < nq -> In (dep_inout (tptr bB B p q)) (k_deps k) ->
    deps_order (k_deps k) (k_deps (g2 (nt - 1 - p) (nt - 1) q)) /\ names (zq q) (g2 (nt - 1 - p) (nt - 1) q).
  Proof.
    intros k p q Hp Hq HI. split; [|apply g2_names; lia].
    destruct (g2_deps (nt - 1 - p) (nt - 1) q) as (a & E). rewrite E.
    apply (deps_by _ _ (dep_inout (tptr bB B p q)) (dep_in (tptr bB B (so (nt - 1 - p)) q)));
      [assumption|right; left; reflexivity| |left; discriminate].
    rewrite so_eq. cbn [dep_addr dep_in dep_inout]. replace (nt - 1 - (nt - 1 - p)) with p by lia. reflexivity.
  Qed.

  Lemma solve2_leads : forall q, 0 <= q < nq ->
    leads (works q) (zq q) (pztrsm (F := F) PlasmaLeft PlasmaLower trans d2 n1 bA A bB B).
  Proof.
    intros q Hq. rewrite (pztrsm_left nb A B (in_tiles A) bA bB PlasmaLeft PlasmaLower trans d2 n1 HA HB AS AM eq_refl).
    unfold L1. fold s2 g2. change (oth B PlasmaLeft) with (d_n B). fold nt nq.
    assert (X : forall t, 0 <= t <= nt -> leads (works q) (zq q)
      (flat_map (fun t => map (s2 t) (zrange 0 nq) ++ flat_map (fun m => map (g2 t m) (zrange 0 nq)) (zrange (t + 1) nt)) (zrange t nt))).
    2:{ apply X. split; [lia|]. unfold nt, ntl. apply Z.div_pos; pose proof (sq_pos nb B _ HB); pose proof (go_n A (td_shape _ _ (sq_t nb A _ HA))); lia. }
    cut (forall d, 0 <= d -> d <= nt -> leads (works q) (zq q)
      (flat_map (fun t => map (s2 t) (zrange 0 nq) ++ flat_map (fun m => map (g2 t m) (zrange 0 nq)) (zrange (t + 1) nt)) (zrange (nt - d) nt))).
    { intros X t Ht'. replace t with (nt - (nt - t)) by lia. apply X; lia. }
    apply (natlike_ind (fun d => d <= nt -> leads (works q) (zq q)
      (flat_map (fun t => map (s2 t) (zrange 0 nq) ++ flat_map (fun m => map (g2 t m) (zrange 0 nq)) (zrange (t + 1) nt)) (zrange (nt - d) nt)))).
    - intros _. rewrite (zrange_nil (nt - 0)) by lia. apply leads_nil.
    - intros d Hd IH Hd'. unfold Z.succ in *. rewrite (zrange_cons (nt - (d + 1))) by lia. cbn [flat_map].
      replace (nt - (d + 1) + 1) with (nt - d) by lia. remember (nt - (d + 1)) as t0 eqn:E0.
      rewrite <- app_assoc. specialize (IH ltac:(lia)).
      assert (Et : nt - d = t0 + 1) by lia. rewrite Et in *.
      assert (LG : leads (works q) (zq q) (flat_map (fun m => map (g2 t0 m) (zrange 0 nq)) (zrange (t0 + 1) nt) ++
        flat_map (fun t => map (s2 t) (zrange 0 nq) ++ flat_map (fun m => map (g2 t m) (zrange 0 nq)) (zrange (t + 1) nt)) (zrange (t0 + 1) nt))).
      { apply leads_app; [exact IH|]. intros k Hk (p & Hp & HI). apply in_flat_map in Hk. destruct Hk as (m & Hm & Hk).
        apply in_zrange in Hm. apply in_map_iff in Hk. destruct Hk as (q' & <- & Hq'). apply in_zrange in Hq'.
        destruct (Z.eq_dec p 0) as [->|NP].
        - left. exists (dep_inout (tptr bB B 0 q)). split; [assumption|reflexivity].
        - right. exists (g2 (nt - 1 - p) (nt - 1) q). destruct (g2_after _ p q ltac:(lia) Hq HI) as [G1 G2].
          split; [|auto]. destruct (g2_deps t0 m q') as (a & E). rewrite E in HI.
          destruct HI as [HI|[HI|[HI|[]]]]; try discriminate.
          apply works_dep in HI; try assumption; [|rewrite so_eq; lia]. destruct HI as [HI _]. rewrite so_eq in HI.
          apply in_flat_map. exists (nt - 1 - p). split; [apply in_zrange; lia|]. apply in_or_app. right.
          apply in_flat_map. exists (nt - 1). split; [apply in_zrange; lia|]. apply in_map. apply in_zrange. lia. }
      apply leads_app; [exact LG|]. intros k Hk (p & Hp & HI). apply in_map_iff in Hk. destruct Hk as (q' & <- & Hq').
      apply in_zrange in Hq'. destruct (Z.eq_dec p 0) as [->|NP].
      + left. exists (dep_inout (tptr bB B 0 q)). split; [assumption|reflexivity].
      + right. exists (g2 (nt - 1 - p) (nt - 1) q). destruct (g2_after _ p q ltac:(lia) Hq HI) as [G1 G2].
        split; [|auto]. rewrite s2_deps in HI.
        destruct HI as [HI|[HI|[]]]; try discriminate.
        apply works_dep in HI; try assumption; [|rewrite so_eq; lia]. destruct HI as [HI _]. rewrite so_eq in HI.
        apply in_or_app. left. replace (nt - 1 - p) with t0 by lia.
        apply in_flat_map. exists (nt - 1). split; [apply in_zrange; lia|]. apply in_map. apply in_zrange. lia.
  Qed.

  Lemma solves_lead : forall q, 0 <= q < nq ->
    leads (works q) (zq q) (pztrsm (F := F) PlasmaLeft u1 trans d1 n1 bA A bB B
                            ++ pztrsm PlasmaLeft PlasmaLower trans d2 n1 bA A bB B).
  Proof.
    intros q Hq. apply leads_app; [apply solve2_leads; assumption|]. intros k _ (p & Hp & HI).
    destruct (Z.eq_dec p 0) as [->|NP].
    - left. exists (dep_inout (tptr bB B 0 q)). split; [assumption|reflexivity].
    - right. exists (g2 (nt - 1 - p) (nt - 1) q). destruct (g2_after _ p q ltac:(lia) Hq HI) as [G1 G2].
      split; [|auto].
      rewrite (pztrsm_left nb A B (in_tiles A) bA bB PlasmaLeft PlasmaLower trans d2 n1 HA HB AS AM eq_refl).
      unfold L1. fold s2 g2. change (oth B PlasmaLeft) with (d_n B). fold nt nq.
      apply in_flat_map. exists (nt - 1 - p). split; [apply in_zrange; lia|]. apply in_or_app. right.
      apply in_flat_map. exists (nt - 1). split; [apply in_zrange; lia|]. apply in_map. apply in_zrange. lia.
  Qed.
End Chain.
