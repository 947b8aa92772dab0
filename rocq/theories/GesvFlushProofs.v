(* What comes after the LU factorization and names a tile of the matrix waits for all the
   tasks of the factorization that touch the tile. *)
From Coq Require Import ZArith List Bool Lia.
From Verif Require Import Base NumModel FieldModel TaskModel TaskSpec TaskProofs GuardModel GuardSpec GuardProofs DescModel DescSpec DescProofs DescDriverModel
  MatModel MatProofs RegionProofs LayoutModel TriModel DriverModel SwpModel SwpSpec GroupProofs PanelProofs SwpDriverProofs GetrfModel GetrfSpec GetrfProofs
  GetrfLinkProofs GesvModel GesvLiftProofs.
Import ListNotations.
Open Scope Z_scope.

Lemma flat_mid : forall T (f : Z -> list T) l1 x l2 hi n lo, (hi - lo <= Z.of_nat n) ->
  flat_map f (zrange lo hi) = l1 ++ x :: l2 ->
  exists k g1 g2, lo <= k < hi /\ f k = g1 ++ x :: g2 /\ l2 = g2 ++ flat_map f (zrange (k + 1) hi).
Proof.
  intros T f l1 x l2 hi n. revert l1. induction n as [|n IH]; intros l1 lo Hn E.
  - rewrite zrange_nil in E by lia. destruct l1; discriminate.
  - destruct (Z_le_gt_dec hi lo); [rewrite zrange_nil in E by lia; destruct l1; discriminate|].
    rewrite zrange_cons in E by lia. cbn [flat_map] in E.
    destruct (app_mid _ _ _ _ _ _ E) as [(l & E1 & E2)|(l & E1 & E2)].
    + exists lo, l1, l. split; [lia|]. split; [assumption|]. assumption.
    + destruct (IH l (lo + 1) ltac:(lia) E1) as (k & g1 & g2 & Hk & H1 & H2). exists k, g1, g2. split; [lia|]. auto.
Qed.

Section Flush.
  Context {F : fields}.
  Variable bigger : F -> F -> bool.
  Variables (nb b : Z) (A : desc) (pI : loc) (ib mpt : Z).
  Hypothesis SQ : d_mt A = d_nt A.
  Hypothesis Hpi : fst pI <> b.
  Hypothesis Emb : d_mb A = nb.
  Let T := Z.min (d_mt A) (d_nt A).
  Let KS := map ck_task (pzgetrf bigger b A pI ib mpt).

  Notation ptask k := (ck_task (panel_task bigger b A pI ib mpt k)).
  Notation utask k c := (@update_task F b A pI k c).
  Notation ltask k := (@left_task F b A pI k).

  Definition tile_at (r c : Z) (l : loc) : Prop := 0 <= r < d_mt A /\ 0 <= c < d_nt A /\
    reg (tptr b A r c) (tile_mmain A r) (tile_mview A r) (tile_nview A c) everywhere l.

  (* the tasks after x in ks *)
  Definition waits (x : ktask (cell F)) (l2 : list (ktask (cell F))) (l a : loc) : Prop :=
    forall y m1 d, In d (k_deps y) -> dep_addr d = a -> (k_writes x l \/ dep_type d <> DepIn) -> linked x (l2 ++ m1) y.

  Lemma waits_self : forall x l2 l a d, In d (k_deps x) -> dep_addr d = a -> dep_type d <> DepIn -> waits x l2 l a.
  Proof.
    intros x l2 l a d H1 H2 H3 y m1 d' H1' H2' _. apply ln_direct. apply (deps_by _ _ d d'); auto. congruence.
  Qed.
  Lemma waits_in : forall x l2 l a d, In d (k_deps x) -> dep_addr d = a -> ~ k_writes x l -> waits x l2 l a.
  Proof.
    intros x l2 l a d H1 H2 H3 y m1 d' H1' H2' [H4|H4]; [contradiction|]. apply ln_direct. apply (deps_by _ _ d d'); auto. congruence.
  Qed.
  Lemma waits_one : forall x l2 l a z d, In z l2 -> deps_order (k_deps x) (k_deps z) ->
    In d (k_deps z) -> dep_addr d = a -> dep_type d <> DepIn -> waits x l2 l a.
  Proof.
    intros x l2 l a z d Hz Hxz H1 H2 H3 y m1 d' H1' H2' _. apply (linked_in1 _ x y z); try assumption.
    apply (deps_by _ _ d d'); auto. congruence.
  Qed.

  (* the tasks at the left of the diagonal *)
  Lemma partL_at : forall c, 0 <= c < T - 1 -> exists p q, partL b A pI (F := F) = p ++ ltask c :: fakes' b A c ++ q.
  Proof.
    intros c Hc. unfold partL. fold T. rewrite (zrange_app 0 c (T - 1)) by lia. rewrite (zrange_cons c) by lia.
    rewrite flat_map_app. cbn [flat_map]. rewrite <- !app_comm_cons, <- ?app_assoc. eauto.
  Qed.

  (* below the diagonal: through the interchanges at the left *)
  Lemma waits_low : forall x l2 l2' l r c d, l2 = l2' ++ partL b A pI -> 0 <= c < r -> r < d_mt A ->
    In d (k_deps x) -> dep_addr d = tptr b A (d_mt A - 1) c -> waits x l2 l (tptr b A r c).
  Proof.
    intros x l2 l2' l r c d -> Hc Hr H1 H2. destruct (partL_at c) as (p & q & E); [unfold T; lia|].
    assert (XL : deps_order (k_deps x) (k_deps (ltask c))).
    { apply (deps_by _ _ d (dep_inout (tptr b A (d_mt A - 1) c))); auto; [right; right; left; reflexivity|right; discriminate]. }
    assert (IL : In (ltask c) (l2' ++ partL b A pI)) by (rewrite E; rewrite !in_app_iff; right; right; left; reflexivity).
    destruct (Z.eq_dec r (d_mt A - 1)) as [->|N1].
    { apply (waits_one _ _ _ _ (ltask c) (dep_inout (tptr b A (d_mt A - 1) c))); auto; [right; right; left; reflexivity|discriminate]. }
    destruct (Z.eq_dec r (c + 1)) as [->|N2].
    { apply (waits_one _ _ _ _ (ltask c) (dep_inout (tptr b A (c + 1) c))); auto; [right; left; reflexivity|discriminate]. }
    intros y m1 d' H1' H2' _. rewrite E.
    apply (linked_in2 _ x y (ltask c) (fake_task [dep_in (tptr b A (c + 1) c); dep_inout (tptr b A r c)]) _ m1 (l2' ++ p) (fakes' b A c ++ q)).
    - rewrite <- app_assoc. reflexivity.
    - apply in_or_app. left. unfold fakes'. apply in_map_iff. exists r. split; [reflexivity|]. apply in_zrange. lia.
    - assumption.
    - apply (deps_by _ _ (dep_inout (tptr b A (c + 1) c)) (dep_in (tptr b A (c + 1) c)));
        [right; left; reflexivity|left; reflexivity|reflexivity|left; discriminate].
    - apply (deps_by _ _ (dep_inout (tptr b A r c)) d'); [right; left; reflexivity|assumption|cbn; congruence|left; discriminate].
  Qed.

  Lemma col_tile_at : forall k c l, 0 <= k -> 0 <= c < d_nt A -> col_from b A k c l -> exists r, k <= r /\ tile_at r c l.
  Proof. intros k c l Hk Hc (r & Hr & H). exists r. split; [lia|]. split; [lia|]. split; assumption. Qed.

  Lemma sec_block : forall lo hi l, ipiv_sec pI lo hi l -> fst l <> b.
  Proof. intros lo hi l (t & _ & ->). exact Hpi. Qed.

  Lemma flush : forall l1 x l2 l, KS = l1 ++ x :: l2 -> fst l = b -> k_reads x l \/ k_writes x l ->
    exists r c, tile_at r c l /\ waits x l2 l (tptr b A r c).
  Proof.
    intros l1 x l2 l E Hb HX. unfold KS in E. rewrite (pzgetrf_tasks (F := F)) in E.
    destruct (app_mid _ _ _ _ _ _ E) as [(l' & E1 & E2)|(l' & E1 & E2)].
    - (* the factorization *)
      assert (EL : l2 = (l' ++ gathers A pI) ++ partL b A pI) by (rewrite E2, <- app_assoc; reflexivity).
      unfold partF in E1. fold T in E1.
      destruct (flat_mid _ _ _ _ _ T (Z.to_nat T) 0 ltac:(lia) E1) as (k & g1 & g2 & Hk & EB & El').
      assert (HK : 0 <= k < d_mt A) by (unfold T in Hk; lia).
      assert (IX : In x (fakes b A k ++ ptask k :: updates b A pI k)) by (rewrite EB; apply in_elt).
      apply in_app_or in IX. destruct IX as [IX|[<-|IX]].
      + apply in_map_iff in IX. destruct IX as (z & <- & _). cbn in HX. tauto.
      + assert (HX' : col_from b A k k l).
        { cbn [panel_task ck_task k_reads k_writes] in HX.
          destruct HX as [[HX|HX]|[HX|HX]]; try assumption; exfalso; apply (sec_block _ _ _ HX Hb). }
        destruct (col_tile_at k k l ltac:(lia) ltac:(lia) HX') as (r & Hr & TA). exists r, k. split; [assumption|].
        destruct (Z.eq_dec r k) as [->|N].
        * apply (waits_self _ _ _ _ (dep_inout (tptr b A k k))); [left; reflexivity|reflexivity|discriminate].
        * apply (waits_low _ _ _ _ r k (dep_inout (tptr b A (d_mt A - 1) k)) EL); [lia|apply TA|right; left; reflexivity|reflexivity].
      + apply in_map_iff in IX. destruct IX as (c & <- & Hc). apply in_zrange in Hc.
        assert (HX' : col_from b A k k l \/ col_from b A k c l).
        { cbn [update_task k_reads k_writes] in HX. destruct HX as [[HX|[HX|HX]]|HX]; auto. exfalso. apply (sec_block _ _ _ HX Hb). }
        assert (DC : k_writes (utask k c) l \/ ~ k_writes (utask k c) l).
        { destruct (finite_dec _ l (col_from_finite b A k c)) as [H|H]; [left|right]; exact H. }
        assert (UC : col_from b A k c l -> exists r, tile_at r c l /\ waits (utask k c) l2 l (tptr b A r c)).
        { intros HC. destruct (col_tile_at k c l ltac:(lia) ltac:(lia) HC) as (r & Hr & TA). exists r. split; [assumption|].
          assert (LAST : In (dep_inout (tptr b A (d_mt A - 1) c)) (k_deps (utask k c))) by (do 5 right; left; reflexivity).
          destruct (Z_lt_le_dec c r) as [L|L].
          { apply (waits_low _ _ _ _ r c (dep_inout (tptr b A (d_mt A - 1) c)) EL); [lia|apply TA|assumption|reflexivity]. }
          destruct (Z.eq_dec r k) as [->|N].
          { apply (waits_self _ _ _ _ (dep_inout (tptr b A k c))); [do 3 right; left; reflexivity|reflexivity|discriminate]. }
          assert (INB : forall z, In z (fakes b A r ++ ptask r :: updates b A pI r) -> In z l2).
          { intros z Hz. rewrite EL, El', !in_app_iff. left. left. right. apply in_flat_map. exists r. split; [|assumption].
            apply in_zrange. destruct TA as (T1 & T2 & _). unfold T. lia. }
          destruct (Z.eq_dec r c) as [->|N2].
          - apply (waits_one _ _ _ _ (ptask c) (dep_inout (tptr b A c c))); [apply INB; apply in_elt| |left; reflexivity|reflexivity|discriminate].
            apply (deps_by _ _ (dep_inout (tptr b A (d_mt A - 1) c)) (dep_inout (tptr b A (d_mt A - 1) c)));
              [assumption|right; left; reflexivity|reflexivity|left; discriminate].
          - apply (waits_one _ _ _ _ (utask r c) (dep_inout (tptr b A r c))); [| |do 3 right; left; reflexivity|reflexivity|discriminate].
            + apply INB. apply in_or_app. right. right. unfold updates. apply in_map_iff. exists c. split; [reflexivity|]. apply in_zrange. lia.
            + apply (deps_by _ _ (dep_inout (tptr b A (d_mt A - 1) c)) (dep_inout (tptr b A (d_mt A - 1) c)));
                [assumption|do 5 right; left; reflexivity|reflexivity|left; discriminate]. }
        destruct DC as [DC|DC].
        * destruct (UC DC) as (r & H). exists r, c. exact H.
        * assert (HX2 : col_from b A k k l \/ col_from b A k c l) by exact HX'.
          destruct HX2 as [HC|HC]; [|contradiction].
          destruct (col_tile_at k k l ltac:(lia) ltac:(lia) HC) as (r & Hr & TA). exists r, k. split; [assumption|].
          destruct (Z.eq_dec r k) as [->|N].
          -- apply (waits_in _ _ _ _ (dep_in (tptr b A k k))); [left; reflexivity|reflexivity|assumption].
          -- apply (waits_low _ _ _ _ r k (dep_in (tptr b A (d_mt A - 1) k)) EL); [lia|apply TA|right; left; reflexivity|reflexivity].
    - (* the interchanges at the left *)
      assert (NI : ~ idle x) by (intros [I1 I2]; destruct HX as [HX|HX]; [apply (I1 _ HX)|apply (I2 _ HX)]).
      destruct (gathers_linked b A pI _ _ _ E1 NI) as (p & E3 & E4). clear E1 E2 E3.
      unfold partL in E4. fold T in E4.
      destruct (flat_mid _ _ _ _ _ (T - 1) (Z.to_nat T) 0 ltac:(lia) E4) as (k & g1 & g2 & Hk & EB & El2).
      destruct g1 as [|z g1]; cbn [app] in EB.
      2:{ injection EB as _ EB. exfalso. apply NI. pose proof (fakes'_idle (F := F) b A k) as HF. rewrite EB in HF.
          rewrite Forall_forall in HF. apply HF. apply in_elt. }
      injection EB as <- EB.
      assert (HX' : col_from b A (k + 1) k l).
      { cbn [left_task k_reads k_writes] in HX. destruct HX as [[HX|HX]|HX]; auto. exfalso. apply (sec_block _ _ _ HX Hb). }
      assert (HK : 0 <= k < d_mt A) by (unfold T in Hk; lia).
      destruct (col_tile_at (k + 1) k l ltac:(lia) ltac:(lia) HX') as (r & Hr & TA). exists r, k. split; [assumption|].
      destruct (Z.eq_dec r (k + 1)) as [->|N1].
      { apply (waits_self _ _ _ _ (dep_inout (tptr b A (k + 1) k))); [right; left; reflexivity|reflexivity|discriminate]. }
      destruct (Z.eq_dec r (d_mt A - 1)) as [->|N2].
      { apply (waits_self _ _ _ _ (dep_inout (tptr b A (d_mt A - 1) k))); [right; right; left; reflexivity|reflexivity|discriminate]. }
      apply (waits_one _ _ _ _ (fake_task [dep_in (tptr b A (k + 1) k); dep_inout (tptr b A r k)]) (dep_inout (tptr b A r k)));
        [| |right; left; reflexivity|reflexivity|discriminate].
      + rewrite El2. apply in_or_app. left. rewrite <- EB. unfold fakes'. apply in_map_iff. exists r. split; [reflexivity|].
        apply in_zrange. destruct TA as (T1 & _). lia.
      + apply (deps_by _ _ (dep_inout (tptr b A (k + 1) k)) (dep_in (tptr b A (k + 1) k)));
          [right; left; reflexivity|left; reflexivity|reflexivity|left; discriminate].
  Qed.

  (* the pivots *)
  Lemma flush_piv : forall l1 x l2 l, KS = l1 ++ x :: l2 -> fst l <> b -> k_writes x l ->
    forall y m1 d, In d (k_deps y) -> dep_addr d = pI -> linked x (l2 ++ m1) y.
  Proof.
    intros l1 x l2 l E Hb HX y m1 d Hd Ha. unfold KS in E. rewrite (pzgetrf_tasks (F := F)) in E.
    assert (CB : forall k c, col_from b A k c l -> fst l = b) by (intros k c (r & _ & H); apply reg_block in H; exact H).
    destruct (app_mid _ _ _ _ _ _ E) as [(l' & E1 & E2)|(l' & E1 & E2)].
    - assert (IX : In x (partF bigger b A pI ib mpt)) by (rewrite E1; apply in_elt).
      destruct (in_partF _ _ _ _ _ _ _ IX) as [(q & ->)|[(k & Hk & ->)|(k & c & Hk & Hc & ->)]].
      + destruct HX.
      + fold T in Hk. destruct (gather_mid (F := F) A pI k Hk) as (h1 & h2 & EG).
        apply (linked_in1 _ _ y (fake_task [dep_in (fst pI, snd pI + k * d_mb A); dep_inout pI])).
        * rewrite E2, EG, !in_app_iff. right. left. right. left. reflexivity.
        * apply (deps_by _ _ (dep_out (fst pI, snd pI + k * d_mb A)) (dep_in (fst pI, snd pI + k * d_mb A)));
            [do 2 right; left; reflexivity|left; reflexivity|reflexivity|left; discriminate].
        * apply (deps_by _ _ (dep_inout pI) d); [right; left; reflexivity|assumption|symmetry; assumption|left; discriminate].
      + exfalso. apply Hb. apply (CB _ _ HX).
    - assert (NI : ~ idle x) by (intros [I1 I2]; apply (I2 _ HX)).
      destruct (gathers_linked b A pI _ _ _ E1 NI) as (p & _ & E4).
      assert (IX : In x (partL b A pI)) by (rewrite E4; apply in_elt).
      destruct (in_partL _ _ _ _ IX) as [(q & ->)|(k & Hk & ->)]; [destruct HX|]. exfalso. apply Hb. apply (CB _ _ HX).
  Qed.
End Flush.
