(* A matrix translated to tiles, worked on panel by panel (each panel a column or row of
   tiles) by one task per panel surrounded by empty tasks, and translated back. *)
From Coq Require Import ZArith List Bool Lia.
From Verif Require Import Base TaskModel TaskSpec TaskProofs DescModel DescSpec DescProofs MatModel MatSpec
  MatProofs RegionProofs LayoutModel LayoutProofs OpProofs OperandProofs GemmProofs RankDriverProofs
  SwpModel SwpProofs GroupProofs.
Import ListNotations.
Open Scope Z_scope.

Lemma fop_app : forall A (R : A -> A -> Prop) l l', ForallOrdPairs R l -> ForallOrdPairs R l' ->
  (forall x y, In x l -> In y l' -> R x y) -> ForallOrdPairs R (l ++ l').
Proof.
  intros A R l l' H H' HX. induction H as [|x l H1 H2 IH]; [exact H'|]. cbn. constructor.
  - apply Forall_app. split; [assumption|]. apply Forall_forall. intros y Hy. apply HX; [left; reflexivity|assumption].
  - apply IH. intros a c Ha Hc. apply HX; [right; assumption|assumption].
Qed.
Lemma fop_all : forall A (R : A -> A -> Prop) l, (forall x y, In x l -> In y l -> R x y) -> ForallOrdPairs R l.
Proof.
  intros A R l. induction l as [|x l IH]; intros H; constructor.
  - apply Forall_forall. intros y Hy. apply H; [left; reflexivity|right; assumption].
  - apply IH. intros a c Ha Hc. apply H; right; assumption.
Qed.
Lemma fop_map : forall A B (f : A -> B) (R : B -> B -> Prop) l, NoDup l ->
  (forall x y, In x l -> In y l -> x <> y -> R (f x) (f y)) -> ForallOrdPairs R (map f l).
Proof.
  intros A B f R l HN. induction HN as [|x l N1 N2 IH]; intros H; cbn; constructor.
  - apply Forall_forall. intros z Hz. apply in_map_iff in Hz. destruct Hz as (y & <- & Hy).
    apply H; [left; reflexivity|right; assumption|congruence].
  - apply IH. intros a c Ha Hc. apply H; right; assumption.
Qed.

Lemma fop_mid : forall A (R : A -> A -> Prop) l1 x l2 y l3,
  ForallOrdPairs R (l1 ++ x :: l2 ++ y :: l3) -> R x y.
Proof.
  intros A R l1 x l2 y l3 H. induction l1 as [|z l1 IH]; cbn in H; inversion H as [|? ? H1 H2]; subst; [|auto].
  rewrite Forall_forall in H1. apply H1. apply in_or_app. right. left. reflexivity.
Qed.

Section Panels.
  Context {V : Type}.
  Variables (P Q R : Z) (C : Z -> Z) (E : Z -> Z -> Z -> loc) (T : Z -> Z -> loc) (b : Z) (pI : loc)
    (f : Z -> Z) (task : Z -> ktask V) (home : loc -> loc -> Prop).
  Hypothesis HF : functional home.
  Hypothesis EI : forall p s c p' s' c', 0 <= p < P -> 0 <= p' < P -> 0 <= s < R -> 0 <= s' < R ->
    0 <= c < C p -> 0 <= c' < C p' -> E p s c = E p' s' c' -> p = p' /\ s = s' /\ c = c'.
  Hypothesis EB : forall p s c, fst (E p s c) = b.
  Hypothesis FR : forall s, 0 <= s < R -> 0 <= f s < R.
  Hypothesis TD : forall p, k_deps (task p) = [dep_in pI; dep_inout (T p 0); dep_inout (T p (Q - 1))].
  Hypothesis TR : forall p l, 0 <= p < P -> (k_reads (task p) l <-> panel R (C p) (E p) l).
  Hypothesis TW : forall p l, 0 <= p < P -> (k_writes (task p) l <-> panel R (C p) (E p) l).
  Hypothesis TL : forall p M, 0 <= p < P -> lines R (C p) (E p) f M (k_fun (task p) M).
  Hypothesis HH : forall p l, 0 <= p < P -> panel R (C p) (E p) l -> exists q, 0 <= q < Q /\ home l (T p q).

  Definition pgroup (p : Z) : group V :=
    mkgroup (map (fun q => fake_task [dep_in (T p q); dep_inout (T p 0)]) (zrange 1 (Q - 1)))
            (task p)
            (map (fun q => fake_task [dep_in (T p 0); dep_inout (T p q)]) (zrange 1 (Q - 1))).

  Definition ptasks : list (ktask V) := flat_map g_list (map pgroup (zrange 0 P)).

  Lemma fake_idle : forall d, idle (@fake_task V d).
  Proof. intros d. split; intros l []. Qed.
  Lemma pgroup_ok : forall p, g_ok (pgroup p).
  Proof.
    intros p. split; cbn; apply Forall_forall; intros k Hk; apply in_map_iff in Hk;
      destruct Hk as (q & <- & _); apply fake_idle.
  Qed.

  Lemma panel_finite : forall p, finite_set (panel R (C p) (E p)).
  Proof.
    intros p. exists (flat_map (fun s => map (E p s) (zrange 0 (C p))) (zrange 0 R)).
    intros l. rewrite in_flat_map. split.
    - intros (s & Hs & Hl). apply in_map_iff in Hl. destruct Hl as (c & <- & Hc).
      apply in_zrange in Hs, Hc. exists s, c. auto.
    - intros (s & c & Hs & Hc & ->). exists s. split; [apply in_zrange; assumption|].
      apply in_map. apply in_zrange. assumption.
  Qed.

  Lemma task_kgood : forall p, 0 <= p < P -> kgood (task p).
  Proof.
    intros p Hp. constructor.
    - split.
      + intros M l Hl. apply (proj2 (TL p M Hp)). rewrite <- TW by assumption. assumption.
      + intros M M' l HA Hl. apply TW in Hl; [|assumption]. destruct Hl as (s & c & Hs & Hc & ->).
        rewrite (proj1 (TL p M Hp)), (proj1 (TL p M' Hp)) by assumption. apply HA. apply TR; [assumption|].
        exists (f s), c. auto.
    - destruct (panel_finite p) as [L HL]. exists L. intros l. rewrite TR by assumption. apply HL.
    - destruct (panel_finite p) as [L HL]. exists L. intros l. rewrite TW by assumption. apply HL.
  Qed.

  Lemma fake_kgood : forall d, kgood (@fake_task V d).
  Proof.
    intros d. constructor; [|apply finite_none|apply finite_none].
    split; cbn; [reflexivity|intros M M' l _ []].
  Qed.

  Lemma ptasks_kgood : Forall kgood ptasks.
  Proof.
    unfold ptasks. rewrite flat_map_concat_map, map_map, <- flat_map_concat_map.
    apply Forall_flat_map_intro. intros p Hp. apply in_zrange in Hp. unfold g_list. cbn.
    apply Forall_app. split; [|constructor; [apply task_kgood; assumption|]];
      apply Forall_forall; intros k Hk; apply in_map_iff in Hk; destruct Hk as (q & <- & _); apply fake_kgood.
  Qed.

  (* what a panel's group names *)
  Lemma pgroup_in : forall p l, 0 <= p < P -> panel R (C p) (E p) l -> names_in home (pgroup p) l false.
  Proof.
    intros p l Hp Hl. destruct (HH p l Hp Hl) as (q & Hq & Hh).
    destruct (Z.eq_dec q 0) as [->|N0]; [|destruct (Z.eq_dec q (Q - 1)) as [->|N1]].
    - exists (task p), (dep_inout (T p 0)). split; [left; reflexivity|]. rewrite TD.
      split; [right; left; reflexivity|]. split; [assumption|discriminate].
    - exists (task p), (dep_inout (T p (Q - 1))). split; [left; reflexivity|]. rewrite TD.
      split; [right; right; left; reflexivity|]. split; [assumption|discriminate].
    - exists (fake_task [dep_in (T p q); dep_inout (T p 0)]), (dep_in (T p q)).
      split; [|split; [left; reflexivity|split; [assumption|discriminate]]].
      right. cbn [g_pre pgroup g_task].
      assert (HI : In q (zrange 1 (Q - 1))) by (apply in_zrange; lia).
      apply in_split in HI. destruct HI as (l1 & l2 & ->). rewrite map_app. cbn [map].
      eexists _, _. split; [reflexivity|]. apply ln_direct. cbn [k_deps fake_task]. rewrite TD.
      exists (dep_inout (T p 0)), (dep_inout (T p 0)). repeat split.
      + right; left; reflexivity.
      + right; left; reflexivity.
      + intros [X X2]; discriminate.
  Qed.

  Lemma pgroup_out : forall p l, 0 <= p < P -> panel R (C p) (E p) l -> names_out home (pgroup p) l true.
  Proof.
    intros p l Hp Hl. destruct (HH p l Hp Hl) as (q & Hq & Hh).
    destruct (Z.eq_dec q 0) as [->|N0]; [|destruct (Z.eq_dec q (Q - 1)) as [->|N1]].
    - exists (task p), (dep_inout (T p 0)). split; [left; reflexivity|]. rewrite TD.
      split; [right; left; reflexivity|]. split; [assumption|discriminate].
    - exists (task p), (dep_inout (T p (Q - 1))). split; [left; reflexivity|]. rewrite TD.
      split; [right; right; left; reflexivity|]. split; [assumption|discriminate].
    - exists (fake_task [dep_in (T p 0); dep_inout (T p q)]), (dep_inout (T p q)).
      split; [|split; [right; left; reflexivity|split; [assumption|discriminate]]].
      right. cbn [g_post pgroup g_task].
      assert (HI : In q (zrange 1 (Q - 1))) by (apply in_zrange; lia).
      apply in_split in HI. destruct HI as (l1 & l2 & ->). rewrite map_app. cbn [map].
      eexists _, _. split; [reflexivity|]. apply ln_direct. cbn [k_deps fake_task]. rewrite TD.
      exists (dep_inout (T p 0)), (dep_in (T p 0)). repeat split.
      + right; left; reflexivity.
      + left; reflexivity.
      + intros [X X2]; discriminate.
  Qed.

  Lemma panel_block : forall p l, panel R (C p) (E p) l -> fst l = b.
  Proof. intros p l (s & c & _ & _ & ->). apply EB. Qed.

  Lemma panels_linked : forall ins outs : list (ktask V),
    Forall (kdecl home) ins -> Forall (kdecl home) outs ->
    (forall k l, In k ins -> k_reads k l -> fst l <> b) ->
    klinked (ins ++ ptasks ++ outs).
  Proof.
    intros ins outs DI DO RI. rewrite Forall_forall in DI, DO.
    assert (EQ : ins ++ ptasks ++ outs
      = flat_map g_list (map single ins ++ map pgroup (zrange 0 P) ++ map single outs)).
    { rewrite !flat_map_app, !single_list. reflexivity. }
    rewrite EQ. clear EQ. apply groups_klinked.
    - rewrite !Forall_app. split; [apply single_ok|]. split; [|apply single_ok].
      apply Forall_forall. intros g Hg. apply in_map_iff in Hg. destruct Hg as (p & <- & _). apply pgroup_ok.
    - assert (F : ForallOrdPairs (fun g g' => kconflict (g_task g) (g_task g') -> chained g g')
        (map single ins ++ map pgroup (zrange 0 P) ++ map single outs)).
      { apply fop_app; [|apply fop_app|].
        - apply fop_all. intros g g' Hg Hg' HC. apply in_map_iff in Hg, Hg'.
          destruct Hg as (k & <- & Hk). destruct Hg' as (k' & <- & Hk').
          apply (kdecl_chained home HF); auto.
        - apply fop_map; [apply NoDup_zrange|]. intros p p' Hp Hp' NE (l & HC). exfalso. apply NE.
          apply in_zrange in Hp, Hp'. cbn [g_task pgroup] in HC. rewrite !TR, !TW in HC by assumption.
          assert (X : panel R (C p) (E p) l /\ panel R (C p') (E p') l) by tauto. clear HC.
          destruct X as [(s & c & Hs & Hc & ->) (s' & c' & Hs' & Hc' & EE)].
          apply EI in EE; try assumption. apply EE.
        - apply fop_all. intros g g' Hg Hg' HC. apply in_map_iff in Hg, Hg'.
          destruct Hg as (k & <- & Hk). destruct Hg' as (k' & <- & Hk').
          apply (kdecl_chained home HF); auto.
        - intros g g' Hg Hg' (l & HC). apply in_map_iff in Hg, Hg'.
          destruct Hg as (p & <- & Hp). destruct Hg' as (k & <- & Hk). apply in_zrange in Hp.
          cbn [g_task pgroup single] in HC. rewrite !TR, !TW in HC by assumption.
          assert (X : panel R (C p) (E p) l) by tauto.
          assert (Y : k_reads k l \/ k_writes k l) by tauto. destruct Y as [Y|Y].
          + apply (names_chained home HF _ _ l true false); [apply pgroup_out; assumption| |reflexivity].
            apply kdecl_in_weak; auto. destruct (HH p l Hp X) as (q & _ & Hh). eauto.
          + apply (names_chained home HF _ _ l true true); [apply pgroup_out; assumption| |reflexivity].
            apply kdecl_in; auto.
        - intros g g' Hg Hg' (l & HC). apply in_map_iff in Hg.
          destruct Hg as (k & <- & Hk). apply in_app_or in Hg'. destruct Hg' as [Hg'|Hg'];
            apply in_map_iff in Hg'.
          + destruct Hg' as (p & <- & Hp). apply in_zrange in Hp.
            cbn [g_task pgroup single] in HC. rewrite !TR, !TW in HC by assumption.
            assert (X : panel R (C p) (E p) l) by tauto.
            apply (names_chained home HF _ _ l true false); [|apply pgroup_in; assumption|reflexivity].
            assert (Y : k_writes k l).
            { destruct HC as [[Y _]|[Y _]]; [assumption|]. exfalso. apply (RI k l Hk Y), (panel_block p); assumption. }
            apply kdecl_out; auto.
          + destruct Hg' as (k' & <- & Hk'). apply (kdecl_chained home HF); auto. exists l. exact HC. }
      intros gs1 g gs2 g' gs3 EQ. rewrite EQ in F. apply fop_mid in F. exact F.
  Qed.

  (* what the panels compute *)
  Lemma pgroup_run : forall p M, krun (g_list (pgroup p)) M = k_fun (task p) M.
  Proof.
    assert (X : forall (ks : list (ktask V)) M, (forall k, In k ks -> exists d, k = fake_task d) -> krun ks M = M).
    { induction ks as [|k ks IH]; intros M H; [reflexivity|]. cbn [krun].
      destruct (H k (or_introl eq_refl)) as (d & ->). cbn [k_fun fake_task]. apply IH.
      intros k' Hk'. apply H. right. assumption. }
    intros p M. unfold g_list. rewrite krun_app. cbn [krun].
    rewrite (X (g_pre (pgroup p))), (X (g_post (pgroup p))); [reflexivity| |]; cbn;
      intros k Hk; apply in_map_iff in Hk; destruct Hk as (q & <- & _); eauto.
  Qed.

  Lemma ptasks_run : forall M p s c, 0 <= p < P -> 0 <= s < R -> 0 <= c < C p ->
    krun ptasks M (E p s c) = M (E p (f s) c).
  Proof.
    intros M p s c Hp Hs Hc. unfold ptasks.
    assert (X : forall t, 0 <= t <= P -> forall p s c, 0 <= p < P -> 0 <= s < R -> 0 <= c < C p ->
      krun (flat_map g_list (map pgroup (zrange 0 t))) M (E p s c)
      = if p <? t then M (E p (f s) c) else M (E p s c)).
    { clear p s c Hp Hs Hc. intros t. pattern t. apply (zrange_ind_hi _ 0); clear t.
      - intros t H0 _ p s c Hp Hs Hc. rewrite zrange_nil by assumption. cbn.
        destruct (Z.ltb_spec p t); [lia|reflexivity].
      - intros t H0 IH Ht p s c Hp Hs Hc. rewrite zrange_snoc, map_app, flat_map_app, krun_app by assumption.
        cbn [map flat_map]. rewrite app_nil_r, pgroup_run.
        assert (Htp : 0 <= t < P) by lia.
        destruct (Z.eq_dec p t) as [->|NE].
        + rewrite (proj1 (TL t _ Htp)) by assumption. rewrite IH by (try apply FR; lia).
          destruct (Z.ltb_spec t t), (Z.ltb_spec t (t + 1)); try lia. reflexivity.
        + rewrite (proj2 (TL t _ Htp)).
          * rewrite IH by (try assumption; lia). destruct (Z.ltb_spec p t), (Z.ltb_spec p (t + 1)); try lia; reflexivity.
          * intros (s' & c' & Hs' & Hc' & EE). apply EI in EE; try assumption. lia. }
    rewrite X by (try assumption; lia). destruct (Z.ltb_spec p P); [reflexivity|lia].
  Qed.

  Lemma ptasks_other : forall M l, fst l <> b -> krun ptasks M l = M l.
  Proof.
    intros M l Hl. unfold ptasks.
    assert (X : forall ps M, (forall p, In p ps -> 0 <= p < P) -> krun (flat_map g_list (map pgroup ps)) M l = M l).
    { induction ps as [|p ps IH]; intros M1 H; [reflexivity|]. cbn [map flat_map]. rewrite krun_app, pgroup_run.
      rewrite IH by (intros q Hq; apply H; right; assumption).
      apply (proj2 (TL p M1 (H p (or_introl eq_refl)))). intros X. apply Hl. apply (panel_block p). assumption. }
    apply X. intros p Hp. apply in_zrange in Hp. assumption.
  Qed.
End Panels.

(* the translations touch user blocks on one side only *)
Lemma copy_in_reads : forall V nb A b p ld (k : ktask V) l, dn nb A ->
  In k (@o_in V (ge_opnd b A p ld)) -> k_reads k l -> fst l = fst p.
Proof.
  intros V nb A b p ld k l HA Hk Hl. unfold o_in, copy_in_all in Hk. apply in_flat_map in Hk.
  destruct Hk as ([m n] & Hmn & [<-|[]]). cbn in Hmn. apply idx_all_in in Hmn. cbn [fst snd o_A o_b o_p o_ld ge_opnd] in Hl.
  rewrite (copy_in_eq A (in_tiles A) b p ld (sq_t _ _ _ HA) m n Hmn) in Hl. cbn in Hl.
  apply reg_block in Hl. exact Hl.
Qed.

Lemma copy_out_writes : forall V nb A b p ld (k : ktask V) l, dn nb A ->
  In k (@o_out V (ge_opnd b A p ld)) -> k_writes k l -> fst l = fst p.
Proof.
  intros V nb A b p ld k l HA Hk Hl. unfold o_out, copy_out_all in Hk. apply in_flat_map in Hk.
  destruct Hk as ([m n] & Hmn & [<-|[]]). cbn in Hmn. apply idx_all_in in Hmn. cbn [fst snd o_A o_b o_p o_ld ge_opnd] in Hl.
  rewrite (copy_out_eq A (in_tiles A) b p ld (sq_t _ _ _ HA) m n Hmn) in Hl. cbn in Hl.
  apply reg_block in Hl. exact Hl.
Qed.
