(* The generator auto of control/tree.c. *)
From Coq Require Import ZArith List Bool Lia Psatz.
From Verif Require Import Base TreeModel TreeSpec TreeProofs TreeProofs2 TreeProofs3.
Import ListNotations.
Open Scope Z_scope.

Section Auto.
Variables (mt mn conc lops : Z).
Hypothesis Hmn : 1 <= mn <= mt.
Hypothesis Hl : lops = (mt * mn - (mn - 1) * mn / 2) + (mt * mn - (mn + 1) * mn / 2).

Let bs : Z -> Z := fun j => Z.max 1 ((mt - j - 1) * (mn - j - 1) / (2 * conc)).

Let Hbs : forall c, 0 <= c < mn -> 1 <= bs c.
Proof. intros. unfold bs. lia. Qed.

Lemma target j : 0 <= j < mn -> get_super_tiles (Z.max 0 (mt - j - bs j)) (bs j) = st mt bs j - 1.
Proof.
  intros J. pose proof (Hbs j J) as B. pose proof (st_bounds mt mn bs Hmn Hbs j J) as SB.
  unfold get_super_tiles. symmetry.
  destruct (Z.max_spec 0 (mt - j - bs j)) as [[X ->]|[X ->]].
  - apply (Z.div_unique _ _ _ (mt - j - 1 - (st mt bs j - 1) * bs j)); lia.
  - assert (st mt bs j = 1) by nia. apply (Z.div_unique _ _ _ (bs j - 1)); lia.
Qed.

Definition good (ops : list top) (NT NZ : Z -> Z) : Prop :=
  all_allowed mt mn untreated ops /\ is mt mn bs (effects untreated ops) NT NZ.

Lemma good_len ops L NT NZ : good (ops ++ L) NT NZ -> Z.of_nat (length (ops ++ L)) <= lops.
Proof. intros [A _]. rewrite Hl. apply ops_bound; [lia|exact A]. Qed.

Lemma auto_while_ok j NT : 0 <= j < mn -> NT j = st mt bs j ->
  forall n NZ ops, (Z.to_nat (st mt bs j - 1 - NZ j) <= n)%nat -> good ops NT NZ -> 0 <= NZ j <= st mt bs j - 1 ->
  exists ops', (forall fuel, (n < fuel)%nat ->
       auto_while fuel lops j (bs j) (st mt bs j) (st mt bs j - 1) (NZ j) ops = Some (Some ops')) /\
    good ops' NT (aset NZ j (st mt bs j - 1)).
Proof.
  intros J TJ. induction n as [|n IH]; intros NZ ops LE G Z0.
  - exists ops. split.
    + intros [|f] F; [lia|]. cbn [auto_while]. destruct (NZ j <? st mt bs j - 1) eqn:X; [lia|reflexivity].
    + destruct G as [A I]. split; [exact A|]. eapply is_ext; [| |exact I]; [reflexivity|]. intros c C. unfold aset.
      destruct (c =? j) eqn:X; [|reflexivity]. assert (c = j) by lia. subst. lia.
  - destruct (NZ j <? st mt bs j - 1) eqn:X.
    2:{ destruct (IH NZ ops ltac:(lia) G Z0) as [ops' [E G']]. exists ops'. split; [|exact G']. intros fuel F. apply E. lia. }
    remember ((st mt bs j - NZ j) / 2) as b eqn:Eb.
    assert (B : 1 <= b /\ 2 * b <= st mt bs j - NZ j).
    { pose proof (Z.div_mod (st mt bs j - NZ j) 2 ltac:(lia)). pose proof (Z.mod_pos_bound (st mt bs j - NZ j) 2 ltac:(lia)). lia. }
    destruct G as [A I].
    destruct (add_tts mt mn bs Hmn Hbs (effects untreated ops) NT NZ j b (NZ j + b) ltac:(lia) ltac:(lia) I) as [A2 E2]; try lia.
    { apply treated_ready_effects; [exact A|apply treated_ready_untreated]. }
    assert (G2 : good (ops ++ tts mt bs j (NZ j) (NZ j + b) b) NT (aset NZ j (NZ j + b))).
    { split; [apply all_allowed_app; auto|]. rewrite effects_app. exact E2. }
    destruct (IH (aset NZ j (NZ j + b)) _ ltac:(unfold aset; rewrite Z.eqb_refl; lia) G2 ltac:(unfold aset; rewrite Z.eqb_refl; lia)) as [ops' [E G']].
    exists ops'. split.
    + intros [|f] F; [lia|]. cbn [auto_while]. rewrite X. cbv zeta. rewrite <- Eb.
      rewrite (for_each_ok lops _ (fun k => [mktop 2 j (head mt bs j k) (head mt bs j (k + b))])).
      * specialize (E f ltac:(lia)). unfold aset in E. rewrite Z.eqb_refl in E. exact E.
      * intros o x _ L. 
        replace (j + (st mt bs j - 1 - x) * bs j) with (head mt bs j x) by reflexivity.
        replace (head mt bs j x - b * bs j) with (head mt bs j (x + b)) by (unfold head; lia).
        apply insert_ok. exact L.
      * exact (good_len _ _ _ _ G2).
    + destruct G' as [A' I']. split; [exact A'|]. eapply is_ext; [| |exact I']; [reflexivity|]. intros c C. unfold aset.
      destruct (c =? j); reflexivity.
Qed.

Definition ctT (j : Z) : Z -> Z := fun c => if c <? j then st mt bs c else 0.
Definition ctZ (j : Z) : Z -> Z := fun c => if c <? j then st mt bs c - 1 else 0.

Lemma auto_cols_ok j : 0 <= j <= mn -> forall n ops, Z.of_nat n = mn - j -> good ops (ctT j) (ctZ j) ->
  exists ops', (forall fuel, (Z.to_nat mt < fuel)%nat -> auto_cols fuel lops mt mn conc (zrange j mn) ops = Some (Some ops')) /\
    good ops' (ctT mn) (ctZ mn).
Proof.
  intros J n. revert j J. induction n as [|n IH]; intros j J ops En G.
  - assert (j = mn) by lia. subst j. rewrite zrange_nil by lia. exists ops. split; [reflexivity|exact G].
  - rewrite zrange_cons by lia. assert (J' : 0 <= j < mn) by lia.
    pose proof (st_bounds mt mn bs Hmn Hbs j J') as SB. pose proof (Hbs j J') as B1.
    destruct G as [A I].
    assert (T0 : ctT j j = 0) by (unfold ctT; destruct (j <? j) eqn:X; [lia|reflexivity]).
    assert (Z0 : ctZ j j = 0) by (unfold ctZ; destruct (j <? j) eqn:X; [lia|reflexivity]).
    destruct (add_flats mt mn bs Hmn Hbs (effects untreated ops) (ctT j) (ctZ j) j (st mt bs j) ltac:(lia) I J' ltac:(lia) ltac:(lia)) as [A2 E2].
    { intros JP k d K D R.
      assert (HR : j <= head mt bs j k) by (unfold head; nia).
      rewrite I by lia. remember (head mt bs j k + d) as r eqn:Er.
      destruct (head_eq mt mn bs Hmn Hbs (j - 1) r ltac:(lia) ltac:(lia)) as [k' [d' [Er' [D' K']]]].
      rewrite Er'. rewrite (stat_eq mt mn bs Hbs) by (assumption || lia).
      unfold ctT, ctZ. destruct (j - 1 <? j) eqn:X; [|lia].
      destruct (d' =? 0) eqn:D0; destruct (k' <? st mt bs (j - 1) - 1) eqn:X1; destruct (k' <? st mt bs (j - 1)) eqn:X2; try reflexivity; try lia.
      exfalso. assert (k' = st mt bs (j - 1) - 1) as -> by lia. unfold head in Er'. lia. }
    rewrite T0 in A2, E2.
    assert (G2 : good (ops ++ flats mt bs j 0 (st mt bs j)) (aset (ctT j) j (st mt bs j)) (ctZ j)).
    { split; [apply all_allowed_app; auto|]. rewrite effects_app. exact E2. }
    destruct (auto_while_ok j (aset (ctT j) j (st mt bs j)) J' ltac:(unfold aset; now rewrite Z.eqb_refl)
                (Z.to_nat (st mt bs j - 1)) (ctZ j) _ ltac:(lia) G2 ltac:(lia)) as [ops1 [E1 G1]].
    destruct (IH (j + 1) ltac:(lia) ops1 ltac:(lia)) as [ops' [E' G']].
    { destruct G1 as [X Y]. split; [exact X|]. eapply is_ext; [| |exact Y].
      - intros c C. unfold aset, ctT. destruct (c =? j) eqn:X1; destruct (c <? j) eqn:X2; destruct (c <? j + 1) eqn:X3; try reflexivity; try lia.
        assert (c = j) by lia. now subst.
      - intros c C. unfold aset, ctZ. destruct (c =? j) eqn:X1; destruct (c <? j) eqn:X2; destruct (c <? j + 1) eqn:X3; try reflexivity; try lia.
        assert (c = j) by lia. now subst. }
    exists ops'. split; [|exact G'].
    intros fuel F. cbn [auto_cols]. cbv zeta. fold (bs j).
    assert (Hst : st mt bs j <= mt) by nia.
    rewrite (Z.max_r 0 (mt - j)) by lia. fold (st mt bs j).
    change (get_super_tiles (mt - j) (bs j)) with (st mt bs j).
    rewrite (for_each_ok lops _ (fun k => flat j (head mt bs j k) (height mt bs j k))).
    + rewrite (target j J'). 
      specialize (E1 fuel ltac:(lia)). rewrite Z0 in E1. unfold flats in E1. rewrite E1. apply E'. exact F.
    + intros o x _ L. replace (j + (st mt bs j - x - 1) * bs j) with (head mt bs j x) by (unfold head; lia).
      apply insert_flat_ok. exact L.
    + exact (good_len _ _ _ _ G2).
Qed.

End Auto.

Lemma tree_auto_ok mt nt conc : 1 <= mt -> 1 <= nt ->
  exists ops, (exists n0, forall fuel, (n0 <= fuel)%nat -> tree_auto fuel mt nt conc = TreeDone ops 0) /\
    elimination_scheme mt nt ops.
Proof.
  intros M N. remember (Z.min mt nt) as mn eqn:Emn.
  remember ((mt * mn - (mn - 1) * mn / 2) + (mt * mn - (mn + 1) * mn / 2)) as lops eqn:El.
  assert (Hmn : 1 <= mn <= mt) by lia.
  assert (Hbs : forall c, 0 <= c < mn -> 1 <= Z.max 1 ((mt - c - 1) * (mn - c - 1) / (2 * conc))) by lia.
  destruct (auto_cols_ok mt mn conc lops Hmn El 0 ltac:(lia) (Z.to_nat mn) [] ltac:(lia)) as [ops [E [A I]]].
  { split; [exact I|]. intros r c C R. cbn [effects]. unfold untreated.
    destruct (head_eq mt mn _ Hmn Hbs c r C R) as [k [d [-> [D K]]]]. rewrite (stat_eq mt mn _ Hbs) by assumption.
    unfold ctT, ctZ. destruct (c <? 0) eqn:X; [lia|].
    destruct (d =? 0); destruct (k <? 0) eqn:Y; try reflexivity; lia. }
  assert (CO : forall c, 0 <= c < mn ->
     ctT mt mn conc mn c = st mt (fun j => Z.max 1 ((mt - j - 1) * (mn - j - 1) / (2 * conc))) c /\
     ctZ mt mn conc mn c = st mt (fun j => Z.max 1 ((mt - j - 1) * (mn - j - 1) / (2 * conc))) c - 1).
  { intros c C. unfold ctT, ctZ. destruct (c <? mn) eqn:X; [auto|lia]. }
  exists ops. split.
  - exists (Z.to_nat mt + 1)%nat. intros fuel F. unfold tree_auto. cbv zeta. rewrite <- Emn, <- El.
    rewrite E by lia. pose proof (ops_bound mt mn _ ltac:(lia) A). destruct (lops <? Z.of_nat (length ops)) eqn:X; [lia|reflexivity].
  - apply scheme_intro; rewrite <- Emn; [exact A| |].
    + intros c Hc. exact (proj1 (complete_final mt mn _ Hmn Hbs _ _ _ I CO) c Hc).
    + intros r c Hc Hr. exact (proj2 (complete_final mt mn _ Hmn Hbs _ _ _ I CO) r c Hc Hr).
Qed.

(* ---- what the routines that use Q regenerate ---- *)
Lemma tree_operations_shape fuel mt nt kt ncores : Z.min mt kt = Z.min mt nt ->
  tree_operations fuel mt kt ncores = tree_operations fuel mt nt ncores.
Proof.
  intros H. unfold tree_operations, tree_block_greedy, tree_block_greedy_bs. rewrite H. reflexivity.
Qed.

Lemma leading_columns_witness :
  exists ops ops', (forall fuel, (5 <= fuel)%nat -> tree_operations fuel 4 4 1 = TreeDone ops 0) /\
    (forall fuel, (5 <= fuel)%nat -> tree_operations fuel 4 1 1 = TreeDone ops' 0) /\
    In (mktop 3 0 1 0) ops /\ ~ In (mktop 3 0 1 0) ops' /\ In (mktop 1 0 1 (-1)) ops'.
Proof.
  assert (E1 : exists s, block_while 5 (4 * 4 - 4 * (4 - 1) / 2 + (4 * 4 - (4 + 1) * 4 / 2)) 4 4 4 (mkgs (fun _ => 0) (fun _ => 0) [] false) = Some (Some s) /\
      In (mktop 3 0 1 0) (g_ops s) /\ TreeDone (g_ops s) 0 = tree_operations 5 4 4 1).
  { eexists. split; [vm_compute; reflexivity|]. split; [cbn; tauto|vm_compute; reflexivity]. }
  assert (E2 : exists s, block_while 5 (4 * 1 - 1 * (1 - 1) / 2 + (4 * 1 - (1 + 1) * 1 / 2)) 4 1 1 (mkgs (fun _ => 0) (fun _ => 0) [] false) = Some (Some s) /\
      ~ In (mktop 3 0 1 0) (g_ops s) /\ In (mktop 1 0 1 (-1)) (g_ops s) /\ TreeDone (g_ops s) 0 = tree_operations 5 4 1 1).
  { eexists. split; [vm_compute; reflexivity|]. split; [|split; [cbn; tauto|vm_compute; reflexivity]].
    cbn. intros H. repeat (destruct H as [H|H]; [discriminate H|]). exact H. }
  destruct E1 as [s [A [B C]]]. destruct E2 as [s' [A' [B' [D' C']]]].
  exists (g_ops s), (g_ops s'). split; [|split; [|auto]].
  - intros fuel F. unfold tree_operations, tree_block_greedy, tree_block_greedy_bs in *.
    change (block_size 4 (Z.min 4 4) 1) with 4 in *. change (Z.min 4 4) with 4 in *. cbv zeta in *.
    rewrite A in C. rewrite (while_mono 4 4 4 _ _ _ _ _ F A). symmetry. exact C.
  - intros fuel F. unfold tree_operations, tree_block_greedy, tree_block_greedy_bs in *.
    change (block_size 4 (Z.min 4 1) 1) with 1 in *. change (Z.min 4 1) with 1 in *. cbv zeta in *.
    rewrite A' in C'. rewrite (while_mono 4 1 1 _ _ _ _ _ F A'). symmetry. exact C'.
Qed.

Lemma threads_witness :
  exists ops ops', (forall fuel, (5 <= fuel)%nat -> tree_operations fuel 4 4 1 = TreeDone ops 0) /\
    (forall fuel, (14 <= fuel)%nat -> tree_operations fuel 4 4 40 = TreeDone ops' 0) /\
    In (mktop 3 0 1 0) ops /\ ~ In (mktop 3 0 1 0) ops' /\ In (mktop 1 0 1 (-1)) ops'.
Proof.
  destruct leading_columns_witness as [ops [_ [A [_ [B _]]]]].
  assert (E2 : exists s, block_while 14 (4 * 4 - 4 * (4 - 1) / 2 + (4 * 4 - (4 + 1) * 4 / 2)) 4 4 1 (mkgs (fun _ => 0) (fun _ => 0) [] false) = Some (Some s) /\
      ~ In (mktop 3 0 1 0) (g_ops s) /\ In (mktop 1 0 1 (-1)) (g_ops s) /\ TreeDone (g_ops s) 0 = tree_operations 14 4 4 40).
  { eexists. split; [vm_compute; reflexivity|]. split; [|split; [cbn; tauto|vm_compute; reflexivity]].
    cbn. intros H. repeat (destruct H as [H|H]; [discriminate H|]). exact H. }
  destruct E2 as [s' [A' [B' [D' C']]]].
  exists ops, (g_ops s'). split; [exact A|]. split; [|auto].
  intros fuel F. unfold tree_operations, tree_block_greedy, tree_block_greedy_bs in *.
  change (block_size 4 (Z.min 4 4) 40) with 1 in *. change (Z.min 4 4) with 4 in *. cbv zeta in *.
  rewrite A' in C'. rewrite (while_mono 4 4 1 _ _ _ _ _ F A'). symmetry. exact C'.
Qed.
