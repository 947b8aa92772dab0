(* The generators greedy and auto of control/tree.c. *)
From Coq Require Import ZArith List Bool Lia Psatz.
From Verif Require Import Base TreeModel TreeSpec TreeProofs TreeProofs2 TreeProofs3 TreeProofs5.
Import ListNotations.
Open Scope Z_scope.

(* ---- exact number of operations when there are no TS kernels ---- *)
Lemma below_NoDup mt mn d : NoDup (below mt mn d).
Proof.
  unfold below. generalize (NoDup_zrange 0 mn). generalize (zrange 0 mn).
  induction l as [|c l IH]; intros N; cbn [flat_map]; [constructor|]. inversion N as [|? ? N1 N2]; subst.
  assert (G : forall l1 l2 : list (Z * Z), NoDup l1 -> NoDup l2 -> (forall x, In x l1 -> In x l2 -> False) -> NoDup (l1 ++ l2)).
  { induction l1 as [|y l1 IHl]; intros l2 A B C; [exact B|]. inversion A; subst. cbn. constructor.
    - rewrite in_app_iff. intros [X|X]; [contradiction|]. apply (C y); [now left|exact X].
    - apply IHl; auto. intros x X Y. apply (C x); [now right|exact Y]. }
  apply G.
  - assert (G2 : forall l0, NoDup l0 -> NoDup (map (fun r : Z => (r, c)) l0)).
    { induction l0 as [|y l0 IHl]; intros A; cbn [map]; [constructor|]. inversion A; subst. constructor; [|auto].
      intros X. apply in_map_iff in X. destruct X as [z [E Z0]]. injection E as ->. contradiction. }
    apply G2, NoDup_zrange.
  - now apply IH.
  - intros [r c'] X Y. apply in_map_iff in X. destruct X as [r1 [E _]]. injection E as -> ->.
    apply in_flat_map in Y. destruct Y as [c1 [C1 Y]]. apply in_map_iff in Y. destruct Y as [r2 [E2 _]]. injection E2 as _ ->. contradiction.
Qed.

Lemma tri_in mt mn r c ops : forall S, all_allowed mt mn S ops -> Forall (fun o => t_kernel o <> 3) ops ->
  S r c = Full -> effects S ops r c <> Full -> In (r, c) (map pos (filter (fun o => (t_kernel o =? 1)%Z) ops)).
Proof.
  induction ops as [|o ops IH]; intros S A F S0 E; [now contradict E|].
  destruct A as [A B]. inversion F as [|? ? F1 F2]; subst. cbn [effects] in E. cbn [filter].
  destruct (pos_dec (r, c) (pos o)) as [P|P].
  - destruct A as [_ [[K _]|[[_ [X _]]|[K _]]]].
    + rewrite K. cbn [Z.eqb Pos.eqb map]. left. now rewrite P.
    + unfold pos in P. injection P as -> ->. rewrite X in S0. discriminate.
    + contradiction.
  - assert (X : effect S o r c = Full) by (unfold effect; rewrite put_other; auto).
    specialize (IH _ B F2 X E). destruct (t_kernel o =? 1); [right; exact IH|exact IH].
Qed.

Lemma elim_in mt mn r c ops : forall S, all_allowed mt mn S ops -> 
  S r c <> Zero -> effects S ops r c = Zero -> In (r, c) (map pos (filter (fun o => negb (t_kernel o =? 1)%Z) ops)).
Proof.
  induction ops as [|o ops IH]; intros S A S0 E; [now contradict E|].
  destruct A as [A B]. cbn [effects] in E. cbn [filter].
  destruct (pos_dec (r, c) (pos o)) as [P|P].
  - destruct (t_kernel o =? 1) eqn:K; cbn [negb].
    + apply (IH _ B); [|exact E]. unfold pos in P. injection P as -> ->. unfold effect. rewrite put_same, K. discriminate.
    + left. now rewrite P.
  - assert (X : effect S o r c <> Zero) by (unfold effect; rewrite put_other; auto).
    specialize (IH _ B X E). destruct (negb (t_kernel o =? 1)); [right; exact IH|exact IH].
Qed.

Lemma exact_count mt nt ops : 1 <= mt -> 1 <= nt ->
  elimination_scheme mt nt ops -> Forall (fun o => t_kernel o <> 3) ops ->
  let mn := Z.min mt nt in
  Z.of_nat (length ops) = (mt * mn - (mn - 1) * mn / 2) + (mt * mn - (mn + 1) * mn / 2).
Proof.
  intros M N [A [_ [_ [_ [D Z0]]]]] F mn. fold mn in A, D, Z0. assert (Hmn : 1 <= mn <= mt) by (unfold mn; lia).
  apply Z.le_antisymm; [apply ops_bound; [lia|exact A]|].
  destruct (below_formulas mt mn ltac:(lia)) as [-> [-> _]]. rewrite (split_length ops), Nat2Z.inj_add.
  assert (B1 : (length (below mt mn 0) <= length (filter (fun o => (t_kernel o =? 1)%Z) ops))%nat).
  { rewrite <- (map_length pos (filter _ _)). apply NoDup_incl_length; [apply below_NoDup|]. intros [r c] P. apply in_below in P.
    apply (tri_in mt mn r c ops untreated A F); [reflexivity|].
    destruct (Z.eq_dec r c) as [->|NE]; [rewrite D by lia; discriminate|rewrite Z0 by lia; discriminate]. }
  assert (B2 : (length (below mt mn 1) <= length (filter (fun o => negb (t_kernel o =? 1)%Z) ops))%nat).
  { rewrite <- (map_length pos (filter _ _)). apply NoDup_incl_length; [apply below_NoDup|]. intros [r c] P. apply in_below in P.
    apply (elim_in mt mn r c ops untreated A); [discriminate|]. apply Z0; lia. }
  lia.
Qed.

(* ---- greedy ---- *)
Lemma for_each_ext {A B} (f g : A -> B -> option A) l : (forall s x, f s x = g s x) -> forall s, for_each f l s = for_each g l s.
Proof. intros H. induction l as [|x l IH]; intros s; [reflexivity|]. cbn. rewrite H. destruct (g s x); auto. Qed.

Lemma for_each_inv {A B} (P : A -> Prop) (f : A -> B -> option A) l :
  (forall s x s', P s -> f s x = Some s' -> P s') -> forall s s', P s -> for_each f l s = Some s' -> P s'.
Proof.
  intros H. induction l as [|x l IH]; intros s s' S0 E; cbn in E; [injection E as <-; exact S0|].
  destruct (f s x) as [s1|] eqn:X; [|discriminate]. apply (IH s1); [eapply H; eauto|exact E].
Qed.

Lemma gst_1 n : get_super_tiles n 1 = n.
Proof. unfold get_super_tiles. rewrite Z.div_1_r. lia. Qed.

Lemma flat_1 lops ops j k x : insert_flat_tree lops ops j k (Z.min 1 x) = insert_operation lops ops PlasmaGeKernel j k (-1).
Proof.
  unfold insert_flat_tree. destruct (insert_operation lops ops PlasmaGeKernel j k (-1)); [|reflexivity].
  rewrite zrange_nil by lia. reflexivity.
Qed.

Lemma greedy_column_eq lops mt s j s' : block_column lops mt 1 s j = Some s' ->
  greedy_column lops mt s j = Some (mkgs (g_NT s') (g_NZ s') (g_ops s') (g_upd s)).
Proof.
  unfold block_column, greedy_column. cbv zeta. rewrite Z.mod_1_r.
  replace (negb (0 =? 1) && (1 <? 1)) with false by reflexivity. cbn [andb]. rewrite !gst_1.
  assert (E : (if j =? 0
     then if 0 <? mt - g_NT s j
          then for_each (fun ops k => insert_flat_tree lops ops j (j + k * 1) (Z.min 1 (mt - (j + k * 1)))) (rev (zrange 0 mt)) (g_ops s)
          else Some (g_ops s)
     else for_each (fun ops k => insert_flat_tree lops ops j (j + (mt - j - k - 1) * 1) (Z.min 1 (mt - (j + (mt - j - k - 1) * 1))))
            (zrange (g_NT s j) (if j =? 0 then g_NT s j + (mt - g_NT s j) else g_NZ s (j - 1))) (g_ops s))
   = (if j =? 0
     then if 0 <? mt - g_NT s j
          then for_each (fun ops k => insert_operation lops ops PlasmaGeKernel j k (-1)) (rev (zrange 0 mt)) (g_ops s)
          else Some (g_ops s)
     else for_each (fun ops k => insert_operation lops ops PlasmaGeKernel j (mt - k - 1) (-1))
            (zrange (g_NT s j) (if j =? 0 then g_NT s j + (mt - g_NT s j) else g_NZ s (j - 1))) (g_ops s))).
  { destruct (j =? 0) eqn:J.
    - destruct (0 <? mt - g_NT s j); [|reflexivity]. apply for_each_ext. intros o k. rewrite flat_1. apply f_equal2; [lia|reflexivity].
    - apply for_each_ext. intros o k. rewrite flat_1. apply f_equal2; [lia|reflexivity]. }
  rewrite E. clear E.
  match goal with |- match ?x with _ => _ end = _ -> _ => destruct x as [ops1|]; [|discriminate] end.
  rewrite (for_each_ext (fun ops kk => insert_operation lops ops PlasmaTtKernel j (j + (mt - j - kk - 1) * 1)
              (j + (mt - j - kk - 1 - (g_NT s j - g_NZ s j) / 2) * 1))
            (fun ops kk => insert_operation lops ops PlasmaTtKernel j (mt - kk - 1) (mt - kk - 1 - (g_NT s j - g_NZ s j) / 2))).
  2:{ intros o k. apply f_equal2; lia. }
  match goal with |- match ?x with _ => _ end = _ -> _ => destruct x as [ops2|]; [|discriminate] end.
  intros X. injection X as <-. reflexivity.
Qed.

Definition same (s1 s2 : gstate) : Prop := g_NT s1 = g_NT s2 /\ g_NZ s1 = g_NZ s2 /\ g_ops s1 = g_ops s2.

Lemma block_column_same lops mt b s1 s2 j s1' : same s1 s2 -> block_column lops mt b s1 j = Some s1' ->
  exists s2', block_column lops mt b s2 j = Some s2' /\ same s1' s2'.
Proof.
  destruct s1 as [NT NZ ops u1], s2 as [NT2 NZ2 ops2 u2]. intros [A [B C]]. cbn in A, B, C. subst NT2 NZ2 ops2.
  unfold block_column. cbn [g_NT g_NZ g_ops g_upd]. cbv zeta.
  match goal with |- match ?x with _ => _ end = _ -> _ => destruct x as [ops1|]; [|discriminate] end.
  match goal with |- match ?x with _ => _ end = _ -> _ => destruct x as [ops2|]; [|discriminate] end.
  intros X. injection X as <-. eexists. split; [reflexivity|]. repeat split.
Qed.

Lemma greedy_sweep lops mt l : forall s1 s2 s1', same s1 s2 ->
  for_each (block_column lops mt 1) l s1 = Some s1' ->
  exists s2', for_each (greedy_column lops mt) l s2 = Some s2' /\ same s1' s2'.
Proof.
  induction l as [|j l IH]; intros s1 s2 s1' SA E; cbn [for_each] in *.
  - injection E as <-. eauto.
  - destruct (block_column lops mt 1 s1 j) as [t|] eqn:X; [|discriminate].
    destruct (block_column_same _ _ _ _ _ _ _ SA X) as [t2 [Y SA2]].
    rewrite (greedy_column_eq _ _ _ _ _ Y). eapply IH; [|exact E]. destruct SA2 as [P1 [P2 P3]]. repeat split; assumption.
Qed.

Lemma greedy_while_ok mt mn lops fuel :
  1 <= mn <= mt -> lops = (mt * mn - (mn - 1) * mn / 2) + (mt * mn - (mn + 1) * mn / 2) ->
  forall s, inv mt mn 1 s -> 2 * mt * mn - mu mn s < Z.of_nat fuel ->
  exists s', greedy_while fuel lops mt mn s = Some (Some s') /\ inv mt mn 1 s' /\ complete mt mn 1 s'.
Proof.
  intros Hmn Hl. induction fuel as [|f IH]; intros s I M.
  - exfalso. destruct (while_ok mt mn 1 lops Hmn ltac:(lia) Hl 0 s I M) as [s' [E _]]. discriminate.
  - cbn [greedy_while].
    assert (SC : get_super_tiles (mt - (mn - 1)) 1 = mt - mn + 1) by (rewrite gst_1; lia).
    destruct ((g_NT s (mn - 1) <? mt - mn + 1) || (g_NZ s (mn - 1) <? mt - mn)) eqn:W.
    + assert (I0 : inv mt mn 1 (mkgs (g_NT s) (g_NZ s) (g_ops s) false)) by exact I.
      destruct (sweep_ok mt mn 1 lops Hmn ltac:(lia) Hl (rev (zrange 0 mn)) _ I0) as [s1 [E [I1 [MM [U1 U2]]]]].
      { intros j Hj. apply in_rev in Hj. now apply in_zrange in Hj. }
      destruct (greedy_sweep lops mt (rev (zrange 0 mn)) (mkgs (g_NT s) (g_NZ s) (g_ops s) false) s s1) as [s2 [E2 SA]].
      { repeat split. } { exact E. }
      rewrite E2. 
      assert (I2 : inv mt mn 1 s2) by (destruct SA as [P1 [P2 P3]]; unfold inv in *; rewrite P1, P2, P3 in I1; exact I1).
      assert (MU : mu mn s2 = mu mn s1) by (destruct SA as [P1 [P2 P3]]; unfold mu; rewrite P1, P2; reflexivity).
      destruct (g_upd s1) eqn:U.
      * destruct (U1 eq_refl) as [X|X]; [discriminate|]. apply IH; [exact I2|].
        change (mu mn (mkgs (g_NT s) (g_NZ s) (g_ops s) false)) with (mu mn s) in X. lia.
      * destruct (U2 eq_refl) as [_ [SAME F]]. exfalso. cbn [g_NT g_NZ] in SAME.
        assert (CO : complete mt mn 1 s).
        { apply fixed_complete; [exact Hmn|lia|apply I|]. intros j J. apply F. rewrite <- in_rev, in_zrange. lia. }
        destruct (CO (mn - 1) ltac:(lia)) as [K1 K2]. rewrite SC in K1, K2. lia.
    + exists s. split; [reflexivity|]. split; [exact I|]. apply last_complete; [exact Hmn|lia|apply I|rewrite SC; lia|rewrite SC; lia].
Qed.

Lemma greedy_while_mono lops mt mn fuel : forall s r fuel', (fuel <= fuel')%nat ->
  greedy_while fuel lops mt mn s = Some r -> greedy_while fuel' lops mt mn s = Some r.
Proof.
  induction fuel as [|f IH]; intros s r fuel' L E; [discriminate|].
  destruct fuel' as [|f']; [lia|]. cbn [greedy_while] in *.
  destruct ((g_NT s (mn - 1) <? mt - mn + 1) || (g_NZ s (mn - 1) <? mt - mn)); [|exact E].
  destruct (for_each (greedy_column lops mt) (rev (zrange 0 mn)) s) as [s'|]; [|exact E].
  apply IH; [lia|exact E].
Qed.

Lemma insert_no_ts lops ops k c r p ops' : k <> 3 -> Forall (fun o => t_kernel o <> 3) ops ->
  insert_operation lops ops k c r p = Some ops' -> Forall (fun o => t_kernel o <> 3) ops'.
Proof.
  unfold insert_operation. intros K F. destruct (Z.of_nat (length ops) <? lops); [|discriminate].
  intros E. injection E as <-. apply Forall_app. split; [exact F|]. constructor; [exact K|constructor].
Qed.

Lemma inserts_no_ts {B} lops (k : Z) (fc fr fp : B -> Z) l ops ops' : k <> 3 ->
  Forall (fun o => t_kernel o <> 3) ops ->
  for_each (fun ops x => insert_operation lops ops k (fc x) (fr x) (fp x)) l ops = Some ops' -> Forall (fun o => t_kernel o <> 3) ops'.
Proof.
  intros K. apply (for_each_inv (fun ops => Forall (fun o => t_kernel o <> 3) ops)). intros s x s' F E.
  eapply insert_no_ts; eauto.
Qed.

Lemma greedy_column_no_ts lops mt s j s1 : Forall (fun o => t_kernel o <> 3) (g_ops s) ->
  greedy_column lops mt s j = Some s1 -> Forall (fun o => t_kernel o <> 3) (g_ops s1).
Proof.
  intros F H. unfold greedy_column in H. cbv zeta in H.
  match type of H with match ?x with _ => _ end = _ => destruct x as [ops1|] eqn:X1; [|discriminate] end.
  match type of H with match ?x with _ => _ end = _ => destruct x as [ops2|] eqn:X2; [|discriminate] end.
  injection H as <-. cbn [g_ops].
  apply (inserts_no_ts lops PlasmaTtKernel (fun _ => j) (fun kk => mt - kk - 1) (fun kk => mt - kk - 1 - (g_NT s j - g_NZ s j) / 2)) in X2;
    [exact X2|discriminate|]. clear X2.
  destruct (j =? 0).
  - destruct (0 <? mt - g_NT s j); [|injection X1 as <-; exact F].
    apply (inserts_no_ts lops PlasmaGeKernel (fun _ => j) (fun k => k) (fun _ => -1)) in X1; [exact X1|discriminate|exact F].
  - apply (inserts_no_ts lops PlasmaGeKernel (fun _ => j) (fun k => mt - k - 1) (fun _ => -1)) in X1; [exact X1|discriminate|exact F].
Qed.

Lemma greedy_no_ts lops mt mn fuel : forall s s', Forall (fun o => t_kernel o <> 3) (g_ops s) ->
  greedy_while fuel lops mt mn s = Some (Some s') -> Forall (fun o => t_kernel o <> 3) (g_ops s').
Proof.
  induction fuel as [|f IH]; intros s s' F E; [discriminate|]. cbn [greedy_while] in E.
  destruct ((g_NT s (mn - 1) <? mt - mn + 1) || (g_NZ s (mn - 1) <? mt - mn)); [|injection E as <-; exact F].
  destruct (for_each (greedy_column lops mt) (rev (zrange 0 mn)) s) as [s1|] eqn:X; [|discriminate].
  apply (IH s1); [|exact E].
  apply (for_each_inv (fun s => Forall (fun o => t_kernel o <> 3) (g_ops s)) (greedy_column lops mt) (rev (zrange 0 mn))
           (greedy_column_no_ts lops mt) s s1 F X).
Qed.

Lemma tree_greedy_ok mt nt : 1 <= mt -> 1 <= nt ->
  exists ops, (exists n0, forall fuel, (n0 <= fuel)%nat -> tree_greedy fuel mt nt = TreeDone ops 0) /\
    elimination_scheme mt nt ops.
Proof.
  intros M N. remember (Z.min mt nt) as mn eqn:Emn.
  remember ((mt * mn - (mn - 1) * mn / 2) + (mt * mn - (mn + 1) * mn / 2)) as lops eqn:El.
  assert (Hmn : 1 <= mn <= mt) by lia.
  pose proof (inv_start mt mn 1 Hmn ltac:(lia)) as I0.
  destruct (greedy_while_ok mt mn lops (Z.to_nat (2 * mt * mn + 1)) Hmn El _ I0) as [s [E [I C]]].
  { assert (mu mn (mkgs (fun _ => 0) (fun _ => 0) [] false) = 0).
    { unfold mu. cbn [g_NT g_NZ]. clear. induction (zrange 0 mn) as [|x l IH]; [reflexivity|]. cbn [csum fold_right] in *. unfold csum in IH. lia. }
    rewrite H. nia. }
  destruct I as [I1 [I2 I3]].
  assert (B : 1 <= 1) by lia.
  assert (SCH : elimination_scheme mt nt (g_ops s)).
  { apply scheme_intro; rewrite <- Emn; [exact I1| |].
    + intros c Hc. exact (proj1 (complete_final mt mn (fun _ => 1) Hmn (fun _ _ => B) _ _ _ I2 C) c Hc).
    + intros r c Hc Hr. exact (proj2 (complete_final mt mn (fun _ => 1) Hmn (fun _ _ => B) _ _ _ I2 C) r c Hc Hr). }
  exists (g_ops s). split; [|exact SCH].
  exists (Z.to_nat (2 * mt * mn + 1)). intros fuel F. unfold tree_greedy. cbv zeta. rewrite <- Emn, <- El.
  rewrite (greedy_while_mono _ _ _ _ _ _ _ F E).
  assert (LEN : Z.of_nat (length (g_ops s)) = lops).
  { rewrite El, Emn. apply exact_count; auto. eapply greedy_no_ts; [|exact E]. constructor. }
  rewrite LEN, Z.eqb_refl. reflexivity.
Qed.
