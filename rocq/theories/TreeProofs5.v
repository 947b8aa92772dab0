(* The generators flat_ts, flat_tt and binary of control/tree.c. *)
From Coq Require Import ZArith List Bool Lia Psatz.
From Verif Require Import Base TreeModel TreeSpec TreeProofs TreeProofs2 TreeProofs3 TreeProofs4.
Import ListNotations.
Open Scope Z_scope.

Lemma flat_map_length_le {A B C} (f : A -> list B) (g : A -> list C) l :
  (forall x, In x l -> (length (f x) <= length (g x))%nat) -> (length (flat_map f l) <= length (flat_map g l))%nat.
Proof.
  induction l as [|x l IH]; intros H; cbn [flat_map]; [apply le_n|]. rewrite !app_length.
  specialize (H x (or_introl eq_refl)) as H1. assert (length (flat_map f l) <= length (flat_map g l))%nat by (apply IH; intros; apply H; now right). lia.
Qed.

Lemma flat_map_length_eq {A B C} (f : A -> list B) (g : A -> list C) l :
  (forall x, In x l -> length (f x) = length (g x)) -> length (flat_map f l) = length (flat_map g l).
Proof.
  intros H. apply Nat.le_antisymm; apply flat_map_length_le; intros x X; rewrite (H x X); lia.
Qed.

Lemma flat_map_sing_length {A B} (f : A -> B) l : length (flat_map (fun x => [f x]) l) = length l.
Proof. induction l; cbn; congruence. Qed.

Lemma flat_length j k h : 1 <= h -> length (flat j k h) = Z.to_nat h.
Proof. intros H. unfold flat. cbn [length]. rewrite flat_map_sing_length, zrange_length. lia. Qed.

Lemma below_formulas mt mn : 0 <= mn <= mt ->
  mt * mn - (mn - 1) * mn / 2 = Z.of_nat (length (below mt mn 0)) /\
  mt * mn - (mn + 1) * mn / 2 = Z.of_nat (length (below mt mn 1)) /\
  Z.of_nat (length (below mt mn 0)) = mn + Z.of_nat (length (below mt mn 1)).
Proof.
  intros H.
  pose proof (below_length mt 0 mn ltac:(lia) ltac:(lia) ltac:(lia)) as L0.
  pose proof (below_length mt 1 mn ltac:(lia) ltac:(lia) ltac:(lia)) as L1.
  assert (E0 : (mn - 1) * mn / 2 = mt * mn - Z.of_nat (length (below mt mn 0))).
  { replace ((mn - 1) * mn) with ((mt * mn - Z.of_nat (length (below mt mn 0))) * 2) by lia. apply Z.div_mul. lia. }
  assert (E1 : (mn + 1) * mn / 2 = mt * mn - Z.of_nat (length (below mt mn 1))).
  { replace ((mn + 1) * mn) with ((mt * mn - Z.of_nat (length (below mt mn 1))) * 2) by lia. apply Z.div_mul. lia. }
  lia.
Qed.

Lemma tree_flat_ts_ok mt nt : 1 <= mt -> 1 <= nt ->
  exists ops, tree_flat_ts mt nt = TreeDone ops 0 /\ elimination_scheme mt nt ops.
Proof.
  intros M N. remember (Z.min mt nt) as mn eqn:Emn. assert (Hmn : 1 <= mn <= mt) by lia.
  exists (flat_map (fun j => flat j j (mt - j)) (zrange 0 mn)). split.
  - unfold tree_flat_ts. cbv zeta. rewrite <- Emn.
    destruct (below_formulas mt mn ltac:(lia)) as [B0 [B1 B01]]. rewrite B1.
    assert (L : Z.of_nat (length (flat_map (fun j => flat j j (mt - j)) (zrange 0 mn))) = mn + Z.of_nat (length (below mt mn 1))).
    { rewrite <- B01. apply f_equal. apply flat_map_length_eq. intros j J. apply in_zrange in J.
      rewrite flat_length by lia. rewrite map_length, zrange_length. lia. }
    remember (mn + Z.of_nat (length (below mt mn 1))) as lops eqn:El.
    rewrite (for_each_ok lops _ (fun j => flat j j (mt - j))).
    + cbn [app]. rewrite L, Z.eqb_refl. reflexivity.
    + intros o j J LE. apply in_zrange in J. pose proof (insert_flat_ok _ _ _ _ _ LE) as X. unfold insert_flat_tree in X.
      replace (j + (mt - j)) with mt in X by lia. exact X.
    + cbn [app]. lia.
  - apply (stage_scheme mt mn Hmn nt); [exact Emn|]. intros j S J H. now apply flat_ts_col.
Qed.

Lemma tree_flat_tt_ok mt nt : 1 <= mt -> 1 <= nt ->
  exists ops, tree_flat_tt mt nt = TreeDone ops 0 /\ elimination_scheme mt nt ops.
Proof.
  intros M N. remember (Z.min mt nt) as mn eqn:Emn. assert (Hmn : 1 <= mn <= mt) by lia.
  exists (flat_map (col_tt mt) (zrange 0 mn)). split.
  - unfold tree_flat_tt. cbv zeta. rewrite <- Emn.
    destruct (below_formulas mt mn ltac:(lia)) as [B0 [B1 B01]]. rewrite B0, B1.
    assert (L : Z.of_nat (length (flat_map (col_tt mt) (zrange 0 mn))) = Z.of_nat (length (below mt mn 0)) + Z.of_nat (length (below mt mn 1))).
    { rewrite <- Nat2Z.inj_add. apply f_equal. unfold below. clear. induction (zrange 0 mn) as [|j l IH]; [reflexivity|].
      cbn [flat_map]. rewrite !app_length, IH. unfold col_tt. rewrite app_length, !flat_map_sing_length, !map_length, !Z.add_0_r. lia. }
    remember (Z.of_nat (length (below mt mn 0)) + Z.of_nat (length (below mt mn 1))) as lops eqn:El.
    rewrite (for_each_ok lops _ (col_tt mt)).
    + cbn [app]. rewrite L, Z.eqb_refl. reflexivity.
    + intros o j J LE. apply in_zrange in J. unfold col_tt in *. rewrite app_assoc in LE.
      rewrite (for_each_ok lops _ (fun m => [mktop 1 j m (-1)])).
      * rewrite (for_each_ok lops _ (fun m => [mktop 2 j m j])).
        -- now rewrite app_assoc.
        -- intros o' m _ L'. apply insert_ok. exact L'.
        -- exact LE.
      * intros o' m _ L'. apply insert_ok. exact L'.
      * rewrite app_length in LE. lia.
    + cbn [app]. lia.
  - apply (stage_scheme mt mn Hmn nt); [exact Emn|]. intros j S J H. now apply flat_tt_col.
Qed.

Lemma filter_flat_map {A B} (p : B -> bool) (f : A -> list B) l : filter p (flat_map f l) = flat_map (fun x => filter p (f x)) l.
Proof. induction l as [|x l IH]; [reflexivity|]. cbn [flat_map]. now rewrite filter_app, IH. Qed.

Lemma flat_map_length_bound {A B} (f : A -> list B) l n :
  (forall x, In x l -> Z.of_nat (length (f x)) <= n) -> Z.of_nat (length (flat_map f l)) <= n * Z.of_nat (length l).
Proof.
  induction l as [|x l IH]; intros H; cbn [flat_map length]; [lia|]. rewrite app_length.
  specialize (H x (or_introl eq_refl)) as H1.
  assert (Z.of_nat (length (flat_map f l)) <= n * Z.of_nat (length l)) by (apply IH; intros; apply H; now right). lia.
Qed.

Lemma split_length (ops : list top) :
  length ops = (length (filter (fun o => (t_kernel o =? 1)%Z) ops) + length (filter (fun o => negb (t_kernel o =? 1)%Z) ops))%nat.
Proof.
  induction ops as [|o ops IH]; [reflexivity|]. cbn [filter length]. destruct (t_kernel o =? 1); cbn [negb length]; lia.
Qed.

Lemma elim_bound mt mn ops : 0 <= mn <= mt -> all_allowed mt mn untreated ops ->
  (length (filter (fun o => negb (t_kernel o =? 1)%Z) ops) <= length (below mt mn 1))%nat.
Proof.
  intros H A. destruct (elim_NoDup _ _ _ _ A) as [N2 I2].
  rewrite <- (map_length pos). apply NoDup_incl_length; [exact N2|]. intros [r c] P. apply in_below.
  destruct (I2 _ P) as [_ X]. cbn [fst snd] in X. lia.
Qed.

Lemma tree_binary_ok mt nt : 1 <= mt -> 1 <= nt ->
  exists ops, tree_binary mt nt = TreeDone ops 0 /\ elimination_scheme mt nt ops.
Proof.
  intros M N. remember (Z.min mt nt) as mn eqn:Emn. assert (Hmn : 1 <= mn <= mt) by lia.
  assert (SCH : elimination_scheme mt nt (flat_map (col_bin mt) (zrange 0 mn))).
  { apply (stage_scheme mt mn Hmn nt); [exact Emn|]. intros j S J H. now apply binary_col. }
  exists (flat_map (col_bin mt) (zrange 0 mn)). split; [|exact SCH].
  unfold tree_binary. cbv zeta. rewrite <- Emn.
  destruct (below_formulas mt mn ltac:(lia)) as [B0 [B1 B01]]. rewrite B1.
  assert (L : Z.of_nat (length (flat_map (col_bin mt) (zrange 0 mn))) <= (mt / 4 + 1) * mn + Z.of_nat (length (below mt mn 1))).
  { destruct SCH as [A _]. rewrite <- Emn in A. pose proof (elim_bound mt mn _ ltac:(lia) A) as E.
    rewrite split_length, Nat2Z.inj_add.
    assert (T : Z.of_nat (length (filter (fun o => (t_kernel o =? 1)%Z) (flat_map (col_bin mt) (zrange 0 mn)))) <= (mt / 4 + 1) * mn).
    { rewrite filter_flat_map.
      assert (X : Z.of_nat (length (zrange 0 mn)) = mn) by (rewrite zrange_length; lia).
      rewrite <- X at 2. apply flat_map_length_bound. intros j J. apply in_zrange in J.
      unfold col_bin. rewrite filter_app, app_length.
      assert (Z1 : filter (fun o => (t_kernel o =? 1)%Z) (flat_map (bin_round mt j) (doublings (Z.to_nat (mt - j)) 4 (mt - j))) = []).
      { induction (doublings (Z.to_nat (mt - j)) 4 (mt - j)) as [|rd l IH]; [reflexivity|]. cbn [flat_map]. rewrite filter_app, IH, app_nil_r.
        unfold bin_round. clear. induction (zrange 0 ((mt - rd - j + 2 * rd - 1) / (2 * rd))) as [|i l IH]; [reflexivity|]. cbn. exact IH. }
      rewrite Z1. cbn [length]. rewrite Nat.add_0_r.
      assert (Z2 : length (filter (fun o => (t_kernel o =? 1)%Z) (bin_flats mt j)) = length (zrange 0 ((mt - j + 4 - 1) / 4))).
      { unfold bin_flats. clear. induction (zrange 0 ((mt - j + 4 - 1) / 4)) as [|i l IH]; [reflexivity|].
        cbn [flat_map]. rewrite filter_app, app_length, IH. unfold flat at 1. cbn [filter t_kernel Z.eqb Pos.eqb length].
        assert (Y : filter (fun o => (t_kernel o =? 1)%Z) (flat_map (fun m => [mktop 3 j m (j + i * 4)])
                     (zrange (j + i * 4 + 1) (j + i * 4 + Z.min 4 (mt - (j + i * 4))))) = []).
        { generalize (zrange (j + i * 4 + 1) (j + i * 4 + Z.min 4 (mt - (j + i * 4)))). induction l0 as [|x l0 IH0]; [reflexivity|]. cbn. exact IH0. }
        rewrite Y. reflexivity. }
      rewrite Z2, zrange_length.
      pose proof (Z.div_mod (mt - j + 4 - 1) 4 ltac:(lia)). pose proof (Z.mod_pos_bound (mt - j + 4 - 1) 4 ltac:(lia)).
      pose proof (Z.div_mod mt 4 ltac:(lia)). pose proof (Z.mod_pos_bound mt 4 ltac:(lia)). lia. }
    lia. }
  remember ((mt / 4 + 1) * mn + Z.of_nat (length (below mt mn 1))) as lops eqn:El.
  rewrite (for_each_ok lops _ (col_bin mt)).
  - cbn [app]. destruct (lops <? Z.of_nat (length (flat_map (col_bin mt) (zrange 0 mn)))) eqn:X; [lia|reflexivity].
  - intros o j J LE. apply in_zrange in J. unfold col_bin in *. rewrite app_assoc in LE.
    rewrite (for_each_ok lops _ (fun Mi => flat j Mi (Z.min 4 (mt - Mi)))).
    + assert (F1 : flat_map (fun Mi => flat j Mi (Z.min 4 (mt - Mi))) (zstep j mt 4) = bin_flats mt j).
      { unfold zstep, bin_flats. rewrite flat_map_map'. reflexivity. }
      rewrite F1.
      rewrite (for_each_ok lops _ (bin_round mt j)).
      * now rewrite app_assoc.
      * intros o' rd RD L'. unfold bin_round in *.
        rewrite (for_each_ok lops _ (fun Mi => [mktop 2 j (Mi + rd) Mi])).
        -- unfold zstep. rewrite flat_map_map'. reflexivity.
        -- intros o'' m _ L''. apply insert_ok. exact L''.
        -- unfold zstep. rewrite flat_map_map'. exact L'.
      * exact LE.
    + intros o' m _ L'. pose proof (insert_flat_ok _ _ _ _ _ L') as X. unfold insert_flat_tree in X.
      replace (m + Z.min 4 (mt - m)) with (Z.min (m + 4) mt) in X by lia. exact X.
    + unfold zstep. rewrite flat_map_map'. rewrite app_length in LE. unfold bin_flats in LE. lia.
  - cbn [app]. exact L.
Qed.
