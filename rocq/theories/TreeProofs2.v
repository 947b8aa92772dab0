(* Proofs about control/tree.c: flat trees of bs rows whose heads are eliminated bottom up. *)
From Coq Require Import ZArith List Bool Lia Psatz.
From Verif Require Import Base TreeModel TreeSpec TreeProofs.
Import ListNotations.
Open Scope Z_scope.

Section Cols.
Variables (mt mn : Z) (bs : Z -> Z).
Hypothesis Hmn : 1 <= mn <= mt.
Hypothesis Hbs : forall c, 0 <= c < mn -> 1 <= bs c.

(* supertiles of column c *)
Definition st (c : Z) : Z := get_super_tiles (mt - c) (bs c).

(* state of a tile when NT supertiles of the column have been triangularised and the heads of NZ of them eliminated,
   counted from the bottom *)
Definition stat (NT NZ : Z -> Z) (r c : Z) : tile_state :=
  let k := st c - 1 - (r - c) / bs c in
  if (r - c) mod bs c =? 0 then
    if k <? NZ c then Zero else if k <? NT c then Triangular else Full
  else if k <? NT c then Zero else Full.

Definition is (S : tiling) (NT NZ : Z -> Z) : Prop :=
  forall r c, 0 <= c < mn -> c <= r < mt -> S r c = stat NT NZ r c.

Lemma st_bounds c : 0 <= c < mn -> 1 <= st c /\ (st c - 1) * bs c < mt - c <= st c * bs c.
Proof.
  intros C. pose proof (Hbs c C) as Hbc. unfold st, get_super_tiles.
  pose proof (Z.div_mod (mt - c + (bs c - 1)) (bs c) ltac:(lia)).
  pose proof (Z.mod_pos_bound (mt - c + (bs c - 1)) (bs c) ltac:(lia)). nia.
Qed.

Lemma row_div c q d : 1 <= bs c -> 0 <= d < bs c -> (q * bs c + d) / bs c = q /\ (q * bs c + d) mod bs c = d.
Proof.
  intros B D. split.
  - symmetry. apply (Z.div_unique (q * bs c + d) (bs c) q d); lia.
  - symmetry. apply (Z.mod_unique (q * bs c + d) (bs c) q d); lia.
Qed.

Lemma row_split c r : 1 <= bs c -> r = c + ((r - c) / bs c) * bs c + (r - c) mod bs c /\ 0 <= (r - c) mod bs c < bs c.
Proof.
  intros B. pose proof (Z.div_mod (r - c) (bs c) ltac:(lia)). pose proof (Z.mod_pos_bound (r - c) (bs c) ltac:(lia)). lia.
Qed.

Definition head (c k : Z) : Z := c + (st c - 1 - k) * bs c.
Definition height (c k : Z) : Z := Z.min (bs c) (mt - head c k).

Lemma stat_eq NT NZ c k d : 0 <= c < mn -> 0 <= d < bs c ->
  stat NT NZ (head c k + d) c =
  if d =? 0 then if k <? NZ c then Zero else if k <? NT c then Triangular else Full
  else if k <? NT c then Zero else Full.
Proof.
  intros C D. pose proof (Hbs c C) as Hbc. unfold stat, head.
  replace (c + (st c - 1 - k) * bs c + d - c) with ((st c - 1 - k) * bs c + d) by lia.
  destruct (row_div c (st c - 1 - k) d Hbc D) as [-> ->].
  replace (st c - 1 - (st c - 1 - k)) with k by lia. reflexivity.
Qed.

Lemma head_eq c r : 0 <= c < mn -> c <= r < mt ->
  exists k d, r = head c k + d /\ 0 <= d < bs c /\ 0 <= k < st c.
Proof.
  intros C R. pose proof (Hbs c C) as Hbc. destruct (row_split c r Hbc) as [E D].
  exists (st c - 1 - (r - c) / bs c), ((r - c) mod bs c). unfold head. split; [lia|]. split; [exact D|].
  pose proof (st_bounds c C). assert (0 <= (r - c) / bs c) by (apply Z.div_pos; lia). nia.
Qed.

(* one more flat tree *)
Lemma add_flat S NT NZ j :
  is S NT NZ -> 0 <= j < mn -> 0 <= NT j < st j -> 0 <= NZ j <= NT j ->
  (0 < j -> forall d, 0 <= d < bs j -> head j (NT j) + d < mt -> S (head j (NT j) + d) (j - 1) = Zero) ->
  all_allowed mt mn S (flat j (head j (NT j)) (height j (NT j))) /\
  is (effects S (flat j (head j (NT j)) (height j (NT j)))) (aset NT j (NT j + 1)) NZ.
Proof.
  intros H J T Z0 P.
  pose proof (Hbs j J) as B. pose proof (st_bounds j J) as SB.
  assert (HB : j <= head j (NT j) < mt) by (unfold head; nia).
  destruct (flat_effect mt mn S j (head j (NT j)) (height j (NT j))) as [A E].
  - unfold height. lia.
  - exact J.
  - lia.
  - unfold height. lia.
  - intros r R. unfold height in R. split; [exact J|]. split; [lia|]. intros X.
    replace r with (head j (NT j) + (r - head j (NT j))) by lia. apply P; lia.
  - intros r R. unfold height in R. rewrite H by lia.
    replace r with (head j (NT j) + (r - head j (NT j))) by lia. rewrite stat_eq by lia.
    destruct (r - head j (NT j) =? 0); destruct (NT j <? NZ j) eqn:X1; destruct (NT j <? NT j) eqn:X2; try reflexivity; lia.
  - split; [exact A|]. intros r c C R. rewrite E.
    destruct (Z.eq_dec c j) as [->|NE].
    + destruct (head_eq j r J R) as [k [d [-> [D K]]]]. rewrite stat_eq by lia. rewrite (H _ _ J R), stat_eq by lia.
      unfold aset. rewrite !Z.eqb_refl. cbn [andb].
      destruct (Z.eq_dec k (NT j)) as [->|NK].
      * destruct ((head j (NT j) <=? head j (NT j) + d) && (head j (NT j) + d <? head j (NT j) + height j (NT j))) eqn:X;
          [|unfold height in X; lia].
        destruct (d =? 0) eqn:D0; destruct (head j (NT j) + d =? head j (NT j)) eqn:D1; try lia;
          destruct (NT j <? NZ j) eqn:X1; destruct (NT j <? NT j + 1) eqn:X2; try reflexivity; lia.
      * destruct ((head j (NT j) <=? head j k + d) && (head j k + d <? head j (NT j) + height j (NT j))) eqn:X.
        -- exfalso. apply NK. unfold height, head in X. nia.
        -- destruct (k <? NT j) eqn:X1; destruct (k <? NT j + 1) eqn:X2; try reflexivity; lia.
    + destruct (c =? j) eqn:X; [lia|]. cbn [andb]. rewrite H by lia. unfold stat, aset. rewrite X. reflexivity.
Qed.

(* one more elimination of a head *)
Lemma add_tt S NT NZ j b :
  is S NT NZ -> treated_ready mt mn S -> 0 <= j < mn -> 0 <= NZ j -> 1 <= b -> NZ j + b < NT j -> NT j <= st j ->
  allowed mt mn S (mktop 2 j (head j (NZ j)) (head j (NZ j + b))) /\
  is (effect S (mktop 2 j (head j (NZ j)) (head j (NZ j + b)))) NT (aset NZ j (NZ j + 1)).
Proof.
  intros H TR J Z0 B P T.
  pose proof (Hbs j J) as B1. pose proof (st_bounds j J) as SB.
  assert (HB : forall k, 0 <= k < st j -> j <= head j k < mt) by (intros; unfold head; nia).
  assert (S0 : S (head j (NZ j)) j = Triangular).
  { rewrite H by (try apply HB; lia). replace (head j (NZ j)) with (head j (NZ j) + 0) by lia. rewrite stat_eq by lia.
    cbn [Z.eqb]. destruct (NZ j <? NZ j) eqn:X1; destruct (NZ j <? NT j) eqn:X2; try reflexivity; lia. }
  assert (S1 : S (head j (NZ j + b)) j = Triangular).
  { rewrite H by (try apply HB; lia). replace (head j (NZ j + b)) with (head j (NZ j + b) + 0) by lia. rewrite stat_eq by lia.
    cbn [Z.eqb]. destruct (NZ j + b <? NZ j) eqn:X1; destruct (NZ j + b <? NT j) eqn:X2; try reflexivity; lia. }
  split.
  - unfold allowed. cbn [t_col t_row t_piv t_kernel]. split; [apply TR; rewrite S0; discriminate|]. right. left.
    split; [reflexivity|]. split; [exact S0|]. split; [unfold head; nia|]. split; [|exact S1].
    apply TR. rewrite S1. discriminate.
  - intros r c C R. unfold effect. cbn [t_col t_row t_piv t_kernel Z.eqb Pos.eqb].
    destruct (Z.eq_dec c j) as [->|NE].
    + destruct (head_eq j r J R) as [k [d [-> [D K]]]]. rewrite stat_eq by lia.
      unfold aset. rewrite Z.eqb_refl.
      destruct (pos_dec (head j k + d, j) (head j (NZ j), j)) as [E|E].
      * injection E as E. assert (k = NZ j /\ d = 0) as [-> ->] by (unfold head in E; assert (Ed : d = (k - NZ j) * bs j) by lia; assert (k - NZ j = 0) by nia; lia).
        replace (head j (NZ j) + 0) with (head j (NZ j)) by lia. rewrite put_same. cbn [Z.eqb].
        destruct (NZ j <? NZ j + 1) eqn:X; [reflexivity|lia].
      * rewrite put_other by exact E. rewrite H, stat_eq by lia.
        destruct (d =? 0) eqn:D0; [|reflexivity].
        assert (k <> NZ j) by (intros ->; apply E; f_equal; lia).
        destruct (k <? NZ j) eqn:X1; destruct (k <? NZ j + 1) eqn:X2; try reflexivity; lia.
    + rewrite put_other by congruence. rewrite H by lia. unfold stat, aset. destruct (c =? j) eqn:X; [lia|reflexivity].
Qed.

(* several of each *)
Definition flats (j a b : Z) : list top := flat_map (fun k => flat j (head j k) (height j k)) (zrange a b).
Definition tts (j a b batch : Z) : list top :=
  flat_map (fun k => [mktop 2 j (head j k) (head j (k + batch))]) (zrange a b).

Lemma is_ext S NT NZ NT' NZ' : (forall c, 0 <= c < mn -> NT c = NT' c) -> (forall c, 0 <= c < mn -> NZ c = NZ' c) ->
  is S NT NZ -> is S NT' NZ'.
Proof. intros E1 E2 H r c C R. rewrite H by lia. unfold stat. rewrite E1, E2 by lia. reflexivity. Qed.

Lemma add_flats S NT NZ j : forall m, NT j <= m ->
  is S NT NZ -> 0 <= j < mn -> 0 <= NZ j <= NT j -> m <= st j ->
  (0 < j -> forall k d, NT j <= k < m -> 0 <= d < bs j -> head j k + d < mt -> S (head j k + d) (j - 1) = Zero) ->
  all_allowed mt mn S (flats j (NT j) m) /\
  is (effects S (flats j (NT j) m)) (aset NT j m) NZ.
Proof.
  intros m M H J Z0. revert m M.
  apply (Zlt_lower_bound_ind (fun m => m <= st j ->
    (0 < j -> forall k d, NT j <= k < m -> 0 <= d < bs j -> head j k + d < mt -> S (head j k + d) (j - 1) = Zero) ->
    all_allowed mt mn S (flats j (NT j) m) /\ is (effects S (flats j (NT j) m)) (aset NT j m) NZ)).
  intros m IH M ML P. unfold flats. destruct (Z.eq_dec m (NT j)) as [->|NE].
  - rewrite zrange_nil by lia. cbn [flat_map all_allowed effects]. split; [exact I|].
    eapply is_ext; [| |exact H]; [|reflexivity]. intros c C. unfold aset. destruct (c =? j) eqn:X; [f_equal; lia|reflexivity].
  - destruct (IH (m - 1) ltac:(lia) ltac:(lia)) as [A E].
    { intros X k d K. apply P; lia. }
    replace m with (m - 1 + 1) by lia. rewrite zrange_snoc by lia. rewrite flat_map_app. cbn [flat_map]. rewrite app_nil_r.
    fold (flats j (NT j) (m - 1)).
    destruct (add_flat (effects S (flats j (NT j) (m - 1))) (aset NT j (m - 1)) NZ j) as [A2 E2]; auto.
    + unfold aset. rewrite Z.eqb_refl. lia.
    + unfold aset. rewrite Z.eqb_refl. lia.
    + unfold aset. rewrite Z.eqb_refl. intros X d D R.
      assert (Z1 : S (head j (m - 1) + d) (j - 1) = Zero) by (apply P; lia).
      clear - Z1 A. revert Z1 A. generalize (flats j (NT j) (m - 1)) S (head j (m - 1) + d) (j - 1). clear.
      induction l as [|o l IH]; intros S r c Z1 A; [exact Z1|]. destruct A as [A B]. cbn [effects].
      apply IH; [eapply zero_stays; eauto|exact B].
    + unfold aset in A2, E2. rewrite Z.eqb_refl in A2, E2. split.
      * apply all_allowed_app. split; [exact A|exact A2].
      * rewrite effects_app. eapply is_ext; [| |exact E2]; [|reflexivity]. intros c C. unfold aset.
        destruct (c =? j); reflexivity.
Qed.

Lemma add_tts S NT NZ j b : forall m, NZ j <= m -> m <= NZ j + b ->
  is S NT NZ -> treated_ready mt mn S -> 0 <= j < mn -> 0 <= NZ j ->
  m - 1 + b < NT j -> NT j <= st j ->
  all_allowed mt mn S (tts j (NZ j) m b) /\
  is (effects S (tts j (NZ j) m b)) NT (aset NZ j m).
Proof.
  intros m M MB H TR J Z0 ML T. revert m M MB ML.
  apply (Zlt_lower_bound_ind (fun m => m <= NZ j + b -> m - 1 + b < NT j ->
    all_allowed mt mn S (tts j (NZ j) m b) /\ is (effects S (tts j (NZ j) m b)) NT (aset NZ j m))).
  intros m IH M MB ML. unfold tts. destruct (Z.eq_dec m (NZ j)) as [->|NE].
  - rewrite zrange_nil by lia. cbn [flat_map all_allowed effects]. split; [exact I|].
    eapply is_ext; [| |exact H]; [reflexivity|]. intros c C. unfold aset. destruct (c =? j) eqn:X; [f_equal; lia|reflexivity].
  - destruct (IH (m - 1) ltac:(lia) ltac:(lia) ltac:(lia)) as [A E].
    replace m with (m - 1 + 1) by lia. rewrite zrange_snoc by lia. rewrite flat_map_app. cbn [flat_map app].
    fold (tts j (NZ j) (m - 1) b).
    destruct (add_tt (effects S (tts j (NZ j) (m - 1) b)) NT (aset NZ j (m - 1)) j b) as [A2 E2]; auto.
    + now apply treated_ready_effects.
    + unfold aset. rewrite Z.eqb_refl. lia.
    + lia.
    + unfold aset. rewrite Z.eqb_refl. lia.
    + unfold aset in A2, E2. rewrite Z.eqb_refl in A2, E2. split.
      * apply all_allowed_app. split; [exact A|]. split; [exact A2|exact I].
      * rewrite effects_app. eapply is_ext; [| |exact E2]; [reflexivity|]. intros c C. unfold aset.
        destruct (c =? j); reflexivity.
Qed.

(* all columns complete *)
Lemma complete_final S NT NZ :
  is S NT NZ -> (forall c, 0 <= c < mn -> NT c = st c /\ NZ c = st c - 1) ->
  (forall c, 0 <= c < mn -> S c c = Triangular) /\
  (forall r c, 0 <= c < mn -> c < r < mt -> S r c = Zero).
Proof.
  intros H F. split.
  - intros c C. rewrite H by lia. destruct (F c C) as [F1 F2].
    replace (stat NT NZ c c) with (stat NT NZ (head c (st c - 1) + 0) c) by (f_equal; unfold head; lia).
    pose proof (Hbs c C) as Hbc. rewrite stat_eq by lia. rewrite F1, F2. cbn [Z.eqb].
    destruct (st c - 1 <? st c - 1) eqn:X; [lia|]. destruct (st c - 1 <? st c) eqn:Y; [reflexivity|lia].
  - intros r c C R. rewrite H by lia. destruct (F c C) as [F1 F2].
    destruct (head_eq c r C ltac:(lia)) as [k [d [-> [D K]]]]. pose proof (Hbs c C) as Hbc.
    rewrite stat_eq by lia. rewrite F1, F2.
    destruct (d =? 0) eqn:D0; destruct (k <? st c - 1) eqn:X; destruct (k <? st c) eqn:Y; try reflexivity; try lia.
    exfalso. assert (k = st c - 1) as -> by lia. unfold head in R. lia.
Qed.

End Cols.
