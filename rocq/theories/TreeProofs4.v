(* Proofs about the other generators of control/tree.c: flat_ts, flat_tt, binary. *)
From Coq Require Import ZArith List Bool Lia Psatz.
From Verif Require Import Base TreeModel TreeSpec TreeProofs TreeProofs2 TreeProofs3.
Import ListNotations.
Open Scope Z_scope.

Lemma run_list mt mn (P : Z -> tiling -> Prop) (g : Z -> list top) a : forall b S, a <= b ->
  (forall i S, a <= i < b -> P i S -> all_allowed mt mn S (g i) /\ P (i + 1) (effects S (g i))) ->
  P a S -> all_allowed mt mn S (flat_map g (zrange a b)) /\ P b (effects S (flat_map g (zrange a b))).
Proof.
  intros b S B. revert b B.
  apply (Zlt_lower_bound_ind (fun b => 
    (forall i S, a <= i < b -> P i S -> all_allowed mt mn S (g i) /\ P (i + 1) (effects S (g i))) ->
    P a S -> all_allowed mt mn S (flat_map g (zrange a b)) /\ P b (effects S (flat_map g (zrange a b))))).
  intros b IH B H P0. destruct (Z.eq_dec a b) as [<-|NE].
  - rewrite zrange_nil by lia. cbn [flat_map all_allowed effects]. auto.
  - destruct (IH (b - 1) ltac:(lia)) as [A E]; [intros; apply H; [lia|assumption]|exact P0|].
    replace b with (b - 1 + 1) by lia. rewrite zrange_snoc by lia. rewrite flat_map_app. cbn [flat_map]. rewrite app_nil_r.
    destruct (H (b - 1) _ ltac:(lia) E) as [A2 E2]. rewrite all_allowed_app, effects_app. auto.
Qed.

Section Stage.
Variables (mt mn : Z).
Hypothesis Hmn : 1 <= mn <= mt.

(* the columns before j are finished, column j is described by f, those behind are untouched *)
Definition stage (j : Z) (f : Z -> tile_state) (S : tiling) : Prop :=
  forall r c, 0 <= c < mn -> c <= r < mt ->
    S r c = if c <? j then if r =? c then Triangular else Zero else if c =? j then f r else Full.

Definition full : Z -> tile_state := fun _ => Full.
Definition done (j : Z) : Z -> tile_state := fun r => if r =? j then Triangular else Zero.

Lemma stage_next j S : stage j (done j) S -> stage (j + 1) full S.
Proof.
  intros H r c C R. rewrite H by assumption. unfold done, full.
  destruct (c <? j) eqn:X1; destruct (c <? j + 1) eqn:X2; destruct (c =? j) eqn:X3; destruct (c =? j + 1) eqn:X4; try reflexivity; try lia;
    assert (c = j) by lia; subst; reflexivity.
Qed.

Lemma stage_ext j f g S : (forall r, j <= r < mt -> f r = g r) -> 0 <= j < mn -> stage j f S -> stage j g S.
Proof.
  intros E J H r c C R. rewrite H by assumption. destruct (c <? j); [reflexivity|].
  destruct (c =? j) eqn:X; [|reflexivity]. apply E. lia.
Qed.

Lemma stage_ready j f S r : 0 <= j < mn -> j <= r < mt -> stage j f S -> row_ready mt mn S r j.
Proof.
  intros J R H. split; [exact J|]. split; [exact R|]. intros C. rewrite H by lia.
  destruct (j - 1 <? j) eqn:X; [|lia]. destruct (r =? j - 1) eqn:Y; [lia|]. reflexivity.
Qed.

Lemma stage_at j f S r : 0 <= j < mn -> j <= r < mt -> stage j f S -> S r j = f r.
Proof. intros J R H. rewrite H by lia. rewrite Z.ltb_irrefl, Z.eqb_refl. reflexivity. Qed.

Lemma stage_put j f S r x : 0 <= j < mn -> j <= r < mt -> stage j f S ->
  stage j (fun r' => if r' =? r then x else f r') (put S r j x).
Proof.
  intros J R H r' c C R'. destruct (pos_dec (r', c) (r, j)) as [E|E].
  - injection E as -> ->. rewrite put_same, Z.ltb_irrefl, !Z.eqb_refl. reflexivity.
  - rewrite put_other by exact E. rewrite H by assumption. destruct (c <? j); [reflexivity|].
    destruct (c =? j) eqn:X; [|reflexivity]. destruct (r' =? r) eqn:Y; [|reflexivity]. exfalso. apply E. f_equal; lia.
Qed.

Lemma stage_ge j f S r : 0 <= j < mn -> j <= r < mt -> stage j f S -> f r = Full ->
  all_allowed mt mn S [mktop 1 j r (-1)] /\
  stage j (fun r' => if r' =? r then Triangular else f r') (effects S [mktop 1 j r (-1)]).
Proof.
  intros J R H F. cbn [all_allowed effects]. split.
  - split; [|exact I]. split; [apply (stage_ready j f); auto|]. left. cbn. split; [reflexivity|].
    rewrite (stage_at j f); auto.
  - unfold effect. cbn [t_row t_col t_kernel Z.eqb Pos.eqb]. now apply stage_put.
Qed.

Lemma stage_tt j f S r p : 0 <= j < mn -> j <= p < r -> r < mt -> stage j f S -> f r = Triangular -> f p = Triangular ->
  all_allowed mt mn S [mktop 2 j r p] /\
  stage j (fun r' => if r' =? r then Zero else f r') (effects S [mktop 2 j r p]).
Proof.
  intros J P R H F1 F2. cbn [all_allowed effects]. split.
  - split; [|exact I]. split; [apply (stage_ready j f); auto; cbn; lia|]. right. left. cbn.
    split; [reflexivity|]. split; [rewrite (stage_at j f); auto; lia|]. split; [lia|].
    split; [apply (stage_ready j f); auto; lia|]. rewrite (stage_at j f); auto; lia.
  - unfold effect. cbn [t_row t_col t_kernel Z.eqb Pos.eqb]. apply stage_put; auto. lia.
Qed.

Lemma stage_flat j f S k h : 0 <= j < mn -> j <= k -> 1 <= h -> k + h <= mt -> stage j f S ->
  (forall r, k <= r < k + h -> f r = Full) ->
  all_allowed mt mn S (flat j k h) /\
  stage j (fun r => if (k <=? r) && (r <? k + h) then if r =? k then Triangular else Zero else f r) (effects S (flat j k h)).
Proof.
  intros J K H1 H2 H F.
  destruct (flat_effect mt mn S j k h H1 J K H2) as [A E].
  - intros r R. apply (stage_ready j f); auto; lia.
  - intros r R. rewrite (stage_at j f); auto; lia.
  - split; [exact A|]. intros r c C R. rewrite E, H by assumption.
    destruct (c =? j) eqn:X; cbn [andb]; [|reflexivity].
    destruct (c <? j) eqn:Y; [lia|]. reflexivity.
Qed.

Lemma stage_scheme nt g : mn = Z.min mt nt ->
  (forall j S, 0 <= j < mn -> stage j full S -> all_allowed mt mn S (g j) /\ stage j (done j) (effects S (g j))) ->
  elimination_scheme mt nt (flat_map g (zrange 0 mn)).
Proof.
  intros E H.
  destruct (run_list mt mn (fun j => stage j full) g 0 mn untreated) as [A B].
  - lia.
  - intros j S J HS. destruct (H j S J HS) as [X Y]. split; [exact X|]. now apply stage_next.
  - intros r c C R. unfold full, untreated. destruct (c <? 0) eqn:X; [lia|]. destruct (c =? 0); reflexivity.
  - apply scheme_intro; rewrite <- E.
    + exact A.
    + intros c C. rewrite B by lia. destruct (c <? mn) eqn:X; [|lia]. now rewrite Z.eqb_refl.
    + intros r c C R. rewrite B by lia. destruct (c <? mn) eqn:X; [|lia]. destruct (r =? c) eqn:Y; [lia|reflexivity].
Qed.

(* ---- flat_ts ---- *)
Lemma flat_ts_col j S : 0 <= j < mn -> stage j full S ->
  all_allowed mt mn S (flat j j (mt - j)) /\ stage j (done j) (effects S (flat j j (mt - j))).
Proof.
  intros J H. destruct (stage_flat j full S j (mt - j)) as [A E]; auto; try lia.
  split; [exact A|]. eapply stage_ext; [| |exact E]; [|exact J]. intros r R. unfold done.
  destruct ((j <=? r) && (r <? j + (mt - j))) eqn:X; [reflexivity|lia].
Qed.

(* ---- flat_tt ---- *)
Definition col_tt (j : Z) : list top :=
  flat_map (fun m => [mktop 1 j m (-1)]) (zrange j mt) ++ flat_map (fun m => [mktop 2 j m j]) (zrange (j + 1) mt).

Lemma flat_tt_col j S : 0 <= j < mn -> stage j full S ->
  all_allowed mt mn S (col_tt j) /\ stage j (done j) (effects S (col_tt j)).
Proof.
  intros J H. unfold col_tt.
  destruct (run_list mt mn (fun i => stage j (fun r => if r <? i then Triangular else Full)) (fun m => [mktop 1 j m (-1)]) j mt S) as [A E].
  - lia.
  - intros i S' I' H'. destruct (stage_ge j _ S' i J ltac:(lia) H') as [A E]; [cbn; destruct (i <? i) eqn:X; [lia|reflexivity]|].
    split; [exact A|]. eapply stage_ext; [| |exact E]; [|exact J]. intros r R. cbn beta.
    destruct (r =? i) eqn:X1; destruct (r <? i) eqn:X2; destruct (r <? i + 1) eqn:X3; try reflexivity; lia.
  - eapply stage_ext; [| |exact H]; [|exact J]. intros r R. unfold full. destruct (r <? j) eqn:X; [lia|reflexivity].
  - destruct (run_list mt mn (fun i => stage j (fun r => if r =? j then Triangular else if r <? i then Zero else Triangular))
                (fun m => [mktop 2 j m j]) (j + 1) mt (effects S (flat_map (fun m => [mktop 1 j m (-1)]) (zrange j mt)))) as [A2 E2].
    + lia.
    + intros i S' I' H'. destruct (stage_tt j _ S' i j J ltac:(lia) ltac:(lia) H') as [A' E'].
      * cbn beta. destruct (i =? j) eqn:X; [lia|]. destruct (i <? i) eqn:Y; [lia|reflexivity].
      * cbn beta. now rewrite Z.eqb_refl.
      * split; [exact A'|]. eapply stage_ext; [| |exact E']; [|exact J]. intros r R. cbn beta.
        destruct (r =? i) eqn:X1; destruct (r =? j) eqn:X2; destruct (r <? i) eqn:X3; destruct (r <? i + 1) eqn:X4; try reflexivity; lia.
    + eapply stage_ext; [| |exact E]; [|exact J]. intros r R. cbn beta.
      destruct (r <? mt) eqn:X; [|lia]. destruct (r =? j) eqn:X2; [reflexivity|]. destruct (r <? j + 1) eqn:X3; [lia|reflexivity].
    + rewrite all_allowed_app, effects_app. split; [auto|]. eapply stage_ext; [| |exact E2]; [|exact J]. intros r R. unfold done.
      destruct (r =? j) eqn:X2; [reflexivity|]. destruct (r <? mt) eqn:X3; [reflexivity|lia].
Qed.

(* ---- binary ---- *)
Definition bin_flats (j : Z) : list top :=
  flat_map (fun i => flat j (j + i * 4) (Z.min 4 (mt - (j + i * 4)))) (zrange 0 ((mt - j + 4 - 1) / 4)).
Definition bin_round (j rd : Z) : list top :=
  flat_map (fun i => [mktop 2 j (j + i * (2 * rd) + rd) (j + i * (2 * rd))]) (zrange 0 ((mt - rd - j + 2 * rd - 1) / (2 * rd))).
Definition col_bin (j : Z) : list top :=
  bin_flats j ++ flat_map (bin_round j) (doublings (Z.to_nat (mt - j)) 4 (mt - j)).

(* heads are the multiples of rd *)
Definition heads (j rd : Z) : Z -> tile_state := fun r => if (r - j) mod rd =? 0 then Triangular else Zero.

Lemma cdiv_bound n s i : 0 < s -> (i < (n + s - 1) / s <-> i * s < n).
Proof.
  intros S. pose proof (Z.div_mod (n + s - 1) s ltac:(lia)). pose proof (Z.mod_pos_bound (n + s - 1) s ltac:(lia)). nia.
Qed.

Lemma bin_flats_ok j S : 0 <= j < mn -> stage j full S ->
  all_allowed mt mn S (bin_flats j) /\ stage j (heads j 4) (effects S (bin_flats j)).
Proof.
  intros J H. unfold bin_flats.
  assert (N0 : 0 <= (mt - j + 4 - 1) / 4) by (apply Z.div_pos; lia).
  destruct (run_list mt mn (fun i => stage j (fun r => if r <? j + i * 4 then heads j 4 r else Full))
              (fun i => flat j (j + i * 4) (Z.min 4 (mt - (j + i * 4)))) 0 ((mt - j + 4 - 1) / 4) S) as [A E].
  - exact N0.
  - intros i S' I' H'. assert (B : i * 4 < mt - j) by (apply cdiv_bound; lia).
    destruct (stage_flat j _ S' (j + i * 4) (Z.min 4 (mt - (j + i * 4))) J ltac:(lia) ltac:(lia) ltac:(lia) H') as [A E].
    + intros r R. cbn beta. destruct (r <? j + i * 4) eqn:X; [lia|reflexivity].
    + split; [exact A|]. eapply stage_ext; [| |exact E]; [|exact J]. intros r R. cbn beta. unfold heads.
      destruct ((j + i * 4 <=? r) && (r <? j + i * 4 + Z.min 4 (mt - (j + i * 4)))) eqn:X.
      * destruct (r <? j + (i + 1) * 4) eqn:Y; [|lia].
        assert (M : (r - j) mod 4 = r - j - i * 4) by (symmetry; apply (Z.mod_unique _ _ i); lia). rewrite M.
        destruct (r =? j + i * 4) eqn:X1; destruct (r - j - i * 4 =? 0) eqn:X2; try reflexivity; lia.
      * destruct (r <? j + i * 4) eqn:X1; destruct (r <? j + (i + 1) * 4) eqn:X2; try reflexivity; lia.
  - eapply stage_ext; [| |exact H]; [|exact J]. intros r R. unfold full. destruct (r <? j + 0 * 4) eqn:X; [lia|reflexivity].
  - split; [exact A|]. eapply stage_ext; [| |exact E]; [|exact J]. intros r R. cbn beta.
    destruct (r <? j + (mt - j + 4 - 1) / 4 * 4) eqn:X; [reflexivity|].
    pose proof (cdiv_bound (mt - j) 4 ((mt - j + 4 - 1) / 4) ltac:(lia)). lia.
Qed.

Lemma bin_round_ok j rd S : 0 <= j < mn -> 1 <= rd < mt - j -> stage j (heads j rd) S ->
  all_allowed mt mn S (bin_round j rd) /\ stage j (heads j (2 * rd)) (effects S (bin_round j rd)).
Proof.
  intros J RD H. unfold bin_round.
  assert (N0 : 0 <= (mt - rd - j + 2 * rd - 1) / (2 * rd)) by (apply Z.div_pos; lia).
  assert (Q : forall r, (r - j) mod rd = 0 -> exists q, r = j + q * rd).
  { intros r M. exists ((r - j) / rd). pose proof (Z.div_mod (r - j) rd ltac:(lia)). lia. }
  assert (M2 : forall q, (q * rd) mod (2 * rd) = (q mod 2) * rd).
  { intros q. symmetry. apply (Z.mod_unique _ _ (q / 2)).
    - pose proof (Z.mod_pos_bound q 2 ltac:(lia)). nia.
    - pose proof (Z.div_mod q 2 ltac:(lia)). nia. }
  assert (M1 : forall r, (r - j) mod rd <> 0 -> (r - j) mod (2 * rd) <> 0).
  { intros r X Y. apply X. pose proof (Z.div_mod (r - j) (2 * rd) ltac:(lia)) as D. rewrite Y in D.
    replace (r - j) with ((2 * ((r - j) / (2 * rd))) * rd) by lia. apply Z.mod_mul. lia. }
  destruct (run_list mt mn (fun i => stage j (fun r => if r <? j + i * (2 * rd) then heads j (2 * rd) r else heads j rd r))
              (fun i => [mktop 2 j (j + i * (2 * rd) + rd) (j + i * (2 * rd))]) 0 ((mt - rd - j + 2 * rd - 1) / (2 * rd)) S) as [A E].
  - exact N0.
  - intros i S' I' H'. assert (B : i * (2 * rd) < mt - rd - j) by (apply cdiv_bound; lia).
    assert (I0 : 0 <= i * (2 * rd)) by nia.
    destruct (stage_tt j _ S' (j + i * (2 * rd) + rd) (j + i * (2 * rd)) J ltac:(lia) ltac:(lia) H') as [A E].
    + cbn beta. destruct (j + i * (2 * rd) + rd <? j + i * (2 * rd)) eqn:X; [lia|]. unfold heads.
      replace (j + i * (2 * rd) + rd - j) with ((2 * i + 1) * rd) by lia. rewrite Z.mod_mul by lia. reflexivity.
    + cbn beta. destruct (j + i * (2 * rd) <? j + i * (2 * rd)) eqn:X; [lia|]. unfold heads.
      replace (j + i * (2 * rd) - j) with ((2 * i) * rd) by lia. rewrite Z.mod_mul by lia. reflexivity.
    + split; [exact A|]. eapply stage_ext; [| |exact E]; [|exact J]. intros r R. cbn beta.
      destruct (r <? j + i * (2 * rd)) eqn:X1.
      * destruct (r =? j + i * (2 * rd) + rd) eqn:X2; [lia|]. destruct (r <? j + (i + 1) * (2 * rd)) eqn:X3; [reflexivity|lia].
      * destruct (r <? j + (i + 1) * (2 * rd)) eqn:X3.
        -- unfold heads. destruct (r =? j + i * (2 * rd) + rd) eqn:X2.
           ++ replace (r - j) with ((2 * i + 1) * rd) by lia. rewrite M2. 
              replace ((2 * i + 1) mod 2) with 1 by (apply (Z.mod_unique _ _ i); lia).
              destruct (1 * rd =? 0) eqn:X4; [lia|reflexivity].
           ++ destruct ((r - j) mod rd =? 0) eqn:X4.
              ** destruct (Q r ltac:(lia)) as [q Eq]. assert (2 * i <= q) by (apply (Z.mul_le_mono_pos_r _ _ rd); lia).
                 assert (q < 2 * i + 2) by (apply (Z.mul_lt_mono_pos_r rd); lia).
                 assert (q <> 2 * i + 1) by (intros ->; lia). assert (q = 2 * i) by lia. subst q.
                 replace (r - j) with ((2 * i) * rd) by lia. rewrite M2.
                 replace ((2 * i) mod 2) with 0 by (apply (Z.mod_unique _ _ i); lia). reflexivity.
              ** pose proof (M1 r ltac:(lia)). destruct ((r - j) mod (2 * rd) =? 0) eqn:X5; [lia|reflexivity].
        -- destruct (r =? j + i * (2 * rd) + rd) eqn:X2; [lia|reflexivity].
  - eapply stage_ext; [| |exact H]; [|exact J]. intros r R. cbn beta. destruct (r <? j + 0 * (2 * rd)) eqn:X; [lia|reflexivity].
  - split; [exact A|]. eapply stage_ext; [| |exact E]; [|exact J]. intros r R. cbn beta.
    remember ((mt - rd - j + 2 * rd - 1) / (2 * rd)) as n eqn:En.
    destruct (r <? j + n * (2 * rd)) eqn:X; [reflexivity|].
    pose proof (cdiv_bound (mt - rd - j) (2 * rd) n ltac:(lia)) as CB. rewrite <- En in CB.
    unfold heads. destruct ((r - j) mod rd =? 0) eqn:X4.
    + destruct (Q r ltac:(lia)) as [q Eq]. assert (2 * n <= q) by (apply (Z.mul_le_mono_pos_r _ _ rd); lia).
      assert (q < 2 * n + 1) by (apply (Z.mul_lt_mono_pos_r rd); lia). assert (q = 2 * n) by lia. subst q.
      replace (r - j) with ((2 * n) * rd) by lia. rewrite M2.
      replace ((2 * n) mod 2) with 0 by (apply (Z.mod_unique _ _ n); lia). reflexivity.
    + pose proof (M1 r ltac:(lia)). destruct ((r - j) mod (2 * rd) =? 0) eqn:X5; [lia|reflexivity].
Qed.

Lemma doublings_ok j : forall fuel rd S, 0 <= j < mn -> 1 <= rd -> mt - j - rd <= Z.of_nat fuel -> stage j (heads j rd) S ->
  all_allowed mt mn S (flat_map (bin_round j) (doublings fuel rd (mt - j))) /\
  stage j (done j) (effects S (flat_map (bin_round j) (doublings fuel rd (mt - j)))).
Proof.
  assert (FIN : forall rd S, 0 <= j < mn -> mt - j <= rd -> stage j (heads j rd) S -> stage j (done j) S).
  { intros rd S J RD H. eapply stage_ext; [| |exact H]; [|exact J]. intros r R. unfold heads, done.
    rewrite Z.mod_small by lia. destruct (r - j =? 0) eqn:X1; destruct (r =? j) eqn:X2; try reflexivity; lia. }
  induction fuel as [|f IH]; intros rd S J RD F H; cbn [doublings].
  - cbn [flat_map all_allowed effects]. split; [exact I|]. apply (FIN rd); auto. lia.
  - destruct (rd <? mt - j) eqn:X.
    + cbn [flat_map]. destruct (bin_round_ok j rd S J ltac:(lia) H) as [A E].
      destruct (IH (rd * 2) (effects S (bin_round j rd)) J ltac:(lia) ltac:(lia)) as [A2 E2].
      { replace (rd * 2) with (2 * rd) by lia. exact E. }
      rewrite all_allowed_app, effects_app. auto.
    + cbn [flat_map all_allowed effects]. split; [exact I|]. apply (FIN rd); auto. lia.
Qed.

Lemma binary_col j S : 0 <= j < mn -> stage j full S ->
  all_allowed mt mn S (col_bin j) /\ stage j (done j) (effects S (col_bin j)).
Proof.
  intros J H. unfold col_bin. destruct (bin_flats_ok j S J H) as [A E].
  destruct (doublings_ok j (Z.to_nat (mt - j)) 4 _ J ltac:(lia) ltac:(lia) E) as [A2 E2].
  rewrite all_allowed_app, effects_app. auto.
Qed.

End Stage.
