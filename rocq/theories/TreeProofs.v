(* Proofs about control/tree.c. *)
From Coq Require Import ZArith List Bool Lia Psatz.
From Verif Require Import Base TreeModel TreeSpec.
Import ListNotations.
Open Scope Z_scope.

(* ---- general facts on lists of operations ---- *)

Lemma effects_app S a b : effects S (a ++ b) = effects (effects S a) b.
Proof. revert S; induction a as [|o a IH]; intros S; [reflexivity | apply IH]. Qed.

Lemma all_allowed_app mt mn S a b :
  all_allowed mt mn S (a ++ b) <-> all_allowed mt mn S a /\ all_allowed mt mn (effects S a) b.
Proof.
  revert S; induction a as [|o a IH]; intros S; cbn [app all_allowed effects]; [tauto|].
  rewrite IH. tauto.
Qed.

Lemma put_same S r c x : put S r c x r c = x.
Proof. unfold put. now rewrite !Z.eqb_refl. Qed.

Lemma put_other S r c x r' c' : (r', c') <> (r, c) -> put S r c x r' c' = S r' c'.
Proof.
  intros H. unfold put. destruct (r' =? r) eqn:E1; [|reflexivity]. destruct (c' =? c) eqn:E2; [|reflexivity].
  apply Z.eqb_eq in E1, E2. subst. now contradict H.
Qed.

Lemma pos_dec (p q : Z * Z) : {p = q} + {p <> q}.
Proof. decide equality; apply Z.eq_dec. Qed.

(* rows that have been treated are ready *)
Definition treated_ready (mt mn : Z) (S : tiling) : Prop :=
  forall r c, S r c <> Full -> row_ready mt mn S r c.

Lemma allowed_not_zero mt mn S o : allowed mt mn S o -> S (t_row o) (t_col o) <> Zero.
Proof. intros [_ [[_ H]|[[_ [H _]]|[_ [H _]]]]]; rewrite H; discriminate. Qed.

Lemma allowed_kernel mt mn S o : allowed mt mn S o -> t_kernel o = 1 \/ t_kernel o = 2 \/ t_kernel o = 3.
Proof. intros [_ [[H _]|[[H _]|[H _]]]]; auto. Qed.

Lemma zero_stays mt mn S o r c : allowed mt mn S o -> S r c = Zero -> effect S o r c = Zero.
Proof.
  intros A H. unfold effect. rewrite put_other; [exact H|]. intros E. injection E as -> ->.
  now apply allowed_not_zero in A.
Qed.

Lemma treated_ready_effect mt mn S o :
  allowed mt mn S o -> treated_ready mt mn S -> treated_ready mt mn (effect S o).
Proof.
  intros A H r c F.
  assert (R : row_ready mt mn S r c).
  { destruct (pos_dec (r, c) (t_row o, t_col o)) as [E|E].
    - injection E as -> ->. apply (proj1 A).
    - apply H. intros X. apply F. unfold effect. now rewrite put_other. }
  destruct R as [R1 [R2 R3]]. repeat split; try lia. intros C. eapply zero_stays; eauto.
Qed.

Lemma treated_ready_effects mt mn ops : forall S,
  all_allowed mt mn S ops -> treated_ready mt mn S -> treated_ready mt mn (effects S ops).
Proof.
  induction ops as [|o ops IH]; intros S A H; [exact H|]. destruct A as [A B]. apply IH; [exact B|].
  now apply treated_ready_effect.
Qed.

Lemma treated_ready_untreated mt mn : treated_ready mt mn untreated.
Proof. intros r c H. now contradict H. Qed.

(* counting *)
Lemma elim_count mt mn ops r c : forall S,
  all_allowed mt mn S ops ->
  ((match S r c with Zero => 1 | _ => 0 end) + eliminations ops r c)%nat
  = match effects S ops r c with Zero => 1%nat | _ => 0%nat end.
Proof.
  induction ops as [|o ops IH]; intros S A.
  - unfold eliminations. cbn. lia.
  - destruct A as [A B]. specialize (IH _ B). cbn [effects]. rewrite <- IH.
    unfold eliminations. cbn [filter].
    destruct (pos_dec (r, c) (t_row o, t_col o)) as [E|E].
    + injection E as -> ->. rewrite !Z.eqb_refl, !andb_true_r. unfold effect at 1. rewrite put_same.
      pose proof (allowed_not_zero _ _ _ _ A) as NZ.
      destruct (t_kernel o =? 1) eqn:K; cbn [negb]; cbn [length];
        destruct (S (t_row o) (t_col o)); try congruence; lia.
    + unfold effect at 1. rewrite put_other by exact E.
      replace (negb (t_kernel o =? 1) && (t_row o =? r) && (t_col o =? c)) with false; [reflexivity|].
      symmetry. apply not_true_is_false. rewrite !andb_true_iff, !Z.eqb_eq. intros [[_ X] Y]. congruence.
Qed.

Lemma tri_count mt mn ops r c : forall S,
  all_allowed mt mn S ops ->
  ((match S r c with Full => 0 | _ => 1 end) + triangularisations ops r c
   <= match effects S ops r c with Full => 0 | _ => 1 end)%nat /\
  (effects S ops r c = Triangular ->
   ((match S r c with Full => 0 | _ => 1 end) + triangularisations ops r c = 1)%nat).
Proof.
  induction ops as [|o ops IH]; intros S A.
  - unfold triangularisations. cbn. split; [lia|]. intros ->. lia.
  - destruct A as [A B]. specialize (IH _ B). cbn [effects].
    unfold triangularisations in *. cbn [filter].
    destruct (pos_dec (r, c) (t_row o, t_col o)) as [E|E].
    + injection E as -> ->. rewrite !Z.eqb_refl, !andb_true_r. assert (EE : effect S o (t_row o) (t_col o) = if t_kernel o =? 1 then Triangular else Zero)
        by (unfold effect; apply put_same).
      rewrite EE in IH. clear EE.
      destruct A as [_ [[K H]|[[K [H _]]|[K [H _]]]]]; rewrite H in *; rewrite K in *; cbn [Z.eqb Pos.eqb length] in *.
      * destruct IH as [I1 I2]. split; [lia|]. intros X. specialize (I2 X). lia.
      * exact IH.
      * destruct IH as [I1 I2]. split; [lia|]. intros X. exfalso. revert X.
        assert (Z0 : effects (effect S o) ops (t_row o) (t_col o) = Zero).
        { clear - B K. assert (X : effect S o (t_row o) (t_col o) = Zero)
            by (unfold effect; rewrite put_same, K; reflexivity).
          revert X B. generalize (effect S o), (t_row o), (t_col o). clear.
          induction ops as [|o ops IH]; intros S r c X B; [exact X|]. destruct B as [A B].
          apply (IH _ _ _ (zero_stays _ _ _ _ _ _ A X) B). }
        rewrite Z0. discriminate.
    + assert (EE : effect S o r c = S r c) by (unfold effect; now apply put_other).
      rewrite EE in IH. clear EE.
      replace ((t_kernel o =? 1) && (t_row o =? r) && (t_col o =? c)) with false; [exact IH|].
      symmetry. apply not_true_is_false. rewrite !andb_true_iff, !Z.eqb_eq. intros [[_ X] Y]. congruence.
Qed.

(* the final tiles determine everything else *)
Lemma scheme_intro mt nt ops :
  all_allowed mt (Z.min mt nt) untreated ops ->
  (forall c, 0 <= c < Z.min mt nt -> effects untreated ops c c = Triangular) ->
  (forall r c, 0 <= c < Z.min mt nt -> c < r < mt -> effects untreated ops r c = Zero) ->
  elimination_scheme mt nt ops.
Proof.
  intros A D Z0. split; [exact A|]. split.
  - intros r c. pose proof (elim_count _ _ _ r c _ A) as E. cbn [untreated] in E.
    change (0 + eliminations ops r c)%nat with (eliminations ops r c) in E. rewrite E.
    destruct ((0 <=? c) && (c <? Z.min mt nt) && (c <? r) && (r <? mt)) eqn:B.
    + rewrite !andb_true_iff, Z.leb_le, !Z.ltb_lt in B. rewrite Z0 by lia. reflexivity.
    + destruct (effects untreated ops r c) eqn:X; try reflexivity. exfalso.
      assert (T : row_ready mt (Z.min mt nt) (effects untreated ops) r c).
      { apply treated_ready_effects; [exact A | apply treated_ready_untreated | rewrite X; discriminate]. }
      destruct T as [T1 [T2 _]]. destruct (Z.eq_dec c r) as [->|NE].
      * rewrite D in X by lia. discriminate.
      * apply not_true_iff_false in B. apply B. rewrite !andb_true_iff, Z.leb_le, !Z.ltb_lt. lia.
  - split; [|split; [|split; [exact D | exact Z0]]].
    + intros r c. pose proof (tri_count _ _ _ r c _ A) as [T _]. cbn [untreated] in T.
      destruct (effects untreated ops r c); lia.
    + intros c C. pose proof (tri_count _ _ _ c c _ A) as [_ T]. specialize (T (D c C)). cbn [untreated] in T. exact T.
Qed.

(* ---- the number of operations ---- *)
Definition pos (o : top) : Z * Z := (t_row o, t_col o).

Lemma tri_NoDup mt mn ops : forall S, all_allowed mt mn S ops ->
  NoDup (map pos (filter (fun o => t_kernel o =? 1) ops)) /\
  (forall p, In p (map pos (filter (fun o => t_kernel o =? 1) ops)) ->
     S (fst p) (snd p) = Full /\ 0 <= snd p < mn /\ snd p <= fst p < mt).
Proof.
  induction ops as [|o ops IH]; intros S A.
  - split; [constructor | intros p []].
  - destruct A as [A B]. specialize (IH _ B). destruct IH as [N I].
    assert (J : forall p, In p (map pos (filter (fun o => t_kernel o =? 1) ops)) ->
       p <> pos o /\ S (fst p) (snd p) = Full /\ 0 <= snd p < mn /\ snd p <= fst p < mt).
    { intros p P. destruct (I p P) as [I1 I2].
      assert (NE : p <> pos o).
      { intros ->. unfold pos, effect in I1. cbn [fst snd] in I1. rewrite put_same in I1.
        destruct (t_kernel o =? 1); discriminate. }
      split; [exact NE|]. split; [|exact I2]. destruct p as [r c]. unfold effect in I1.
      rewrite put_other in I1 by exact NE. exact I1. }
    cbn [filter]. destruct (t_kernel o =? 1) eqn:K; cbn [map].
    + split.
      * constructor; [|exact N]. intros P. now destruct (J _ P).
      * intros p [<-|P]; [|apply J, P]. unfold pos. cbn [fst snd].
        destruct A as [[R1 [R2 _]] A]. apply Z.eqb_eq in K. split; [|lia].
        destruct A as [[_ H]|[[X _]|[X _]]]; [exact H|lia|lia].
    + split; [exact N|]. intros p P. apply J, P.
Qed.

Lemma elim_NoDup mt mn ops : forall S, all_allowed mt mn S ops ->
  NoDup (map pos (filter (fun o => negb (t_kernel o =? 1)) ops)) /\
  (forall p, In p (map pos (filter (fun o => negb (t_kernel o =? 1)) ops)) ->
     S (fst p) (snd p) <> Zero /\ 0 <= snd p < mn /\ snd p < fst p < mt).
Proof.
  induction ops as [|o ops IH]; intros S A.
  - split; [constructor | intros p []].
  - destruct A as [A B]. specialize (IH _ B). destruct IH as [N I].
    assert (J : forall p, In p (map pos (filter (fun o => negb (t_kernel o =? 1)) ops)) ->
       (t_kernel o <> 1 -> p <> pos o) /\ S (fst p) (snd p) <> Zero /\ 0 <= snd p < mn /\ snd p < fst p < mt).
    { intros p P. destruct (I p P) as [I1 I2].
      split; [|split; [|exact I2]].
      - intros K ->. unfold pos, effect in I1. cbn [fst snd] in I1. rewrite put_same in I1.
        destruct (t_kernel o =? 1) eqn:E; [lia|]. now contradict I1.
      - intros X. apply I1. apply (zero_stays _ _ _ _ _ _ A X). }
    cbn [filter]. destruct (t_kernel o =? 1) eqn:K; cbn [negb map].
    + split; [exact N|]. intros p P. apply J, P.
    + apply Z.eqb_neq in K. split.
      * constructor; [|exact N]. intros P. destruct (J _ P) as [X _]. now apply X.
      * intros p [<-|P]; [|apply J, P]. unfold pos. cbn [fst snd].
        split; [now apply (allowed_not_zero _ _ _ _ A)|].
        destruct A as [[R1 [R2 _]] A].
        destruct A as [[X _]|[[_ [_ [X [[_ [Y _]] _]]]]|[_ [_ [X [[_ [Y _]] _]]]]]]; lia.
Qed.

(* all positions (r, c) with 0 <= c < mn, c + d <= r < mt *)
Definition below (mt mn d : Z) : list (Z * Z) :=
  flat_map (fun c => map (fun r => (r, c)) (zrange (c + d) mt)) (zrange 0 mn).

Lemma in_below mt mn d r c : In (r, c) (below mt mn d) <-> 0 <= c < mn /\ c + d <= r < mt.
Proof.
  unfold below. rewrite in_flat_map. split.
  - intros [c' [C H]]. apply in_map_iff in H. destruct H as [r' [E R]]. injection E as -> ->.
    rewrite in_zrange in *. lia.
  - intros [C R]. exists c. rewrite in_zrange, in_map_iff. split; [lia|]. exists r. rewrite in_zrange. split; [reflexivity|lia].
Qed.

Lemma below_length mt d : forall n, 0 <= n -> n - 1 + d <= mt -> 0 <= d ->
  2 * Z.of_nat (length (below mt n d)) = 2 * mt * n - 2 * d * n - n * (n - 1).
Proof.
  intros n N. revert n N. apply (natlike_ind (fun n => n - 1 + d <= mt -> 0 <= d ->
    2 * Z.of_nat (length (below mt n d)) = 2 * mt * n - 2 * d * n - n * (n - 1))).
  - intros. unfold below. rewrite zrange_nil by lia. cbn [flat_map length]. lia.
  - intros n N IH H D. unfold Z.succ in *. unfold below in *. rewrite zrange_snoc by lia. rewrite flat_map_app, app_length, Nat2Z.inj_add.
    rewrite Z.mul_add_distr_l, IH by lia. cbn [flat_map]. rewrite app_nil_r, map_length, zrange_length. 
    rewrite Z2Nat.id by lia. lia.
Qed.

Lemma ops_bound mt mn ops :
  0 <= mn <= mt -> all_allowed mt mn untreated ops ->
  Z.of_nat (length ops) <= (mt * mn - (mn - 1) * mn / 2) + (mt * mn - (mn + 1) * mn / 2).
Proof.
  intros H A.
  assert (L : length ops = (length (map pos (filter (fun o => (t_kernel o =? 1)%Z) ops))
                            + length (map pos (filter (fun o => negb (t_kernel o =? 1)%Z) ops)))%nat).
  { rewrite !map_length. clear. induction ops as [|o ops IH]; [reflexivity|]. cbn [filter length].
    destruct (t_kernel o =? 1); cbn [negb length]; lia. }
  destruct (tri_NoDup _ _ _ _ A) as [N1 I1]. destruct (elim_NoDup _ _ _ _ A) as [N2 I2].
  assert (B1 : (length (map pos (filter (fun o => (t_kernel o =? 1)%Z) ops)) <= length (below mt mn 0))%nat).
  { apply NoDup_incl_length; [exact N1|]. intros [r c] P. apply in_below. destruct (I1 _ P) as [_ X]. cbn [fst snd] in X. lia. }
  assert (B2 : (length (map pos (filter (fun o => negb (t_kernel o =? 1)%Z) ops)) <= length (below mt mn 1))%nat).
  { apply NoDup_incl_length; [exact N2|]. intros [r c] P. apply in_below. destruct (I2 _ P) as [_ X]. cbn [fst snd] in X. lia. }
  pose proof (below_length mt 0 mn ltac:(lia) ltac:(lia) ltac:(lia)) as L0.
  pose proof (below_length mt 1 mn ltac:(lia) ltac:(lia) ltac:(lia)) as L1.
  assert (E0 : (mn - 1) * mn / 2 = mt * mn - Z.of_nat (length (below mt mn 0))).
  { replace ((mn - 1) * mn) with ((mt * mn - Z.of_nat (length (below mt mn 0))) * 2) by lia. apply Z.div_mul. lia. }
  assert (E1 : (mn + 1) * mn / 2 = mt * mn - Z.of_nat (length (below mt mn 1))).
  { replace ((mn + 1) * mn) with ((mt * mn - Z.of_nat (length (below mt mn 1))) * 2) by lia. apply Z.div_mul. lia. }
  lia.
Qed.

(* ---- loops that insert operations ---- *)
Lemma insert_ok lops ops k c r p :
  Z.of_nat (length (ops ++ [mktop k c r p])) <= lops ->
  insert_operation lops ops k c r p = Some (ops ++ [mktop k c r p]).
Proof.
  rewrite app_length. cbn [length]. intros H. unfold insert_operation.
  destruct (Z.of_nat (length ops) <? lops) eqn:E; [reflexivity|]. lia.
Qed.

Lemma for_each_ok {B} lops (body : list top -> B -> option (list top)) (g : B -> list top) l : forall ops,
  (forall o x, In x l -> Z.of_nat (length (o ++ g x)) <= lops -> body o x = Some (o ++ g x)) ->
  Z.of_nat (length (ops ++ flat_map g l)) <= lops ->
  for_each body l ops = Some (ops ++ flat_map g l).
Proof.
  induction l as [|x l IH]; intros ops H L; cbn [flat_map for_each] in *.
  - now rewrite app_nil_r.
  - rewrite H; [|now left|].
    + rewrite app_assoc. apply IH; [intros o y Y; apply H; now right|]. now rewrite <- app_assoc.
    + rewrite !app_length in *. lia.
Qed.

Definition flat (j k h : Z) : list top :=
  mktop 1 j k (-1) :: flat_map (fun m => [mktop 3 j m k]) (zrange (k + 1) (k + h)).

Lemma insert_flat_ok lops ops j k h :
  Z.of_nat (length (ops ++ flat j k h)) <= lops ->
  insert_flat_tree lops ops j k h = Some (ops ++ flat j k h).
Proof.
  intros H. unfold insert_flat_tree, flat in *. rewrite insert_ok.
  - rewrite (for_each_ok lops _ (fun m => [mktop PlasmaTsKernel j m k])).
    + rewrite <- app_assoc. reflexivity.
    + intros o x _. apply insert_ok.
    + rewrite <- app_assoc. exact H.
  - rewrite !app_length in *. cbn [length] in *. lia.
Qed.

(* the effect of a flat tree *)
Lemma ts_effect mt mn j k : forall h S, 0 <= h ->
  0 <= j < mn -> j <= k -> k + 1 + h <= mt -> S k j = Triangular ->
  (forall r, k <= r < k + 1 + h -> row_ready mt mn S r j) ->
  (forall r, k < r < k + 1 + h -> S r j = Full) ->
  all_allowed mt mn S (flat_map (fun m => [mktop 3 j m k]) (zrange (k + 1) (k + 1 + h))) /\ (forall r c, effects S (flat_map (fun m => [mktop 3 j m k]) (zrange (k + 1) (k + 1 + h))) r c
     = if (c =? j) && (k <? r) && (r <? k + 1 + h) then Zero else S r c).
Proof.
  intros h S H. revert h H. apply (natlike_ind (fun h =>
    0 <= j < mn -> j <= k -> k + 1 + h <= mt -> S k j = Triangular ->
  (forall r, k <= r < k + 1 + h -> row_ready mt mn S r j) ->
  (forall r, k < r < k + 1 + h -> S r j = Full) ->
  all_allowed mt mn S (flat_map (fun m => [mktop 3 j m k]) (zrange (k + 1) (k + 1 + h))) /\ (forall r c, effects S (flat_map (fun m => [mktop 3 j m k]) (zrange (k + 1) (k + 1 + h))) r c
     = if (c =? j) && (k <? r) && (r <? k + 1 + h) then Zero else S r c))).
  - intros. rewrite zrange_nil by lia. cbn [flat_map all_allowed effects]. split; [exact I|]. intros r c.
    destruct ((c =? j) && (k <? r) && (r <? k + 1 + 0)) eqn:E; [lia|reflexivity].
  - intros h H IH J K M T R F. unfold Z.succ in *.
    destruct (IH J K ltac:(lia) T ltac:(intros; apply R; lia) ltac:(intros; apply F; lia)) as [A E]. clear IH.
    replace (k + 1 + (h + 1)) with (k + 1 + h + 1) by lia. rewrite zrange_snoc by lia.
    rewrite flat_map_app. cbn [flat_map app].
    split.
    + apply all_allowed_app. split; [exact A|]. cbn [all_allowed]. split; [|exact I].
      unfold allowed. cbn [t_col t_row t_piv t_kernel].
      assert (RR : forall r, k <= r < k + 1 + (h + 1) ->
        row_ready mt mn (effects S (flat_map (fun m => [mktop 3 j m k]) (zrange (k + 1) (k + 1 + h)))) r j).
      { intros r Hr. destruct (R r Hr) as [R1 [R2 R3]]. split; [exact R1|]. split; [exact R2|]. intros C. rewrite E.
        destruct ((j - 1 =? j) && (k <? r) && (r <? k + 1 + h)) eqn:X; [lia|]. apply R3, C. }
      split; [apply RR; lia|]. right. right. split; [reflexivity|]. rewrite !E.
      split; [|split; [lia|split; [apply RR; lia|]]].
      * destruct ((j =? j) && (k <? k + 1 + h) && (k + 1 + h <? k + 1 + h)) eqn:X; [lia|]. apply F. lia.
      * destruct ((j =? j) && (k <? k) && (k <? k + 1 + h)) eqn:X; [lia|]. exact T.
    + intros r c. rewrite effects_app. cbn [effects]. unfold effect. cbn [t_col t_row t_piv t_kernel].
      destruct (pos_dec (r, c) (k + 1 + h, j)) as [X|X].
      * injection X as -> ->. rewrite put_same. cbn [Z.eqb Pos.eqb].
        destruct ((j =? j) && (k <? k + 1 + h) && (k + 1 + h <? k + 1 + h + 1)) eqn:Y; [reflexivity|lia].
      * rewrite put_other by exact X. rewrite E.
        destruct ((c =? j) && (k <? r) && (r <? k + 1 + h)) eqn:Y1;
          destruct ((c =? j) && (k <? r) && (r <? k + 1 + h + 1)) eqn:Y2; try reflexivity; exfalso.
        -- lia.
        -- apply X. rewrite !andb_true_iff in Y2. f_equal; lia.
Qed.

Lemma flat_effect mt mn S j k h :
  1 <= h -> 0 <= j < mn -> j <= k -> k + h <= mt ->
  (forall r, k <= r < k + h -> row_ready mt mn S r j) ->
  (forall r, k <= r < k + h -> S r j = Full) ->
  all_allowed mt mn S (flat j k h) /\ (forall r c, effects S (flat j k h) r c
     = if (c =? j) && (k <=? r) && (r <? k + h) then if r =? k then Triangular else Zero else S r c).
Proof.
  intros H J K M R F. unfold flat. replace (k + h) with (k + 1 + (h - 1)) by lia.
  assert (R1 : forall r, k <= r < k + h -> row_ready mt mn (effect S (mktop 1 j k (-1))) r j).
  { intros r Hr. destruct (R r Hr) as [A [B C]]. split; [exact A|]. split; [exact B|]. intros X.
    unfold effect. rewrite put_other by (cbn; intros Y; injection Y; lia). apply C, X. }
  destruct (ts_effect mt mn j k (h - 1) (effect S (mktop 1 j k (-1)))) as [A E]; try lia.
  - unfold effect. cbn. now rewrite put_same.
  - intros r Hr. apply R1. lia.
  - intros r Hr. unfold effect. rewrite put_other by (cbn; intros Y; injection Y; lia). apply F. lia.
  - cbn [all_allowed effects]. split.
    + split; [|exact A]. unfold allowed. cbn [t_col t_row t_piv t_kernel]. split; [apply R; lia|]. left. split; [reflexivity|apply F; lia].
    + intros r c. rewrite E. unfold effect. cbn [t_col t_row t_piv t_kernel Z.eqb Pos.eqb]. unfold put.
      destruct ((c =? j) && (k <? r) && (r <? k + 1 + (h - 1))) eqn:Y1;
        destruct ((c =? j) && (k <=? r) && (r <? k + 1 + (h - 1))) eqn:Y2;
        destruct ((r =? k) && (c =? j)) eqn:Y3; destruct (r =? k) eqn:Y4; try reflexivity; exfalso; lia.
Qed.
