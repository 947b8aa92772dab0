(* Columnwise Householder reduction: the invariant of the two factorization kernels. *)
From Coq Require Import ZArith List Ring Bool Lia.
From Verif Require Import Base NumModel NumProofs MatModel QrModel QrAlgProofs.
Import ListNotations.
Open Scope Z_scope.

(* loops *)
Lemma fold_zrange_ind : forall {S} (P : Z -> S -> Prop) (f : S -> Z -> S) a b s0, a <= b -> P a s0 ->
  (forall j s, a <= j < b -> P j s -> P (j + 1) (f s j)) -> P b (fold_left f (zrange a b) s0).
Proof.
  intros S P f a b s0 L H0 HS. revert HS.
  replace b with (a + (b - a)) by lia. pattern (b - a). apply natlike_ind; [| |lia].
  - intros _. rewrite Z.add_0_r, zrange_nil by lia. exact H0.
  - intros x Hx IH HS. unfold Z.succ. rewrite Z.add_assoc, (zrange_app a (a + x) (a + x + 1)), fold_left_app by lia.
    rewrite (zrange_cons (a + x)), (zrange_nil (a + x + 1)) by lia. cbn.
    apply HS; [lia|]. apply IH. intros j s Hj. apply HS. lia.
Qed.

Lemma fold_zrange_ind_rev : forall {S} (P : Z -> S -> Prop) (f : S -> Z -> S) a b s0, a <= b -> P b s0 ->
  (forall j s, a <= j < b -> P (j + 1) s -> P j (f s j)) -> P a (fold_left f (rev (zrange a b)) s0).
Proof.
  intros S P f a b s0 L. revert s0.
  replace b with (a + (b - a)) by lia. pattern (b - a). apply natlike_ind; [| |lia].
  - intros s0 H0 _. rewrite Z.add_0_r in *. rewrite zrange_nil by lia. exact H0.
  - intros x Hx IH s0 H0 HS. unfold Z.succ in *. rewrite Z.add_assoc in *. rewrite (zrange_app a (a + x) (a + x + 1)), rev_app_distr by lia.
    rewrite (zrange_cons (a + x)), (zrange_nil (a + x + 1)) by lia. cbn.
    apply IH; [apply HS; [lia|assumption]|]. intros j s Hj. apply HS. lia.
Qed.

Lemma block_step : forall k ib t, 0 < ib -> 0 <= t < (k + ib - 1) / ib ->
  0 <= t * ib < k /\ Z.min (t * ib) k = t * ib /\
  Z.min ((t + 1) * ib) k = t * ib + Z.min ib (k - t * ib).
Proof.
  intros k ib t Hib [H1 H2].
  assert (t * ib < k).
  { pose proof (Z.mul_div_le (k + ib - 1) ib Hib). nia. }
  repeat split; nia.
Qed.

Lemma blocks_end : forall k ib, 0 < ib -> 0 <= k -> Z.min ((k + ib - 1) / ib * ib) k = k.
Proof.
  intros k ib Hib Hk. pose proof (Z.mul_succ_div_gt (k + ib - 1) ib Hib). nia.
Qed.

Lemma blocks_ind : forall {S} (P : Z -> S -> Prop) (f : S -> Z -> S) k ib s0, 0 < ib -> 0 <= k -> P 0 s0 ->
  (forall i s, 0 <= i < k -> i mod ib = 0 -> P i s -> P (i + Z.min ib (k - i)) (f s i)) ->
  P k (fold_left f (blocks k ib) s0).
Proof.
  intros S P f k ib s0 Hib Hk H0 HS. unfold blocks.
  assert (E : fold_left f (map (fun t => t * ib) (zrange 0 ((k + ib - 1) / ib))) s0
              = fold_left (fun s t => f s (t * ib)) (zrange 0 ((k + ib - 1) / ib)) s0).
  { generalize (zrange 0 ((k + ib - 1) / ib)). intros l. revert s0 H0. clear. 
    induction l as [|x l IH]; intros; [reflexivity|]. cbn. generalize (f s0 (x * ib)). intros s. clear -l.
    revert s. induction l as [|y l IH]; intros; [reflexivity|]. cbn. apply IH. }
  rewrite E. clear E.
  assert (H : 0 <= (k + ib - 1) / ib) by (apply Z.div_pos; lia).
  pose proof (fold_zrange_ind (fun t s => P (Z.min (t * ib) k) s) (fun s t => f s (t * ib)) 0 _ s0 H) as G.
  cbv beta in G. rewrite (blocks_end k ib) in G by assumption. apply G.
  - replace (Z.min (0 * ib) k) with 0 by lia. assumption.
  - intros t s Ht HP. destruct (block_step k ib t Hib Ht) as (B1 & B2 & B3). rewrite B3. apply HS; auto.
    + apply Z_mod_mult.
    + rewrite B2 in HP. assumption.
Qed.

Lemma blocks_ind_rev : forall {S} (P : Z -> S -> Prop) (f : S -> Z -> S) k ib s0, 0 < ib -> 0 <= k -> P k s0 ->
  (forall i s, 0 <= i < k -> i mod ib = 0 -> P (i + Z.min ib (k - i)) s -> P i (f s i)) ->
  P 0 (fold_left f (rev (blocks k ib)) s0).
Proof.
  intros S P f k ib s0 Hib Hk H0 HS. unfold blocks. rewrite <- map_rev.
  assert (E : forall l s0, fold_left f (map (fun t => t * ib) l) s0 = fold_left (fun s t => f s (t * ib)) l s0).
  { clear. induction l as [|x l IH]; intros; [reflexivity|]. cbn. apply IH. }
  rewrite E. clear E.
  assert (H : 0 <= (k + ib - 1) / ib) by (apply Z.div_pos; lia).
  pose proof (fold_zrange_ind_rev (fun t s => P (Z.min (t * ib) k) s) (fun s t => f s (t * ib)) 0 _ s0 H) as G.
  cbv beta in G. rewrite (blocks_end k ib) in G by assumption.
  replace (Z.min (0 * ib) k) with 0 in G by lia. apply G; [assumption|].
  intros t s Ht HP. destruct (block_step k ib t Hib Ht) as (B1 & B2 & B3). rewrite B2. apply HS; auto.
  - apply Z_mod_mult.
  - rewrite B3 in HP. assumption.
Qed.

Section Step.
  Variable N : numbers.
  Add Ring step_ring : (nring N).

  Lemma memo_in : forall m n (f : Z -> Z -> N) i j, 0 <= i < m -> 0 <= j < n -> memo m n f i j = f i j.
  Proof.
    intros m n f i j Hi Hj. unfold memo.
    assert (R : forall (B : Type) (h : Z -> B) k x d, 0 <= x < k -> nth (Z.to_nat x) (map h (zrange 0 k)) d = h x).
    { intros B h k x d Hx. unfold zrange. rewrite Z.sub_0_r.
      assert (G : forall n lo y, (y < n)%nat -> nth y (map h (zrange_nat lo n)) d = h (lo + Z.of_nat y)).
      { clear. induction n as [|n IH]; intros lo y Hy; [lia|]. cbn [zrange_nat map]. destruct y as [|y].
        - cbn. rewrite Z.add_0_r. reflexivity.
        - cbn [nth]. rewrite IH by lia. f_equal. lia. }
      rewrite G by lia. f_equal. lia. }
    rewrite (R _ (fun j => map (fun i => f i j) (zrange 0 m)) n j [] Hj).
    apply (R _ (fun i => f i j)). assumption.
  Qed.

  Lemma memo_eq : forall m n (f g : Z -> Z -> N), (forall i j, 0 <= i < m -> 0 <= j < n -> f i j = g i j) ->
    memo m n f = memo m n g.
  Proof.
    intros m n f g H. unfold memo.
    replace (map (fun j => map (fun i => g i j) (zrange 0 m)) (zrange 0 n))
      with (map (fun j => map (fun i => f i j) (zrange 0 m)) (zrange 0 n)); [reflexivity|].
    apply map_ext_in. intros j Hj. apply map_ext_in. intros i Hi. apply in_zrange in Hi, Hj. apply H; assumption.
  Qed.

  Local Notation vec := (Z -> N).

  Lemma t_good_cong : forall p V V' tau tau' i0 (T T' : Z -> Z -> N) kb,
    (forall c r, i0 <= c < i0 + kb -> 0 <= r < p -> V r c = V' r c) ->
    (forall c, i0 <= c < i0 + kb -> tau c = tau' c) ->
    (forall a c, 0 <= a <= c -> c < kb -> T a (i0 + c) = T' a (i0 + c)) ->
    t_good N p V tau i0 T kb -> t_good N p V' tau' i0 T' kb.
  Proof.
    intros p V V' tau tau' i0 T T' kb HV Ht HT H c Hc. destruct (H c Hc) as [E1 E2]. split.
    - rewrite <- HT, <- Ht by lia. assumption.
    - intros a Ha. rewrite <- HT by lia. rewrite E2 by assumption. apply nsum_ext. intros b Hb.
      f_equal; [|f_equal].
      + unfold tu. destruct (a <=? b) eqn:E; [|reflexivity]. apply Z.leb_le in E. apply HT; lia.
      + rewrite Ht by lia. reflexivity.
      + apply dot_ext; intros r Hr; unfold colv; apply HV; lia.
  Qed.

  Definition qinv (p n : Z) (A0 V : Z -> Z -> N) (tau : vec) (X : Z -> Z -> N) (i0 hi j : Z) : Prop :=
    (forall c, 0 <= c < j -> unit_cond N p (tau c) (colv N V c)) /\
    (forall c r, 0 <= c < hi -> 0 <= r < p -> X r c = hC N p V tau 0 j (colv N A0 c) r) /\
    (forall c r, hi <= c < n -> 0 <= r < p -> X r c = hC N p V tau 0 i0 (colv N A0 c) r) /\
    (forall c r, 0 <= c < j -> c < r < p -> X r c = n0).

  Lemma qinv_step : forall p n A0 V tau X i0 hi j V' tau' X', 0 <= i0 <= j -> j < hi -> hi <= n ->
    qinv p n A0 V tau X i0 hi j ->
    (forall c r, 0 <= c < j -> 0 <= r < p -> V' r c = V r c) ->
    (forall c, 0 <= c < j -> tau' c = tau c) ->
    (forall r, 0 <= r < j -> V' r j = n0) ->
    unit_cond N p (tau' j) (colv N V' j) ->
    (forall c r, j <= c < hi -> 0 <= r < p -> X' r c = hh N p (nconj (tau' j)) (colv N V' j) (colv N X c) r) ->
    (forall c r, 0 <= c < j \/ hi <= c < n -> 0 <= r < p -> X' r c = X r c) ->
    (forall r, j < r < p -> X' r j = n0) ->
    qinv p n A0 V' tau' X' i0 hi (j + 1).
  Proof.
    intros p n A0 V tau X i0 hi j V' tau' X' Hi0 Hj Hhi (Q1 & Q2 & Q3 & Q4) HV Ht HZ HU HX HK H0.
    assert (CG : forall b x, b <= j -> same N p (hC N p V tau 0 b x) (hC N p V' tau' 0 b x)).
    { intros b x Hb. apply hC_cong.
      - intros c r Hc Hr. symmetry. apply HV; lia.
      - intros c Hc. symmetry. apply Ht; lia.
      - intros r Hr. reflexivity. }
    split; [|split; [|split]].
    - intros c Hc. destruct (Z.eq_dec c j) as [->|Hcj]; [assumption|].
      assert (U := Q1 c ltac:(lia)). unfold unit_cond in *. rewrite Ht by lia.
      rewrite U. f_equal. apply dot_ext; intros r Hr; unfold colv; symmetry; apply HV; lia.
    - intros c r Hc Hr. rewrite hC_snoc by lia.
      transitivity (hh N p (nconj (tau' j)) (colv N V' j) (colv N X c) r).
      + destruct (Z.ltb_spec c j) as [L|L]; [|apply HX; lia].
        rewrite HK by lia. unfold hh.
        replace (dot N p (colv N V' j) (colv N X c)) with (@n0 N); [unfold colv; ring|].
        symmetry. apply nsum_0. intros s Hs. unfold colv. destruct (Z.ltb_spec s j).
        * rewrite HZ by lia. rewrite nconj_0. ring.
        * rewrite Q4 by lia. ring.
      + apply hh_ext; [intros ? ?; reflexivity| |assumption]. intros s Hs. unfold colv at 1.
        rewrite Q2 by assumption. apply CG; [lia|assumption].
    - intros c r Hc Hr. rewrite HK by lia. rewrite Q3 by assumption. apply CG; [lia|assumption].
    - intros c r Hc Hr. destruct (Z.eq_dec c j) as [->|Hcj]; [apply H0; assumption|].
      rewrite HK by lia. apply Q4; lia.
  Qed.

  Lemma qinv_block : forall p n A0 V tau X i0 hi X' hi', 0 <= i0 <= hi -> hi <= hi' -> hi' <= n ->
    qinv p n A0 V tau X i0 hi hi ->
    (forall c r, 0 <= c < hi -> 0 <= r < p -> X' r c = X r c) ->
    (forall c r, hi <= c < n -> 0 <= r < p -> X' r c = hC N p V tau i0 hi (colv N X c) r) ->
    qinv p n A0 V tau X' hi hi' hi.
  Proof.
    intros p n A0 V tau X i0 hi X' hi' H1 H2 H3 (Q1 & Q2 & Q3 & Q4) HK HX.
    assert (B : forall c r, hi <= c < n -> 0 <= r < p -> X' r c = hC N p V tau 0 hi (colv N A0 c) r).
    { intros c r Hc Hr. rewrite HX by assumption. rewrite (hC_app _ _ _ _ 0 i0 hi) by lia.
      apply hC_cong; auto. intros s Hs. apply Q3; assumption. }
    split; [assumption|]. split; [|split].
    - intros c r Hc Hr. destruct (Z.ltb_spec c hi); [rewrite HK by lia; apply Q2; lia|apply B; lia].
    - intros c r Hc Hr. apply B; lia.
    - intros c r Hc Hr. rewrite HK by lia. apply Q4; assumption.
  Qed.
End Step.
