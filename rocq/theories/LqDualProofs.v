(* The kernels of the LQ factorization are those of the QR factorization on conjugate transposes. *)
From Coq Require Import ZArith List Ring Bool Lia.
From Verif Require Import Base NumModel NumProofs MatModel QrModel QrAlgProofs QrStepProofs QrMulProofs LqModel.
Import ListNotations.
Open Scope Z_scope.

Lemma fold_rel : forall {X S S'} (R : S -> S' -> Prop) (f : S -> X -> S) (g : S' -> X -> S') l s s',
  R s s' -> (forall x s s', In x l -> R s s' -> R (f s x) (g s' x)) -> R (fold_left f l s) (fold_left g l s').
Proof.
  induction l as [|x l IH]; intros s s' H0 HS; [exact H0|]. cbn [fold_left].
  apply IH; [apply HS; [left; reflexivity|exact H0]|]. intros y t t' Hy. apply HS. right. exact Hy.
Qed.

Definition oside (side : Z) : Z := if side =? PlasmaLeft then PlasmaRight else PlasmaLeft.

Section Dual.
  Context {N : numbers}.
  Add Ring lq_dual_ring : (nring N).

  (* Y is the conjugate transpose of the m x n matrix X *)
  Definition adj (m n : Z) (X Y : Z -> Z -> N) : Prop :=
    forall i j, 0 <= i < m -> 0 <= j < n -> Y j i = nconj (X i j).
  Definition teq (m n : Z) (X Y : Z -> Z -> N) : Prop :=
    forall i j, 0 <= i < m -> 0 <= j < n -> Y i j = X i j.

  Lemma adj_memo : forall m n X Y, adj m n X Y -> adj m n (memo m n X) (memo n m Y).
  Proof. intros m n X Y H i j Hi Hj. rewrite !memo_in by lia. apply H; assumption. Qed.
  Lemma teq_memo : forall m n X Y, teq m n X Y -> teq m n (memo m n X) (memo m n Y).
  Proof. intros m n X Y H i j Hi Hj. rewrite !memo_in by lia. apply H; assumption. Qed.

  Lemma v_dual : forall m n A A' r c, adj m n A A' -> 0 <= c < m -> 0 <= r < n ->
    v_unit A' r c = nconj (v_row A c r).
  Proof.
    intros m n A A' r c H Hc Hr. unfold v_unit, v_row. rewrite (H c r Hc Hr).
    destruct (r <? c); [rewrite nconj_0; reflexivity|]. destruct (r =? c); [rewrite nconj_1; reflexivity|reflexivity].
  Qed.

  Lemma t_dual : forall ib k trans T T' i0 kb a b, teq ib k T T' -> 0 <= i0 -> i0 + kb <= k -> kb <= ib ->
    0 <= a < kb -> 0 <= b < kb -> t_op trans T' i0 a b = nconj (t_op (lq_trans trans) T i0 b a).
  Proof.
    intros ib k trans T T' i0 kb a b H Hi Hk Hib Ha Hb. change (lq_trans trans) with (flip trans). rewrite <- flip_op.
    unfold t_op, t_upper. destruct (trans =? PlasmaNoTrans).
    - destruct (a <=? b); [|reflexivity]. apply H; lia.
    - destruct (b <=? a); [|reflexivity]. rewrite H by lia. reflexivity.
  Qed.

  (* sums of the form v * (t * w), with the factors on the other sides *)
  Lemma sum_dual : forall kb (v w : Z -> N) (t : Z -> Z -> N),
    nsum (fun b => nmul (nsum (fun a => nmul (w a) (t a b)) 0 kb) (v b)) 0 kb
    = nsum (fun b => nmul (v b) (nsum (fun a => nmul (t a b) (w a)) 0 kb)) 0 kb.
  Proof.
    intros. apply nsum_ext. intros b Hb. rewrite (nsum_ext N _ (fun a => nmul (t a b) (w a))); [ring|]. intros; ring.
  Qed.

  Lemma larfb_dual_r : forall trans m n k ib i0 kb V V' T T' C C', adj k n V V' -> teq ib k T T' -> adj m n C C' ->
    0 <= i0 -> i0 + kb <= k -> kb <= ib ->
    adj m n (larfbr_right (lq_trans trans) n i0 kb V T C) (larfb_left trans n i0 kb V' T' C').
  Proof.
    intros trans m n k ib i0 kb V V' T T' C C' HV HT HC Hi Hk Hib r c Hr Hc.
    unfold larfbr_right, larfb_left. rewrite (HC r c Hr Hc). destruct (Z.ltb_spec c i0); [reflexivity|].
    rewrite nconj_sub. f_equal. rewrite sum_dual, nconj_sum. apply nsum_ext. intros a Ha.
    rewrite nconj_mul. rewrite (v_dual k n V V' c (i0 + a) HV) by lia. f_equal.
    rewrite nconj_sum. apply nsum_ext. intros b Hb. rewrite nconj_mul.
    rewrite (t_dual ib k trans T T' i0 kb a b) by (try assumption; lia). f_equal.
    rewrite nconj_sum. apply nsum_ext. intros s Hs. rewrite nconj_mul.
    rewrite (v_dual k n V V' s (i0 + b) HV) by lia. rewrite (HC r s) by lia. ring.
  Qed.

  Lemma larfb_dual_l : forall trans m n k ib i0 kb V V' T T' C C', adj k m V V' -> teq ib k T T' -> adj m n C C' ->
    0 <= i0 -> i0 + kb <= k -> kb <= ib ->
    adj m n (larfbr_left (lq_trans trans) m i0 kb V T C) (larfb_right trans m i0 kb V' T' C').
  Proof.
    intros trans m n k ib i0 kb V V' T T' C C' HV HT HC Hi Hk Hib r c Hr Hc.
    unfold larfbr_left, larfb_right. rewrite (HC r c Hr Hc). destruct (Z.ltb_spec r i0); [reflexivity|].
    rewrite nconj_sub. f_equal. rewrite sum_dual, nconj_sum. apply nsum_ext. intros a Ha.
    rewrite nconj_mul. rewrite (v_dual k m V V' r (i0 + a) HV) by lia. f_equal.
    rewrite nconj_sum. apply nsum_ext. intros b Hb. rewrite nconj_mul.
    rewrite (t_dual ib k trans T T' i0 kb b a) by (try assumption; lia). f_equal.
    rewrite nconj_sum. apply nsum_ext. intros s Hs. rewrite nconj_mul.
    rewrite (v_dual k m V V' s (i0 + b) HV) by lia. rewrite (HC s c) by lia. ring.
  Qed.

  Lemma lq_blocks_eq : forall side trans k ib, lq_blocks side trans k ib = blocks_for (oside side) trans k ib.
  Proof.
    intros. unfold lq_blocks, blocks_for, oside. destruct (side =? PlasmaLeft).
    - change (PlasmaRight =? PlasmaLeft) with false. destruct (trans =? PlasmaNoTrans); reflexivity.
    - change (PlasmaLeft =? PlasmaLeft) with true. destruct (trans =? PlasmaNoTrans); reflexivity.
  Qed.

  Lemma unmlq_dual : forall side trans m n k ib A A' T T' C C', 0 < ib -> 0 <= k ->
    adj k (if side =? PlasmaLeft then m else n) A A' -> teq ib k T T' -> adj m n C C' ->
    adj m n (unmlq_mat side trans m n k ib A T C) (unmqr_mat (oside side) trans n m k ib A' T' C').
  Proof.
    intros side trans m n k ib A A' T T' C C' Hib Hk HA HT HC. unfold unmlq_mat, unmqr_mat. rewrite lq_blocks_eq.
    apply fold_rel; [exact HC|]. intros i C0 C0' Hi H0. apply (blocks_for_in (oside side) trans) in Hi; [|assumption|assumption].
    cbv zeta. apply adj_memo. unfold oside. destruct (side =? PlasmaLeft).
    - change (PlasmaRight =? PlasmaLeft) with false. apply (larfb_dual_l trans m n k ib); try assumption; lia.
    - change (PlasmaLeft =? PlasmaLeft) with true. apply (larfb_dual_r trans m n k ib); try assumption; lia.
  Qed.

  (* ------------------------------------------------------------------ tsmlq *)

  Lemma w_dual_l : forall m1 n1 m2 k i0 kb V V' A1 A1' A2 A2' a c, adj k m2 V V' -> adj m1 n1 A1 A1' -> adj m2 n1 A2 A2' ->
    0 <= i0 -> i0 + kb <= k -> k <= m1 -> 0 <= a < kb -> 0 <= c < n1 ->
    parfb_w_right m2 i0 V' A1' A2' c a = nconj (parfbr_w_left m2 i0 V A1 A2 a c).
  Proof.
    intros m1 n1 m2 k i0 kb V V' A1 A1' A2 A2' a c HV H1 H2 Hi Hk Hm Ha Hc. unfold parfb_w_right, parfbr_w_left.
    rewrite nconj_add. rewrite (H1 (i0 + a) c) by lia. f_equal. rewrite nconj_sum. apply nsum_ext. intros s Hs.
    rewrite nconj_mul. rewrite (HV (i0 + a) s) by lia. rewrite (H2 s c) by lia. ring.
  Qed.
  Lemma w_dual_r : forall m1 n1 n2 k i0 kb V V' A1 A1' A2 A2' r a, adj k n2 V V' -> adj m1 n1 A1 A1' -> adj m1 n2 A2 A2' ->
    0 <= i0 -> i0 + kb <= k -> k <= n1 -> 0 <= a < kb -> 0 <= r < m1 ->
    parfb_w_left n2 i0 V' A1' A2' a r = nconj (parfbr_w_right n2 i0 V A1 A2 r a).
  Proof.
    intros m1 n1 n2 k i0 kb V V' A1 A1' A2 A2' r a HV H1 H2 Hi Hk Hm Ha Hc. unfold parfb_w_left, parfbr_w_right.
    rewrite nconj_add. rewrite (H1 r (i0 + a)) by lia. f_equal. rewrite nconj_sum. apply nsum_ext. intros s Hs.
    rewrite nconj_mul. rewrite (HV (i0 + a) s) by lia. rewrite (H2 r s) by lia. ring.
  Qed.

  Lemma parfb_dual_l : forall trans m1 n1 m2 k ib i0 kb V V' T T' A1 A1' A2 A2', adj k m2 V V' -> teq ib k T T' ->
    adj m1 n1 A1 A1' -> adj m2 n1 A2 A2' -> 0 <= i0 -> i0 + kb <= k -> kb <= ib -> k <= m1 ->
    adj m1 n1 (parfbr_left1 (lq_trans trans) m2 i0 kb V T A1 A2) (parfb_right1 trans m2 i0 kb V' T' A1' A2') /\
    adj m2 n1 (parfbr_left2 (lq_trans trans) m2 i0 kb V T A1 A2) (parfb_right2 trans m2 i0 kb V' T' A1' A2').
  Proof.
    intros trans m1 n1 m2 k ib i0 kb V V' T T' A1 A1' A2 A2' HV HT H1 H2 Hi Hk Hib Hm.
    assert (W : forall a c, 0 <= a < kb -> 0 <= c < n1 -> parfb_w_right m2 i0 V' A1' A2' c a = nconj (parfbr_w_left m2 i0 V A1 A2 a c)).
    { intros a c Ha Hc. apply (w_dual_l m1 n1 m2 k i0 kb); assumption. }
    split; intros r c Hr Hc.
    - unfold parfbr_left1, parfb_right1. rewrite (H1 r c Hr Hc). destruct (Z.leb_spec i0 r); cbn [andb]; [|reflexivity].
      destruct (Z.ltb_spec r (i0 + kb)); [|reflexivity]. rewrite nconj_sub. f_equal. rewrite nconj_sum. apply nsum_ext. intros b Hb.
      rewrite nconj_mul, W by lia. rewrite (t_dual ib k trans T T' i0 kb b (r - i0)) by (try assumption; lia). ring.
    - unfold parfbr_left2, parfb_right2. rewrite (H2 r c Hr Hc). rewrite nconj_sub. f_equal. rewrite sum_dual, nconj_sum.
      apply nsum_ext. intros a Ha. rewrite nconj_mul. rewrite (HV (i0 + a) r) by lia. f_equal. rewrite nconj_sum. apply nsum_ext. intros b Hb.
      rewrite nconj_mul, W by lia. rewrite (t_dual ib k trans T T' i0 kb b a) by (try assumption; lia). ring.
  Qed.

  Lemma parfb_dual_r : forall trans m1 n1 n2 k ib i0 kb V V' T T' A1 A1' A2 A2', adj k n2 V V' -> teq ib k T T' ->
    adj m1 n1 A1 A1' -> adj m1 n2 A2 A2' -> 0 <= i0 -> i0 + kb <= k -> kb <= ib -> k <= n1 ->
    adj m1 n1 (parfbr_right1 (lq_trans trans) n2 i0 kb V T A1 A2) (parfb_left1 trans n2 i0 kb V' T' A1' A2') /\
    adj m1 n2 (parfbr_right2 (lq_trans trans) n2 i0 kb V T A1 A2) (parfb_left2 trans n2 i0 kb V' T' A1' A2').
  Proof.
    intros trans m1 n1 n2 k ib i0 kb V V' T T' A1 A1' A2 A2' HV HT H1 H2 Hi Hk Hib Hm.
    assert (W : forall a r, 0 <= a < kb -> 0 <= r < m1 -> parfb_w_left n2 i0 V' A1' A2' a r = nconj (parfbr_w_right n2 i0 V A1 A2 r a)).
    { intros a r Ha Hr. apply (w_dual_r m1 n1 n2 k i0 kb); assumption. }
    split; intros r c Hr Hc.
    - unfold parfbr_right1, parfb_left1. rewrite (H1 r c Hr Hc). destruct (Z.leb_spec i0 c); cbn [andb]; [|reflexivity].
      destruct (Z.ltb_spec c (i0 + kb)); [|reflexivity]. rewrite nconj_sub. f_equal. rewrite nconj_sum. apply nsum_ext. intros b Hb.
      rewrite nconj_mul, W by lia. rewrite (t_dual ib k trans T T' i0 kb (c - i0) b) by (try assumption; lia). ring.
    - unfold parfbr_right2, parfb_left2. rewrite (H2 r c Hr Hc). rewrite nconj_sub. f_equal. rewrite sum_dual, nconj_sum.
      apply nsum_ext. intros a Ha. rewrite nconj_mul. rewrite (HV (i0 + a) c) by lia. f_equal. rewrite nconj_sum. apply nsum_ext. intros b Hb.
      rewrite nconj_mul, W by lia. rewrite (t_dual ib k trans T T' i0 kb a b) by (try assumption; lia). ring.
  Qed.

  Lemma tsmlq_dual : forall side trans m1 n1 m2 n2 k ib V V' T T' A1 A1' A2 A2', 0 < ib -> 0 <= k ->
    (if side =? PlasmaLeft then n1 = n2 /\ k <= m1 else m1 = m2 /\ k <= n1) ->
    adj k (if side =? PlasmaLeft then m2 else n2) V V' -> teq ib k T T' -> adj m1 n1 A1 A1' -> adj m2 n2 A2 A2' ->
    adj m1 n1 (fst (tsmlq_mat side trans m1 n1 m2 n2 k ib V T A1 A2)) (fst (tsmqr_mat (oside side) trans n1 m1 n2 m2 k ib V' T' A1' A2')) /\
    adj m2 n2 (snd (tsmlq_mat side trans m1 n1 m2 n2 k ib V T A1 A2)) (snd (tsmqr_mat (oside side) trans n1 m1 n2 m2 k ib V' T' A1' A2')).
  Proof.
    intros side trans m1 n1 m2 n2 k ib V V' T T' A1 A1' A2 A2' Hib Hk HS HV HT H1 H2. unfold tsmlq_mat, tsmqr_mat. rewrite lq_blocks_eq.
    apply (fold_rel (fun S S' => adj m1 n1 (fst S) (fst S') /\ adj m2 n2 (snd S) (snd S'))); [split; assumption|].
    intros i [X1 X2] [Y1 Y2] Hi [G1 G2]. cbn [fst snd] in G1, G2.
    apply (blocks_for_in (oside side) trans) in Hi; [|assumption|assumption].
    cbv zeta. unfold oside. destruct (side =? PlasmaLeft); cbn [fst snd].
    - change (PlasmaRight =? PlasmaLeft) with false. cbv iota. cbn [fst snd]. destruct HS as [<- HS].
      destruct (parfb_dual_l trans m1 n1 m2 k ib i (Z.min ib (k - i)) V V' T T' X1 Y1 X2 Y2) as [D1 D2]; try assumption; try lia.
      split; apply adj_memo; assumption.
    - change (PlasmaLeft =? PlasmaLeft) with true. cbv iota. cbn [fst snd]. destruct HS as [<- HS].
      destruct (parfb_dual_r trans m1 n1 n2 k ib i (Z.min ib (k - i)) V V' T T' X1 Y1 X2 Y2) as [D1 D2]; try assumption; try lia.
      split; apply adj_memo; assumption.
  Qed.
End Dual.
