(* The kernels unmqr and tsmqr: what they multiply by. *)
From Coq Require Import ZArith List Ring Bool Lia.
From Verif Require Import Base NumModel NumProofs MatModel QrModel QrSpec QrAlgProofs QrStepProofs QrKerProofs QrKerProofs2.
Import ListNotations.
Open Scope Z_scope.

Section Mul.
  Variable N : numbers.
  Add Ring mul_ring : (nring N).
  Local Notation vec := (Z -> N).

  Lemma hN_cong : forall p V V' tau tau' a b (x x' : vec),
    (forall c r, a <= c < b -> 0 <= r < p -> V r c = V' r c) ->
    (forall c, a <= c < b -> tau c = tau' c) -> same N p x x' ->
    same N p (hN N p V tau a b x) (hN N p V' tau' a b x').
  Proof.
    intros p V V' tau tau' a b x x' HV Ht Hx. unfold hN.
    assert (G : forall l, (forall c, In c l -> a <= c < b) ->
      same N p (fold_right (fun c y => hh N p (tau c) (colv N V c) y) x l)
             (fold_right (fun c y => hh N p (tau' c) (colv N V' c) y) x' l)).
    { induction l as [|c l IH]; intros Hl; [exact Hx|]. cbn [fold_right].
      rewrite (Ht c) by (apply Hl; left; reflexivity). apply hh_ext; [|apply IH; intros; apply Hl; right; assumption].
      intros r Hr. unfold colv. apply HV; [apply Hl; left; reflexivity|assumption]. }
    apply G. intros c Hc. apply in_zrange in Hc. lia.
  Qed.

  (* the product of the reflectors a .. b-1, or its conjugate transpose *)
  Definition hF (trans p : Z) (V : Z -> Z -> N) (tau : vec) (a b : Z) (x : vec) : vec :=
    if trans =? PlasmaNoTrans then hN N p V tau a b x else hC N p V tau a b x.

  Lemma hF_cong : forall trans p V V' tau tau' a b (x x' : vec),
    (forall c r, a <= c < b -> 0 <= r < p -> V r c = V' r c) ->
    (forall c, a <= c < b -> tau c = tau' c) -> same N p x x' ->
    same N p (hF trans p V tau a b x) (hF trans p V' tau' a b x').
  Proof.
    intros. unfold hF. destruct (trans =? PlasmaNoTrans); [apply hN_cong|apply hC_cong]; assumption.
  Qed.

  Definition flip (trans : Z) : Z := if trans =? PlasmaNoTrans then PlasmaConjTrans else PlasmaNoTrans.

  Lemma flip_op : forall trans T i a b, t_op trans T i a b = nconj (@t_op N (flip trans) T i b a).
  Proof.
    intros. unfold t_op, flip. destruct (trans =? PlasmaNoTrans).
    - change (PlasmaConjTrans =? PlasmaNoTrans) with false. cbv iota. rewrite nconj_conj. reflexivity.
    - rewrite Z.eqb_refl. reflexivity.
  Qed.

  Lemma flip_blocks : forall trans k ib, blocks_for PlasmaRight trans k ib = blocks_for PlasmaLeft (flip trans) k ib.
  Proof.
    intros. unfold blocks_for, flip. destruct (trans =? PlasmaNoTrans); reflexivity.
  Qed.

  Lemma blocks_in : forall k ib i, 0 < ib -> 0 <= k -> In i (blocks k ib) -> 0 <= i < k.
  Proof.
    intros k ib i Hib Hk Hi. unfold blocks in Hi. apply in_map_iff in Hi. destruct Hi as (t & <- & Ht).
    apply in_zrange in Ht. pose proof (Z.mul_div_le (k + ib - 1) ib Hib).
    assert ((t + 1) * ib <= ib * ((k + ib - 1) / ib)) by nia. nia.
  Qed.
  Lemma blocks_for_in : forall side trans k ib i, 0 < ib -> 0 <= k -> In i (blocks_for side trans k ib) -> 0 <= i < k.
  Proof.
    intros side trans k ib i Hib Hk. unfold blocks_for.
    match goal with |- context [if ?b then _ else _] => destruct b end; [|rewrite <- in_rev]; apply blocks_in; assumption.
  Qed.

  (* ------------------------------------------------------------------ unmqr *)

  Lemma unmqr_left : forall trans m n k ib A T C tau, 0 < ib -> 0 <= k <= m ->
    all_good N m (v_unit A) tau T ib k k ->
    forall r c, 0 <= r < m -> 0 <= c < n ->
    unmqr_mat PlasmaLeft trans m n k ib A T C r c = hF trans m (v_unit A) tau 0 k (colv N C c) r.
  Proof.
    intros trans m n k ib A T C tau Hib Hk HG. unfold unmqr_mat, hF.
    unfold blocks_for. change (PlasmaLeft =? PlasmaLeft) with true. cbn [negb andb orb].
    destruct (Z.eqb_spec trans PlasmaNoTrans) as [->|D]; cbn [negb orb].
    - apply (blocks_ind_rev (fun i C' => forall r c, 0 <= r < m -> 0 <= c < n ->
        C' r c = hN N m (v_unit A) tau i k (colv N C c) r)); try lia.
      + intros. rewrite hN_nil by lia. reflexivity.
      + intros i C' Hi Hm IH r c Hr Hc. rewrite memo_in by lia. rewrite larfb_left_N with (tau := tau) by (try lia; auto).
        rewrite (hN_app N m (v_unit A) tau i (i + Z.min ib (k - i)) k) by lia.
        apply hN_cong; auto. intros s Hs. apply IH; assumption.
    - apply (blocks_ind (fun i C' => forall r c, 0 <= r < m -> 0 <= c < n ->
        C' r c = hC N m (v_unit A) tau 0 i (colv N C c) r)); try lia.
      + intros. rewrite hC_nil by lia. reflexivity.
      + intros i C' Hi Hm IH r c Hr Hc. rewrite memo_in by lia. rewrite larfb_left_w by lia.
        destruct (Z.eqb_spec trans PlasmaNoTrans); [contradiction|].
        etransitivity; [apply (wC_h N m (v_unit A) tau); [lia|apply HG; assumption|assumption]|].
        rewrite (hC_app N m (v_unit A) tau 0 i (i + Z.min ib (k - i))) by lia.
        apply hC_cong; auto. intros s Hs. apply IH; assumption.
  Qed.

  Lemma larfb_dual : forall trans n i kb V T (C D : Z -> Z -> N) r c,
    0 <= i -> (forall s, 0 <= s < n -> C r s = nconj (D s r)) -> 0 <= c < n ->
    larfb_right trans n i kb V T C r c = nconj (larfb_left (flip trans) n i kb V T D c r).
  Proof.
    intros trans n i kb V T C D r c Hi E Hc. unfold larfb_right, larfb_left.
    destruct (c <? i); [apply E; assumption|]. rewrite nconj_sub. f_equal; [apply E; assumption|].
    rewrite nconj_sum. apply nsum_ext. intros b Hb. rewrite nconj_mul, nconj_sum.
    transitivity (nmul (nconj (v_unit V c (i + b)))
      (nsum (fun a => nmul (nsum (fun s => nmul (C r s) (v_unit V s (i + a))) i n) (t_op trans T i a b)) 0 kb)); [ring|].
    f_equal. apply nsum_ext. intros a Ha. rewrite nconj_mul. rewrite (flip_op trans T i a b). rewrite nconj_sum.
    transitivity (nmul (nconj (t_op (flip trans) T i b a)) (nsum (fun s => nmul (C r s) (v_unit V s (i + a))) i n)); [ring|].
    f_equal. apply nsum_ext. intros s Hs. rewrite nconj_mul, nconj_conj, (E s) by lia. ring.
  Qed.

  Lemma unmqr_dual : forall trans m n k ib A T (C D : Z -> Z -> N), 0 < ib -> 0 <= k <= n ->
    (forall r c, 0 <= r < m -> 0 <= c < n -> C r c = nconj (D c r)) ->
    forall r c, 0 <= r < m -> 0 <= c < n ->
    unmqr_mat PlasmaRight trans m n k ib A T C r c = nconj (unmqr_mat PlasmaLeft (flip trans) n m k ib A T D c r).
  Proof.
    intros trans m n k ib A T C D Hib Hk. unfold unmqr_mat. rewrite flip_blocks.
    assert (B : forall i, In i (blocks_for PlasmaLeft (flip trans) k ib) -> 0 <= i < k)
      by (intros; eapply blocks_for_in; eauto; lia).
    revert C D B. induction (blocks_for PlasmaLeft (flip trans) k ib) as [|i l IH]; intros C D B E r c Hr Hc; cbn [fold_left].
    - apply E; assumption.
    - apply IH; auto; [intros; apply B; right; assumption|].
      intros r' c' Hr' Hc'. rewrite !memo_in by lia.
      change (PlasmaRight =? PlasmaLeft) with false. change (PlasmaLeft =? PlasmaLeft) with true. cbv iota zeta.
      apply larfb_dual; auto. assert (0 <= i < k) by (apply B; left; reflexivity). lia.
  Qed.

  Lemma unmqr_right : forall trans m n k ib A T C tau, 0 < ib -> 0 <= k <= n ->
    all_good N n (v_unit A) tau T ib k k ->
    forall r c, 0 <= r < m -> 0 <= c < n ->
    unmqr_mat PlasmaRight trans m n k ib A T C r c
      = nconj (hF (flip trans) n (v_unit A) tau 0 k (fun s => nconj (C r s)) c).
  Proof.
    intros trans m n k ib A T C tau Hib Hk HG r c Hr Hc.
    rewrite (unmqr_dual trans m n k ib A T C (fun s q => nconj (C q s))) by (auto; intros; rewrite nconj_conj; reflexivity).
    f_equal. rewrite unmqr_left with (tau := tau) by (auto; lia). reflexivity.
  Qed.

  (* ------------------------------------------------------------------ tsmqr *)

  Lemma tsmqr_left : forall trans m1 n m2 k ib V T A1 A2 tau, 0 < ib -> 0 <= k <= m1 -> 0 <= m2 ->
    all_good N (k + m2) (vst N k V) tau T ib k k ->
    let R := tsmqr_mat PlasmaLeft trans m1 n m2 n k ib V T A1 A2 in
    let x c := hF trans (k + m2) (vst N k V) tau 0 k (colv N (stk N k A1 A2) c) in
    (forall r c, 0 <= r < k -> 0 <= c < n -> fst R r c = x c r) /\
    (forall r c, k <= r < m1 -> 0 <= c < n -> fst R r c = A1 r c) /\
    (forall r c, 0 <= r < m2 -> 0 <= c < n -> snd R r c = x c (k + r)).
  Proof.
    intros trans m1 n m2 k ib V T A1 A2 tau Hib Hk Hm HG R x.
    assert (G : (forall r c, 0 <= r < k + m2 -> 0 <= c < n -> stk N k (fst R) (snd R) r c = x c r) /\
                (forall r c, k <= r < m1 -> 0 <= c < n -> fst R r c = A1 r c)).
    2:{ destruct G as [G1 G2]. split; [|split; [assumption|]]; intros r c Hr Hc.
        - rewrite <- G1 by lia. rewrite stk_lo by lia. reflexivity.
        - rewrite <- G1 by lia. rewrite stk_hi by lia. f_equal. lia. }
    unfold R, x, tsmqr_mat, hF. clear R x.
    unfold blocks_for. change (PlasmaLeft =? PlasmaLeft) with true. cbn [negb andb orb].
    destruct (Z.eqb_spec trans PlasmaNoTrans) as [->|D]; cbn [negb orb].
    - apply (blocks_ind_rev (fun i A => (forall r c, 0 <= r < k + m2 -> 0 <= c < n ->
          stk N k (fst A) (snd A) r c = hN N (k + m2) (vst N k V) tau i k (colv N (stk N k A1 A2) c) r) /\
          (forall r c, k <= r < m1 -> 0 <= c < n -> fst A r c = A1 r c))); try lia.
      + split; [|auto]. intros. rewrite hN_nil by lia. reflexivity.
      + intros i [B1 B2] Hi Hmod (IH1 & IH2). cbn [fst snd] in *. split.
        * intros r c Hr Hc. rewrite (hN_app N (k + m2) (vst N k V) tau i (i + Z.min ib (k - i)) k) by lia.
          transitivity (wN N (k + m2) (vst N k V) i T (Z.min ib (k - i)) (colv N (stk N k B1 B2) c) r).
          -- destruct (Z.ltb_spec r k).
             ++ rewrite stk_lo by lia. rewrite memo_in by lia. rewrite (parfb_left_lo N _ _ _ _ k) by lia. reflexivity.
             ++ rewrite stk_hi by lia. rewrite memo_in by lia. rewrite (parfb_left_hi N _ _ _ _ k) by lia.
                rewrite Z.eqb_refl. f_equal. lia.
          -- etransitivity; [apply (wN_h N (k + m2) (vst N k V) tau); [lia|apply HG; assumption|assumption]|].
             apply hN_cong; auto. intros s Hs. apply IH1; assumption.
        * intros r c Hr Hc. rewrite memo_in by lia. unfold parfb_left1.
          destruct (Z.ltb_spec r (i + Z.min ib (k - i))); [lia|]. rewrite andb_false_r. apply IH2; assumption.
    - apply (blocks_ind (fun i A => (forall r c, 0 <= r < k + m2 -> 0 <= c < n ->
          stk N k (fst A) (snd A) r c = hC N (k + m2) (vst N k V) tau 0 i (colv N (stk N k A1 A2) c) r) /\
          (forall r c, k <= r < m1 -> 0 <= c < n -> fst A r c = A1 r c))); try lia.
      + split; [|auto]. intros. rewrite hC_nil by lia. reflexivity.
      + intros i [B1 B2] Hi Hmod (IH1 & IH2). cbn [fst snd] in *. split.
        * intros r c Hr Hc. rewrite (hC_app N (k + m2) (vst N k V) tau 0 i (i + Z.min ib (k - i))) by lia.
          transitivity (wC N (k + m2) (vst N k V) i T (Z.min ib (k - i)) (colv N (stk N k B1 B2) c) r).
          -- destruct (Z.ltb_spec r k).
             ++ rewrite stk_lo by lia. rewrite memo_in by lia. rewrite (parfb_left_lo N _ _ _ _ k) by lia.
                destruct (Z.eqb_spec trans PlasmaNoTrans); [contradiction|]. reflexivity.
             ++ rewrite stk_hi by lia. rewrite memo_in by lia. rewrite (parfb_left_hi N _ _ _ _ k) by lia.
                destruct (Z.eqb_spec trans PlasmaNoTrans); [contradiction|]. f_equal. lia.
          -- etransitivity; [apply (wC_h N (k + m2) (vst N k V) tau); [lia|apply HG; assumption|assumption]|].
             apply hC_cong; auto. intros s Hs. apply IH1; assumption.
        * intros r c Hr Hc. rewrite memo_in by lia. unfold parfb_left1.
          destruct (Z.ltb_spec r (i + Z.min ib (k - i))); [lia|]. rewrite andb_false_r. apply IH2; assumption.
  Qed.

  Lemma parfb_dual : forall trans n2 i kb V T (A1 A2 D1 D2 : Z -> Z -> N) r,
    (forall s, i <= s < i + kb -> A1 r s = nconj (D1 s r)) ->
    (forall s, 0 <= s < n2 -> A2 r s = nconj (D2 s r)) ->
    (forall c, A1 r c = nconj (D1 c r) ->
       parfb_right1 trans n2 i kb V T A1 A2 r c = nconj (parfb_left1 (flip trans) n2 i kb V T D1 D2 c r)) /\
    (forall c, A2 r c = nconj (D2 c r) ->
       parfb_right2 trans n2 i kb V T A1 A2 r c = nconj (parfb_left2 (flip trans) n2 i kb V T D1 D2 c r)).
  Proof.
    intros trans n2 i kb V T A1 A2 D1 D2 r E1 E2.
    assert (W : forall a, 0 <= a < kb -> parfb_w_right n2 i V A1 A2 r a = nconj (parfb_w_left n2 i V D1 D2 a r)).
    { intros a Ha. unfold parfb_w_right, parfb_w_left. rewrite nconj_add, nconj_sum. f_equal; [apply E1; lia|].
      apply nsum_ext. intros s Hs. rewrite nconj_mul, nconj_conj, (E2 s) by lia. ring. }
    assert (S : forall b, nsum (fun a => nmul (parfb_w_right n2 i V A1 A2 r a) (t_op trans T i a b)) 0 kb
       = nconj (nsum (fun a => nmul (t_op (flip trans) T i b a) (parfb_w_left n2 i V D1 D2 a r)) 0 kb)).
    { intros b. rewrite nconj_sum. apply nsum_ext. intros a Ha. rewrite nconj_mul, <- flip_op, W by lia. ring. }
    split; intros c Ec.
    - unfold parfb_right1, parfb_left1. destruct ((i <=? c) && (c <? i + kb)); [|assumption].
      rewrite nconj_sub, S, Ec. reflexivity.
    - unfold parfb_right2, parfb_left2. rewrite nconj_sub, Ec. f_equal. rewrite nconj_sum. apply nsum_ext.
      intros b Hb. rewrite S, nconj_mul. ring.
  Qed.

  Lemma tsmqr_dual : forall trans m n1 n2 k ib V T A1 A2 (D1 D2 : Z -> Z -> N), 0 < ib -> 0 <= k <= n1 ->
    (forall r c, 0 <= r < m -> 0 <= c < n1 -> A1 r c = nconj (D1 c r)) ->
    (forall r c, 0 <= r < m -> 0 <= c < n2 -> A2 r c = nconj (D2 c r)) ->
    let R := tsmqr_mat PlasmaRight trans m n1 m n2 k ib V T A1 A2 in
    let L := tsmqr_mat PlasmaLeft (flip trans) n1 m n2 m k ib V T D1 D2 in
    (forall r c, 0 <= r < m -> 0 <= c < n1 -> fst R r c = nconj (fst L c r)) /\
    (forall r c, 0 <= r < m -> 0 <= c < n2 -> snd R r c = nconj (snd L c r)).
  Proof.
    intros trans m n1 n2 k ib V T A1 A2 D1 D2 Hib Hk E1 E2. unfold tsmqr_mat. rewrite flip_blocks.
    assert (B : forall i, In i (blocks_for PlasmaLeft (flip trans) k ib) -> 0 <= i < k)
      by (intros; eapply blocks_for_in; eauto; lia).
    revert A1 A2 D1 D2 E1 E2 B. change (PlasmaRight =? PlasmaLeft) with false.
    change (PlasmaLeft =? PlasmaLeft) with true. cbv iota zeta.
    induction (blocks_for PlasmaLeft (flip trans) k ib) as [|i l IH]; intros A1 A2 D1 D2 E1 E2 B; cbn [fold_left].
    - split; assumption.
    - cbn [fst snd]. assert (Hi : 0 <= i < k) by (apply B; left; reflexivity).
      apply IH; [| |intros; apply B; right; assumption].
      + intros r c Hr Hc. rewrite !memo_in by lia.
        destruct (parfb_dual trans n2 i (Z.min ib (k - i)) V T A1 A2 D1 D2 r) as [P1 P2];
          [intros; apply E1; lia|intros; apply E2; lia|]. apply P1. apply E1; lia.
      + intros r c Hr Hc. rewrite !memo_in by lia.
        destruct (parfb_dual trans n2 i (Z.min ib (k - i)) V T A1 A2 D1 D2 r) as [P1 P2];
          [intros; apply E1; lia|intros; apply E2; lia|]. apply P2. apply E2; lia.
  Qed.

  Lemma tsmqr_right : forall trans m n1 n2 k ib V T A1 A2 tau, 0 < ib -> 0 <= k <= n1 -> 0 <= n2 ->
    all_good N (k + n2) (vst N k V) tau T ib k k ->
    let R := tsmqr_mat PlasmaRight trans m n1 m n2 k ib V T A1 A2 in
    let x r := hF (flip trans) (k + n2) (vst N k V) tau 0 k
                 (fun s => nconj (if s <? k then A1 r s else A2 r (s - k))) in
    (forall r c, 0 <= r < m -> 0 <= c < k -> fst R r c = nconj (x r c)) /\
    (forall r c, 0 <= r < m -> k <= c < n1 -> fst R r c = A1 r c) /\
    (forall r c, 0 <= r < m -> 0 <= c < n2 -> snd R r c = nconj (x r (k + c))).
  Proof.
    intros trans m n1 n2 k ib V T A1 A2 tau Hib Hk Hn HG R x.
    destruct (tsmqr_dual trans m n1 n2 k ib V T A1 A2 (fun s q => nconj (A1 q s)) (fun s q => nconj (A2 q s))) as [F1 F2];
      auto; try (intros; rewrite nconj_conj; reflexivity).
    destruct (tsmqr_left (flip trans) n1 m n2 k ib V T (fun s q => nconj (A1 q s)) (fun s q => nconj (A2 q s)) tau)
      as (L1 & L2 & L3); auto.
    assert (X : forall r, same N (k + n2) (hF (flip trans) (k + n2) (vst N k V) tau 0 k
                (colv N (stk N k (fun s q => nconj (A1 q s)) (fun s q => nconj (A2 q s))) r)) (x r)).
    { intros r. unfold x. apply hF_cong; auto. intros s Hs. unfold colv, stk. destruct (s <? k); reflexivity. }
    split; [|split]; intros r c Hr Hc; unfold R.
    - rewrite F1 by lia. rewrite L1 by lia. rewrite X by lia. reflexivity.
    - rewrite F1 by lia. rewrite L2 by lia. apply nconj_conj.
    - rewrite F2 by lia. rewrite L3 by lia. rewrite X by lia. reflexivity.
  Qed.

  (* ------------------------------------------------------------------ what they depend on *)

  Lemma all_good_cong : forall p V V' tau tau' T T' ib k, 0 < ib ->
    (forall c r, 0 <= c < k -> 0 <= r < p -> V r c = V' r c) ->
    (forall c, 0 <= c < k -> tau c = tau' c) ->
    (forall a c, 0 <= c < k -> 0 <= a <= c mod ib -> T a c = T' a c) ->
    all_good N p V tau T ib k k -> all_good N p V' tau' T' ib k k.
  Proof.
    intros p V V' tau tau' T T' ib k Hib HV Ht HT G i Hi Hm c Hc.
    destruct (G i Hi Hm c Hc) as [G1 G2].
    assert (MD : forall b, 0 <= b < ib -> (i + b) mod ib = b).
    { intros b Hb. rewrite Z.add_mod by lia. rewrite Hm. rewrite Z.add_0_l. rewrite Z.mod_mod by lia. apply Z.mod_small. lia. }
    split.
    - rewrite <- HT, <- Ht; [assumption|lia|lia|]. rewrite MD by lia. lia.
    - intros a Ha. rewrite <- HT by (try rewrite MD; lia). rewrite G2 by assumption.
      apply nsum_ext. intros b Hb. f_equal.
      + unfold tu. destruct (Z.leb_spec a b); [|reflexivity]. apply HT; try rewrite MD; lia.
      + rewrite Ht by lia. f_equal. apply dot_ext; intros r Hr; unfold colv; apply HV; lia.
  Qed.
End Mul.
