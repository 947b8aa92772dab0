(* The factorization kernels of LQ and QR on conjugate transposes. *)
From Coq Require Import ZArith List Ring Bool Lia.
From Verif Require Import Base NumModel NumProofs MatModel QrModel QrAlgProofs QrStepProofs QrMulProofs LqModel LqDualProofs.
Import ListNotations.
Open Scope Z_scope.

Section Dual.
  Context {N : numbers}.
  Add Ring lq_dual2_ring : (nring N).
  Variable lg : N -> list N -> N * N * list N.

  Lemma gelq2_dual : forall m n r1 (X X' : Z -> Z -> N) (tau tau' : Z -> N) j, adj m n X X' -> (forall c, tau' c = tau c) -> 0 <= j < m -> j < n ->
    adj m n (fst (gelq2_step lg n r1 (X, tau) j)) (fst (geqr2_step lg n r1 (X', tau') j)) /\
    (forall c, snd (geqr2_step lg n r1 (X', tau') j) c = snd (gelq2_step lg n r1 (X, tau) j) c).
  Proof.
    intros m n r1 X X' tau tau' j H Ht Hj Hn. unfold gelq2_step, geqr2_step. cbn [fst snd].
    rewrite (H j j) by lia.
    replace (map (fun r => X' r j) (zrange (j + 1) n)) with (map (fun s => nconj (X j s)) (zrange (j + 1) n)).
    2:{ apply map_ext_in. intros s Hs. apply in_zrange in Hs. rewrite (H j s) by lia. reflexivity. }
    destruct (lg (nconj (X j j)) (map (fun s => nconj (X j s)) (zrange (j + 1) n))) as [[beta t] v]. cbn [fst snd]. split.
    - intros r c Hr Hc. destruct (Z.eqb_spec r j) as [->|D].
      + destruct (Z.ltb_spec c j); [rewrite (H j c) by lia; reflexivity|].
        destruct (Z.eqb_spec c j); [rewrite nconj_conj; reflexivity|rewrite nconj_conj; reflexivity].
      + destruct ((j <? r) && (r <? r1)); [|apply H; assumption].
        rewrite nconj_sub. rewrite (H r c) by lia. f_equal. rewrite !nconj_mul, nconj_conj, nconj_sum.
        rewrite (nsum_ext N _ (fun i => nconj (nmul (X r i) (if i <? j then NumModel.n0 else if i =? j then n1 else nth (Z.to_nat (i - j - 1)) v NumModel.n0)))); [ring|].
        intros s Hs. rewrite nconj_mul. rewrite (H r s) by lia. ring.
    - intros c. rewrite Ht. reflexivity.
  Qed.

  Lemma larft_dual : forall m n ib i0 sb (A A' : Z -> Z -> N) (tau tau' : Z -> N) T T' j, adj m n A A' -> (forall c, tau' c = tau c) ->
    teq ib (Z.min m n) T T' -> 0 <= i0 -> sb <= ib -> i0 + sb <= Z.min m n -> i0 <= j < i0 + sb ->
    teq ib (Z.min m n) (larftr_step n i0 A tau T j) (larft_step n i0 A' tau' T' j).
  Proof.
    intros m n ib i0 sb A A' tau tau' T T' j H Ht HT Hi Hsb Hk Hj a c Ha Hc. unfold larft_step, larftr_step.
    destruct (c =? j); [|apply HT; assumption]. destruct (a =? j - i0); [apply Ht|].
    apply nsum_ext. intros b Hb. rewrite (HT a (i0 + b)) by lia. rewrite Ht. f_equal. f_equal.
    apply nsum_ext. intros s Hs. rewrite !(v_dual m n A A') by (try assumption; lia). rewrite nconj_conj. ring.
  Qed.

  Lemma gelqt_dual : forall m n ib A A', 0 < ib -> 0 <= m -> 0 <= n -> adj m n A A' ->
    adj m n (fst (gelqt_mat lg m n ib A)) (fst (geqrt_mat lg n m ib A')) /\
    teq ib (Z.min m n) (snd (gelqt_mat lg m n ib A)) (snd (geqrt_mat lg n m ib A')).
  Proof.
    intros m n ib A A' Hib Hm Hn HA. unfold gelqt_mat, geqrt_mat. cbv zeta. rewrite (Z.min_comm n m).
    apply (fold_rel (fun S S' => adj m n (fst S) (fst S') /\ teq ib (Z.min m n) (snd S) (snd S'))).
    { cbn [fst snd]. split; [assumption|]. intros i j _ _. reflexivity. }
    intros i [X T] [X' T'] Hi [HX HT]. cbn [fst snd] in HX, HT. apply blocks_in in Hi; [|assumption|lia]. cbn [fst snd].
    remember (Z.min ib (Z.min m n - i)) as sb eqn:Esb.
    assert (P : adj m n
        (fst (fold_left (fun Q j => (memo m n (fst (gelq2_step lg n (i + sb) Q j)), snd (gelq2_step lg n (i + sb) Q j))) (zrange i (i + sb)) (X, fun _ => NumModel.n0)))
        (fst (fold_left (fun Q j => (memo n m (fst (geqr2_step lg n (i + sb) Q j)), snd (geqr2_step lg n (i + sb) Q j))) (zrange i (i + sb)) (X', fun _ => NumModel.n0))) /\
      (forall c, snd (fold_left (fun Q j => (memo n m (fst (geqr2_step lg n (i + sb) Q j)), snd (geqr2_step lg n (i + sb) Q j))) (zrange i (i + sb)) (X', fun _ => NumModel.n0)) c
        = snd (fold_left (fun Q j => (memo m n (fst (gelq2_step lg n (i + sb) Q j)), snd (gelq2_step lg n (i + sb) Q j))) (zrange i (i + sb)) (X, fun _ => NumModel.n0)) c)).
    { apply (fold_rel (fun S S' => adj m n (fst S) (fst S') /\ (forall c, snd S' c = snd S c))); [split; [assumption|reflexivity]|].
      intros j [Y tau] [Y' tau'] Hj [G1 G2]. apply in_zrange in Hj. cbn [fst snd] in G1, G2. cbn [fst snd].
      destruct (gelq2_dual m n (i + sb) Y Y' tau tau' j) as [D1 D2]; try assumption; try lia.
      split; [apply adj_memo; assumption|assumption]. }
    destruct P as [P1 P2].
    remember (fold_left (fun Q j => (memo m n (fst (gelq2_step lg n (i + sb) Q j)), snd (gelq2_step lg n (i + sb) Q j))) (zrange i (i + sb)) (X, fun _ => NumModel.n0)) as P.
    remember (fold_left (fun Q j => (memo n m (fst (geqr2_step lg n (i + sb) Q j)), snd (geqr2_step lg n (i + sb) Q j))) (zrange i (i + sb)) (X', fun _ => NumModel.n0)) as P'.
    assert (T1 : teq ib (Z.min m n)
      (fold_left (fun T j => memo ib (Z.min m n) (larftr_step n i (fst P) (snd P) T j)) (zrange i (i + sb)) T)
      (fold_left (fun T j => memo ib (Z.min m n) (larft_step n i (fst P') (snd P') T j)) (zrange i (i + sb)) T')).
    { apply (fold_rel (teq ib (Z.min m n))); [assumption|]. intros j S S' Hj HS. apply in_zrange in Hj. apply teq_memo.
      apply (larft_dual m n ib i sb); try assumption; lia. }
    split; [|exact T1]. apply adj_memo. intros r c Hr Hc. destruct (Z.leb_spec (i + sb) r); [|apply P1; assumption].
    apply (larfb_dual_r PlasmaConjTrans m n (Z.min m n) ib i sb); try assumption; try lia.
    intros a s Ha Hs. apply P1; lia.
  Qed.

  (* ------------------------------------------------------------------ tslqt *)

  Definition st3 (m n ib : Z) (S S' : (Z -> Z -> N) * (Z -> Z -> N) * (Z -> Z -> N)) : Prop :=
    adj m m (fst (fst S)) (fst (fst S')) /\ adj m n (snd (fst S)) (snd (fst S')) /\ teq ib m (snd S) (snd S').

  Lemma tslqt_step_dual : forall m n ib i0 sb S S' j, st3 m n ib S S' -> 0 <= i0 -> sb <= ib -> i0 + sb <= m -> i0 <= j < i0 + sb ->
    st3 m n ib (tslqt_step lg n i0 sb S j) (tsqrt_step lg n i0 sb S' j).
  Proof.
    intros m n ib i0 sb [[A1 A2] T] [[A1' A2'] T'] j (H1 & H2 & H3) Hi Hsb Hm Hj. cbn [fst snd] in H1, H2, H3.
    unfold tslqt_step, tsqrt_step. rewrite (H1 j j) by lia.
    replace (map (fun r => A2' r j) (zrange 0 n)) with (map (fun s => nconj (A2 j s)) (zrange 0 n)).
    2:{ apply map_ext_in. intros s Hs. apply in_zrange in Hs. rewrite (H2 j s) by lia. reflexivity. }
    destruct (lg (nconj (A1 j j)) (map (fun s => nconj (A2 j s)) (zrange 0 n))) as [[beta tau] v].
    assert (W : forall c, 0 <= c < m ->
      nadd (A1' j c) (nsum (fun s => nmul (A2' s c) (nconj (nth (Z.to_nat s) v NumModel.n0))) 0 n)
      = nconj (nadd (A1 c j) (nsum (fun s => nmul (A2 c s) (nth (Z.to_nat s) v NumModel.n0)) 0 n))).
    { intros c Hc. rewrite nconj_add. rewrite (H1 c j) by lia. f_equal. rewrite nconj_sum. apply nsum_ext. intros s Hs.
      rewrite nconj_mul. rewrite (H2 c s) by lia. reflexivity. }
    split; [|split]; cbn [fst snd]; intros r c Hr Hc.
    - rewrite (andb_comm (c =? j) (r =? j)). destruct (Z.eqb_spec r j) as [->|]; destruct (Z.eqb_spec c j) as [->|]; cbn [andb].
      + rewrite nconj_conj. reflexivity.
      + apply H1; assumption.
      + destruct ((j <? r) && (r <? i0 + sb)); [|apply H1; assumption].
        rewrite nconj_add, nconj_mul, nconj_opp. rewrite W by lia. rewrite (H1 r j) by lia. reflexivity.
      + apply H1; assumption.
    - destruct (r =? j); [rewrite nconj_conj; reflexivity|]. destruct ((j <? r) && (r <? i0 + sb)); [|apply H2; assumption].
      rewrite nconj_add, !nconj_mul, nconj_opp, nconj_conj. rewrite W by lia. rewrite (H2 r c) by lia. f_equal. ring.
    - destruct (c =? j); [|apply H3; assumption]. destruct (r =? j - i0); [reflexivity|].
      apply nsum_ext. intros b Hb. rewrite (H3 r (i0 + b)) by lia. f_equal. f_equal. apply nsum_ext. intros s Hs.
      rewrite (H2 (i0 + b) s) by lia. rewrite nconj_conj. reflexivity.
  Qed.

  Lemma tslqt_dual : forall m n ib A1 A1' A2 A2', 0 < ib -> 0 <= m -> adj m m A1 A1' -> adj m n A2 A2' ->
    st3 m n ib (tslqt_mat lg m n ib A1 A2) (tsqrt_mat lg n m ib A1' A2').
  Proof.
    intros m n ib A1 A1' A2 A2' Hib Hm H1 H2. unfold tslqt_mat, tsqrt_mat.
    apply (fold_rel (st3 m n ib)).
    { split; [assumption|]. split; [assumption|]. intros i j _ _. reflexivity. }
    intros i S S' Hi HS. apply blocks_in in Hi; [|assumption|assumption]. cbv zeta.
    remember (Z.min (m - i) ib) as sb eqn:Esb.
    assert (P : st3 m n ib
      (fold_left (fun Q j => let '(X1, X2, Y) := tslqt_step lg n i sb Q j in (memo m m X1, memo m n X2, memo ib m Y)) (zrange i (i + sb)) S)
      (fold_left (fun Q j => let '(X1, X2, Y) := tsqrt_step lg n i sb Q j in (memo m m X1, memo n m X2, memo ib m Y)) (zrange i (i + sb)) S')).
    { apply (fold_rel (st3 m n ib)); [assumption|]. intros j U U' Hj HU. apply in_zrange in Hj.
      pose proof (tslqt_step_dual m n ib i sb U U' j HU ltac:(lia) ltac:(lia) ltac:(lia) Hj) as D.
      destruct (tslqt_step lg n i sb U j) as [[X1 X2] Y], (tsqrt_step lg n i sb U' j) as [[X1' X2'] Y']. destruct D as (D1 & D2 & D3).
      split; [apply adj_memo; assumption|]. split; [apply adj_memo; assumption|apply teq_memo; assumption]. }
    destruct (fold_left _ (zrange i (i + sb)) S) as [[B1 B2] T1]. destruct (fold_left _ (zrange i (i + sb)) S') as [[B1' B2'] T1'].
    destruct P as (P1 & P2 & P3). cbn [fst snd] in P1, P2, P3. 
    destruct (parfb_dual_r PlasmaConjTrans m m n m ib i sb B2 B2' T1 T1' B1 B1' B2 B2') as [D1 D2]; try assumption; try lia.
    split; [|split]; cbn [fst snd]; [apply adj_memo|apply adj_memo|assumption]; intros r c Hr Hc;
      (destruct (Z.leb_spec (i + sb) r); [|first [apply P1; assumption|apply P2; assumption]]).
    - apply D1; assumption.
    - apply D2; assumption.
  Qed.
End Dual.
