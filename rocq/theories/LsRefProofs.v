(* plasma_zungqr with fewer reflectors than columns. *)
From Coq Require Import Reals ZArith List Bool Lia Lra.
From Verif Require Import Base NumModel NumProofs FieldModel ComplexInstances TaskModel TaskSpec DescModel DescDriverModel
  MatModel MatSpec DriverModel DriverSpec RankDriverProofs QrModel QrSpec QrInstances LsModel LsSpec LsGqrProofs.
Import ListNotations.
Open Scope Z_scope.

Lemma driver_both : forall V (d : driver V) M (P Q : mem V -> Prop),
  driver_ensures d M P -> driver_ensures d M Q -> driver_ensures d M (fun M' => P M' /\ Q M').
Proof.
  intros V [code|ks] M P Q; cbn [driver_ensures].
  - tauto.
  - intros [I H1] [_ H2]. split; [assumption|]. intros ts s HF HS.
    destruct (H1 ts s HF HS) as [A B], (H2 ts s HF HS) as [C _]. split; [|assumption]. intros HE. split; auto.
Qed.

Lemma NoDup_app_disj : forall (l1 l2 : list Z), NoDup (l1 ++ l2) -> forall x, In x l1 -> In x l2 -> False.
Proof.
  induction l1 as [|a l1 IH]; intros l2 H x H1 H2; [contradiction|]. cbn in H. inversion H as [|? ? A B]; subst.
  destruct H1 as [<-|H1]; [apply A, in_or_app; right; assumption|]. exact (IH l2 B x H1 H2).
Qed.

Section Short.
Context {N : numbers}.
Add Ring num_ring_ls_ref : (nring N).
Lemma zungqr_short : forall (lg : N -> list N -> N * N * list N), larfg_ok lg -> (n1 : N) <> n0 ->
  forall nb ib m n k pA lda bA bT M pQ ldq bV bQ,
  0 < nb -> 0 < ib -> 0 <= k -> k < n <= m -> Z.max 1 m <= lda -> Z.max 1 m <= ldq -> NoDup [fst pA; bA; bT; fst pQ; bV; bQ] ->
  (forall i, 0 <= i < m -> ul M pQ ldq i k = n0) ->
  driver_ensures (zgeqrf lg nb ib m k pA lda bA bT) M (fun M' => forall T size, geqrf_T nb ib m k = CrOk T size ->
    driver_ensures (zungqr nb m n k pA lda bT T pQ ldq bV bQ) M' (fun M3 => ~ orthonormal_columns m n (ul M3 pQ ldq))).
Proof.
  intros lg LG NT nb ib m n k pA lda bA bT M pQ ldq bV bQ Hnb Hib Hk Hn Hlda Hldq HND HZ.
  assert (HND1 : NoDup [fst pA; bA; bT]).
  { inversion HND as [|? ? X1 X2]; subst. inversion X2 as [|? ? X3 X4]; subst.
    constructor; [|constructor; [|constructor; [|constructor]]]; cbn in *; tauto. }
  pose proof (zungqr_main (N := N) lg LG nb ib m k pA lda bA bT M Hnb Hib ltac:(lia) Hk Hlda HND1) as X.
  pose proof (QrDriverProofs.zgeqrf_main lg LG nb ib m k pA lda bA bT M Hnb Hib ltac:(lia) Hk Hlda HND1) as Y.
  eapply driver_mono; [|exact (driver_both _ _ _ _ _ X Y)]. clear X Y.
  intros M' [(Q & _ & _ & XQ) (_ & _ & _ & FR & _)] T size HT.
  rewrite Z.min_r in * by lia.
  assert (D : forall x y, In x [fst pA; bA; bT] -> In y [fst pQ; bV; bQ] -> x <> y).
  { intros x y HX HY ->. apply (NoDup_app_disj [fst pA; bA; bT] [fst pQ; bV; bQ] HND y HX HY). }
  assert (HND3 : NoDup [fst pQ; bV; bQ]).
  { inversion HND as [|? ? _ X2]; subst. inversion X2 as [|? ? _ X4]; subst. inversion X4; subst; assumption. }
  assert (HND2 : NoDup [bT; bV; bQ]).
  { inversion HND3 as [|? ? X1 X2]; subst. constructor; [|assumption].
    intros HI. apply (D bT bT); [cbn; tauto|right; exact HI|reflexivity]. }
  assert (D2 : fst pA <> fst pQ) by (apply D; cbn; tauto).
  eapply driver_mono; [|apply (XQ T size n pA lda pQ ldq bV bQ M' HT)]; try assumption; try lia.
  - intros M3 [_ F3] OC. specialize (OC k k ltac:(lia) ltac:(lia)). rewrite Z.eqb_refl in OC.
    apply NT. rewrite <- OC. apply nsum_0. intros i Hi.
    assert (E : ul M3 pQ ldq i k = NumModel.n0); [|rewrite E; ring].
    rewrite <- (HZ i Hi). unfold ul. rewrite F3, FR; [reflexivity| | | | | |]; cbn [fst].
    + intros E. apply (D bA (fst pQ)); cbn; auto.
    + intros E. apply (D bT (fst pQ)); cbn; auto.
    + intros (i' & j' & _ & _ & E). apply D2. injection E as E _. symmetry. exact E.
    + inversion HND3; subst. cbn in *. intuition congruence.
    + inversion HND3; subst. cbn in *. intuition congruence.
    + intros (i' & j' & Hi' & Hj' & E). injection E as E. nia.
  - intros b [<-|[<-|[]]] [E|[E|[E|[]]]].
    + cbn in HND1. inversion HND1; subst. cbn in *. intuition congruence.
    + apply (D (fst pA) bV); cbn; auto.
    + apply (D (fst pA) bQ); cbn; auto.
    + apply (D bT (fst pQ)); cbn; auto.
    + inversion HND3; subst. cbn in *. intuition congruence.
    + inversion HND3; subst. cbn in *. intuition congruence.
  - intros l (i & j & _ & _ & ->) (i' & j' & _ & _ & E). injection E as E _. exact (D2 E).
  - reflexivity.
  - reflexivity.
Qed.
End Short.

(* the 2 x 1 matrix (3,4) in block 0, and zeroes elsewhere *)
Definition gq_mem (l : loc) : C_fields :=
  if fst l =? 0 then if snd l =? 0 then (3, 0)%R else if snd l =? 1 then (4, 0)%R else (0, 0)%R else (0, 0)%R.

Lemma C_nontrivial : (n1 : C_fields) <> n0.
Proof. intros E. apply (f_equal fst) in E. cbn in E. lra. Qed.

Lemma zungqr_incomplete : exists nb ib m n k pA lda bA bT M pQ ldq bV bQ,
  0 < nb /\ 0 < ib /\ 0 <= k <= n /\ n <= m /\ Z.max 1 m <= lda /\ Z.max 1 m <= ldq /\
  NoDup [fst pA; bA; bT; fst pQ; bV; bQ] /\
  driver_ensures (zgeqrf larfg_C nb ib m k pA lda bA bT) M (fun M' => forall T size, geqrf_T nb ib m k = CrOk T size ->
    driver_ensures (zungqr nb m n k pA lda bT T pQ ldq bV bQ) M' (fun M3 => ~ orthonormal_columns m n (ul M3 pQ ldq))).
Proof.
  exists 1, 1, 2, 2, 1, (0, 0), 2, 1, 2, gq_mem, (3, 0), 2, 4, 5.
  assert (ND : NoDup [fst (0, 0); 1; 2; fst (3, 0); 4; 5]).
  { cbn. repeat (constructor; [cbn; lia|]). constructor. }
  do 6 (split; [lia|]). split; [exact ND|].
  apply zungqr_short; try exact larfg_C_ok; try exact C_nontrivial; try exact ND; try lia.
  intros i Hi. reflexivity.
Qed.
