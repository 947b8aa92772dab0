(* The statements about zgeswp in the form PropertiesSwp.v gives them. *)
From Coq Require Import ZArith List Bool Lia.
From Verif Require Import Base TaskModel TaskSpec DescModel DescSpec DescDriverModel MatModel MatSpec LayoutModel
  DriverModel DriverSpec SwpModel SwpSpec SwpProofs SwpDriverProofs SwpRaceProofs.
Import ListNotations.
Open Scope Z_scope.

Section Facts.
  Context {V : Type}.
  Variables (nb m n : Z) (pA : loc) (lda : Z) (pI : loc) (ipiv : Z -> Z) (bA : Z) (M : mem V).
  Hypothesis Hnb : 0 < nb.
  Hypothesis Hm : 0 <= m.
  Hypothesis Hn : 0 <= n.
  Hypothesis Hlda : Z.max 1 m <= lda.
  Hypothesis HF : fst pA <> bA.

  Lemma rows_forward : legal_pivots ipiv m ->
    driver_ensures (zgeswp nb PlasmaRowwise m n pA lda pI ipiv 1 bA) M (fun M' =>
      (forall i j, in_matrix m n i j ->
         ul M' pA lda i j = ul M pA lda (source (interchanges ipiv (Z.to_nat m)) i) j) /\
      (forall l, fst l <> bA -> ~ in_user pA lda m n l -> M' l = M l)).
  Proof. intros HL. apply (zgeswp_forward nb PlasmaRowwise m n pA lda pI ipiv bA Hnb (or_intror eq_refl) Hm Hn Hlda HF HL). Qed.
  Lemma rows_backward : legal_pivots ipiv m ->
    driver_ensures (zgeswp nb PlasmaRowwise m n pA lda pI ipiv (-1) bA) M (fun M' =>
      (forall i j, in_matrix m n i j ->
         ul M' pA lda i j = ul M pA lda (source (rev (interchanges ipiv (Z.to_nat m))) i) j) /\
      (forall l, fst l <> bA -> ~ in_user pA lda m n l -> M' l = M l)).
  Proof. intros HL. apply (zgeswp_backward nb PlasmaRowwise m n pA lda pI ipiv bA Hnb (or_intror eq_refl) Hm Hn Hlda HF HL). Qed.
  Lemma columns_forward : legal_pivots ipiv n ->
    driver_ensures (zgeswp nb PlasmaColumnwise m n pA lda pI ipiv 1 bA) M (fun M' =>
      (forall i j, in_matrix m n i j ->
         ul M' pA lda i j = ul M pA lda i (source (interchanges ipiv (Z.to_nat n)) j)) /\
      (forall l, fst l <> bA -> ~ in_user pA lda m n l -> M' l = M l)).
  Proof. intros HL. apply (zgeswp_forward nb PlasmaColumnwise m n pA lda pI ipiv bA Hnb (or_introl eq_refl) Hm Hn Hlda HF HL). Qed.
  Lemma columns_backward : legal_pivots ipiv n ->
    driver_ensures (zgeswp nb PlasmaColumnwise m n pA lda pI ipiv (-1) bA) M (fun M' =>
      (forall i j, in_matrix m n i j ->
         ul M' pA lda i j = ul M pA lda i (source (rev (interchanges ipiv (Z.to_nat n))) j)) /\
      (forall l, fst l <> bA -> ~ in_user pA lda m n l -> M' l = M l)).
  Proof. intros HL. apply (zgeswp_backward nb PlasmaColumnwise m n pA lda pI ipiv bA Hnb (or_introl eq_refl) Hm Hn Hlda HF HL). Qed.
  Lemma rows_restored : legal_pivots ipiv m ->
    driver_ensures (zgeswp nb PlasmaRowwise m n pA lda pI ipiv 1 bA) M (fun M1 =>
      driver_ensures (zgeswp nb PlasmaRowwise m n pA lda pI ipiv (-1) bA) M1 (fun M2 =>
        (forall i j, in_matrix m n i j -> ul M2 pA lda i j = ul M pA lda i j) /\
        (forall l, fst l <> bA -> ~ in_user pA lda m n l -> M2 l = M l))).
  Proof. intros HL. apply (zgeswp_round_trip nb PlasmaRowwise m n pA lda pI ipiv bA Hnb (or_intror eq_refl) Hm Hn Hlda HF HL). Qed.
  Lemma columns_restored : legal_pivots ipiv n ->
    driver_ensures (zgeswp nb PlasmaColumnwise m n pA lda pI ipiv 1 bA) M (fun M1 =>
      driver_ensures (zgeswp nb PlasmaColumnwise m n pA lda pI ipiv (-1) bA) M1 (fun M2 =>
        (forall i j, in_matrix m n i j -> ul M2 pA lda i j = ul M pA lda i j) /\
        (forall l, fst l <> bA -> ~ in_user pA lda m n l -> M2 l = M l))).
  Proof. intros HL. apply (zgeswp_round_trip nb PlasmaColumnwise m n pA lda pI ipiv bA Hnb (or_introl eq_refl) Hm Hn Hlda HF HL). Qed.
End Facts.

Definition ex_ipiv (i : Z) : Z := if i =? 0 then 7 else if i =? 2 then 6 else if i =? 3 then 5 else if i =? 4 then 7 else i + 1.
Lemma ex_legal : legal_pivots ex_ipiv 7.
Proof.
  intros i Hi. unfold ex_ipiv. destruct (Z.eqb_spec i 0); [lia|]. destruct (Z.eqb_spec i 2); [lia|].
  destruct (Z.eqb_spec i 3); [lia|]. destruct (Z.eqb_spec i 4); lia.
Qed.

Lemma reader_overtaken : exists nb m n ipiv (M : mem Z) A,
  ge_create nb m n = CrOk A (m * n) /\ legal_pivots ipiv m /\
  ~ region_ensures (pzdesc2ge 1 A (0, 0) m ++ omp_async_zgeswp PlasmaRowwise 1 A (2, 0) ipiv 1) M
      (fun M' => forall i j, in_matrix m n i j -> ul M' (0, 0) m i j = el M 1 A i j).
Proof.
  destruct swp_race as (A & HA & HR). exists 1, 3, 1, race_ipiv, race_mem, A.
  split; [exact HA|]. split; [exact race_legal|exact HR].
Qed.
