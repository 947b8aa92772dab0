(* The tasks of the tile QR factorization: sound footprints, declared dependences. *)
From Coq Require Import ZArith List Bool Lia.
From Verif Require Import Base NumModel NumProofs TaskModel TaskSpec TaskProofs DescModel DescSpec DescProofs MatModel MatSpec MatProofs RegionProofs
  LayoutModel LayoutProofs DriverModel OpProofs QrModel QrSpec QrAlgProofs QrStepProofs.
Import ListNotations.
Open Scope Z_scope.

Lemma mset2_kgood : forall V deps p1 ld1 m1 n1 P1 p2 ld2 m2 n2 P2 (f1 f2 : mem V -> Z -> Z -> V) (R : loc -> Prop),
  m1 <= ld1 -> m2 <= ld2 -> finite_set R ->
  (forall M M', (forall x, R x -> M x = M' x) -> f1 M = f1 M') ->
  (forall M M', (forall x, R x -> M x = M' x) -> f2 M = f2 M') ->
  kgood (mkktask deps (fun M => mset p2 ld2 m2 n2 P2 (f2 M) (mset p1 ld1 m1 n1 P1 (f1 M) M)) R
    (fun l => reg p1 ld1 m1 n1 P1 l \/ reg p2 ld2 m2 n2 P2 l)).
Proof.
  intros V deps p1 ld1 m1 n1 P1 p2 ld2 m2 n2 P2 f1 f2 R L1 L2 HR H1 H2.
  constructor; cbn; [|assumption|apply finite_or; apply finite_reg]. split; cbn.
  - intros M l H. rewrite !mset_out by tauto. reflexivity.
  - intros M M' l HM HW. rewrite (H1 M M' HM), (H2 M M' HM).
    destruct (reg_dec p2 ld2 m2 n2 P2 l L2) as [D|D].
    + destruct D as (i & j & Hi & Hj & HP & ->). rewrite !mset_in by lia. rewrite HP. reflexivity.
    + rewrite !(mset_out _ p2) by assumption. destruct HW as [D'|D']; [|contradiction].
      destruct D' as (i & j & Hi & Hj & HP & ->). rewrite !mset_in by lia. rewrite HP. reflexivity.
Qed.

Lemma mset3_kgood : forall V deps p1 ld1 m1 n1 P1 p2 ld2 m2 n2 P2 p3 ld3 m3 n3 P3 (f1 f2 f3 : mem V -> Z -> Z -> V) (R : loc -> Prop),
  m1 <= ld1 -> m2 <= ld2 -> m3 <= ld3 -> finite_set R ->
  (forall M M', (forall x, R x -> M x = M' x) -> f1 M = f1 M') ->
  (forall M M', (forall x, R x -> M x = M' x) -> f2 M = f2 M') ->
  (forall M M', (forall x, R x -> M x = M' x) -> f3 M = f3 M') ->
  kgood (mkktask deps (fun M => mset p3 ld3 m3 n3 P3 (f3 M) (mset p2 ld2 m2 n2 P2 (f2 M) (mset p1 ld1 m1 n1 P1 (f1 M) M))) R
    (fun l => reg p1 ld1 m1 n1 P1 l \/ reg p2 ld2 m2 n2 P2 l \/ reg p3 ld3 m3 n3 P3 l)).
Proof.
  intros V deps p1 ld1 m1 n1 P1 p2 ld2 m2 n2 P2 p3 ld3 m3 n3 P3 f1 f2 f3 R L1 L2 L3 HR H1 H2 H3.
  constructor; cbn; [|assumption|apply finite_or; [apply finite_reg|apply finite_or; apply finite_reg]]. split; cbn.
  - intros M l H. rewrite !mset_out by tauto. reflexivity.
  - intros M M' l HM HW. rewrite (H1 M M' HM), (H2 M M' HM), (H3 M M' HM).
    destruct (reg_dec p3 ld3 m3 n3 P3 l L3) as [D|D].
    + destruct D as (i & j & Hi & Hj & HP & ->). rewrite !mset_in by lia. rewrite HP. reflexivity.
    + rewrite !(mset_out _ p3) by assumption.
      destruct (reg_dec p2 ld2 m2 n2 P2 l L2) as [D2|D2].
      * destruct D2 as (i & j & Hi & Hj & HP & ->). rewrite !mset_in by lia. rewrite HP. reflexivity.
      * rewrite !(mset_out _ p2) by assumption. destruct HW as [D'|[D'|D']]; try contradiction.
        destruct D' as (i & j & Hi & Hj & HP & ->). rewrite !mset_in by lia. rewrite HP. reflexivity.
Qed.

Section Tasks.
  Context {N : numbers}.
  Variable lg : N -> list N -> N * N * list N.

  Lemma rd_memo : forall (M M' : mem N) p ld m n,
    (forall x, reg p ld m n everywhere x -> M x = M' x) -> memo m n (rd M p ld) = memo m n (rd M' p ld).
  Proof. intros M M' p ld m n H. apply memo_eq. intros i j Hi Hj. apply H. exists i, j. auto. Qed.
  Lemma rd_memo_sel : forall (M M' : mem N) p ld m n (P : Z -> Z -> bool),
    (forall x, reg p ld m n P x -> M x = M' x) ->
    memo m n (fun r c => if P r c then rd M p ld r c else n0) = memo m n (fun r c => if P r c then rd M' p ld r c else n0).
  Proof.
    intros M M' p ld m n P H. apply memo_eq. intros i j Hi Hj. destruct (P i j) eqn:E; [|reflexivity].
    apply H. exists i, j. auto.
  Qed.

  Lemma omp_zunmqr_kgood : forall side trans m n k ib A lda T ldt C ldc, m <= ldc ->
    kgood (@omp_zunmqr N side trans m n k ib A lda T ldt C ldc).
  Proof.
    intros side trans m n k ib A lda T ldt C ldc H. unfold omp_zunmqr.
    constructor; cbn; [|apply finite_or; [apply finite_reg|apply finite_or; apply finite_reg]|apply finite_reg]. split; cbn.
    - intros M l HL. unfold core_zunmqr. apply mset_out. assumption.
    - intros M M' l HM (i & j & Hi & Hj & HP & ->). unfold core_zunmqr. cbv zeta. rewrite !mset_in by lia. rewrite HP.
      pose proof (rd_memo_sel M M' A lda (if side =? PlasmaLeft then m else n) k below) as E1.
      unfold below in E1 at 2 3. rewrite E1 by (intros; apply HM; left; assumption).
      pose proof (rd_memo_sel M M' T ldt ib k (t_sel ib)) as E2.
      unfold t_sel in E2 at 2 3. rewrite E2 by (intros; apply HM; right; left; assumption).
      rewrite (rd_memo M M' C ldc m n) by (intros; apply HM; right; right; assumption). reflexivity.
  Qed.

  Lemma omp_ztsmqr_kgood : forall side trans m1 n1 m2 n2 k ib A1 lda1 A2 lda2 V ldv T ldt, m1 <= lda1 -> m2 <= lda2 ->
    kgood (@omp_ztsmqr N side trans m1 n1 m2 n2 k ib A1 lda1 A2 lda2 V ldv T ldt).
  Proof.
    intros side trans m1 n1 m2 n2 k ib A1 lda1 A2 lda2 V ldv T ldt L1 L2.
    assert (E : forall M M' : mem N, (forall x, k_reads (@omp_ztsmqr N side trans m1 n1 m2 n2 k ib A1 lda1 A2 lda2 V ldv T ldt) x -> M x = M' x) ->
      tsmqr_mat side trans m1 n1 m2 n2 k ib (memo (if side =? PlasmaLeft then m2 else n2) k (rd M V ldv))
        (memo ib k (fun a c => if a <=? c mod ib then rd M T ldt a c else n0)) (memo m1 n1 (rd M A1 lda1)) (memo m2 n2 (rd M A2 lda2))
      = tsmqr_mat side trans m1 n1 m2 n2 k ib (memo (if side =? PlasmaLeft then m2 else n2) k (rd M' V ldv))
        (memo ib k (fun a c => if a <=? c mod ib then rd M' T ldt a c else n0)) (memo m1 n1 (rd M' A1 lda1)) (memo m2 n2 (rd M' A2 lda2))).
    { intros M M' HM. cbn in HM.
      pose proof (rd_memo_sel M M' T ldt ib k (t_sel ib)) as E2.
      unfold t_sel in E2 at 2 3. rewrite E2 by (intros; apply HM; auto).
      rewrite (rd_memo M M' V) by (intros; apply HM; auto).
      rewrite (rd_memo M M' A1) by (intros; apply HM; auto).
      rewrite (rd_memo M M' A2) by (intros; apply HM; auto). reflexivity. }
    apply (mset2_kgood N _ A1 lda1 m1 n1 everywhere A2 lda2 m2 n2 everywhere
      (fun M => fst (tsmqr_mat side trans m1 n1 m2 n2 k ib (memo (if side =? PlasmaLeft then m2 else n2) k (rd M V ldv))
        (memo ib k (fun a c => if a <=? c mod ib then rd M T ldt a c else n0)) (memo m1 n1 (rd M A1 lda1)) (memo m2 n2 (rd M A2 lda2))))
      (fun M => snd (tsmqr_mat side trans m1 n1 m2 n2 k ib (memo (if side =? PlasmaLeft then m2 else n2) k (rd M V ldv))
        (memo ib k (fun a c => if a <=? c mod ib then rd M T ldt a c else n0)) (memo m1 n1 (rd M A1 lda1)) (memo m2 n2 (rd M A2 lda2)))));
      auto.
    - repeat (apply finite_or; [apply finite_reg|]). apply finite_reg.
    - intros M M' HM. cbn in E. rewrite (E M M' HM). reflexivity.
    - intros M M' HM. cbn in E. rewrite (E M M' HM). reflexivity.
  Qed.

  Lemma omp_zgeqrt_kgood : forall m n ib A lda T ldt, m <= lda -> ib <= ldt -> kgood (omp_zgeqrt lg m n ib A lda T ldt).
  Proof.
    intros m n ib A lda T ldt L1 L2.
    apply (mset2_kgood N _ A lda m n everywhere T ldt ib (Z.min m n) (t_sel ib)
      (fun M => fst (geqrt_mat lg m n ib (memo m n (rd M A lda)))) (fun M => snd (geqrt_mat lg m n ib (memo m n (rd M A lda)))));
      auto; [apply finite_reg| |]; intros M M' HM; rewrite (rd_memo M M' A lda m n HM); reflexivity.
  Qed.

  Lemma omp_ztsqrt_kgood : forall m n ib A1 lda1 A2 lda2 T ldt, n <= lda1 -> m <= lda2 -> ib <= ldt ->
    kgood (omp_ztsqrt lg m n ib A1 lda1 A2 lda2 T ldt).
  Proof.
    intros m n ib A1 lda1 A2 lda2 T ldt L1 L2 L3. unfold omp_ztsqrt.
    set (g := fun M : mem N => tsqrt_mat lg m n ib
      (memo n n (fun r c => if r <=? c then rd M A1 lda1 r c else n0)) (memo m n (rd M A2 lda2))).
    assert (E : forall M M' : mem N, (forall x, reg A1 lda1 n n (uplo_sel PlasmaUpper) x \/ reg A2 lda2 m n everywhere x -> M x = M' x) -> g M = g M').
    { intros M M' HM. unfold g.
      pose proof (rd_memo_sel M M' A1 lda1 n n (uplo_sel PlasmaUpper)) as E2.
      change (uplo_sel PlasmaUpper) with (fun i j => i <=? j) in E2 at 2 3. cbv beta in E2.
      rewrite E2 by (intros; apply HM; auto). rewrite (rd_memo M M' A2) by (intros; apply HM; auto). reflexivity. }
    pose proof (mset3_kgood N [dep_inout A1; dep_inout A2; dep_out T] A1 lda1 n n (uplo_sel PlasmaUpper) A2 lda2 m n everywhere T ldt ib n (t_sel ib)
      (fun M => fst (fst (g M))) (fun M => snd (fst (g M))) (fun M => snd (g M))
      (fun l => reg A1 lda1 n n (uplo_sel PlasmaUpper) l \/ reg A2 lda2 m n everywhere l) L1 L2 L3) as G.
    assert (G2 : kgood (mkktask [dep_inout A1; dep_inout A2; dep_out T]
        (fun M => mset T ldt ib n (t_sel ib) (snd (g M)) (mset A2 lda2 m n everywhere (snd (fst (g M)))
           (mset A1 lda1 n n (uplo_sel PlasmaUpper) (fst (fst (g M))) M)))
        (fun l => reg A1 lda1 n n (uplo_sel PlasmaUpper) l \/ reg A2 lda2 m n everywhere l)
        (fun l => reg A1 lda1 n n (uplo_sel PlasmaUpper) l \/ reg A2 lda2 m n everywhere l \/ reg T ldt ib n (t_sel ib) l))).
    { apply G; [apply finite_or; apply finite_reg| | |]; intros M M' HM; rewrite (E M M' HM); reflexivity. }
    destruct G2 as [[S1 S2] R W]. cbn in S1, S2, R, W.
    assert (EQ : forall M, core_ztsqrt lg m n ib A1 lda1 A2 lda2 T ldt M = mset T ldt ib n (t_sel ib) (snd (g M)) (mset A2 lda2 m n everywhere (snd (fst (g M)))
           (mset A1 lda1 n n (uplo_sel PlasmaUpper) (fst (fst (g M))) M))).
    { intros M. unfold core_ztsqrt, g. destruct (tsqrt_mat _ _ _ _ _ _) as [[B1 B2] T1]. reflexivity. }
    constructor; cbn; [|assumption|assumption]. split; cbn.
    - intros M l HL. rewrite EQ. apply S1. assumption.
    - intros M M' l HM HL. rewrite !EQ. apply S2; assumption.
  Qed.

  (* ------------------------------------------------------------------ dependences *)

  Variable env : list (Z * (Z -> Z -> Prop)).

  Lemma home_sub : forall A S b m n mm nn ld P l, In (b, homeD A S) env -> S m n -> ld = tile_mmain A m ->
    mm <= tile_mview A m -> nn <= tile_nview A n ->
    reg (tptr b A m n) ld mm nn P l -> home_env env l (tptr b A m n).
  Proof.
    intros A S b m n mm nn ld P l HE HS -> H1 H2 HR. eapply home_tile; [exact HE|exact HS|].
    eapply reg_sub; [exact H1|exact H2| |exact HR]. intros i j H. exact H.
  Qed.
End Tasks.
