(* Every memory has a mate: one that holds the conjugate transposes. *)
From Coq Require Import ZArith List Bool Lia Ring.
From Verif Require Import Base NumModel NumProofs TaskModel TaskSpec TaskProofs DescModel DescSpec DescProofs MatModel MatSpec MatProofs RegionProofs
  LayoutModel LayoutProofs LayoutProofs2 DriverModel OpProofs GemmProofs QrModel QrTaskProofs QrEffProofs LqModel LqDualProofs LqSimProofs.
Import ListNotations.
Open Scope Z_scope.

Section Fill.
  Context {V K : Type}.
  Definition leqb (l l' : loc) : bool := (fst l =? fst l') && (snd l =? snd l').
  Lemma leqb_eq : forall l l', leqb l l' = true <-> l = l'.
  Proof. intros [a b] [c d]. unfold leqb. cbn. rewrite andb_true_iff, !Z.eqb_eq. split; [intros [-> ->]; reflexivity|intros E; injection E; auto]. Qed.

  Definition fill (keys : list K) (addr : K -> loc) (val : K -> V) (M : mem V) : mem V :=
    fun l => match find (fun k => leqb (addr k) l) keys with Some k => val k | None => M l end.

  Lemma fill_at : forall keys addr val (M : mem V) k, In k keys -> (forall k', In k' keys -> addr k' = addr k -> k' = k) ->
    fill keys addr val M (addr k) = val k.
  Proof.
    intros keys addr val M k Hk HI. unfold fill. destruct (find _ _) as [k'|] eqn:E.
    - apply find_some in E. destruct E as [E1 E2]. apply leqb_eq in E2. rewrite (HI k' E1 E2). reflexivity.
    - apply (find_none _ _ E) in Hk. assert (X : leqb (addr k) (addr k) = true) by (apply leqb_eq; reflexivity). congruence.
  Qed.
  Lemma fill_out : forall keys addr val (M : mem V) l, (forall k, In k keys -> addr k <> l) -> fill keys addr val M l = M l.
  Proof.
    intros keys addr val M l H. unfold fill. destruct (find _ _) as [k'|] eqn:E; [|reflexivity].
    apply find_some in E. destruct E as [E1 E2]. apply leqb_eq in E2. exfalso. apply (H k' E1 E2).
  Qed.
End Fill.

Lemma elem_inj : forall nb X i j i' j', 0 < nb -> dn nb X -> 0 <= i < d_m X -> 0 <= j < d_n X -> 0 <= i' < d_m X -> 0 <= j' < d_n X ->
  elem_off X i j = elem_off X i' j' -> i = i' /\ j = j'.
Proof.
  intros nb X i j i' j' Hnb D Hi Hj Hi' Hj' E.
  assert (Q : forall i j, 0 <= i < d_m X -> 0 <= j < d_n X -> in_tiles X (i / nb) (j / nb) /\ 0 <= i mod nb < tile_mview X (i / nb) /\
    0 <= j mod nb < tile_nview X (j / nb) /\
    elem_off X i j = tile_addr X (i / nb) (j / nb) + i mod nb + (j mod nb) * tile_mmain X (i / nb)).
  { clear E Hi Hj Hi' Hj' i j i' j'. intros i j Hi Hj.
    pose proof (tile_of nb X i j D Hi Hj) as I.
    destruct (dm nb Hnb i ltac:(lia)) as (_ & E1 & B1). destruct (dm nb Hnb j ltac:(lia)) as (_ & E2 & B2).
    assert (S1 : 0 <= i mod nb < tile_mview X (i / nb)) by (rewrite (sq_mv nb X _ D _ _ I); unfold tsz; lia).
    assert (S2 : 0 <= j mod nb < tile_nview X (j / nb)) by (rewrite (sq_nv nb X _ D _ _ I); unfold tsz; lia).
    split; [exact I|]. split; [exact S1|]. split; [exact S2|].
    rewrite <- (elem_off_tile X (i / nb) (j / nb) (i mod nb) (j mod nb) (td_shape _ _ (sq_t _ _ _ D)) (proj1 I) (proj2 I) S1 S2).
    rewrite (sq_mb _ _ _ D), (sq_nb _ _ _ D), <- E1, <- E2. reflexivity. }
  destruct (Q i j Hi Hj) as (I1 & R1 & C1 & F1). destruct (Q i' j' Hi' Hj') as (I2 & R2 & C2 & F2). rewrite F1, F2 in E.
  apply (td_apart _ _ (sq_t _ _ _ D)) in E; try assumption. destruct E as (Z1 & Z2 & Z3 & Z4).
  destruct (dm nb Hnb i ltac:(lia)) as (_ & G1 & _). destruct (dm nb Hnb j ltac:(lia)) as (_ & G2 & _).
  destruct (dm nb Hnb i' ltac:(lia)) as (_ & G3 & _). destruct (dm nb Hnb j' ltac:(lia)) as (_ & G4 & _). split; nia.
Qed.

Section Mate.
  Context {N : numbers}.
  Variables nb ib : Z.
  Hypothesis Hnb : 0 < nb.

  Lemma mate_mat : forall X b (f : Z -> Z -> N) (M : mem N), dn nb X ->
    exists M', (forall i j, 0 <= i < d_m X -> 0 <= j < d_n X -> el M' b X i j = f i j) /\ (forall l, fst l <> b -> M' l = M l).
  Proof.
    intros X b f M D.
    exists (fill (list_prod (zrange 0 (d_m X)) (zrange 0 (d_n X))) (fun k => (b, elem_off X (fst k) (snd k))) (fun k => f (fst k) (snd k)) M). split.
    - intros i j Hi Hj. unfold el.
      rewrite (fill_at _ (fun k => (b, elem_off X (fst k) (snd k))) (fun k => f (fst k) (snd k)) M (i, j)); [reflexivity| |].
      + apply in_prod; apply in_zrange; assumption.
      + intros [i' j'] Hk E. apply in_prod_iff in Hk. destruct Hk as [H1 H2]. apply in_zrange in H1, H2. cbn [fst snd] in E. injection E as E.
        apply (elem_inj nb X) in E; try assumption. destruct E as [-> ->]. reflexivity.
    - intros l Hl. apply fill_out. intros k _ E. apply Hl. rewrite <- E. reflexivity.
  Qed.

  Lemma mate_T : forall T b (f : Z -> Z -> Z -> Z -> N) (M : mem N), 0 < ib -> tok nb ib 0 0 T ->
    exists M', (forall q k a c, in_tiles T q k -> 0 <= a < ib -> 0 <= c < nb -> tel T b M' q k a c = f q k a c) /\ (forall l, fst l <> b -> M' l = M l).
  Proof.
    intros T b f M Hib HT.
    pose (addr := fun k : (Z * Z) * (Z * Z) => at_ (tptr b T (fst (fst k)) (snd (fst k))) ib (fst (snd k)) (snd (snd k))).
    pose (val := fun k : (Z * Z) * (Z * Z) => f (fst (fst k)) (snd (fst k)) (fst (snd k)) (snd (snd k))).
    exists (fill (list_prod (list_prod (zrange 0 (d_mt T)) (zrange 0 (d_nt T))) (list_prod (zrange 0 ib) (zrange 0 nb))) addr val M). split.
    - intros q k a c [I1 I2] Ha Hc. unfold tel, rd. rewrite (tk_mb _ _ _ _ _ HT).
      change (at_ (tptr b T q k) ib a c) with (addr ((q, k), (a, c))). rewrite fill_at; [reflexivity| |].
      + repeat apply in_prod; apply in_zrange; assumption.
      + intros [[q' k'] [a' c']] Hk E. apply in_prod_iff in Hk. destruct Hk as [H1 H2]. apply in_prod_iff in H1, H2.
        destruct H1 as [H1 H3], H2 as [H2 H4]. apply in_zrange in H1, H2, H3, H4. unfold addr, at_, tptr in E. cbn [fst snd] in E. injection E as E.
        assert (J : in_tiles T q k) by (split; assumption). assert (J' : in_tiles T q' k') by (split; assumption).
        pose proof (td_apart _ _ (tk_t _ _ _ _ _ HT) q' k' q k a' c' a c J' J) as X.
        rewrite (tk_mv _ _ _ _ _ HT q k J), (tk_nv _ _ _ _ _ HT q k J), (tk_ld _ _ _ _ _ HT q k J) in X.
        rewrite (tk_mv _ _ _ _ _ HT q' k' J'), (tk_nv _ _ _ _ _ HT q' k' J'), (tk_ld _ _ _ _ _ HT q' k' J') in X.
        destruct X as (-> & -> & -> & ->); try lia. reflexivity.
    - intros l Hl. apply fill_out. intros k _ E. apply Hl. rewrite <- E. reflexivity.
  Qed.

  Lemma mate : forall T T' bT A A' B B' bA bB (M : mem N), 0 < ib -> tok nb ib 0 0 T' -> paired nb A A' -> paired nb B B' ->
    (bA = bB /\ A = B /\ A' = B') \/ bA <> bB -> bA <> bT /\ bB <> bT ->
    exists M', R nb ib T T' bT A A' B B' bA bB M M'.
  Proof.
    intros T T' bT A A' B B' bA bB M Hib HT' (DA & DA' & A1 & A2) (DB & DB' & B1 & B2) HAB [N1 N2].
    destruct (mate_mat A' bA (fun j i => nconj (el M bA A i j)) M DA') as (M1 & P1 & Q1).
    destruct (mate_mat B' bB (fun j i => nconj (el M bB B i j)) M1 DB') as (M2 & P2 & Q2).
    destruct (mate_T T' bT (fun q k a c => tel T bT M k q a c) M2 Hib HT') as (M3 & P3 & Q3).
    assert (RB : Rel bB B B' M M3).
    { intros i j Hi Hj. unfold el at 1. rewrite Q3 by (cbn; assumption). apply P2; lia. }
    exists M3. split; [|split; [exact RB|]].
    - destruct HAB as [(-> & -> & ->)|D]; [exact RB|]. intros i j Hi Hj. unfold el at 1. rewrite Q3, Q2 by (cbn; assumption). apply P1; lia.
    - intros k q a c I1 I2 Ha Hc. apply P3; assumption.
  Qed.
End Mate.
