(* The first phase of plasma_pzlange and plasma_pdzamax, and the drivers. *)
From Coq Require Import ZArith List Bool Lia Ring.
From Verif Require Import Base NumModel NumProofs FieldModel TaskModel TaskSpec TaskProofs DescModel DescSpec
  DescProofs DescProofs4 DescDriverModel MatModel MatSpec MatProofs RegionProofs
  LayoutModel LayoutProofs LayoutProofs2 DriverModel DriverSpec SimProofs OpProofs OperandProofs GemmProofs
  EwProofs SwpModel NormModel NormSpec FillProofs NormProofs NormDriverProofs.
Import ListNotations.
Open Scope Z_scope.

Lemma pos_inj : forall R k k' c c', 0 <= c < R -> 0 <= c' < R -> R * k + c = R * k' + c' -> k = k' /\ c = c'.
Proof.
  intros R k k' c c' H H' E. assert (k = k') by nia. subst. split; lia.
Qed.

Lemma pos_inj2 : forall R k k' c c', 0 <= c < R -> 0 <= c' < R -> k * R + c = k' * R + c' -> k = k' /\ c = c'.
Proof. intros R k k' c c' H H' E. apply (pos_inj R); lia. Qed.

Section Tiles.
  Context {N : normed}.
  Variables (nb bA : Z) (A : desc) (pA : loc) (lda bW : Z).
  Hypothesis HA : dn nb A.
  Hypothesis Hb : 0 < nb.
  Hypothesis LA : d_m A <= lda.
  Hypothesis H1 : fst pA <> bA.
  Hypothesis H2 : fst pA <> bW.
  Hypothesis H3 : bA <> bW.
  Variable M : mem N.

  (* what the tile (m, n) holds *)
  Definition tile_of (m n : Z) : Z -> Z -> N := fun i j => ul M pA lda (m * nb + i) (n * nb + j).

  Lemma tile_agree : forall M3 m n, in_tiles A m n ->
    (forall i j, 0 <= i < d_m A -> 0 <= j < d_n A -> el M3 bA A i j = ul M pA lda i j) ->
    agree (tile_mview A m) (tile_nview A n) (rd M3 (tptr bA A m n) (tile_mmain A m)) (tile_of m n).
  Proof.
    intros M3 m n HI E i j Hi Hj. rewrite (sq_mv nb A (in_tiles A) HA m n HI) in Hi.
    rewrite (sq_nv nb A (in_tiles A) HA m n HI) in Hj.
    rewrite (sq_rd nb A (in_tiles A) HA bA M3 m n i j HI Hi Hj). unfold tile_of.
    destruct (sq_in_m nb A _ HA m n HI). destruct (sq_in_n nb A _ HA m n HI). unfold tsz in *. apply E; nia.
  Qed.

  Lemma mview_eq : forall m n, in_tiles A m n -> tile_mview A m = Z.min nb (d_m A - m * nb).
  Proof. intros m n HI. exact (sq_mv nb A _ HA m n HI). Qed.
  Lemma nview_eq : forall m n, in_tiles A m n -> tile_nview A n = Z.min nb (d_n A - n * nb).
  Proof. intros m n HI. exact (sq_nv nb A _ HA m n HI). Qed.
  Lemma views : forall m n, in_tiles A m n -> 0 <= m /\ 0 < tile_mview A m <= nb /\ m * nb + tile_mview A m <= d_m A /\
    0 <= n /\ 0 < tile_nview A n <= nb /\ n * nb + tile_nview A n <= d_n A.
  Proof using HA.
    clear H1 H2 H3.
    intros m n HI. rewrite (mview_eq m n HI), (nview_eq m n HI).
    destruct (sq_in_m nb A _ HA m n HI). destruct (sq_in_n nb A _ HA m n HI). unfold tsz in *. lia.
  Qed.

  Lemma tasks_map : forall (t : Z * Z -> ktask N),
    flat_map (fun m => map (fun n => t (m, n)) (zrange 0 (d_nt A))) (zrange 0 (d_mt A)) = map t (idx_all A).
  Proof.
    intros t. unfold idx_all, pairs. induction (zrange 0 (d_mt A)) as [|m l IH]; cbn [flat_map]; [reflexivity|].
    rewrite map_app, map_map, IH. reflexivity.
  Qed.

  (* one segment per tile *)
  Lemma seg1_region : forall (t : Z * Z -> ktask N) (off len : Z * Z -> Z) (val : Z * Z -> (Z -> Z -> N) -> Z -> N),
    (forall p, in_tiles A (fst p) (snd p) -> kgood (t p)) ->
    (forall p, t p = {| k_deps := [dep_in (tptr bA A (fst p) (snd p)); dep_out (bW, off p)];
       k_fun := fun M => fill (bW, off p) (len p) (val p (rd M (tptr bA A (fst p) (snd p)) (tile_mmain A (fst p)))) M;
       k_reads := reg (tptr bA A (fst p) (snd p)) (tile_mmain A (fst p)) (tile_mview A (fst p)) (tile_nview A (snd p)) everywhere;
       k_writes := seg (bW, off p) (len p) |}) ->
    (forall p F F' r, in_tiles A (fst p) (snd p) -> agree (tile_mview A (fst p)) (tile_nview A (snd p)) F F' ->
       0 <= r < len p -> val p F r = val p F' r) ->
    (forall p q r r', in_tiles A (fst p) (snd p) -> in_tiles A (fst q) (snd q) -> 0 <= r < len p -> 0 <= r' < len q ->
       off p + r = off q + r' -> p = q) ->
    region_ensures (pzge2desc pA lda bA A ++ map t (idx_all A)) M
    (fun M' => (forall p r, in_tiles A (fst p) (snd p) -> 0 <= r < len p ->
                  M' (bW, off p + r) = val p (tile_of (fst p) (snd p)) r) /\
               (forall l, fst l <> bA -> fst l <> bW -> M' l = M l)).
  Proof using HA Hb LA H1 H2 H3.
    intros t off len val HG HT HV HX.
    assert (HI : forall p, In p (idx_all A) <-> in_tiles A (fst p) (snd p)).
    { intros [m n]. apply idx_all_in. }
    eapply region_mono; [|apply (jobs_region nb bA A pA lda bW t fst snd (fun p => [(off p, len p)]) (idx_all A));
      auto using idx_all_NoDup].
    - intros M' (M3 & E1 & E2 & E3 & E4). split.
      + intros p r Hp Hr. pose proof (E3 p (off p, len p) r (proj2 (HI p) Hp) (or_introl eq_refl) Hr) as E.
        cbn [fst snd] in E. rewrite E, HT. cbn [k_fun].
        rewrite (fill_in N (bW, off p)) by assumption. apply HV; [assumption| |assumption]. apply tile_agree; assumption.
      + intros l L1 L2. rewrite E4, E2; auto. intros x s _ _ (r & _ & ->). apply L2. reflexivity.
    - intros p Hp. apply HG, HI. assumption.
    - intros p Hp. apply HI. assumption.
    - intros p Hp. rewrite HT. reflexivity.
    - intros p l Hp. rewrite HT. auto.
    - intros p l Hp. rewrite HT. cbn [k_writes]. split.
      + intros Hl. exists (off p, len p). split; [left; reflexivity|assumption].
      + intros (s & [<-|[]] & Hl). assumption.
    - intros p q s s' r r' Hp Hq [<-|[]] [<-|[]] Hr Hr' E. cbn [fst snd] in *.
      assert (p = q) as -> by (apply (HX p q r r'); auto; apply HI; assumption). auto.
  Qed.

  Lemma tile_off_inj : forall p q r r' R (c : Z * Z -> Z) (k : Z * Z -> Z),
    (forall s t : Z * Z, c s = c t -> k s = k t -> s = t) ->
    0 <= c p * nb + r < R -> 0 <= c q * nb + r' < R -> 0 <= r < nb -> 0 <= r' < nb ->
    R * k p + c p * nb + r = R * k q + c q * nb + r' -> p = q.
  Proof using.
    clear H1 H2 H3.
    intros p q r r' R c k HC P Q Hr Hr' E.
    destruct (pos_inj R (k p) (k q) (c p * nb + r) (c q * nb + r') P Q ltac:(lia)) as [E1 E2].
    destruct (pos_inj2 nb (c p) (c q) r r' Hr Hr' E2) as [E3 _]. auto.
  Qed.

  Lemma one_phase : region_ensures (pzge2desc pA lda bA A ++ lange_one_tiles bA A (bW, 0)) M
    (fun M' => (forall c k, 0 <= c < d_n A -> 0 <= k < d_mt A ->
                  M' (bW, d_n A * k + c) = nsum (fun i => nabs (ul M pA lda i c)) (k * nb) (Z.min ((k + 1) * nb) (d_m A))) /\
               (forall l, fst l <> bA -> fst l <> bW -> M' l = M l)).
  Proof.
    pose (t := fun p : Z * Z => omp_zlange_aux_one (N := N) (tile_mview A (fst p)) (tile_nview A (snd p))
      (tptr bA A (fst p) (snd p)) (tile_mmain A (fst p)) (pplus (bW, 0) (d_n A * fst p + snd p * d_nb A))).
    replace (lange_one_tiles bA A (bW, 0)) with (map t (idx_all A)) by (symmetry; exact (tasks_map t)).
    eapply region_mono; [|apply (seg1_region t (fun p => d_n A * fst p + snd p * d_nb A) (fun p => tile_nview A (snd p))
      (fun p => aux_one (tile_mview A (fst p))))].
    - intros M' (E1 & E2). split; [|assumption]. intros c k Hc Hk.
      pose proof (pos_tile nb A _ HA c (d_n A) Hc) as (P1 & P2 & P3).
      assert (HI : in_tiles A k (c / nb)).
      { split; [assumption|]. rewrite (dn_nt nb A HA). split; [assumption|]. unfold tsz in P2. apply ntl_spec; lia. }
      pose proof (E1 (k, c / nb) (c mod nb) HI) as E. cbn [fst snd] in E. unfold tsz in P2.
      rewrite (nview_eq k (c / nb) HI) in E. specialize (E P2).
      rewrite (sq_nb nb A _ HA) in E. replace (d_n A * k + c / nb * nb + c mod nb) with (d_n A * k + c) in E by lia.
      rewrite E. destruct (views k (c / nb) HI) as (V1 & V2 & V3 & _). rewrite aux_one_sum by lia.
      rewrite (mview_eq k (c / nb) HI). rewrite <- tile_sum. apply nsum_ext. intros i _. unfold tile_of.
      rewrite <- P3. reflexivity.
    - intros p Hp. apply zlange_aux_one_kgood. destruct (views _ _ Hp). lia.
    - intros p. reflexivity.
    - intros p F F' r Hp HF Hr. destruct (views _ _ Hp) as (V1 & V2 & V3 & _). eapply aux_one_ext; eauto; lia.
    - intros p q r r' Hp Hq Hr Hr' E. rewrite (sq_nb nb A _ HA) in E.
      destruct (views _ _ Hp) as (_ & _ & _ & V4 & V5 & V6). destruct (views _ _ Hq) as (_ & _ & _ & W4 & W5 & W6).
      apply (tile_off_inj p q r r' (d_n A) snd fst); try lia; [|nia..].
      intros [] []; cbn; congruence.
  Qed.

  Lemma inf_phase : region_ensures (pzge2desc pA lda bA A ++ lange_inf_tiles bA A (bW, 0)) M
    (fun M' => (forall i k, 0 <= i < d_m A -> 0 <= k < d_nt A ->
                  M' (bW, d_m A * k + i) = nsum (fun j => nabs (ul M pA lda i j)) (k * nb) (Z.min ((k + 1) * nb) (d_n A))) /\
               (forall l, fst l <> bA -> fst l <> bW -> M' l = M l)).
  Proof.
    pose (t := fun p : Z * Z => omp_zlange_aux_inf (N := N) (tile_mview A (fst p)) (tile_nview A (snd p))
      (tptr bA A (fst p) (snd p)) (tile_mmain A (fst p)) (pplus (bW, 0) (d_m A * snd p + fst p * d_mb A))).
    replace (lange_inf_tiles bA A (bW, 0)) with (map t (idx_all A)) by (symmetry; exact (tasks_map t)).
    eapply region_mono; [|apply (seg1_region t (fun p => d_m A * snd p + fst p * d_mb A) (fun p => tile_mview A (fst p))
      (fun p => aux_inf (tile_nview A (snd p))))].
    - intros M' (E1 & E2). split; [|assumption]. intros i k Hi Hk.
      pose proof (pos_tile nb A _ HA i (d_m A) Hi) as (P1 & P2 & P3).
      assert (HI : in_tiles A (i / nb) k).
      { split; [|assumption]. rewrite (dn_mt nb A HA). split; [assumption|]. unfold tsz in P2. apply ntl_spec; lia. }
      pose proof (E1 (i / nb, k) (i mod nb) HI) as E. cbn [fst snd] in E. unfold tsz in P2.
      rewrite (mview_eq (i / nb) k HI) in E. specialize (E P2).
      rewrite (sq_mb nb A _ HA) in E. replace (d_m A * k + i / nb * nb + i mod nb) with (d_m A * k + i) in E by lia.
      rewrite E. rewrite aux_inf_sum.
      rewrite (nview_eq (i / nb) k HI). rewrite <- tile_sum. apply nsum_ext. intros j _. unfold tile_of.
      rewrite <- P3. reflexivity.
    - intros p Hp. apply zlange_aux_inf_kgood.
    - intros p. reflexivity.
    - intros p F F' r Hp HF Hr. apply (lange_row_ext _ _ _ _ _ HF Hr).
    - intros p q r r' Hp Hq Hr Hr' E. rewrite (sq_mb nb A _ HA) in E.
      destruct (views _ _ Hp) as (V4 & V5 & V6 & _). destruct (views _ _ Hq) as (W4 & W5 & W6 & _).
      apply (tile_off_inj p q r r' (d_m A) fst snd); try lia; [|nia..].
      intros [] []; cbn; congruence.
  Qed.

  Lemma max_phase : region_ensures (pzge2desc pA lda bA A ++ lange_max_tiles bA A (bW, 0)) M
    (fun M' => (forall i j, in_tiles A i j ->
       largest (fun p => in_matrix (Z.min nb (d_m A - i * nb)) (Z.min nb (d_n A - j * nb)) (fst p) (snd p))
               (fun p : Z * Z => nabs (ul M pA lda (i * nb + fst p) (j * nb + snd p))) (M' (bW, d_mt A * j + i))) /\
               (forall l, fst l <> bA -> fst l <> bW -> M' l = M l)).
  Proof.
    pose (t := fun p : Z * Z => omp_zlange_max (N := N) (tile_mview A (fst p)) (tile_nview A (snd p))
      (tptr bA A (fst p) (snd p)) (tile_mmain A (fst p)) (pplus (bW, 0) (d_mt A * snd p + fst p))).
    replace (lange_max_tiles bA A (bW, 0)) with (map t (idx_all A)) by (symmetry; exact (tasks_map t)).
    eapply region_mono; [|apply (seg1_region t (fun p => d_mt A * snd p + fst p) (fun p => 1)
      (fun p F _ => lange_max (tile_mview A (fst p)) (tile_nview A (snd p)) F))].
    - intros M' (E1 & E2). split; [|assumption]. intros i j HI.
      pose proof (E1 (i, j) 0 HI ltac:(lia)) as E. cbn [fst snd] in E. rewrite Z.add_0_r in E. rewrite E.
      rewrite (mview_eq i j HI), (nview_eq i j HI). apply lange_max_largest.
    - intros p Hp. apply zlange_max_kgood.
    - intros p. reflexivity.
    - intros p F F' r Hp HF Hr. apply (lange_max_ext _ _ _ _ HF).
    - intros [m n] [m' n'] r r' [Hp _] [Hq _] Hr Hr' E. cbn [fst snd] in *.
      destruct (pos_inj (d_mt A) n n' m m') as [-> ->]; auto; lia.
  Qed.

  Lemma fro_phase : forall lassq, lassq_ok lassq ->
    region_ensures (pzge2desc pA lda bA A ++ lange_fro_tiles lassq bA A (bW, 0)) M
    (fun M' => (forall i j, in_tiles A i j ->
       ssq_ok (M' (bW, d_mt A * j + i), M' (bW, d_mt A * d_nt A + (d_mt A * j + i)))
         (nsum (fun y => nsum (fun x => nmul (nabs (ul M pA lda x y)) (nabs (ul M pA lda x y)))
            (i * nb) (Z.min ((i + 1) * nb) (d_m A))) (j * nb) (Z.min ((j + 1) * nb) (d_n A)))) /\
               (forall l, fst l <> bA -> fst l <> bW -> M' l = M l)).
  Proof.
    intros lassq HL.
    assert (HI : forall p, In p (idx_all A) <-> in_tiles A (fst p) (snd p)).
    { intros [m n]. apply idx_all_in. }
    pose (t := fun p : Z * Z => omp_zgessq (N := N) lassq (tile_mview A (fst p)) (tile_nview A (snd p))
      (tptr bA A (fst p) (snd p)) (tile_mmain A (fst p)) (pplus (bW, 0) (d_mt A * snd p + fst p))
      (pplus (pplus (bW, 0) (d_mt A * d_nt A)) (d_mt A * snd p + fst p))).
    replace (lange_fro_tiles lassq bA A (bW, 0)) with (map t (idx_all A)) by (symmetry; exact (tasks_map t)).
    assert (BD : forall m n, in_tiles A m n -> 0 <= d_mt A * n + m < d_mt A * d_nt A).
    { intros m n [Hm Hn]. nia. }
    eapply region_mono; [|apply (jobs_region nb bA A pA lda bW t fst snd
      (fun p => [(d_mt A * snd p + fst p, 1); (d_mt A * d_nt A + (d_mt A * snd p + fst p), 1)]) (idx_all A));
      auto using idx_all_NoDup].
    - intros M' (M3 & E1 & E2 & E3 & E4). split.
      + intros i j HT.
        pose proof (E3 (i, j) _ 0 (proj2 (HI (i, j)) HT) (or_introl eq_refl) ltac:(cbn; lia)) as F1.
        pose proof (E3 (i, j) _ 0 (proj2 (HI (i, j)) HT) (or_intror (or_introl eq_refl)) ltac:(cbn; lia)) as F2.
        cbn [fst snd] in F1, F2. rewrite Z.add_0_r in F1, F2. rewrite F1, F2. clear F1 F2.
        unfold t. cbn [k_fun omp_zgessq fst snd].
        rewrite fill_out.
        2: { intros (r & Hr & E). cbn [pplus fst snd] in E. injection E as E. specialize (BD i j HT). lia. }
        replace (bW, d_mt A * j + i) with (bW, (0 + (d_mt A * j + i)) + 0) at 1 by (f_equal; lia).
        rewrite (fill_in N (pplus (bW, 0) (d_mt A * j + i)) 1) by lia.
        replace (bW, d_mt A * d_nt A + (d_mt A * j + i)) with (bW, (0 + d_mt A * d_nt A + (d_mt A * j + i)) + 0) at 1 by (f_equal; lia).
        rewrite (fill_in N (pplus (pplus (bW, 0) (d_mt A * d_nt A)) (d_mt A * j + i)) 1) by lia.
        rewrite (gessq_ext lassq _ _ _ (tile_of i j)) by (apply tile_agree; assumption).
        rewrite <- surjective_pairing. rewrite (mview_eq i j HT), (nview_eq i j HT).
        pose proof (gessq_ok lassq (Z.min nb (d_m A - i * nb)) (Z.min nb (d_n A - j * nb)) (tile_of i j) HL) as G.
        match type of G with ssq_ok _ ?x => match goal with |- ssq_ok _ ?y => replace y with x; [exact G|] end end.
        rewrite <- (tile_sum (fun y => nsum (fun x => nmul (nabs (ul M pA lda x y)) (nabs (ul M pA lda x y))) _ _)).
        apply nsum_ext. intros y _.
        rewrite <- (tile_sum (fun x => nmul (nabs (ul M pA lda x (j * nb + y))) (nabs (ul M pA lda x (j * nb + y))))).
        reflexivity.
      + intros l L1 L2. rewrite E4, E2; auto. intros x s _ _ (r & _ & ->). apply L2. reflexivity.
    - intros p Hp. apply zgessq_kgood.
    - intros p Hp. apply HI. assumption.
    - intros p l Hp. cbn [t k_writes omp_zgessq]. split.
      + intros [Hl|Hl]; eexists; split; [left; reflexivity|exact Hl|right; left; reflexivity|exact Hl].
      + intros (s & [<-|[<-|[]]] & Hl); auto.
    - intros [m n] [m' n'] s s' r r' Hp Hq Hs Hs' Hr Hr' E. apply HI in Hp, Hq. cbn [fst snd] in *.
      pose proof (BD m n Hp) as B1. pose proof (BD m' n' Hq) as B2.
      assert (EE : d_mt A * n + m = d_mt A * n' + m' /\ (fst s <? d_mt A * d_nt A) = (fst s' <? d_mt A * d_nt A)).
      { destruct Hs as [<-|[<-|[]]], Hs' as [<-|[<-|[]]]; cbn [fst snd] in *; split; lia. }
      destruct EE as [E1 E2]. destruct (pos_inj (d_mt A) n n' m m') as [-> ->]; [apply Hp|apply Hq|assumption|].
      split; [reflexivity|].
      destruct Hs as [<-|[<-|[]]], Hs' as [<-|[<-|[]]]; cbn [fst snd] in *; try reflexivity; lia.
  Qed.
End Tiles.
