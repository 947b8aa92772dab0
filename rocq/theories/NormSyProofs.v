(* plasma_zlansy and plasma_zlanhe. *)
From Coq Require Import ZArith List Bool Lia Ring.
From Verif Require Import Base NumModel NumProofs FieldModel TaskModel TaskSpec TaskProofs DescModel DescSpec
  DescProofs DescProofs4 DescDriverModel MatModel MatSpec MatProofs RegionProofs
  LayoutModel LayoutProofs LayoutProofs2 DriverModel DriverSpec SimProofs OpProofs OperandProofs GemmProofs
  EwProofs SwpModel NormModel NormTriModel NormSpec FillProofs NormProofs NormDriverProofs NormPhaseProofs
  NormTriProofs NormTriProofs2 NormTriPhaseProofs NormTriExtProofs.
Import ListNotations.
Open Scope Z_scope.

Lemma NoDup_flat_map : forall (X Y : Type) (g : X -> list Y) l, NoDup l -> (forall x, In x l -> NoDup (g x)) ->
  (forall x x' y, In x l -> In x' l -> In y (g x) -> In y (g x') -> x = x') -> NoDup (flat_map g l).
Proof.
  intros X Y g l HN. induction HN as [|x l Hx HN IH]; intros HG HD; [constructor|]. cbn [flat_map].
  apply NoDup_app_intro.
  - apply HG. left. reflexivity.
  - apply IH; intros; [apply HG|apply (HD x0 x' y)]; try right; assumption.
  - intros y H1 H2. apply in_flat_map in H2. destruct H2 as (x' & Hx' & Hy).
    assert (x = x') as -> by (apply (HD x x' y); auto; [left; reflexivity|right; assumption]). contradiction.
Qed.

(* every tile of a square matrix, in the order of the tasks of plasma_pzlansy for the one norm *)
Definition idx_sy (uplo : Z) (A : desc) : list (Z * Z) :=
  flat_map (fun p => if fst p =? snd p then [p] else [p; (snd p, fst p)]) (idx_st uplo A).

Lemma idx_sy_in : forall uplo A m n, valid_uplo uplo -> d_mt A = d_nt A -> In (m, n) (idx_sy uplo A) <-> in_tiles A m n.
Proof.
  intros uplo A m n HU HS. unfold idx_sy. rewrite in_flat_map. split.
  - intros ([a b] & HI & H). apply (idx_st_in uplo A a b HU) in HI. destruct HI as [HI _]. cbn [fst snd] in H.
    destruct (a =? b); cbn in H; unfold in_tiles in *.
    + destruct H as [E|[]]. injection E as <- <-. assumption.
    + destruct H as [E|[E|[]]]; injection E as <- <-; lia.
  - intros HI. destruct (stored uplo m n) eqn:E.
    + exists (m, n). split; [apply (idx_st_in uplo A m n HU); auto|]. cbn [fst snd]. destruct (m =? n); left; reflexivity.
    + assert (m <> n) by (intros ->; rewrite stored_refl in E; discriminate).
      exists (n, m). split; [apply (idx_st_in uplo A n m HU); split|].
      * unfold in_tiles in *. lia.
      * rewrite stored_swap, E by assumption. reflexivity.
      * cbn [fst snd]. replace (n =? m) with false by lia. right. left. reflexivity.
Qed.

Lemma idx_sy_NoDup : forall uplo A, valid_uplo uplo -> NoDup (idx_sy uplo A).
Proof.
  intros uplo A HU. apply NoDup_flat_map; [apply idx_st_NoDup| |].
  - intros [a b] _. cbn [fst snd]. destruct (Z.eqb_spec a b); repeat constructor; cbn; try tauto.
    intros [E|[]]. injection E as E _. congruence.
  - intros [a b] [a' b'] [x y] H H' K K'. apply (idx_st_in uplo A a b HU) in H. apply (idx_st_in uplo A a' b' HU) in H'.
    destruct H as [_ S], H' as [_ S']. cbn [fst snd] in *.
    assert (C : forall u v, stored uplo u v = true -> In (x, y) (if u =? v then [(u, v)] else [(u, v); (v, u)]) ->
      (u, v) = if stored uplo x y then (x, y) else (y, x)).
    { intros u v SU HIn. destruct (Z.eqb_spec u v) as [->|NE].
      - destruct HIn as [E|[]]. injection E as <- <-. rewrite SU. reflexivity.
      - destruct HIn as [E|[E|[]]]; injection E as <- <-; [rewrite SU; reflexivity|].
        rewrite stored_swap, SU by congruence. reflexivity. }
    rewrite (C a b S K), (C a' b' S' K'). reflexivity.
Qed.

Lemma map_flat_map : forall (X Y W : Type) (t : Y -> W) (g : X -> list Y) l,
  map t (flat_map g l) = flat_map (fun x => map t (g x)) l.
Proof. intros X Y W t g l. induction l as [|x l IH]; [reflexivity|]. cbn [flat_map]. rewrite map_app, IH. reflexivity. Qed.
Lemma flat_map_in : forall (X Y : Type) (f g : X -> list Y) l, (forall x, In x l -> f x = g x) -> flat_map f l = flat_map g l.
Proof.
  intros X Y f g l H. induction l as [|x l IH]; [reflexivity|]. cbn [flat_map]. rewrite (H x), IH; [reflexivity| |left; reflexivity].
  intros y Hy. apply H. right. assumption.
Qed.

Section Sy.
  Context {N : normed}.
  Add Ring num_ring_sy : (nring N).
  Variables (nb bA : Z) (A : desc) (pA : loc) (lda bW n : Z).
  Hypothesis HA : dn nb A.
  Hypothesis Hb : 0 < nb.
  Hypothesis Hn : 0 < n.
  Hypothesis Em : d_m A = n.
  Hypothesis En : d_n A = n.
  Hypothesis LA : n <= lda.
  Hypothesis H1 : fst pA <> bA.
  Hypothesis H2 : fst pA <> bW.
  Hypothesis H3 : bA <> bW.
  Variable M : mem N.
  Variables (dg : N -> N) (uplo : Z).
  Hypothesis HD : forall z, isabs (dg z).
  Hypothesis HU : valid_uplo uplo.

  Let T := ntl nb n.
  Lemma T_mt : d_mt A = T.
  Proof. unfold T. rewrite (dn_mt nb A HA), Em. reflexivity. Qed.
  Lemma T_nt : d_nt A = T.
  Proof. unfold T. rewrite (dn_nt nb A HA), En. reflexivity. Qed.
  Lemma in_T : forall i j, in_tiles A i j <-> 0 <= i < T /\ 0 <= j < T.
  Proof. intros i j. unfold in_tiles. rewrite T_mt, T_nt. tauto. Qed.
  Lemma mv : forall m, 0 <= m < T -> tile_mview A m = Z.min nb (n - m * nb) /\ tile_nview A m = Z.min nb (n - m * nb).
  Proof.
    intros m Hm. assert (HI : in_tiles A m m) by (apply in_T; lia).
    rewrite (mview_eq nb A HA m m HI), (nview_eq nb A HA m m HI), Em, En. auto.
  Qed.
  Lemma mv_pos : forall m, 0 <= m < T -> 0 < Z.min nb (n - m * nb).
  Proof. intros m Hm. pose proof (ntl_lt nb n m Hb Hn Hm). lia. Qed.

  Notation F := (ul M pA lda).
  Notation G := (gs dg uplo F).

  (* PlasmaMaxNorm *)
  Lemma sy_max_phase : region_ensures (pzge2desc pA lda bA A ++
      tri_tiles uplo A
         (fun m n => [omp_zlange_max (tile_mview A m) (tile_nview A n) (tptr bA A m n) (tile_mmain A m)
                        (pplus (bW, 0) (d_mt A * n + m))])
         (fun m => omp_zlansy_max dg uplo (tile_mview A m) (tptr bA A m m) (tile_mmain A m)
                        (pplus (bW, 0) (d_mt A * m + m)))) M
    (fun M' => (forall i j, 0 <= i < T -> 0 <= j < T -> stored uplo i j = true ->
       largest (fun p => in_matrix (Z.min nb (n - i * nb)) (Z.min nb (n - j * nb)) (fst p) (snd p))
               (fun p : Z * Z => G (i * nb + fst p) (j * nb + snd p)) (M' (bW, T * j + i))) /\
               (forall l, fst l <> bA -> fst l <> bW -> M' l = M l)).
  Proof.
    pose (t := fun p : Z * Z => if fst p =? snd p
      then omp_zlansy_max dg uplo (tile_mview A (fst p)) (tptr bA A (fst p) (fst p)) (tile_mmain A (fst p))
                        (pplus (bW, 0) (d_mt A * fst p + fst p))
      else omp_zlange_max (N := N) (tile_mview A (fst p)) (tile_nview A (snd p))
      (tptr bA A (fst p) (snd p)) (tile_mmain A (fst p)) (pplus (bW, 0) (d_mt A * snd p + fst p))).
    pose (val := fun (p : Z * Z) (f : Z -> Z -> N) (_ : Z) => if fst p =? snd p
      then lansy_max dg uplo (tile_mview A (fst p)) f else lange_max (tile_mview A (fst p)) (tile_nview A (snd p)) f).
    match goal with |- region_ensures (_ ++ ?x) _ _ => replace x with (map t (idx_st uplo A)) end.
    2: { rewrite tri_tiles_eq. induction (idx_st uplo A) as [|[a b] L IH]; [reflexivity|]. cbn [map flat_map fst snd].
         rewrite <- IH. unfold t at 1. cbn [fst snd]. destruct (a =? b); reflexivity. }
    assert (HI : forall x, In x (idx_st uplo A) -> in_tiles A (fst x) (snd x) /\ stored uplo (fst x) (snd x) = true).
    { intros [a b] H. apply (idx_st_in uplo A a b HU) in H. exact H. }
    eapply region_mono; [|apply (seg1_gen nb bA A pA lda bW HA Hb) with (tm := fst) (tn := snd)
      (off := fun p => d_mt A * snd p + fst p) (len := fun _ => 1) (val := val); auto using idx_st_NoDup].
    - intros M' (E1 & E2). split.
      + intros i j Hi Hj HS.
        pose proof (E1 (i, j) 0) as E. cbn [fst snd] in E. rewrite Z.add_0_r, T_mt in E.
        rewrite E; [|apply (idx_st_in uplo A i j HU); split; [apply in_T; auto|assumption]|lia].
        unfold val. cbn [fst snd]. destruct (mv i Hi) as [V1 _]. destruct (mv j Hj) as [_ V2]. rewrite V1, V2.
        destruct (Z.eqb_spec i j) as [->|NE].
        * eapply largest_ext; [|apply lansy_max_largest; [assumption|apply mv_pos; assumption]].
          intros [r c] Hrc. cbn [fst snd]. symmetry. apply (gs_diag dg uplo (j * nb) F r c).
        * eapply largest_ext; [|apply lange_max_largest].
          intros [r c] [Hr Hc]. cbn [fst snd] in *. symmetry.
          rewrite (gs_off dg uplo nb F i j r c) by lia. rewrite HS. reflexivity.
      + intros l L1 L2. apply E2; [assumption|]. intros x Hx (r & _ & ->). apply L2. reflexivity.
    - lia.
    - intros x Hx. apply HI. assumption.
    - intros [a b] f f' r Hx HF _. destruct (HI _ Hx) as [HT _]. unfold val. cbn [fst snd] in *.
      destruct (Z.eqb_spec a b) as [->|NE]; [|apply (lange_max_ext _ _ _ _ HF)].
      apply lansy_max_ext. apply in_T in HT. destruct (mv b ltac:(tauto)) as [V1 V2]. rewrite V2 in HF. rewrite V1 in *. exact HF.
    - intros [a b] [a' b'] r r' Hx Hy Hr Hr' E. cbn [fst snd] in *. apply HI in Hx, Hy. cbn [fst snd] in *.
      destruct Hx as [HT _], Hy as [HT' _]. destruct HT, HT'.
      destruct (pos_inj (d_mt A) b b' a a') as [-> ->]; auto; lia.
    - intros [a b] Hx. destruct (HI _ Hx) as [HT _]. unfold t, val. cbn [fst snd] in *.
      destruct (Z.eqb_spec a b) as [->|NE]; [|reflexivity]. apply in_T in HT. destruct (mv b ltac:(tauto)) as [V1 V2].
      rewrite V1, V2. reflexivity.
  Qed.

  (* PlasmaOneNorm and PlasmaInfNorm *)
  Lemma sy_one_phase : region_ensures (pzge2desc pA lda bA A ++
      tri_tiles uplo A
         (fun m n => [omp_zlange_aux_one (tile_mview A m) (tile_nview A n) (tptr bA A m n) (tile_mmain A m)
                        (pplus (bW, 0) (d_n A * m + n * d_nb A));
                      omp_zlange_aux_inf (tile_mview A m) (tile_nview A n) (tptr bA A m n) (tile_mmain A m)
                        (pplus (bW, 0) (d_n A * n + m * d_nb A))])
         (fun m => omp_zlansy_aux dg uplo (tile_mview A m) (tptr bA A m m) (tile_mmain A m)
                        (pplus (bW, 0) (d_n A * m + m * d_nb A)))) M
    (fun M' => (forall c k, 0 <= c < n -> 0 <= k < T ->
                  M' (bW, n * k + c) = nsum (fun i => G i c) (k * nb) (Z.min ((k + 1) * nb) n)) /\
               (forall l, fst l <> bA -> fst l <> bW -> M' l = M l)).
  Proof.
    pose (tm := fun x : Z * Z => if stored uplo (fst x) (snd x) then fst x else snd x).
    pose (tn := fun x : Z * Z => if stored uplo (fst x) (snd x) then snd x else fst x).
    pose (t := fun x : Z * Z => if fst x =? snd x
      then omp_zlansy_aux dg uplo (tile_mview A (fst x)) (tptr bA A (fst x) (fst x)) (tile_mmain A (fst x))
                        (pplus (bW, 0) (d_n A * fst x + fst x * d_nb A))
      else if stored uplo (fst x) (snd x)
      then omp_zlange_aux_one (N := N) (tile_mview A (fst x)) (tile_nview A (snd x))
             (tptr bA A (fst x) (snd x)) (tile_mmain A (fst x)) (pplus (bW, 0) (d_n A * fst x + snd x * d_nb A))
      else omp_zlange_aux_inf (N := N) (tile_mview A (snd x)) (tile_nview A (fst x))
             (tptr bA A (snd x) (fst x)) (tile_mmain A (snd x)) (pplus (bW, 0) (d_n A * fst x + snd x * d_nb A))).
    pose (val := fun (x : Z * Z) (f : Z -> Z -> N) => if fst x =? snd x
      then lansy_aux dg uplo (tile_mview A (fst x)) f
      else if stored uplo (fst x) (snd x) then aux_one (tile_mview A (fst x)) f else aux_inf (tile_nview A (fst x)) f).
    match goal with |- region_ensures (_ ++ ?x) _ _ => replace x with (map t (idx_sy uplo A)) end.
    2: { rewrite tri_tiles_eq. unfold idx_sy. rewrite map_flat_map. apply flat_map_in. intros [a b] Hx.
         apply (idx_st_in uplo A a b HU) in Hx. destruct Hx as [_ HS]. cbn [fst snd]. destruct (Z.eqb_spec a b) as [->|NE].
         - cbn [map]. unfold t. cbn [fst snd]. rewrite Z.eqb_refl. reflexivity.
         - cbn [map]. unfold t. cbn [fst snd]. replace (a =? b) with false by lia. replace (b =? a) with false by lia.
           rewrite (stored_swap uplo a b NE), HS. reflexivity. }
    assert (HI : forall x, In x (idx_sy uplo A) -> 0 <= fst x < T /\ 0 <= snd x < T).
    { intros [a b] H. apply (idx_sy_in uplo A a b HU) in H; [|rewrite T_mt, T_nt; reflexivity]. apply in_T. exact H. }
    assert (NB : d_nb A = nb) by (exact (sq_nb nb A _ HA)).
    eapply region_mono; [|apply (seg1_gen nb bA A pA lda bW HA Hb) with (tm := tm) (tn := tn)
      (off := fun x => d_n A * fst x + snd x * d_nb A) (len := fun x => Z.min nb (n - snd x * nb)) (val := val); auto using idx_sy_NoDup].
    - intros M' (E1 & E2). split.
      + intros c k Hc Hk.
        pose proof (pos_tile nb A _ HA c n Hc) as (P1 & P2 & P3). unfold tsz in P2.
        assert (Hj : 0 <= c / nb < T). { split; [assumption|]. apply ntl_spec; lia. }
        pose proof (E1 (k, c / nb) (c mod nb)) as E. cbn [fst snd] in E. rewrite NB, En in E.
        replace (n * k + c / nb * nb + c mod nb) with (n * k + c) in E by lia.
        rewrite E; [|apply (idx_sy_in uplo A _ _ HU); [rewrite T_mt, T_nt; reflexivity|apply in_T; auto]|assumption].
        destruct (mv k Hk) as [V1 V1']. pose proof (mv_pos k Hk) as V2.
        rewrite <- (tile_sum (fun i => G i c)). unfold val, tm, tn. cbn [fst snd].
        rewrite (nsum_ext N (fun r => G (k * nb + r) c) (fun r => G (k * nb + r) (c / nb * nb + c mod nb))) by (intros; rewrite <- P3; reflexivity).
        destruct (Z.eqb_spec k (c / nb)) as [EK|NE].
        * rewrite <- EK in *. rewrite V1. rewrite lansy_aux_sum by assumption.
          apply nsum_ext. intros r Hr. destruct (stored uplo k k); symmetry; apply (gs_diag dg uplo (k * nb) F).
        * destruct (stored uplo k (c / nb)) eqn:HS.
          -- rewrite V1, aux_one_sum by assumption. apply nsum_ext. intros r Hr.
             rewrite (gs_off dg uplo nb F) by lia. rewrite HS. reflexivity.
          -- rewrite V1', aux_inf_sum. apply nsum_ext. intros r Hr.
             rewrite (gs_off dg uplo nb F) by lia. rewrite HS. reflexivity.
      + intros l L1 L2. apply E2; [assumption|]. intros x Hx (r & _ & ->). apply L2. reflexivity.
    - lia.
    - intros x Hx. apply HI in Hx. apply in_T. unfold tm, tn. destruct (stored uplo (fst x) (snd x)); tauto.
    - intros [a b] f f' r Hx HF Hr. destruct (HI _ Hx) as [Ha Hb']. unfold val, tm, tn in *. cbn [fst snd] in *.
      destruct (mv a Ha) as [V1 V2]. destruct (mv b Hb') as [W1 W2]. pose proof (mv_pos a Ha). pose proof (mv_pos b Hb').
      destruct (Z.eqb_spec a b) as [->|NE].
      + apply lansy_aux_ext; [|rewrite V1; assumption]. destruct (stored uplo b b); rewrite W1, W2 in HF; rewrite W1; exact HF.
      + destruct (stored uplo a b); rewrite ?V1, ?V2, ?W1, ?W2 in *.
        * eapply aux_one_ext; eauto.
        * eapply lange_row_ext; eauto.
    - intros x y r r' Hx Hy Hr Hr' E. apply HI in Hx, Hy. rewrite NB, En in E.
      destruct Hx as [X1 X2], Hy as [Y1 Y2].
      apply (tile_off_inj nb x y r r' n snd fst); try lia; [|nia..].
      intros [] []; cbn; congruence.
    - intros [a b] Hx. destruct (HI _ Hx) as [Ha Hb']. unfold t, val, tm, tn. cbn [fst snd] in *.
      destruct (mv a Ha) as [V1 V2]. destruct (mv b Hb') as [W1 W2].
      destruct (Z.eqb_spec a b) as [->|NE].
      + destruct (stored uplo b b); rewrite V1, V2; reflexivity.
      + destruct (stored uplo a b); rewrite ?V1, ?V2, ?W1, ?W2; reflexivity.
  Qed.

  (* PlasmaFrobeniusNorm *)
  Lemma sy_fro_phase : forall lassq, lassq_ok lassq -> region_ensures (pzge2desc pA lda bA A ++
      tri_tiles uplo A
         (fun m n =>
            let o := if uplo =? PlasmaLower then d_mt A * n + m else d_mt A * m + n in
            [omp_zgessq lassq (tile_mview A m) (tile_nview A n) (tptr bA A m n) (tile_mmain A m)
               (pplus (bW, 0) o) (pplus (pplus (bW, 0) (d_mt A * d_nt A)) o)])
         (fun m => omp_zsyssq lassq dg uplo (tile_mview A m) (tptr bA A m m) (tile_mmain A m)
               (pplus (bW, 0) (d_mt A * m + m)) (pplus (pplus (bW, 0) (d_mt A * d_nt A)) (d_mt A * m + m)))) M
    (fun M' => (forall i j, 0 <= j <= i -> i < T ->
       ssq_ok (M' (bW, T * j + i), M' (bW, T * T + (T * j + i)))
         (nsum (fun y => nsum (fun x => nmul (G x y) (G x y)) (i * nb) (Z.min ((i + 1) * nb) n)) (j * nb) (Z.min ((j + 1) * nb) n))) /\
               (forall l, fst l <> bA -> fst l <> bW -> M' l = M l)).
  Proof.
    intros lassq HL.
    pose (off := fun x : Z * Z => if uplo =? PlasmaLower then d_mt A * snd x + fst x else d_mt A * fst x + snd x).
    pose (t := fun x : Z * Z => if fst x =? snd x
      then omp_zsyssq lassq dg uplo (tile_mview A (fst x)) (tptr bA A (fst x) (fst x)) (tile_mmain A (fst x))
               (pplus (bW, 0) (d_mt A * fst x + fst x)) (pplus (pplus (bW, 0) (d_mt A * d_nt A)) (d_mt A * fst x + fst x))
      else omp_zgessq lassq (tile_mview A (fst x)) (tile_nview A (snd x)) (tptr bA A (fst x) (snd x)) (tile_mmain A (fst x))
               (pplus (bW, 0) (off x)) (pplus (pplus (bW, 0) (d_mt A * d_nt A)) (off x))).
    pose (val := fun (x : Z * Z) (f : Z -> Z -> N) => if fst x =? snd x
      then syssq lassq dg uplo (tile_mview A (fst x)) f else gessq lassq (tile_mview A (fst x)) (tile_nview A (snd x)) f).
    match goal with |- region_ensures (_ ++ ?x) _ _ => replace x with (map t (idx_st uplo A)) end.
    2: { rewrite tri_tiles_eq. cbv zeta. induction (idx_st uplo A) as [|[a b] L IH]; [reflexivity|]. cbn [map flat_map fst snd].
         rewrite <- IH. unfold t at 1. cbn [fst snd]. destruct (a =? b); reflexivity. }
    assert (HI : forall x, In x (idx_st uplo A) -> (0 <= fst x < T /\ 0 <= snd x < T) /\ stored uplo (fst x) (snd x) = true).
    { intros [a b] H. apply (idx_st_in uplo A a b HU) in H. rewrite in_T in H. exact H. }
    pose proof T_mt as MT. pose proof T_nt as NT.
    eapply region_mono; [|apply (seg2_gen nb bA A pA lda bW HA Hb) with (tm := fst) (tn := snd)
      (off := off) (S := T * T) (val := val); auto using idx_st_NoDup].
    - intros M' (E1 & E2). split.
      + intros i j Hj Hi.
        assert (EX : exists x, In x (idx_st uplo A) /\ off x = T * j + i /\ (x = (i, j) \/ x = (j, i))).
        { unfold off. rewrite MT. pose proof HU as [HU'|HU'].
          - exists (j, i). split; [|split; [|auto]].
            + apply (idx_st_in uplo A j i HU). rewrite in_T. unfold stored. rewrite HU'. cbn [Z.eqb PlasmaUpper Pos.eqb]. lia.
            + rewrite HU'. reflexivity.
          - exists (i, j). split; [|split; [|auto]].
            + apply (idx_st_in uplo A i j HU). rewrite in_T. unfold stored. rewrite HU'. cbn [Z.eqb PlasmaUpper PlasmaLower Pos.eqb]. lia.
            + rewrite HU'. reflexivity. }
        destruct EX as (x & Hx & EO & EX). pose proof (E1 x Hx) as E. rewrite EO in E. rewrite E. clear E.
        destruct (HI x Hx) as [[X1 X2] HS].
        assert (W : ssq_ok (val x (tile_of nb pA lda M (fst x) (snd x)))
          (nsum (fun y => nsum (fun z => nmul (G z y) (G z y)) (fst x * nb) (Z.min ((fst x + 1) * nb) n))
             (snd x * nb) (Z.min ((snd x + 1) * nb) n))).
        { rewrite <- (tile_sum (fun y => nsum (fun z => nmul (G z y) (G z y)) (fst x * nb) (Z.min ((fst x + 1) * nb) n)) nb (snd x)).
          rewrite (nsum_ext N _ (fun c => nsum (fun r => nmul (G (fst x * nb + r) (snd x * nb + c)) (G (fst x * nb + r) (snd x * nb + c)))
             0 (Z.min nb (n - fst x * nb)))).
          2: { intros c _. symmetry. apply (tile_sum (fun z => nmul (G z (snd x * nb + c)) (G z (snd x * nb + c)))). }
          destruct (mv _ X1) as [V1 V1']. destruct (mv _ X2) as [W1 W1']. pose proof (mv_pos _ X1) as V2.
          unfold val. rewrite V1, W1'. destruct (Z.eqb_spec (fst x) (snd x)) as [EQ|NE].
          - rewrite <- EQ. eassert (K : _); [apply (syssq_ok lassq dg uplo (Z.min nb (n - fst x * nb)) (tile_of nb pA lda M (fst x) (fst x)) HL HD V2)|].
            match type of K with ssq_ok _ ?u => match goal with |- ssq_ok _ ?v => replace v with u; [exact K|] end end.
            apply nsum_ext. intros c _. apply nsum_ext. intros r _. rewrite (gs_diag dg uplo (fst x * nb) F). reflexivity.
          - eassert (K : _); [apply (gessq_ok lassq (Z.min nb (n - fst x * nb)) (Z.min nb (n - snd x * nb)) (tile_of nb pA lda M (fst x) (snd x)) HL)|].
            match type of K with ssq_ok _ ?u => match goal with |- ssq_ok _ ?v => replace v with u; [exact K|] end end.
            apply nsum_ext. intros c Hc. apply nsum_ext. intros r Hr. rewrite (gs_off dg uplo nb F) by lia. rewrite HS. reflexivity. }
        destruct EX as [-> | ->]; cbn [fst snd] in W; [exact W|].
        match type of W with ssq_ok _ ?u => match goal with |- ssq_ok _ ?v => replace v with u; [exact W|] end end.
        rewrite (nsum_swap N (fun y z => nmul (G z y) (G z y))). apply nsum_ext. intros y _. apply nsum_ext. intros z _. rewrite (gs_sym dg uplo F y z). reflexivity.
      + intros l L1 L2. apply E2; [assumption|]. intros x Hx. split; intros ->; apply L2; reflexivity.
    - lia.
    - intros x Hx. apply in_T. apply HI. assumption.
    - intros [a b] f f' Hx HF. destruct (HI _ Hx) as [[Ha Hb'] _]. unfold val. cbn [fst snd] in *.
      destruct (Z.eqb_spec a b) as [->|NE]; [|apply (gessq_ext _ _ _ _ _ HF)].
      apply syssq_ext. destruct (mv b Ha) as [V1 V2]. rewrite V2 in HF. rewrite V1 in *. exact HF.
    - intros [a b] Hx. destruct (HI _ Hx) as [[Ha Hb'] _]. unfold off. rewrite MT. cbn [fst snd] in *. destruct (uplo =? PlasmaLower); nia.
    - intros [a b] [a' b'] Hx Hy E. apply HI in Hx, Hy. unfold off in E. rewrite MT in E. cbn [fst snd] in *.
      destruct Hx as [[X1 X2] _], Hy as [[Y1 Y2] _]. destruct (uplo =? PlasmaLower).
      + destruct (pos_inj T b b' a a') as [-> ->]; auto.
      + destruct (pos_inj T a a' b b') as [-> ->]; auto.
    - intros [a b] Hx. destruct (HI _ Hx) as [[Ha Hb'] _]. unfold t, val, off. cbn [fst snd] in *.
      destruct (Z.eqb_spec a b) as [->|NE].
      + destruct (mv b Ha) as [V1 V2]. rewrite V1, V2, MT, NT. destruct (uplo =? PlasmaLower); reflexivity.
      + rewrite MT, NT. reflexivity.
  Qed.
End Sy.
