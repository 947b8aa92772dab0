(* plasma_zlansy and plasma_zlanhe. *)
From Coq Require Import ZArith List Bool Lia Ring.
From Verif Require Import Base NumModel NumProofs FieldModel TaskModel TaskSpec TaskProofs DescModel DescSpec
  DescProofs DescProofs4 DescDriverModel MatModel MatSpec MatProofs RegionProofs
  LayoutModel LayoutProofs LayoutProofs2 DriverModel DriverSpec SimProofs OpProofs OperandProofs GemmProofs
  EwProofs NormModel NormTriModel NormSpec FillProofs NormProofs NormDriverProofs NormPhaseProofs NormZlangeProofs
  NormTriProofs NormTriProofs2 NormTriPhaseProofs NormTriExtProofs NormSyProofs.
Import ListNotations.
Open Scope Z_scope.

Section SyDriver.
  Context {N : normed}.
  Add Ring num_ring_syd : (nring N).

  Lemma zlansy_max_kgood : forall dg uplo n A lda value, kgood (@omp_zlansy_max N dg uplo n A lda value).
  Proof.
    intros dg uplo n A lda value. apply (fill_kgood N _ value 1 (fun M _ => lansy_max dg uplo n (rd M A lda))); [apply finite_reg|].
    intros. apply lansy_max_ext, agree_reg. assumption.
  Qed.
  Lemma dsyssq_aux_kgood : forall nsqrt m n scale sumsq value, n <= m -> kgood (@omp_dsyssq_aux N nsqrt m n scale sumsq value).
  Proof.
    intros nsqrt m n scale sumsq value Hmn. apply (fill_kgood N _ value 1 (fun M _ =>
      let s := syssq_aux m n (fun i => M (pplus scale i)) (fun i => M (pplus sumsq i)) in
           nmul (fst s) (nsqrt (snd s)))); [apply finite_or; apply finite_seg|].
    intros M M' i _ H. cbn beta.
    assert (EC : forall k, 0 <= k < m * n -> M (pplus scale k) = M' (pplus scale k) /\ M (pplus sumsq k) = M' (pplus sumsq k)).
    { intros k Hk. split; apply H; [left|right]; exists k; auto. }
    assert (E : syssq_aux m n (fun i => M (pplus scale i)) (fun i => M (pplus sumsq i))
              = syssq_aux m n (fun i => M' (pplus scale i)) (fun i => M' (pplus sumsq i))).
    { unfold syssq_aux.
      assert (E1 : fold_left (fun s j => fold_left (fun s i => ssq_add s (M (pplus scale (m * j + i))) (M (pplus sumsq (m * j + i))))
         (zrange (j + 1) n) s) (zrange 0 n) (n0, n1)
        = fold_left (fun s j => fold_left (fun s i => ssq_add s (M' (pplus scale (m * j + i))) (M' (pplus sumsq (m * j + i))))
         (zrange (j + 1) n) s) (zrange 0 n) (n0, n1)).
      { apply fold_left_ext_in. intros j s Hj. apply in_zrange in Hj. apply fold_left_ext_in. intros k u Hk. apply in_zrange in Hk.
        destruct (EC (m * j + k)) as [-> ->]; [nia|reflexivity]. }
      rewrite E1. apply fold_left_ext_in. intros j s Hj. apply in_zrange in Hj.
      destruct (EC (m * j + j)) as [-> ->]; [nia|reflexivity]. }
    cbn zeta. rewrite E. reflexivity.
  Qed.

  Lemma lansy_norm : forall lassq nsqrt dg (s : Z -> Z -> N) nb norm uplo n pA lda bA bW (value : loc) (M : mem N),
    (forall z, isabs (dg z)) -> (forall i j, nabs (s i j) = gs dg uplo (ul M pA lda) i j) ->
    0 < nb -> valid_norm norm -> valid_uplo uplo -> 0 <= n -> Z.max 1 n <= lda ->
    fst pA <> bA -> fst pA <> bW -> bA <> bW -> fst value <> bA -> fst value <> bW ->
    lassq_ok lassq ->
    valued_ensures (zlansy lassq nsqrt dg nb norm uplo n pA lda bA bW value) M
      (fun v M' => is_norm nsqrt norm n n s v /\
                   (forall l, fst l <> bA -> fst l <> bW -> l <> value -> M' l = M l)).
  Proof.
    intros lassq nsqrt dg s nb norm uplo n pA lda bA bW value M HD HS Hb HV HU Hn HL B1 B2 B3 B4 B5 HQ.
    unfold zlansy.
    replace (norm_ok norm) with true.
    2: { destruct HV as [->|[->|[->| ->]]]; reflexivity. }
    cbn [negb].
    replace ((uplo =? PlasmaUpper) || (uplo =? PlasmaLower)) with true.
    2: { destruct HU as [-> | ->]; reflexivity. }
    cbn [negb].
    replace (n <? 0) with false by (symmetry; apply Z.ltb_ge; lia).
    replace (lda <? Z.max 1 n) with false by (symmetry; apply Z.ltb_ge; lia).
    destruct (Z.eqb_spec n 0) as [E0|E0].
    - cbn [valued_ensures]. split; [reflexivity|]. split; [|reflexivity]. apply is_norm_empty; try assumption. lia.
    - destruct (ge_create_succeeds nb n n) as (A & EA & _); [lia..|].
      rewrite EA. cbn [with_vdesc valued_ensures].
      destruct (ge_create_dn nb n n A _ EA) as (HA & Em & En & _).
      assert (Hn' : 0 < n) by lia. assert (LA : n <= lda) by lia.
      assert (Emt : d_mt A = ntl nb n) by (rewrite (dn_mt nb A HA), Em; reflexivity).
      assert (Ent : d_nt A = ntl nb n) by (rewrite (dn_nt nb A HA), En; reflexivity).
      pose proof (ntl_pos nb n Hb Hn') as TP.
      assert (GA : forall i c, isabs (gs dg uplo (ul M pA lda) i c)) by (intros; apply gs_abs; assumption).
      assert (FIN : forall M1, (forall c k, 0 <= c < n -> 0 <= k < ntl nb n ->
                  M1 (bW, n * k + c) = nsum (fun i => gs dg uplo (ul M pA lda) i c) (k * nb) (Z.min ((k + 1) * nb) n)) ->
         (forall l, fst l <> bA -> fst l <> bW -> M1 l = M l) ->
         region_ensures [omp_dlange_inf (d_n A) (d_mt A) (bW, 0) (d_n A) (pplus (bW, 0) (d_mt A * d_n A)) value] M1
           (fun M' => largest (fun i => 0 <= i < n) (fun i => nsum (fun j => gs dg uplo (ul M pA lda) j i) 0 n) (M' value) /\
                 (forall l, fst l <> bA -> fst l <> bW -> l <> value -> M' l = M l))).
      { intros M1 E1 E2. rewrite Emt, En.
        pose proof (rowsum_final nb n n bW value (fun c i => gs dg uplo (ul M pA lda) i c) M1 Hb Hn' Hn' B5
          (fun i c => GA c i)) as F. cbn [phases_ensures] in F.
        eapply region_mono; [|apply F; exact E1].
        intros M2 [G1 G2]. split; [exact G1|]. intros l L1 L2 L3. rewrite G2, E2 by assumption. reflexivity. }
      destruct HV as [->|[->|[->| ->]]]; unfold pzlansy, norm_phases; cbn [Z.eqb PlasmaMaxNorm PlasmaOneNorm PlasmaInfNorm PlasmaFrobeniusNorm Pos.eqb orb];
        cbn [phases_ensures].
      + eapply region_mono; [|apply (sy_max_phase nb bA A pA lda bW n); assumption].
        intros M1 (E1 & E2). rewrite Emt, Ent.
        apply (value_region _ value (fun M => lansy_max nabs uplo (ntl nb n) (rd M (bW, 0) (ntl nb n)))); [apply zlansy_max_kgood|reflexivity|].
        intros M2 G1 G2. split.
        * left. split; [reflexivity|]. rewrite G1.
          eapply largest_ext; [|apply (tiles_largest nb n n (gs dg uplo (ul M pA lda))
            (gs nabs uplo (fun i j => M1 (bW, ntl nb n * j + i))))]; try assumption.
          -- intros p _. symmetry. apply HS.
          -- assert (ST : forall i j, 0 <= i < ntl nb n -> 0 <= j < ntl nb n -> stored uplo i j = true ->
               largest (fun p => in_matrix (Z.min nb (n - i * nb)) (Z.min nb (n - j * nb)) (fst p) (snd p))
               (fun p : Z * Z => gs dg uplo (ul M pA lda) (i * nb + fst p) (j * nb + snd p)) (gs nabs uplo (fun i j => M1 (bW, ntl nb n * j + i)) i j)).
             { intros i j Hi Hj HS'. pose proof (E1 i j Hi Hj HS') as K.
               assert (EV : gs nabs uplo (fun i j => M1 (bW, ntl nb n * j + i)) i j = M1 (bW, ntl nb n * j + i)).
               { unfold gs. rewrite HS'. assert (KA : isabs (M1 (bW, ntl nb n * j + i))) by (eapply largest_abs; [|exact K]; intros; apply GA).
                 destruct (i =? j); exact KA. }
               rewrite EV. exact K. }
             intros i j Hi Hj. destruct (stored uplo i j) eqn:HS'; [apply ST; assumption|].
             assert (NE : j <> i) by (intros ->; rewrite stored_refl in HS'; discriminate).
             assert (HS2 : stored uplo j i = true) by (rewrite stored_swap, HS' by lia; reflexivity).
             destruct (ST j i Hj Hi HS2) as [L1 L2]. rewrite (gs_sym nabs uplo _ i j). split.
             ++ intros [x y] [Hx Hy]. cbn [fst snd] in *. rewrite (gs_sym dg uplo (ul M pA lda)). apply (L1 (y, x)). split; assumption.
             ++ destruct L2 as [([x y] & [Hx Hy] & Ev)|[Hno _]].
                ** left. exists (y, x). split; [split; assumption|]. cbn [fst snd] in *. rewrite Ev. apply gs_sym.
                ** exfalso. apply (Hno (0, 0)).
                   pose proof (ntl_lt nb n i Hb Hn' Hi) as Hi'. pose proof (ntl_lt nb n j Hb Hn' Hj) as Hj'. split; cbn; lia.
          -- eapply largest_ext; [|apply (lansy_max_largest nabs uplo (ntl nb n) (rd M1 (bW, 0) (ntl nb n))); [apply isabs_abs|lia]].
             intros [i j] _. cbn [fst snd]. unfold gs, rd, at_. cbn [fst snd].
             replace (0 + i + j * ntl nb n) with (ntl nb n * j + i) by lia.
             replace (0 + j + i * ntl nb n) with (ntl nb n * i + j) by lia. reflexivity.
        * intros l L1 L2 L3. rewrite G2, E2 by assumption. reflexivity.
      + eapply region_mono; [|apply (sy_one_phase nb bA A pA lda bW n); assumption].
        intros M1 (E1 & E2). eapply region_mono; [|apply (FIN M1 E1 E2)].
        intros M2 [G1 G2]. split; [|exact G2]. right; left. split; [reflexivity|].
        eapply largest_ext; [|exact G1]. intros j _. cbn beta. apply nsum_ext. intros i _. symmetry. apply HS.
      + eapply region_mono; [|apply (sy_one_phase nb bA A pA lda bW n); assumption].
        intros M1 (E1 & E2). eapply region_mono; [|apply (FIN M1 E1 E2)].
        intros M2 [G1 G2]. split; [|exact G2]. right; right; left. split; [reflexivity|].
        eapply largest_ext; [|exact G1]. intros j _. cbn beta. apply nsum_ext. intros i _. rewrite gs_sym. symmetry. apply HS.
      + eapply region_mono; [|apply (sy_fro_phase nb bA A pA lda bW n) with (lassq := lassq); assumption].
        intros M1 (E1 & E2). rewrite Emt, Ent.
        apply (value_region _ value (fun M => let s := syssq_aux (ntl nb n) (ntl nb n) (fun i => M (pplus (bW, 0) i))
           (fun i => M (pplus (pplus (bW, 0) (ntl nb n * ntl nb n)) i)) in nmul (fst s) (nsqrt (snd s))));
          [apply dsyssq_aux_kgood; lia|reflexivity|].
        intros M2 G1 G2. split; [|intros l L1 L2 L3; rewrite G2, E2 by assumption; reflexivity].
        right; right; right. split; [reflexivity|]. cbv zeta in G1.
        pose (t := fun i j => nsum (fun y => nsum (fun x => nmul (gs dg uplo (ul M pA lda) x y) (gs dg uplo (ul M pA lda) x y))
          (i * nb) (Z.min ((i + 1) * nb) n)) (j * nb) (Z.min ((j + 1) * nb) n)).
        pose proof (syssq_aux_ok (ntl nb n) (ntl nb n) (fun i => M1 (pplus (bW, 0) i))
           (fun i => M1 (pplus (pplus (bW, 0) (ntl nb n * ntl nb n)) i)) t ltac:(lia)) as K.
        destruct K as (O1 & O2 & O3).
        * intros i j. unfold t. rewrite (nsum_swap N (fun y x => nmul (gs dg uplo (ul M pA lda) x y) (gs dg uplo (ul M pA lda) x y))).
          apply nsum_ext. intros y _. apply nsum_ext. intros x _. rewrite (gs_sym dg uplo _ x y). reflexivity.
        * intros i j Hj Hi. apply (E1 i j Hj Hi).
        * eexists _, _. split; [exact O1|]. split; [exact O2|]. split; [exact G1|].
          rewrite O3. unfold t.
          rewrite (sum_tiles_2d (fun x y => nmul (gs dg uplo (ul M pA lda) x y) (gs dg uplo (ul M pA lda) x y))) by lia.
          apply nsum_ext. intros j _. apply nsum_ext. intros i _. rewrite HS. reflexivity.
  Qed.

  Lemma zlansy_norm : forall lassq nsqrt nb norm uplo n pA lda bA bW (value : loc) (M : mem N),
    0 < nb -> valid_norm norm -> valid_uplo uplo -> 0 <= n -> Z.max 1 n <= lda ->
    fst pA <> bA -> fst pA <> bW -> bA <> bW -> fst value <> bA -> fst value <> bW ->
    lassq_ok lassq ->
    valued_ensures (zlansy lassq nsqrt nabs nb norm uplo n pA lda bA bW value) M
      (fun v M' => is_norm nsqrt norm n n (sym uplo (ul M pA lda)) v /\
                   (forall l, fst l <> bA -> fst l <> bW -> l <> value -> M' l = M l)).
  Proof.
    intros. apply lansy_norm; try assumption; [intros; apply isabs_abs|].
    intros i j. unfold gs, sym. change (in_triangle uplo i j) with (stored uplo i j).
    destruct (Z.eqb_spec i j) as [->|NE]; [rewrite stored_refl; reflexivity|]. destruct (stored uplo i j); reflexivity.
  Qed.
  Lemma zlanhe_norm : forall lassq nsqrt nb norm uplo n pA lda bA bW (value : loc) (M : mem N),
    0 < nb -> valid_norm norm -> valid_uplo uplo -> 0 <= n -> Z.max 1 n <= lda ->
    fst pA <> bA -> fst pA <> bW -> bA <> bW -> fst value <> bA -> fst value <> bW ->
    lassq_ok lassq ->
    valued_ensures (zlansy lassq nsqrt (fun z => nabs (nre z)) nb norm uplo n pA lda bA bW value) M
      (fun v M' => is_norm nsqrt norm n n (herm uplo (ul M pA lda)) v /\
                   (forall l, fst l <> bA -> fst l <> bW -> l <> value -> M' l = M l)).
  Proof.
    intros. apply lansy_norm; try assumption; [intros; apply isabs_abs|].
    intros i j. unfold gs, herm. change (in_triangle uplo i j) with (stored uplo i j).
    destruct (Z.eqb_spec i j) as [->|NE]; [reflexivity|]. destruct (stored uplo i j); [reflexivity|apply nabs_conj].
  Qed.
End SyDriver.
