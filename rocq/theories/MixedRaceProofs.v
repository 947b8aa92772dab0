(* The norms of plasma_zcgesv race for the workspace. *)
From Coq Require Import ZArith List Bool Lia.
From Verif Require Import Base NumModel FieldModel TaskModel TaskSpec DescModel DescSpec
  DescProofs DescDriverModel MatModel MatSpec MatProofs GemmProofs
  SwpModel NormModel NormSpec NormPhaseProofs NormWorkProofs MixedRaceModel MixedWorkProofs.
Import ListNotations.
Open Scope Z_scope.

Section Race.
  Context {N : normed}.
  Variables (nb n nrhs : Z) (A X : desc) (sA sX bX bW : Z) (anorm : loc) (mid : list (ktask N)).
  Hypothesis Hb : 0 < nb.
  Hypothesis Hn : 0 < n.
  Hypothesis Hr : 0 < nrhs.
  Hypothesis EA : ge_create nb n n = CrOk A sA.
  Hypothesis EX : ge_create nb n nrhs = CrOk X sX.
  Hypothesis BX : bX <> bW.
  Hypothesis BN : fst anorm <> bW.
  Hypothesis BNX : fst anorm <> bX.
  Hypothesis HM : forall k d, In k mid -> In d (k_deps k) -> fst (dep_addr d) <> bW /\ dep_addr d <> anorm.

  Definition fin : ktask N := lange_last A bW anorm.
  Definition tile_at (i j : Z) : ktask N :=
    omp_amax_col ncabs1 (tile_mview X i) (tile_nview X j) (tptr bX X i j) (tile_mmain X i) (pplus (bW, 0) (d_n X * i + j * d_nb X)).
  Definition tl : list (ktask N) := amax_col_tiles bX X (bW, 0).

  Lemma in_tl : forall k, In k tl <-> exists i j, in_tiles X i j /\ k = tile_at i j.
  Proof.
    intros k. split; [apply in_tiles_list|]. intros (i & j & [Hi Hj] & ->). unfold tl, amax_col_tiles. apply in_flat_map.
    exists i. split; [apply in_zrange; exact Hi|]. apply in_map_iff. exists j. split; [reflexivity|apply in_zrange; exact Hj].
  Qed.

  Lemma tile_zero : forall i j, in_tiles X i j -> d_n X * i + j * d_nb X = 0 -> i = 0 /\ j = 0.
  Proof.
    intros i j [Hi Hj] E. destruct (first_tile nb n nrhs X sX Hb Hn Hr EX) as (DX & _ & E2 & _).
    assert (d_nb X = nb) by apply (d_nb_eq nb X DX). nia.
  Qed.

  (* after the last norm task only the tile task named by the start of work waits for it *)
  Lemma reach : forall (a : ktask N) l b, linked a l b ->
    (a = fin -> (exists rest, mid ++ tl = l ++ b :: rest) -> b = tile_at 0 0) /\
    (a = tile_at 0 0 -> (forall k, In k (l ++ [b]) -> In k tl) -> b = tile_at 0 0).
  Proof.
    intros a l b H. induction H as [a l b HD|a l1 c l2 b H1 [IH1 IH1'] H2 [IH2 IH2']].
    - destruct HD as (d & d' & Hd & Hd' & E & HI). split.
      + intros -> (rest & ER). assert (Hin : In b (mid ++ tl)) by (rewrite ER; apply in_or_app; right; left; reflexivity).
        apply in_app_or in Hin. destruct Hin as [Hin|Hin].
        * exfalso. destruct (HM b d' Hin Hd') as [F1 F2]. cbn in Hd. destruct Hd as [<-|[<-|[]]]; cbn in E.
          -- apply F1. rewrite <- E. reflexivity.
          -- apply F2. symmetry. exact E.
        * apply in_tl in Hin. destruct Hin as (i & j & Hij & ->). cbn in Hd, Hd'.
          destruct Hd as [<-|[<-|[]]], Hd' as [<-|[<-|[]]]; cbn in E.
          -- exfalso. injection E as E1 E2. congruence.
          -- injection E as E1. destruct (tile_zero i j Hij ltac:(lia)) as [-> ->]. reflexivity.
          -- exfalso. apply BNX. rewrite E. reflexivity.
          -- exfalso. apply BN. rewrite E. reflexivity.
      + intros -> Hl. assert (Hin : In b tl) by (apply Hl; apply in_or_app; right; left; reflexivity).
        apply in_tl in Hin. destruct Hin as (i & j & Hij & ->). cbn in Hd, Hd'.
        destruct Hd as [<-|[<-|[]]], Hd' as [<-|[<-|[]]]; cbn in E.
        * exfalso. apply HI. split; reflexivity.
        * exfalso. unfold tptr, pplus in E. injection E as E1 E2. congruence.
        * exfalso. unfold tptr, pplus in E. injection E as E1 E2. congruence.
        * unfold pplus in E. cbn in E. injection E as E1. destruct (tile_zero i j Hij ltac:(lia)) as [-> ->]. reflexivity.
    - split.
      + intros -> (rest & ER). rewrite <- app_assoc in ER. cbn [app] in ER.
        pose proof (IH1 eq_refl (ex_intro _ _ ER)) as Ec. apply (IH2' Ec). intros k Hk.
        assert (HC : ~ In c mid).
        { intros HC. destruct (HM c (dep_out (pplus (bW, 0) (d_n X * 0 + 0 * d_nb X))) HC) as [F _].
          - rewrite Ec. right. left. reflexivity.
          - apply F. reflexivity. }
        assert (Hk' : In k (l2 ++ b :: rest)).
        { apply in_app_or in Hk. apply in_or_app. destruct Hk as [Hk|[<-|[]]]; [left; exact Hk|right; left; reflexivity]. }
        apply app_eq_app in ER. destruct ER as (m0 & [[E1 E2]|[E1 E2]]).
        * destruct m0 as [|c' m1].
          -- cbn [app] in E2. rewrite <- E2. right. exact Hk'.
          -- exfalso. cbn [app] in E2. injection E2 as E2 _. apply HC. rewrite E1, E2. apply in_or_app. right. left. reflexivity.
        * rewrite E2. apply in_or_app. right. right. exact Hk'.
      + intros -> Hl. apply IH2'.
        * apply (IH1' eq_refl). intros k Hk. apply Hl. rewrite <- app_assoc. apply in_app_or in Hk. apply in_or_app.
          destruct Hk as [Hk|[<-|[]]]; [left; exact Hk|right; left; reflexivity].
        * intros k Hk. apply Hl. rewrite <- app_assoc. apply in_or_app. right. right. exact Hk.
  Qed.

  Lemma ordered_pairs : n <= nb -> nrhs <= nb \/ 2 * n <= nb ->
    forall k, In k tl -> kconflict fin k -> deps_order (k_deps fin) (k_deps k).
  Proof using Hb Hn Hr EA EX BX BN BNX.
    clear HM. intros L1 L2 k Hk HC. destruct (tiles_eq nb Hb n nrhs X sX Hn Hr EX) as (X1 & X2 & X3 & X4).
    destruct (tiles_eq nb Hb n n A sA Hn Hn EA) as (A1 & A2 & A3 & A4).
    destruct (first_tile nb n nrhs X sX Hb Hn Hr EX) as (DX & _ & _ & _). pose proof (d_nb_eq nb X DX) as X5.
    apply in_tl in Hk. destruct Hk as (i & j & [Hi Hj] & ->).
    assert (Ei : i = 0). { assert (i * nb < n) by (apply (ntl_spec nb n i); unfold ntl; lia). nia. }
    assert (EN : (n + nb - 1) / nb = 1) by (symmetry; apply (Z.div_unique _ _ 1 (n - 1)); lia).
    assert (Ej : j = 0).
    { assert (J : j * nb < nrhs) by (apply (ntl_spec nb nrhs j); unfold ntl; lia).
      destruct L2 as [L2|L2]; [nia|]. destruct (Z.eq_dec j 0) as [|J0]; [assumption|]. exfalso.
      destruct HC as (l & HC). assert (W : k_writes (tile_at i j) l /\ (k_reads fin l \/ k_writes fin l)).
      { destruct HC as [[H1 [H2|H2]]|[H1 H2]]; [|auto..].
        exfalso. cbn [tile_at omp_amax_col k_reads] in H2. destruct H2 as (r & c & _ & _ & _ & E). rewrite E in H1.
        destruct H1 as [(q & _ & E1)|(q & _ & E1)]; apply (f_equal fst) in E1; cbn in E1; congruence. }
      destruct W as [(q & Hq & E) HR]. rewrite Ei in E. subst l. unfold pplus in HR. cbn [fst snd] in HR.
      assert (J1 : nb <= j * nb) by nia.
      destruct HR as [(r & c & H1 & H2 & _ & E)|[(r & H1 & E)|(r & H1 & E)]].
      - rewrite A2, EN in H2. rewrite A3 in H1. unfold at_ in E. cbn [fst snd] in E. apply (f_equal snd) in E. cbn [snd] in E.
        assert (c = 0) by lia. subst c. rewrite X5 in E. lia.
      - apply (f_equal snd) in E. cbn [fst snd] in E. rewrite A2, A3, EN, X5 in E. rewrite A3 in H1. lia.
      - apply (f_equal fst) in E. cbn [fst] in E. congruence. }
    subst i j. exists (dep_in (bW, 0)), (dep_out (bW, 0)). split; [left; reflexivity|]. split.
    - right. left. unfold pplus. cbn [fst snd]. rewrite !Z.mul_0_r. reflexivity.
    - split; [reflexivity|]. intros [_ H]. discriminate H.
  Qed.

  Lemma last_reads : forall o, 0 <= o < n -> k_reads fin (bW, o).
  Proof.
    intros o Ho. destruct (tiles_eq nb Hb n n A sA Hn Hn EA) as (A1 & A2 & A3 & A4).
    assert (0 < (n + nb - 1) / nb) by (apply Z.div_str_pos; lia).
    cbn [fin lange_last omp_dlange_inf k_reads]. unfold reg. exists o, 0. rewrite A2, A3. 
    repeat split; try lia. unfold at_. cbn [fst snd]. f_equal; lia.
  Qed.

  Lemma last_writes : n <= nb -> forall o, n <= o < 2 * n -> k_writes fin (bW, o).
  Proof.
    intros L o Ho. destruct (tiles_eq nb Hb n n A sA Hn Hn EA) as (A1 & A2 & A3 & A4).
    assert (EN : (n + nb - 1) / nb = 1) by (symmetry; apply (Z.div_unique _ _ 1 (n - 1)); lia).
    cbn [fin lange_last omp_dlange_inf k_writes]. left. exists (o - n). rewrite A2, A3, EN. split; [lia|].
    cbn [fst snd]. f_equal. lia.
  Qed.

  Lemma races : nb < n \/ (nb < nrhs /\ nb < 2 * n) -> ~ klinked (norms_phase fin mid bX X bW).
  Proof.
    intros Hm K. destruct (tiles_eq nb Hb n nrhs X sX Hn Hr EX) as (X1 & X2 & X3 & X4).
    destruct (first_tile nb n nrhs X sX Hb Hn Hr EX) as (DX & _ & _ & _). pose proof (d_nb_eq nb X DX) as X5.
    assert (T : exists i j, in_tiles X i j /\ (i, j) <> (0, 0) /\ 
      (k_reads fin (bW, d_n X * i + j * d_nb X) \/ k_writes fin (bW, d_n X * i + j * d_nb X))).
    { destruct (Z_le_gt_dec nrhs nb) as [L|L].
      - assert (M2 : 1 < d_mt X) by (rewrite X1; apply (ntl_spec nb n 1); lia).
        exists 1, 0. unfold in_tiles. assert (0 < d_nt X) by (rewrite X2; apply (ntl_spec nb nrhs 0); lia).
        split; [lia|]. split; [discriminate|]. left. apply last_reads. rewrite X4. lia.
      - assert (M2 : 0 < d_mt X) by (rewrite X1; apply (ntl_spec nb n 0); lia).
        exists 0, 1. unfold in_tiles. assert (1 < d_nt X) by (rewrite X2; apply (ntl_spec nb nrhs 1); lia).
        split; [lia|]. split; [discriminate|]. rewrite X5. destruct (Z_lt_le_dec nb n) as [Q|Q].
        + left. apply last_reads. lia.
        + right. apply last_writes; lia. }
    destruct T as (i & j & Hij & Hne & Ho).
    assert (Hin : In (tile_at i j) tl) by (apply in_tl; eauto).
    apply in_split in Hin. destruct Hin as (l2 & l3 & E).
    assert (C : kconflict fin (tile_at i j)).
    { exists (bW, d_n X * i + j * d_nb X).
      assert (W : k_writes (tile_at i j) (bW, d_n X * i + j * d_nb X)).
      { cbn [tile_at omp_amax_col k_writes]. exists 0. split.
        - destruct (views nb X DX i j Hij) as (? & ? & ? & ? & ? & ?). lia.
        - unfold pplus. cbn [fst snd]. f_equal. lia. }
      destruct Ho as [Ho|Ho]; [right; split; assumption|left; split; [exact Ho|right; exact W]]. }
    assert (L : linked fin (mid ++ l2) (tile_at i j)).
    { apply (K [] fin (mid ++ l2) (tile_at i j) l3); [|exact C].
      unfold norms_phase. fold tl. rewrite E. cbn [app]. rewrite <- app_assoc. reflexivity. }
    apply reach in L. destruct L as [L _]. specialize (L eq_refl).
    assert (E0 : tile_at i j = tile_at 0 0).
    { apply L. exists l3. rewrite E, <- app_assoc. reflexivity. }
    assert (ED : k_deps (tile_at i j) = k_deps (tile_at 0 0)) by (rewrite E0; reflexivity).
    cbn in ED. injection ED as _ ED. destruct (tile_zero i j Hij ltac:(lia)) as [-> ->]. apply Hne. reflexivity.
  Qed.
End Race.

Lemma zcgesv_race : exists nb n nrhs A sA X sX, 0 < nb /\ 0 < n /\ 0 < nrhs /\
  ge_create nb n n = CrOk A sA /\ ge_create nb n nrhs = CrOk X sX /\
  forall (N : normed) bX bW anorm (mid : list (ktask N)), bX <> bW -> fst anorm <> bW -> fst anorm <> bX ->
  (forall k d, In k mid -> In d (k_deps k) -> fst (dep_addr d) <> bW /\ dep_addr d <> anorm) ->
  ~ klinked (norms_phase (lange_last A bW anorm) mid bX X bW).
Proof.
  exists 256, 300, 1. do 4 eexists. split; [lia|]. split; [lia|]. split; [lia|].
  split; [lazy; reflexivity|]. split; [lazy; reflexivity|].
  intros N bX bW anorm mid B1 B2 B3 HM.
  eapply (races 256 300 1); try eassumption; try lia; lazy; reflexivity.
Qed.
