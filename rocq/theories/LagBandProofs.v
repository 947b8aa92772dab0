(* The conversion of band matrices between the precisions. *)
From Coq Require Import ZArith List Bool Lia.
From Verif Require Import Base NumModel NumProofs FieldModel TaskModel TaskSpec TaskProofs DescModel DescSpec
  DescDriverModel DescProofs DescProofs3 DescProofs4 MatModel MatSpec MatProofs RegionProofs
  GuardModel GuardSpec GuardProofs GuardProofs2 GuardAnyProofs
  LayoutModel LayoutProofs LayoutProofs2 DriverModel DriverSpec OpProofs SimProofs
  GemmProofs RankProofs EwModel EwProofs BandModel BandProofs BandLayoutProofs NormGbLayoutProofs
  GemmDriverProofs LagModel LagProofs LagBandModel LagBandSpec.
Import ListNotations.
Open Scope Z_scope.

Section LagBand.
  Context {V : Type}.
  Variables (narrow widen : V -> V) (fits : V -> bool).
  Variables (nb m n kl ku : Z) (A : desc) (bA bS : Z).
  Hypothesis HA : gd_ok A nb m n kl ku.
  Hypothesis Hab : bA <> bS.
  Let Hb := gd_pos _ _ _ _ _ _ HA.
  Let Hkl := gd_kl0 _ _ _ _ _ _ HA.
  Let Hku := gd_ku0 _ _ _ _ _ _ HA.
  Let SQ := gd_sq _ _ _ _ _ _ HA.

  (* the tiles that are converted *)
  Definition lbt (i j : Z) : Prop :=
    0 <= i < ntl nb m /\ 0 <= j < ntl nb n /\ j - i <= ntl nb ku /\ i - j <= ntl nb kl.
  Definition lb_idx : list (Z * Z) :=
    pairs (zrange 0 (d_nt A)) (fun k => zrange (lag_start A k) (lag_end A k + 1)).

  Lemma ntl_le : forall K x, 0 <= K -> (x <= ntl nb K <-> x * nb <= K + nb - 1).
  Proof.
    intros K x HK. unfold ntl. pose proof (Z.div_mod (K + nb - 1) nb ltac:(lia)) as E.
    pose proof (Z.mod_pos_bound (K + nb - 1) nb ltac:(lia)). split; intros; nia.
  Qed.

  Lemma lbt_tb : forall i j, lbt i j -> in_tb A i j.
  Proof.
    intros i j (H1 & H2 & H3 & H4). unfold in_tb, in_tiles.
    rewrite (gd_mt _ _ _ _ _ _ HA), (gd_nt _ _ _ _ _ _ HA), (gd_klt _ _ _ _ _ _ HA), (gd_kut _ _ _ _ _ _ HA).
    assert (L : ntl nb ku <= ntl nb (ku + kl)) by (unfold ntl; apply Z.div_le_mono; lia). lia.
  Qed.

  Lemma lb_idx_in : forall i j, In (j, i) lb_idx <-> lbt i j.
  Proof.
    intros i j. unfold lb_idx, lbt, lag_start, lag_end. rewrite in_pairs, !in_zrange.
    rewrite (gd_nt _ _ _ _ _ _ HA), (sq_nb nb A _ SQ), (gd_m _ _ _ _ _ _ HA), (gd_kl _ _ _ _ _ _ HA), (gd_ku _ _ _ _ _ _ HA).
    assert (E1 : 0 <= j -> 0 <= i -> (Z.quot (Z.max 0 (j * nb - ku)) nb <= i <-> j - i <= ntl nb ku)).
    { intros Hj Hi. rewrite quot_le by lia. rewrite ntl_le by lia. nia. }
    assert (E2 : 0 <= j -> (i <= Z.quot (Z.min (m - 1) ((j + 1) * nb + kl - 1)) nb <-> i * nb < m /\ i - j <= ntl nb kl)).
    { intros Hj. rewrite le_quot by nia. rewrite ntl_le by lia. nia. }
    assert (E3 : 0 <= Z.quot (Z.max 0 (j * nb - ku)) nb) by (apply Z.quot_pos; lia).
    assert (E4 : 0 <= i -> (i < ntl nb m <-> i * nb < m)) by (intros; apply ntl_spec; lia).
    lia.
  Qed.

  Lemma lb_idx_NoDup : NoDup lb_idx.
  Proof. apply NoDup_pairs; [apply NoDup_zrange|intros; apply NoDup_zrange]. Qed.

  (* the tasks with the leading dimension of a tile row *)
  Definition lbk (p : Z * Z) : cktask V :=
    omp_zlag2c narrow fits (tile_mview A (snd p)) (tile_nview A (fst p)) (tptr bA A (snd p) (fst p)) (tile_mmain A (snd p))
      (tptr bS A (snd p) (fst p)) (tile_mmain A (snd p)).

  Lemma lb_eq : pzlag2c_band narrow fits bA A bS A = map lbk lb_idx.
  Proof.
    unfold pzlag2c_band, lb_idx, pairs. induction (zrange 0 (d_nt A)) as [|k ks IH]; [reflexivity|].
    cbn [flat_map]. rewrite map_app, <- IH, map_map. f_equal. apply map_ext. intros i. unfold lbk, tile_mmain_band.
    cbn [fst snd]. rewrite !(gd_mmain _ _ _ _ _ _ HA). reflexivity.
  Qed.

  Lemma lbk_other : forall p (M : mem V) l, fst l <> bS -> k_fun (ck_task (lbk p)) M l = M l.
  Proof. intros p M l Hl. cbn. apply mset_out. intros R. apply reg_block in R. cbn in R. congruence. Qed.

  (* an element in a tile that is converted *)
  Definition lbe (i j : Z) : Prop := 0 <= i < m /\ 0 <= j < n /\ lbt (i / nb) (j / nb).

  Lemma lbe_pos : forall i j, lbe i j -> 0 <= i < d_m A /\ 0 <= j < d_n A /\ in_tb A (i / nb) (j / nb).
  Proof.
    intros i j (H1 & H2 & H3). rewrite (gd_m _ _ _ _ _ _ HA), (gd_n _ _ _ _ _ _ HA). auto using lbt_tb.
  Qed.

  Lemma lb_loc : forall b x y r c, in_tb A x y -> 0 <= r < tile_mview A x -> 0 <= c < tile_nview A y ->
    at_ (tptr b A x y) (tile_mmain A x) r c = (b, elem_off A (x * nb + r) (y * nb + c)) /\
    0 <= x * nb + r < m /\ 0 <= y * nb + c < n /\ (x * nb + r) / nb = x /\ (y * nb + c) / nb = y.
  Proof.
    intros b x y r c [[Hm Hn] _] Hr Hc. pose proof (td_shape _ _ (sq_t nb A _ SQ)) as SH.
    destruct (tile_row A x r SH Hm Hr) as (R1 & R2 & R3). destruct (tile_col A y c SH Hn Hc) as (C1 & C2 & C3).
    rewrite (sq_mb nb A _ SQ) in *. rewrite (sq_nb nb A _ SQ) in *.
    rewrite (gd_m _ _ _ _ _ _ HA) in R1. rewrite (gd_n _ _ _ _ _ _ HA) in C1. split; [|auto].
    rewrite el_loc. rewrite (sq_mb nb A _ SQ), (sq_nb nb A _ SQ), R2, R3, C2, C3. reflexivity.
  Qed.
  Lemma lb_rd : forall (M : mem V) b x y r c, in_tb A x y -> 0 <= r < tile_mview A x -> 0 <= c < tile_nview A y ->
    rd M (tptr b A x y) (tile_mmain A x) r c = el M b A (x * nb + r) (y * nb + c) /\
    0 <= x * nb + r < m /\ 0 <= y * nb + c < n /\ (x * nb + r) / nb = x /\ (y * nb + c) / nb = y.
  Proof.
    intros M b x y r c HT Hr Hc. destruct (lb_loc b x y r c HT Hr Hc) as [E R]. split; [|exact R]. unfold rd, el. rewrite E. reflexivity.
  Qed.

  Lemma lb_inside : forall i j, lbe i j -> 0 <= i mod nb < tile_mview A (i / nb) /\ 0 <= j mod nb < tile_nview A (j / nb) /\
    i = i / nb * nb + i mod nb /\ j = j / nb * nb + j mod nb.
  Proof.
    intros i j H. destruct (lbe_pos i j H) as (Hi & Hj & HT).
    destruct (pos_tile nb A _ SQ i (d_m A) Hi) as (P1 & P2 & P3).
    destruct (pos_tile nb A _ SQ j (d_n A) Hj) as (Q1 & Q2 & Q3).
    rewrite (sq_mv nb A _ SQ _ _ HT), (sq_nv nb A _ SQ _ _ HT). auto.
  Qed.

  Definition lbv (M : mem V) (i j : Z) : V :=
    if lag_reaches fits M (tile_mview A (i / nb)) (tptr bA A (i / nb) (j / nb)) (tile_mmain A (i / nb)) (i mod nb) (j mod nb)
    then narrow (el M bA A i j) else el M bS A i j.

  Lemma lbk_el : forall p (M : mem V) i j, In p lb_idx -> lbe i j ->
    el (k_fun (ck_task (lbk p)) M) bS A i j
    = if (i / nb =? snd p) && (j / nb =? fst p) then lbv M i j else el M bS A i j.
  Proof.
    intros [y x] M i j Hp HE. apply lb_idx_in in Hp. destruct (lbe_pos i j HE) as (Hi & Hj & HT).
    cbn [lbk omp_zlag2c ck_task k_fun fst snd]. unfold core_zlag2c.
    rewrite (sq_set nb A _ SQ); auto using lbt_tb.
    destruct (Z.eqb_spec (i / nb) x) as [<-|]; cbn [andb]; [|reflexivity].
    destruct (Z.eqb_spec (j / nb) y) as [<-|]; cbn [andb]; [|reflexivity].
    cbn [everywhere]. unfold lbv, rd, el. rewrite !el_loc, (sq_mb nb A _ SQ), (sq_nb nb A _ SQ). reflexivity.
  Qed.

  Lemma lbv_ext : forall (M M' : mem V) i j, lbe i j -> (forall l, fst l <> bS -> M l = M' l) ->
    el M bS A i j = el M' bS A i j -> lbv M i j = lbv M' i j.
  Proof.
    intros M M' i j HE H E. unfold lbv. rewrite E. destruct (lb_inside i j HE) as (P & Q & _).
    rewrite (el_ext V M M' bA A) by (intros; apply H; congruence).
    rewrite (lag_reaches_ext fits M M' _ (tile_nview A (j / nb))); auto.
    intros x Hx. apply H. apply reg_block in Hx. cbn in Hx. congruence.
  Qed.

  Lemma lb_off : forall l (M0 : mem V) i j, incl l lb_idx -> lbe i j -> ~ In (j / nb, i / nb) l ->
    at_elem M0 bS A i j (krun (map (fun p => ck_task (lbk p)) l) M0) (el M0 bS A i j).
  Proof.
    induction l as [|p l IH]; intros M0 i j HI HE HN; [split; reflexivity|].
    assert (F : forall x, fst x <> bS -> k_fun (ck_task (lbk p)) M0 x = M0 x) by (intros; apply lbk_other; assumption).
    assert (E : el (k_fun (ck_task (lbk p)) M0) bS A i j = el M0 bS A i j).
    { rewrite lbk_el; [|apply HI; left; reflexivity|assumption].
      destruct (Z.eqb_spec (i / nb) (snd p)) as [E1|]; cbn [andb]; [|reflexivity].
      destruct (Z.eqb_spec (j / nb) (fst p)) as [E2|]; [|reflexivity].
      exfalso. apply HN. left. rewrite E1, E2. destruct p; reflexivity. }
    destruct (IH (k_fun (ck_task (lbk p)) M0) i j) as [G1 G2].
    - intros x Hx. apply HI. right. assumption.
    - assumption.
    - intros Hx. apply HN. right. assumption.
    - cbn [map krun]. split.
      + intros x Hx. rewrite <- (F x Hx). apply G1. assumption.
      + rewrite <- E. exact G2.
  Qed.

  Lemma lb_at : forall (M0 : mem V) i j, lbe i j ->
    el (krun (map ck_task (pzlag2c_band narrow fits bA A bS A)) M0) bS A i j = lbv M0 i j.
  Proof.
    intros M0 i j HE. rewrite lb_eq, map_map.
    assert (I : In (j / nb, i / nb) lb_idx) by (apply lb_idx_in; apply HE).
    apply in_split in I. destruct I as (l1 & l2 & E). pose proof lb_idx_NoDup as N. rewrite E in N.
    apply NoDup_remove_2 in N.
    assert (I1 : incl l1 lb_idx) by (rewrite E; intros x Hx; apply in_or_app; auto).
    assert (I2 : incl l2 lb_idx) by (rewrite E; intros x Hx; apply in_or_app; right; right; assumption).
    assert (I3 : In (j / nb, i / nb) lb_idx) by (rewrite E; apply in_or_app; right; left; reflexivity).
    rewrite E, map_app, krun_app. cbn [map].
    destruct (lb_off l1 M0 i j I1 HE) as [A1 A2]; [intros Hx; apply N; apply in_or_app; auto|].
    remember (krun (map (fun p => ck_task (lbk p)) l1) M0) as M1 eqn:E1. clear E1.
    destruct (lb_off l2 (k_fun (ck_task (lbk (j / nb, i / nb))) M1) i j I2 HE) as [B1 B2];
      [intros Hx; apply N; apply in_or_app; auto|].
    cbn [krun]. rewrite B2, lbk_el by assumption. cbn [fst snd]. rewrite !Z.eqb_refl. cbn [andb].
    apply lbv_ext; assumption.
  Qed.

  Lemma lb_kgood : Forall kgood (map ck_task (pzlag2c_band narrow fits bA A bS A)).
  Proof.
    rewrite lb_eq, map_map. apply Forall_map. apply Forall_forall. intros [y x] Hp. apply lb_idx_in in Hp. apply lbt_tb in Hp.
    pose proof (td_ld A _ (sq_t nb A _ SQ) x y Hp) as LD.
    unfold lbk, omp_zlag2c, core_zlag2c. cbn [ck_task fst snd].
    apply (mset_kgood V _ _ _ _ _ _ (fun M i j => if lag_reaches fits M (tile_mview A x) (tptr bA A x y) (tile_mmain A x) i j
      then narrow (rd M (tptr bA A x y) (tile_mmain A x) i j) else rd M (tptr bS A x y) (tile_mmain A x) i j)).
    - assumption.
    - apply finite_or; apply finite_reg.
    - intros M M' i j Hi Hj _ HX. rewrite (lag_reaches_ext fits M M' _ (tile_nview A y)); auto.
      unfold rd. rewrite !HX; [reflexivity|right; exists i, j; auto|left; exists i, j; auto].
  Qed.

  Lemma lb_cksound : Forall cksound (pzlag2c_band narrow fits bA A bS A).
  Proof.
    rewrite lb_eq. apply Forall_map. apply Forall_forall. intros [y x] _. split.
    - intros M M' H. cbn in *. unfold core_zlag2c_info. rewrite (lag_all_ext fits M M'); [reflexivity|]. intros z Hz. apply H. auto.
    - intros H. discriminate H.
  Qed.

  Lemma lb_home : functional (home_env [(bA, homeD A (in_tb A)); (bS, homeD A (in_tb A))]).
  Proof.
    apply home_env_functional.
    - cbn. constructor; [intros [E|[]]; congruence|]. constructor; [intros []|constructor].
    - intros b h [E|[E|[]]]; injection E as _ <-; apply homeD_functional; apply (sq_t nb A _ SQ).
  Qed.

  Lemma lb_klinked : klinked (map ck_task (pzlag2c_band narrow fits bA A bS A)).
  Proof.
    apply korders_klinked. eapply kdecl_korders; [apply lb_home|].
    rewrite lb_eq, map_map. apply Forall_map. apply Forall_forall. intros [y x] Hp. apply lb_idx_in in Hp. apply lbt_tb in Hp.
    apply kdecl_intro; cbn [lbk omp_zlag2c ck_task k_deps k_reads k_writes fst snd]; intros l HR.
    - left. destruct HR as [HR|HR].
      + eexists. split; [left; reflexivity|]. cbn [fst dep_in]. eapply home_tile; eauto. left. reflexivity.
      + eexists. split; [right; left; reflexivity|]. cbn [fst dep_out]. eapply home_tile; eauto. right. left. reflexivity.
    - eexists. split; [right; left; reflexivity|]. split; [|discriminate]. cbn [dep_out]. eapply home_tile; eauto. right. left. reflexivity.
  Qed.

  Lemma lb_writes : forall k l, In k (pzlag2c_band narrow fits bA A bS A) -> k_writes (ck_task k) l ->
    exists i j, lbe i j /\ l = (bS, elem_off A i j).
  Proof.
    intros k l Hk W. rewrite lb_eq in Hk. apply in_map_iff in Hk. destruct Hk as ([y x] & <- & Hp). apply lb_idx_in in Hp.
    cbn in W. destruct W as (r & c & Hr & Hc & _ & ->).
    destruct (lb_loc bS x y r c (lbt_tb _ _ Hp) Hr Hc) as (ER & R1 & R2 & R3 & R4).
    exists (x * nb + r), (y * nb + c). split; [split; [assumption|]; split; [assumption|]; rewrite R3, R4; assumption|].
    exact ER.
  Qed.

  Lemma lb_info : forall l1 k l2 (M0 : mem V), pzlag2c_band narrow fits bA A bS A = l1 ++ k :: l2 ->
    ck_info k (krun (map ck_task l1) M0) = ck_info k M0.
  Proof.
    intros l1 k l2 M0 E.
    assert (Hk : In k (pzlag2c_band narrow fits bA A bS A)) by (rewrite E; apply in_or_app; right; left; reflexivity).
    assert (FR : forall l, fst l <> bS -> krun (map ck_task l1) M0 l = M0 l).
    { intros l Hl. apply krun_frame.
      - pose proof lb_kgood as G. rewrite E, map_app, Forall_app in G. destruct G as [G _].
        eapply Forall_impl; [|exact G]. intros x []. assumption.
      - intros (x & Hx & W). apply in_map_iff in Hx. destruct Hx as (y & <- & Hy).
        apply Hl. destruct (lb_writes y l) as (i & j & _ & ->); auto. rewrite E. apply in_or_app. left. assumption. }
    rewrite lb_eq in Hk. apply in_map_iff in Hk. destruct Hk as ([y x] & <- & _). cbn.
    unfold core_zlag2c_info. rewrite (lag_all_ext fits _ M0); [reflexivity|].
    intros z Hz. apply FR. apply reg_block in Hz. cbn in Hz. congruence.
  Qed.

  Lemma lb_codes : forall M0 : mem V, Forall (fun c => c = 0) (kcodes (pzlag2c_band narrow fits bA A bS A) M0) ->
    forall i j, lbe i j -> fits (el M0 bA A i j) = true.
  Proof.
    intros M0 H i j HE. destruct (lbe_pos i j HE) as (Hi & Hj & HT).
    assert (Hk : In (lbk (j / nb, i / nb)) (pzlag2c_band narrow fits bA A bS A))
      by (rewrite lb_eq; apply in_map; apply lb_idx_in; apply HE).
    apply in_split in Hk. destruct Hk as (l1 & l2 & E).
    assert (K : nth_error (kcodes (pzlag2c_band narrow fits bA A bS A) M0) (length l1) = Some 0).
    { rewrite Forall_forall in H. rewrite E, kcodes_nth. f_equal. apply H. rewrite E.
      eapply nth_error_In. apply kcodes_nth. }
    rewrite E, kcodes_nth, (lb_info l1 _ l2 M0 E) in K. injection K as K. cbn in K. unfold core_zlag2c_info in K.
    destruct (lag_all fits M0 (tile_mview A (i / nb)) (tile_nview A (j / nb)) (tptr bA A (i / nb) (j / nb)) (tile_mmain A (i / nb)))
      eqn:EL; [|discriminate K].
    rewrite lag_all_spec in EL. destruct (lb_inside i j HE) as (P2 & Q2 & P3 & Q3).
    specialize (EL (i mod nb) (j mod nb) P2 Q2).
    destruct (lb_rd M0 bA (i / nb) (j / nb) (i mod nb) (j mod nb) HT P2 Q2) as [ER _]. rewrite ER, <- P3, <- Q3 in EL. exact EL.
  Qed.

  Lemma lb_guilty : forall (M0 : mem V) c, c <> 0 -> guilty (pzlag2c_band narrow fits bA A bS A) M0 c ->
    c = 1 /\ exists i j, lbe i j /\ fits (el M0 bA A i j) = false.
  Proof.
    intros M0 c Hc (l1 & k & l2 & E & EC & _). rewrite (lb_info l1 k l2 M0 E) in EC.
    assert (Hk : In k (pzlag2c_band narrow fits bA A bS A)) by (rewrite E; apply in_or_app; right; left; reflexivity).
    rewrite lb_eq in Hk. apply in_map_iff in Hk. destruct Hk as ([y x] & <- & Hp). apply lb_idx_in in Hp.
    cbn in EC. unfold core_zlag2c_info in EC.
    destruct (lag_all fits M0 (tile_mview A x) (tile_nview A y) (tptr bA A x y) (tile_mmain A x)) eqn:EL; [congruence|].
    split; [congruence|]. apply lag_all_false in EL. destruct EL as (r & s & Hr & Hs & EF).
    destruct (lb_rd M0 bA x y r s (lbt_tb _ _ Hp) Hr Hs) as (ER & R1 & R2 & R3 & R4). rewrite ER in EF.
    exists (x * nb + r), (y * nb + s). split; [|assumption]. split; [assumption|]. split; [assumption|]. rewrite R3, R4. assumption.
  Qed.

  Lemma lbv_ok : forall (M0 : mem V) i j, lbe i j -> (forall i' j', lbe i' j' -> fits (el M0 bA A i' j') = true) ->
    lbv M0 i j = narrow (el M0 bA A i j).
  Proof.
    intros M0 i j HE H. unfold lbv. destruct (lbe_pos i j HE) as (Hi & Hj & HT). destruct (lb_inside i j HE) as (P2 & Q2 & P3 & Q3).
    rewrite (lag_reaches_all fits M0 _ (tile_nview A (j / nb))); auto. apply lag_all_spec. intros r c Hr Hc.
    destruct (lb_rd M0 bA _ _ r c HT Hr Hc) as (ER & R1 & R2 & R3 & R4). rewrite ER. apply H.
    split; [assumption|]. split; [assumption|]. rewrite R3, R4. apply HE.
  Qed.

  (* the specification in terms of the tiles near the diagonal *)
  Lemma lbe_near : forall i j, in_matrix m n i j -> (near_band nb kl ku i j <-> lbe i j).
  Proof.
    intros i j [Hi Hj]. unfold lbe, lbt, near_band. fold (ntl nb ku). fold (ntl nb kl).
    assert (T : forall k d, 0 <= k < d -> 0 <= k / nb < ntl nb d).
    { intros k d Hk. pose proof (Z.div_pos k nb ltac:(lia) Hb). split; [assumption|]. apply ntl_spec; try lia.
      pose proof (Z.mul_div_le k nb Hb). lia. }
    specialize (T i m Hi) as T1. specialize (T j n Hj) as T2. clear T. tauto.
  Qed.

  Lemma band_near : forall i j, i - j <= kl -> j - i <= ku -> near_band nb kl ku i j.
  Proof.
    assert (T : forall a b k, 0 <= k -> a - b <= k -> a / nb - b / nb <= (k + nb - 1) / nb).
    { intros a b k Hk H. apply (ntl_le k); [assumption|].
      pose proof (Z.div_mod a nb ltac:(lia)). pose proof (Z.div_mod b nb ltac:(lia)).
      pose proof (Z.mod_pos_bound a nb Hb). pose proof (Z.mod_pos_bound b nb Hb).
      clear -H H0 H1 H2 H3. revert H0 H1. generalize (a / nb), (b / nb). intros. nia. }
    intros i j H1 H2. split; apply T; lia.
  Qed.

  Lemma lb_main : forall M : mem V, gregion_ensures (pzlag2c_band narrow fits bA A bS A) M (fun M' st =>
    (st = 0 \/ st = 1) /\
    (st = 0 <-> forall i j, in_matrix m n i j -> near_band nb kl ku i j -> fits (el M bA A i j) = true) /\
    (st = 0 -> forall i j, in_matrix m n i j -> near_band nb kl ku i j -> el M' bS A i j = narrow (el M bA A i j)) /\
    (forall l, (forall i j, in_matrix m n i j -> near_band nb kl ku i j -> l <> (bS, elem_off A i j)) -> M' l = M l)).
  Proof.
    intros M. apply gregion_intro_any; [apply lb_kgood|apply lb_cksound|apply lb_klinked|]. intros M' st H0 H1 HF.
    assert (S01 : st = 0 \/ st = 1).
    { destruct (Z.eq_dec st 0) as [|NE]; [auto|]. right. apply (lb_guilty M st NE). auto. }
    split; [assumption|]. split; [|split].
    - split.
      + intros E i j HI HN. apply lb_codes; [apply H0; assumption|]. apply lbe_near; assumption.
      + intros H. destruct (Z.eq_dec st 0) as [|NE]; [assumption|]. exfalso.
        destruct (lb_guilty M st NE (H1 NE)) as (_ & i & j & HE & F).
        assert (HI : in_matrix m n i j) by (split; apply HE).
        rewrite H in F; [discriminate|assumption|]. apply lbe_near; assumption.
    - intros E i j HI HN. destruct (H0 E) as [HC HM]. apply (lbe_near i j HI) in HN.
      unfold el. rewrite (HM (bS, elem_off A i j)). fold (el (krun (map ck_task (pzlag2c_band narrow fits bA A bS A)) M) bS A i j).
      rewrite lb_at by assumption. apply lbv_ok; [assumption|]. intros. apply lb_codes; assumption.
    - intros l Hl. apply HF. intros k Hk W. destruct (lb_writes k l Hk W) as (i & j & HE & E).
      assert (HI : in_matrix m n i j) by (split; apply HE). apply (Hl i j HI); [|assumption]. apply lbe_near; assumption.
  Qed.

  (* the way back *)
  Definition lgk (p : Z * Z) : ktask V :=
    omp_clag2z widen (tile_mview A (snd p)) (tile_nview A (fst p)) (tptr bS A (snd p) (fst p)) (tile_mmain A (snd p))
      (tptr bA A (snd p) (fst p)) (tile_mmain A (snd p)).

  Lemma lg_eq : pclag2z_band widen bS A bA A = map lgk lb_idx.
  Proof.
    unfold pclag2z_band, lb_idx, pairs. induction (zrange 0 (d_nt A)) as [|k ks IH]; [reflexivity|].
    cbn [flat_map]. rewrite map_app, <- IH, map_map. f_equal. apply map_ext. intros i. unfold lgk, tile_mmain_band.
    cbn [fst snd]. rewrite !(gd_mmain _ _ _ _ _ _ HA). reflexivity.
  Qed.

  Lemma lgk_other : forall p (M : mem V) l, fst l <> bA -> k_fun (lgk p) M l = M l.
  Proof. intros p M l Hl. cbn. apply mset_out. intros R. apply reg_block in R. cbn in R. congruence. Qed.

  Lemma lgk_el : forall p (M : mem V) i j, In p lb_idx -> lbe i j ->
    el (k_fun (lgk p) M) bA A i j
    = if (i / nb =? snd p) && (j / nb =? fst p) then widen (el M bS A i j) else el M bA A i j.
  Proof.
    intros [y x] M i j Hp HE. apply lb_idx_in in Hp. destruct (lbe_pos i j HE) as (Hi & Hj & HT).
    cbn [lgk omp_clag2z k_fun fst snd]. unfold core_clag2z.
    rewrite (sq_set nb A _ SQ); auto using lbt_tb.
    destruct (Z.eqb_spec (i / nb) x) as [<-|]; cbn [andb]; [|reflexivity].
    destruct (Z.eqb_spec (j / nb) y) as [<-|]; cbn [andb]; [|reflexivity].
    cbn [everywhere]. unfold rd, el. rewrite !el_loc, (sq_mb nb A _ SQ), (sq_nb nb A _ SQ). reflexivity.
  Qed.

  Lemma lg_off : forall l (M0 : mem V) i j, incl l lb_idx -> lbe i j -> ~ In (j / nb, i / nb) l ->
    at_elem M0 bA A i j (krun (map lgk l) M0) (el M0 bA A i j).
  Proof.
    induction l as [|p l IH]; intros M0 i j HI HE HN; [split; reflexivity|].
    assert (F : forall x, fst x <> bA -> k_fun (lgk p) M0 x = M0 x) by (intros; apply lgk_other; assumption).
    assert (E : el (k_fun (lgk p) M0) bA A i j = el M0 bA A i j).
    { rewrite lgk_el; [|apply HI; left; reflexivity|assumption].
      destruct (Z.eqb_spec (i / nb) (snd p)) as [E1|]; cbn [andb]; [|reflexivity].
      destruct (Z.eqb_spec (j / nb) (fst p)) as [E2|]; [|reflexivity].
      exfalso. apply HN. left. rewrite E1, E2. destruct p; reflexivity. }
    destruct (IH (k_fun (lgk p) M0) i j) as [G1 G2].
    - intros x Hx. apply HI. right. assumption.
    - assumption.
    - intros Hx. apply HN. right. assumption.
    - cbn [map krun]. split.
      + intros x Hx. rewrite <- (F x Hx). apply G1. assumption.
      + rewrite <- E. exact G2.
  Qed.

  Lemma lg_at : forall (M0 : mem V) i j, lbe i j ->
    el (krun (pclag2z_band widen bS A bA A) M0) bA A i j = widen (el M0 bS A i j).
  Proof.
    intros M0 i j HE. rewrite lg_eq.
    assert (I3 : In (j / nb, i / nb) lb_idx) by (apply lb_idx_in; apply HE).
    destruct (in_split _ _ I3) as (l1 & l2 & E). pose proof lb_idx_NoDup as N. rewrite E in N.
    apply NoDup_remove_2 in N.
    assert (I1 : incl l1 lb_idx) by (rewrite E; intros x Hx; apply in_or_app; auto).
    assert (I2 : incl l2 lb_idx) by (rewrite E; intros x Hx; apply in_or_app; right; right; assumption).
    rewrite E, map_app, krun_app. cbn [map].
    destruct (lg_off l1 M0 i j I1 HE) as [A1 A2]; [intros Hx; apply N; apply in_or_app; auto|].
    remember (krun (map lgk l1) M0) as M1 eqn:E1. clear E1.
    destruct (lg_off l2 (k_fun (lgk (j / nb, i / nb)) M1) i j I2 HE) as [B1 B2];
      [intros Hx; apply N; apply in_or_app; auto|].
    cbn [krun]. rewrite B2, lgk_el by assumption. cbn [fst snd]. rewrite !Z.eqb_refl. cbn [andb].
    f_equal. apply (el_ext V M1 M0 bS A). intros l Hl. apply A1. congruence.
  Qed.

  Lemma lg_main : forall M : mem V, region_ensures (pclag2z_band widen bS A bA A) M (fun M' =>
    (forall i j, in_matrix m n i j -> near_band nb kl ku i j -> el M' bA A i j = widen (el M bS A i j)) /\
    (forall l, (forall i j, in_matrix m n i j -> near_band nb kl ku i j -> l <> (bA, elem_off A i j)) -> M' l = M l)).
  Proof.
    intros M. assert (KG : Forall kgood (pclag2z_band widen bS A bA A)).
    { rewrite lg_eq. apply Forall_map. apply Forall_forall. intros [y x] Hp. apply lb_idx_in in Hp. apply lbt_tb in Hp.
      pose proof (td_ld A _ (sq_t nb A _ SQ) x y Hp) as LD. unfold lgk, omp_clag2z, core_clag2z. cbn [fst snd].
      apply (mset_kgood V _ _ _ _ _ _ (fun M i j => widen (rd M (tptr bS A x y) (tile_mmain A x) i j))).
      - assumption.
      - apply finite_reg.
      - intros M1 M2 i j Hi Hj _ HX. unfold rd. rewrite HX; [reflexivity|exists i, j; auto]. }
    apply region_intro; [exact KG| |].
    - apply korders_klinked. eapply kdecl_korders; [apply lb_home|].
      rewrite lg_eq. apply Forall_map. apply Forall_forall. intros [y x] Hp. apply lb_idx_in in Hp. apply lbt_tb in Hp.
      apply kdecl_intro; cbn [lgk omp_clag2z k_deps k_reads k_writes fst snd]; intros l HR.
      + left. eexists. split; [left; reflexivity|]. cbn [fst dep_in]. eapply home_tile; eauto. right. left. reflexivity.
      + eexists. split; [right; left; reflexivity|]. split; [|discriminate]. cbn [dep_out]. eapply home_tile; eauto. left. reflexivity.
    - intros M' HM. split.
      + intros i j HI HN. apply (lbe_near i j HI) in HN. rewrite <- (lg_at M i j HN). apply HM.
      + intros l Hl. rewrite (HM l). apply krun_frame; [eapply Forall_impl; [|exact KG]; intros x []; assumption|].
        intros (k & Hk & W). rewrite lg_eq in Hk. apply in_map_iff in Hk. destruct Hk as ([y x] & <- & Hp). apply lb_idx_in in Hp.
        cbn in W. destruct W as (r & c & Hr & Hc & _ & ->).
        destruct (lb_loc bA x y r c (lbt_tb _ _ Hp) Hr Hc) as (ER & R1 & R2 & R3 & R4).
        assert (HI : in_matrix m n (x * nb + r) (y * nb + c)) by (split; assumption).
        apply (Hl _ _ HI); [|exact ER]. apply lbe_near; [assumption|]. split; [assumption|]. split; [assumption|]. rewrite R3, R4. assumption.
  Qed.
End LagBand.
