(* Conversion between double and single precision. *)
From Coq Require Import ZArith List Bool Lia.
From Verif Require Import Base NumModel NumProofs FieldModel TaskModel TaskSpec TaskProofs DescModel DescSpec
  DescDriverModel DescProofs DescProofs3 DescProofs4 MatModel MatSpec MatProofs RegionProofs
  GuardModel GuardSpec GuardProofs GuardProofs2 GuardAnyProofs GuardTraceProofs
  LayoutModel LayoutProofs LayoutProofs2 DriverModel DriverSpec OpProofs SimProofs OperandProofs GOperandProofs GAnyProofs
  GTraceProofs GemmModel GemmProofs GemmDriverProofs RankProofs RankDriverProofs LasetModel LasetProofs EwModel EwProofs
  EwDriverProofs PotrfModel PotrfSpec PotrfDriverProofs LagModel.
Import ListNotations.
Open Scope Z_scope.

Lemma forallb_ext_in : forall A (f g : A -> bool) l, (forall x, In x l -> f x = g x) -> forallb f l = forallb g l.
Proof.
  intros A f g. induction l as [|a l IH]; intros H; cbn; [reflexivity|].
  rewrite (H a) by (left; reflexivity). rewrite IH; [reflexivity|]. intros x Hx. apply H. right. assumption.
Qed.

Section Lag.
  Context {V : Type}.
  Variables (narrow widen : V -> V) (fits : V -> bool).

  Lemma lag_all_spec : forall (M : mem V) m n A lda, lag_all fits M m n A lda = true <->
    forall r c, 0 <= r < m -> 0 <= c < n -> fits (rd M A lda r c) = true.
  Proof.
    intros. unfold lag_all. rewrite forallb_forall. split.
    - intros H r c Hr Hc. specialize (H c). rewrite in_zrange in H. specialize (H Hc). rewrite forallb_forall in H.
      apply H. apply in_zrange. assumption.
    - intros H c Hc. apply in_zrange in Hc. apply forallb_forall. intros r Hr. apply in_zrange in Hr. auto.
  Qed.

  Lemma lag_all_false : forall (M : mem V) m n A lda, lag_all fits M m n A lda = false ->
    exists r c, 0 <= r < m /\ 0 <= c < n /\ fits (rd M A lda r c) = false.
  Proof.
    intros M m n A lda H.
    assert (G : forall (X : Type) (f : X -> bool) l, forallb f l = false -> exists x, In x l /\ f x = false).
    { intros X f. induction l as [|x l IH]; cbn; intros E; [discriminate E|].
      destruct (f x) eqn:Ef; cbn in E; [|exists x; auto]. destruct (IH E) as (y & I & Ey). exists y. auto. }
    unfold lag_all in H. apply G in H. destruct H as (c & Hc & H). apply G in H. destruct H as (r & Hr & H).
    apply in_zrange in Hc, Hr. exists r, c. auto.
  Qed.

  Lemma lag_reaches_all : forall (M : mem V) m n A lda i j, lag_all fits M m n A lda = true ->
    0 <= i < m -> 0 <= j < n -> lag_reaches fits M m A lda i j = true.
  Proof.
    intros M m n A lda i j H Hi Hj. rewrite lag_all_spec in H. apply forallb_forall. intros c Hc. apply in_zrange in Hc.
    apply forallb_forall. intros r Hr. apply in_zrange in Hr. apply H; [|lia]. destruct (c =? j); lia.
  Qed.

  Lemma lag_all_ext : forall (M M' : mem V) m n A lda, (forall x, reg A lda m n everywhere x -> M x = M' x) ->
    lag_all fits M m n A lda = lag_all fits M' m n A lda.
  Proof.
    intros M M' m n A lda H. apply forallb_ext_in. intros c Hc. apply forallb_ext_in. intros r Hr.
    apply in_zrange in Hc, Hr. unfold rd. rewrite H; [reflexivity|]. exists r, c. auto.
  Qed.

  Lemma lag_reaches_ext : forall (M M' : mem V) m n A lda i j, 0 <= i < m -> 0 <= j < n ->
    (forall x, reg A lda m n everywhere x -> M x = M' x) ->
    lag_reaches fits M m A lda i j = lag_reaches fits M' m A lda i j.
  Proof.
    intros M M' m n A lda i j Hi Hj H. apply forallb_ext_in. intros c Hc. apply forallb_ext_in. intros r Hr.
    apply in_zrange in Hc, Hr. unfold rd. rewrite H; [reflexivity|]. exists r, c. repeat split; try lia.
    destruct (c =? j); lia.
  Qed.

  Variables (nb : Z) (A : desc) (bA bS : Z).
  Hypothesis HA : dn nb A.
  Hypothesis Hab : bA <> bS.

  Lemma lag_tile : forall i j, 0 <= i < d_m A -> 0 <= j < d_n A -> in_tiles A (i / nb) (j / nb).
  Proof.
    intros i j Hi Hj. pose proof (in_tiles_pos A i j (td_shape _ _ (sq_t nb A _ HA))) as Q.
    rewrite (sq_mb nb A _ HA), (sq_nb nb A _ HA) in Q. apply Q; lia.
  Qed.

  (* element (r,c) of a tile is an element of the matrix *)
  Lemma lag_rd : forall (M : mem V) b m n r c, in_tiles A m n -> 0 <= r < tile_mview A m -> 0 <= c < tile_nview A n ->
    rd M (tptr b A m n) (tile_mmain A m) r c = el M b A (m * nb + r) (n * nb + c) /\
    0 <= m * nb + r < d_m A /\ 0 <= n * nb + c < d_n A /\ (m * nb + r) / nb = m /\ (n * nb + c) / nb = n.
  Proof.
    intros M b m n r c HT Hr Hc. pose proof (td_shape _ _ (sq_t nb A _ HA)) as SH. destruct HT as [Hm Hn].
    destruct (tile_row A m r SH Hm Hr) as (R1 & R2 & R3). destruct (tile_col A n c SH Hn Hc) as (C1 & C2 & C3).
    rewrite (sq_mb nb A _ HA) in *. rewrite (sq_nb nb A _ HA) in *. split; [|auto].
    unfold rd, el. f_equal. rewrite el_loc. rewrite (sq_mb nb A _ HA), (sq_nb nb A _ HA), R2, R3, C2, C3. reflexivity.
  Qed.

  Definition lagt (p : Z * Z) : cktask V :=
    omp_zlag2c narrow fits (tile_mview A (fst p)) (tile_nview A (snd p)) (tptr bA A (fst p) (snd p)) (tile_mmain A (fst p))
      (tptr bS A (fst p) (snd p)) (tile_mmain A (fst p)).

  Lemma pzlag2c_eq : pzlag2c narrow fits bA A bS A = map lagt (idx_all A).
  Proof.
    unfold pzlag2c, idx_all, pairs. induction (zrange 0 (d_mt A)) as [|m ms IH]; [reflexivity|].
    cbn [flat_map]. rewrite map_app, <- IH, map_map. reflexivity.
  Qed.

  Definition lagv (M : mem V) (i j : Z) : V :=
    if lag_reaches fits M (tile_mview A (i / nb)) (tptr bA A (i / nb) (j / nb)) (tile_mmain A (i / nb)) (i mod nb) (j mod nb)
    then narrow (el M bA A i j) else el M bS A i j.

  Lemma lagt_other : forall p (M : mem V) l, fst l <> bS -> k_fun (ck_task (lagt p)) M l = M l.
  Proof.
    intros p M l Hl. cbn. apply mset_out. intros R. apply reg_block in R. cbn in R. congruence.
  Qed.

  Lemma pzlag2c_at : forall (M0 : mem V) i j, 0 <= i < d_m A -> 0 <= j < d_n A ->
    el (krun (map ck_task (pzlag2c narrow fits bA A bS A)) M0) bS A i j = lagv M0 i j.
  Proof.
    intros M0 i j Hi Hj. rewrite pzlag2c_eq, map_map.
    apply (sweep_at nb A bS (fun p => ck_task (lagt p)) (fun _ _ => true) lagv (idx_all A)); auto.
    - apply idx_all_NoDup.
    - intros p M l _ Hl. apply lagt_other. assumption.
    - intros [m n] M i' j' Hp Hi' Hj'. apply idx_all_in in Hp. cbn [lagt omp_zlag2c ck_task k_fun fst snd]. unfold core_zlag2c.
      rewrite (sq_set nb A _ HA); auto using lag_tile.
      destruct (Z.eqb_spec (i' / nb) m) as [<-|]; cbn [andb]; [|reflexivity].
      destruct (Z.eqb_spec (j' / nb) n) as [<-|]; cbn [andb]; [|reflexivity].
      cbn [everywhere]. unfold lagv, rd, el. rewrite !el_loc, (sq_mb nb A _ HA), (sq_nb nb A _ HA). reflexivity.
    - intros M M' i' j' Hi' Hj' H HE. unfold lagv. rewrite HE.
      rewrite (el_ext V M M' bA A) by (intros; apply H; congruence).
      destruct (pos_tile nb A _ HA i' (d_m A) Hi') as (P1 & P2 & P3).
      destruct (pos_tile nb A _ HA j' (d_n A) Hj') as (Q1 & Q2 & Q3).
      pose proof (lag_tile i' j' Hi' Hj') as HT.
      rewrite <- (sq_mv nb A _ HA _ _ HT) in P2. rewrite <- (sq_nv nb A _ HA _ _ HT) in Q2.
      rewrite (lag_reaches_ext M M' _ (tile_nview A (j' / nb))); auto.
      intros x Hx. apply H. apply reg_block in Hx. cbn in Hx. congruence.
    - intros i' j' Hi' Hj' _. apply idx_all_in. apply lag_tile; assumption.
  Qed.

  Lemma pzlag2c_frame : forall (M0 : mem V) l, fst l <> bS -> krun (map ck_task (pzlag2c narrow fits bA A bS A)) M0 l = M0 l.
  Proof.
    intros. rewrite pzlag2c_eq, map_map. apply (sweep_frame bS); auto. intros p M l' _ Hl. apply lagt_other. assumption.
  Qed.

  Lemma pzlag2c_kgood : Forall kgood (map ck_task (pzlag2c narrow fits bA A bS A)).
  Proof.
    rewrite pzlag2c_eq, map_map. apply Forall_map. apply Forall_forall. intros [m n] Hp. apply idx_all_in in Hp.
    pose proof (td_ld A _ (sq_t nb A _ HA) m n Hp) as LD.
    unfold lagt, omp_zlag2c, core_zlag2c. cbn [ck_task fst snd].
    apply (mset_kgood V _ _ _ _ _ _ (fun M i j => if lag_reaches fits M (tile_mview A m) (tptr bA A m n) (tile_mmain A m) i j
      then narrow (rd M (tptr bA A m n) (tile_mmain A m) i j) else rd M (tptr bS A m n) (tile_mmain A m) i j)).
    - assumption.
    - apply finite_or; apply finite_reg.
    - intros M M' i j Hi Hj _ HX. rewrite (lag_reaches_ext M M' _ (tile_nview A n)); auto.
      unfold rd. rewrite !HX; [reflexivity|right; exists i, j; auto|left; exists i, j; auto].
  Qed.

  Lemma pzlag2c_cksound : Forall cksound (pzlag2c narrow fits bA A bS A).
  Proof.
    rewrite pzlag2c_eq. apply Forall_map. apply Forall_forall. intros [m n] _. split.
    - intros M M' H. cbn in *. unfold core_zlag2c_info. rewrite (lag_all_ext M M'); [reflexivity|]. intros x Hx. apply H. auto.
    - intros H. discriminate H.
  Qed.

  Lemma pzlag2c_kdecl : forall env, In (bA, homeD A (in_tiles A)) env -> In (bS, homeD A (in_tiles A)) env ->
    Forall (kdecl (home_env env)) (map ck_task (pzlag2c narrow fits bA A bS A)).
  Proof.
    intros env EA EB. rewrite pzlag2c_eq, map_map. apply Forall_map. apply Forall_forall. intros [m n] Hp. apply idx_all_in in Hp.
    apply kdecl_intro; cbn [lagt omp_zlag2c ck_task k_deps k_reads k_writes fst snd]; intros l HR.
    - left. destruct HR as [HR|HR].
      + eexists. split; [left; reflexivity|]. cbn [fst dep_in]. eapply home_tile; eauto.
      + eexists. split; [right; left; reflexivity|]. cbn [fst dep_out]. eapply home_tile; eauto.
    - eexists. split; [right; left; reflexivity|]. split; [|discriminate]. cbn [dep_out]. eapply home_tile; eauto.
  Qed.

  Lemma pzlag2c_writes : forall k l, In k (pzlag2c narrow fits bA A bS A) -> k_writes (ck_task k) l -> fst l = bS.
  Proof.
    intros k l Hk W. rewrite pzlag2c_eq in Hk. apply in_map_iff in Hk. destruct Hk as (p & <- & _).
    cbn in W. apply reg_block in W. exact W.
  Qed.

  (* the code of a task does not depend on the others *)
  Lemma pzlag2c_info : forall l1 k l2 (M0 : mem V), pzlag2c narrow fits bA A bS A = l1 ++ k :: l2 ->
    ck_info k (krun (map ck_task l1) M0) = ck_info k M0.
  Proof.
    intros l1 k l2 M0 E.
    assert (Hk : In k (pzlag2c narrow fits bA A bS A)) by (rewrite E; apply in_or_app; right; left; reflexivity).
    assert (FR : forall l, fst l <> bS -> krun (map ck_task l1) M0 l = M0 l).
    { intros l Hl. apply krun_frame.
      - pose proof pzlag2c_kgood as G. rewrite E, map_app, Forall_app in G. destruct G as [G _].
        eapply Forall_impl; [|exact G]. intros x []. assumption.
      - intros (x & Hx & W). apply in_map_iff in Hx. destruct Hx as (y & <- & Hy).
        apply Hl. apply (pzlag2c_writes y l); auto. rewrite E. apply in_or_app. left. assumption. }
    rewrite pzlag2c_eq in Hk. apply in_map_iff in Hk. destruct Hk as ([m n] & <- & _). cbn.
    unfold core_zlag2c_info. rewrite (lag_all_ext _ M0); [reflexivity|].
    intros x Hx. apply FR. apply reg_block in Hx. cbn in Hx. congruence.
  Qed.

  Lemma pzlag2c_codes : forall M0 : mem V, Forall (fun c => c = 0) (kcodes (pzlag2c narrow fits bA A bS A) M0) ->
    forall i j, 0 <= i < d_m A -> 0 <= j < d_n A -> fits (el M0 bA A i j) = true.
  Proof.
    intros M0 H i j Hi Hj. pose proof (lag_tile i j Hi Hj) as HT.
    assert (Hk : In (lagt (i / nb, j / nb)) (pzlag2c narrow fits bA A bS A))
      by (rewrite pzlag2c_eq; apply in_map; apply idx_all_in; assumption).
    apply in_split in Hk. destruct Hk as (l1 & l2 & E).
    assert (K : nth_error (kcodes (pzlag2c narrow fits bA A bS A) M0) (length l1) = Some 0).
    { rewrite Forall_forall in H. rewrite E, kcodes_nth. f_equal. apply H. rewrite E.
      eapply nth_error_In. apply kcodes_nth. }
    rewrite E, kcodes_nth, (pzlag2c_info l1 _ l2 M0 E) in K. injection K as K. cbn in K. unfold core_zlag2c_info in K.
    destruct (lag_all fits M0 (tile_mview A (i / nb)) (tile_nview A (j / nb)) (tptr bA A (i / nb) (j / nb)) (tile_mmain A (i / nb)))
      eqn:EL; [|discriminate K].
    rewrite lag_all_spec in EL.
    destruct (pos_tile nb A _ HA i (d_m A) Hi) as (P1 & P2 & P3).
    destruct (pos_tile nb A _ HA j (d_n A) Hj) as (Q1 & Q2 & Q3).
    rewrite <- (sq_mv nb A _ HA _ _ HT) in P2. rewrite <- (sq_nv nb A _ HA _ _ HT) in Q2.
    specialize (EL (i mod nb) (j mod nb) P2 Q2).
    destruct (lag_rd M0 bA (i / nb) (j / nb) (i mod nb) (j mod nb) HT P2 Q2) as [ER _]. rewrite ER, <- P3, <- Q3 in EL. exact EL.
  Qed.

  Lemma pzlag2c_guilty : forall (M0 : mem V) c, c <> 0 -> guilty (pzlag2c narrow fits bA A bS A) M0 c ->
    c = 1 /\ exists i j, 0 <= i < d_m A /\ 0 <= j < d_n A /\ fits (el M0 bA A i j) = false.
  Proof.
    intros M0 c Hc (l1 & k & l2 & E & EC & _). rewrite (pzlag2c_info l1 k l2 M0 E) in EC.
    assert (Hk : In k (pzlag2c narrow fits bA A bS A)) by (rewrite E; apply in_or_app; right; left; reflexivity).
    rewrite pzlag2c_eq in Hk. apply in_map_iff in Hk. destruct Hk as ([m n] & <- & Hp). apply idx_all_in in Hp.
    cbn in EC. unfold core_zlag2c_info in EC.
    destruct (lag_all fits M0 (tile_mview A m) (tile_nview A n) (tptr bA A m n) (tile_mmain A m)) eqn:EL; [congruence|].
    split; [congruence|]. apply lag_all_false in EL. destruct EL as (r & s & Hr & Hs & EF).
    destruct (lag_rd M0 bA m n r s Hp Hr Hs) as (ER & R1 & R2 & _). rewrite ER in EF.
    exists (m * nb + r), (n * nb + s). auto.
  Qed.

  Lemma lagv_ok : forall (M0 : mem V) i j, 0 <= i < d_m A -> 0 <= j < d_n A ->
    (forall i' j', 0 <= i' < d_m A -> 0 <= j' < d_n A -> fits (el M0 bA A i' j') = true) ->
    lagv M0 i j = narrow (el M0 bA A i j).
  Proof.
    intros M0 i j Hi Hj H. unfold lagv. pose proof (lag_tile i j Hi Hj) as HT.
    destruct (pos_tile nb A _ HA i (d_m A) Hi) as (P1 & P2 & P3).
    destruct (pos_tile nb A _ HA j (d_n A) Hj) as (Q1 & Q2 & Q3).
    rewrite <- (sq_mv nb A _ HA _ _ HT) in P2. rewrite <- (sq_nv nb A _ HA _ _ HT) in Q2.
    rewrite (lag_reaches_all M0 _ (tile_nview A (j / nb))); auto. apply lag_all_spec. intros r c Hr Hc.
    destruct (lag_rd M0 bA _ _ r c HT Hr Hc) as (ER & R1 & R2 & _). rewrite ER. apply H; assumption.
  Qed.

  (* the way back *)
  Definition galt (p : Z * Z) : ktask V :=
    omp_clag2z widen (tile_mview A (fst p)) (tile_nview A (snd p)) (tptr bS A (fst p) (snd p)) (tile_mmain A (fst p))
      (tptr bA A (fst p) (snd p)) (tile_mmain A (fst p)).

  Lemma pclag2z_eq : pclag2z widen bS A bA A = map galt (idx_all A).
  Proof.
    unfold pclag2z, idx_all, pairs. induction (zrange 0 (d_mt A)) as [|m ms IH]; [reflexivity|].
    cbn [flat_map]. rewrite map_app, <- IH, map_map. reflexivity.
  Qed.

  Lemma galt_other : forall p (M : mem V) l, fst l <> bA -> k_fun (galt p) M l = M l.
  Proof.
    intros p M l Hl. cbn. apply mset_out. intros R. apply reg_block in R. cbn in R. congruence.
  Qed.

  Lemma pclag2z_at : forall (M0 : mem V) i j, 0 <= i < d_m A -> 0 <= j < d_n A ->
    el (krun (pclag2z widen bS A bA A) M0) bA A i j = widen (el M0 bS A i j).
  Proof.
    intros M0 i j Hi Hj. rewrite pclag2z_eq.
    apply (sweep_at nb A bA galt (fun _ _ => true) (fun M i j => widen (el M bS A i j)) (idx_all A)); auto.
    - apply idx_all_NoDup.
    - intros p M l _ Hl. apply galt_other. assumption.
    - intros [m n] M i' j' Hp Hi' Hj'. apply idx_all_in in Hp. cbn [galt omp_clag2z k_fun fst snd]. unfold core_clag2z.
      rewrite (sq_set nb A _ HA); auto using lag_tile.
      destruct (Z.eqb_spec (i' / nb) m) as [<-|]; cbn [andb]; [|reflexivity].
      destruct (Z.eqb_spec (j' / nb) n) as [<-|]; cbn [andb]; [|reflexivity].
      cbn [everywhere]. unfold rd, el. rewrite !el_loc, (sq_mb nb A _ HA), (sq_nb nb A _ HA). reflexivity.
    - intros M M' i' j' Hi' Hj' H HE.
      rewrite (el_ext V M M' bS A) by (intros; apply H; congruence). reflexivity.
    - intros i' j' Hi' Hj' _. apply idx_all_in. apply lag_tile; assumption.
  Qed.

  Lemma pclag2z_frame : forall (M0 : mem V) l, fst l <> bA -> krun (pclag2z widen bS A bA A) M0 l = M0 l.
  Proof.
    intros. rewrite pclag2z_eq. apply (sweep_frame bA); auto. intros p M l' _ Hl. apply galt_other. assumption.
  Qed.

  Lemma pclag2z_kgood : Forall kgood (pclag2z widen bS A bA A).
  Proof.
    rewrite pclag2z_eq. apply Forall_map. apply Forall_forall. intros [m n] Hp. apply idx_all_in in Hp.
    pose proof (td_ld A _ (sq_t nb A _ HA) m n Hp) as LD. unfold galt, omp_clag2z, core_clag2z. cbn [fst snd].
    apply mset_kgood.
    - assumption.
    - apply finite_reg.
    - intros M M' i j Hi Hj _ HX. unfold rd. rewrite HX; [reflexivity|exists i, j; auto].
  Qed.

  Lemma pclag2z_kdecl : forall env, In (bS, homeD A (in_tiles A)) env -> In (bA, homeD A (in_tiles A)) env ->
    Forall (kdecl (home_env env)) (pclag2z widen bS A bA A).
  Proof.
    intros env EA EB. rewrite pclag2z_eq. apply Forall_map. apply Forall_forall. intros [m n] Hp. apply idx_all_in in Hp.
    apply kdecl_intro; cbn [galt omp_clag2z k_deps k_reads k_writes fst snd]; intros l HR.
    - left. eexists. split; [left; reflexivity|]. cbn [fst dep_in]. eapply home_tile; eauto.
    - eexists. split; [right; left; reflexivity|]. split; [|discriminate]. cbn [dep_out]. eapply home_tile; eauto.
  Qed.
End Lag.
