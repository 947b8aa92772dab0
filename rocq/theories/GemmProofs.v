From Coq Require Import ZArith List Bool Lia Ring.
From Verif Require Import Base NumModel NumProofs TaskModel TaskSpec TaskProofs DescModel DescSpec
  DescDriverModel DescProofs DescProofs3 DescProofs4 MatModel MatSpec MatProofs RegionProofs
  LayoutModel LayoutProofs LayoutProofs2 DriverModel DriverSpec OpProofs GemmModel.
Import ListNotations.
Open Scope Z_scope.

(* ------------------------------------------------------------------ *)
(* dense descriptors with square tiles                                   *)

Definition dn (nb : Z) (A : desc) : Prop := sq nb A (in_tiles A).

Lemma dn_in : forall nb A m n, dn nb A ->
  in_tiles A m n <-> 0 <= m /\ m * nb < d_m A /\ 0 <= n /\ n * nb < d_n A.
Proof.
  intros nb A m n [HT Hm Hn]. pose proof (td_shape _ _ HT) as SH.
  pose proof (mt_aligned A SH). pose proof (nt_aligned A SH).
  destruct (tiles_bracket (d_mb A) (d_m A) (d_mt A)) as (T1&T2&T3); auto; try apply SH.
  destruct (tiles_bracket (d_nb A) (d_n A) (d_nt A)) as (U1&U2&U3); auto; try apply SH.
  pose proof (go_mb A SH). pose proof (go_nb A SH). pose proof (go_m A SH). pose proof (go_n A SH).
  unfold in_tiles. rewrite Hm, Hn in *. split.
  - intros [I J]. assert (0 < d_m A) by lia. assert (0 < d_n A) by lia.
    destruct (T3 H5) as [T4 T5]. destruct (U3 H6) as [U4 U5]. repeat split; nia.
  - intros (I1 & I2 & J1 & J2). assert (0 < d_m A) by nia. assert (0 < d_n A) by nia.
    destruct (T3 H5) as [T4 T5]. destruct (U3 H6) as [U4 U5]. repeat split; nia.
Qed.

Lemma ge_create_dn : forall nb m n A size, ge_create nb m n = CrOk A size ->
  dn nb A /\ d_m A = m /\ d_n A = n /\ d_i A = 0 /\ d_j A = 0.
Proof.
  intros nb m n A size H. unfold ge_create in H.
  destruct (general_create_ok _ _ _ _ _ _ _ _ _ _ _ (Z.le_refl 0) (Z.le_refl 0) H) as (G & -> & _).
  split; [|repeat split]. constructor; [apply dense_tiled; assumption|reflexivity|reflexivity].
Qed.

(* ntiles: how many tiles cover K elements *)
Definition ntl (nb K : Z) : Z := (K + nb - 1) / nb.

Lemma ntl_spec : forall nb K k, 0 < nb -> 0 <= K -> 0 <= k -> (k < ntl nb K <-> k * nb < K).
Proof.
  intros nb K k Hb HK Hk. unfold ntl. destruct (div_mod_pos (K + nb - 1) nb Hb) as [E R].
  split; intros H; nia.
Qed.

Lemma ntl_unique : forall nb K t, 0 < nb -> 0 <= K -> 0 <= t ->
  (forall k, 0 <= k -> (k < t <-> k * nb < K)) -> t = ntl nb K.
Proof.
  intros nb K t Hb HK Ht H.
  assert (0 <= ntl nb K) by (apply Z.div_pos; lia).
  destruct (Z.lt_trichotomy t (ntl nb K)) as [L|[E|L]]; [|assumption|].
  - apply (ntl_spec nb K t Hb HK Ht) in L. apply H in L; lia.
  - assert (L' := L). apply H in L'; [|assumption]. apply ntl_spec in L'; lia.
Qed.

Lemma ntl_pos : forall nb K, 0 < nb -> 0 < K -> 0 < ntl nb K.
Proof. intros. apply ntl_spec; lia. Qed.

Lemma ntl_top : forall nb K, 0 < nb -> 0 <= K -> K <= ntl nb K * nb.
Proof.
  intros nb K Hb HK. assert (0 <= ntl nb K) by (apply Z.div_pos; lia).
  destruct (Z_lt_le_dec (ntl nb K * nb) K) as [L|L]; [|lia].
  apply ntl_spec in L; lia.
Qed.

Lemma mt_aligned_ntl : forall nb A, shape_ok A -> d_mb A = nb -> d_mt A = ntl nb (d_m A).
Proof.
  intros nb A SH E. pose proof (mt_aligned A SH) as HA. pose proof (go_mb A SH). pose proof (go_m A SH).
  destruct (tiles_bracket (d_mb A) (d_m A) (d_mt A)) as (T1&T2&T3); auto.
  apply ntl_unique; try lia. intros k Hk. rewrite E in *.
  destruct (Z.eq_dec (d_m A) 0) as [Z|Z].
  - rewrite Z in *. split; [|nia]. lia.
  - destruct T3 as [T4 T5]; [lia|]. split; nia.
Qed.

Lemma nt_aligned_ntl : forall nb A, shape_ok A -> d_nb A = nb -> d_nt A = ntl nb (d_n A).
Proof.
  intros nb A SH E. pose proof (nt_aligned A SH) as HA. pose proof (go_nb A SH). pose proof (go_n A SH).
  destruct (tiles_bracket (d_nb A) (d_n A) (d_nt A)) as (T1&T2&T3); auto.
  apply ntl_unique; try lia. intros k Hk. rewrite E in *.
  destruct (Z.eq_dec (d_n A) 0) as [Z|Z].
  - rewrite Z in *. split; [|nia]. lia.
  - destruct T3 as [T4 T5]; [lia|]. split; nia.
Qed.

Lemma dn_mt : forall nb A, dn nb A -> d_mt A = ntl nb (d_m A).
Proof. intros nb A [HT Hm Hn]. apply mt_aligned_ntl; auto. apply (td_shape _ _ HT). Qed.
Lemma dn_nt : forall nb A, dn nb A -> d_nt A = ntl nb (d_n A).
Proof. intros nb A [HT Hm Hn]. apply nt_aligned_ntl; auto. apply (td_shape _ _ HT). Qed.

(* ------------------------------------------------------------------ *)
(* plasma_pzgemm                                                         *)

Section Pzgemm.
  Context {N : numbers}.
  Add Ring num_ring_gemm : (nring N).
  Variables (nb : Z) (A B C : desc) (bA bB bC ta tb : Z) (alpha beta : N).
  Hypotheses (HA : dn nb A) (HB : dn nb B) (HC : dn nb C).
  Hypotheses (CM : op_m ta A = d_m C) (CK : op_m tb B = op_n ta A) (CN : op_n tb B = d_n C).
  Let K := op_n ta A.
  Let Hb : 0 < nb := sq_pos nb C _ HC.
  Let HK : 0 <= K.
  Proof. unfold K, op_n. pose proof (td_shape _ _ (sq_t nb A _ HA)) as SH.
    destruct (ta =? PlasmaNoTrans); [apply (go_n A SH)|apply (go_m A SH)]. Qed.

  Definition gtask (m n k : Z) : ktask N :=
    omp_zgemm ta tb (tile_mview C m) (tile_nview C n) (tsz nb K k) alpha
      (op_tile ta bA A m k) (op_ld ta A m k) (op_tile tb bB B k n) (op_ld tb B k n)
      (if k =? 0 then beta else n1) (tptr bC C m n) (tile_mmain C m).

  Definition gscale (m n : Z) : ktask N :=
    omp_zgemm ta tb (tile_mview C m) (tile_nview C n) 0 alpha (tptr bA A 0 0) (Z.max 1 (tile_mmain A 0))
      (tptr bB B 0 0) (Z.max 1 (tile_mmain B 0)) beta (tptr bC C m n) (tile_mmain C m).

  Lemma opS_A : forall m k, 0 <= m -> m * nb < d_m C -> 0 <= k -> k * nb < K -> op_S ta (in_tiles A) m k.
  Proof.
    intros m k H1 H2 H3 H4. unfold op_S, K, op_m, op_n in *.
    destruct (ta =? PlasmaNoTrans); apply (dn_in nb A); auto; lia.
  Qed.

  Lemma opS_B : forall k n, 0 <= n -> n * nb < d_n C -> 0 <= k -> k * nb < K -> op_S tb (in_tiles B) k n.
  Proof.
    intros k n H1 H2 H3 H4. fold K in CK. unfold op_S, op_m, op_n in *.
    destruct (tb =? PlasmaNoTrans); apply (dn_in nb B); auto; lia.
  Qed.

  Lemma pzgemm_tile_eq : forall m n, in_tiles C m n ->
    pzgemm_tile ta tb alpha bA A bB B beta bC C m n
    = if neqb alpha n0 || (K =? 0) then [gscale m n] else map (gtask m n) (zrange 0 (ntl nb K)).
  Proof.
    intros m n HS. apply (dn_in nb C) in HS; [|assumption]. destruct HS as (M1 & M2 & N1 & N2).
    unfold pzgemm_tile. fold (gscale m n).
    assert (EK : (if ta =? PlasmaNoTrans then d_n A else d_m A) = K) by reflexivity.
    rewrite EK. destruct (neqb alpha n0 || (K =? 0)); [reflexivity|]. cbv zeta.
    assert (V : forall k, In k (zrange 0 (ntl nb K)) ->
      op_S ta (in_tiles A) m k /\ op_S tb (in_tiles B) k n).
    { intros k Hk. apply in_zrange in Hk. destruct Hk as [k0 kt]. apply ntl_spec in kt; auto.
      split; [apply opS_A|apply opS_B]; auto. }
    pose proof (dn_mt nb A HA) as EA. pose proof (dn_nt nb A HA) as EN.
    unfold K, gtask, op_n, op_S, op_tile, op_ld in *.
    destruct (ta =? PlasmaNoTrans) eqn:TA; destruct (tb =? PlasmaNoTrans) eqn:TB.
    - rewrite EN. apply map_ext_in. intros k Hk. destruct (V k Hk) as [V1 V2].
      rewrite (sq_nv nb A _ HA m k V1). reflexivity.
    - rewrite EN. apply map_ext_in. intros k Hk. destruct (V k Hk) as [V1 V2].
      rewrite (sq_nv nb A _ HA m k V1). reflexivity.
    - rewrite EA. apply map_ext_in. intros k Hk. destruct (V k Hk) as [V1 V2].
      rewrite (sq_mv nb A _ HA k m V1). reflexivity.
    - rewrite EA. apply map_ext_in. intros k Hk. destruct (V k Hk) as [V1 V2].
      rewrite (sq_mv nb A _ HA k m V1). reflexivity.
  Qed.

  Definition gtile (m n : Z) : list (ktask N) := pzgemm_tile ta tb alpha bA A bB B beta bC C m n.

  Lemma pzgemm_eq : pzgemm ta tb alpha bA A bB B beta bC C
    = flat_map (fun mn => gtile (fst mn) (snd mn)) (idx_all C).
  Proof. unfold pzgemm, idx_all. rewrite flat_map_pairs. reflexivity. Qed.

  Lemma gtile_cases : forall (P : ktask N -> Prop) m n, in_tiles C m n ->
    (K = 0 \/ alpha = n0 -> P (gscale m n)) ->
    (forall k, 0 <= k -> k * nb < K -> P (gtask m n k)) -> Forall P (gtile m n).
  Proof.
    intros P m n HS H1 H2. unfold gtile. rewrite pzgemm_tile_eq by assumption.
    destruct (neqb alpha n0 || (K =? 0)) eqn:E.
    - constructor; [|constructor]. apply H1. rewrite orb_true_iff, Z.eqb_eq, neqb_eq in E. tauto.
    - apply Forall_forall. intros x Hx. apply in_map_iff in Hx. destruct Hx as (k & <- & Hk).
      apply in_zrange in Hk. destruct Hk as [k0 kt]. apply H2; auto. apply ntl_spec in kt; auto.
  Qed.

  Lemma gtile_kgood : forall m n, in_tiles C m n -> Forall kgood (gtile m n).
  Proof.
    intros m n HS. apply gtile_cases; auto; intros; apply omp_zgemm_kgood;
      apply (td_ld C _ (sq_t nb C _ HC) m n HS).
  Qed.

  Lemma gtile_writes : forall m n l, in_tiles C m n -> kwrites (gtile m n) l ->
    reg (tptr bC C m n) (tile_mmain C m) (tile_mview C m) (tile_nview C n) everywhere l.
  Proof.
    intros m n l HS (k & Hk & W).
    assert (F : Forall (fun k => k_writes k l ->
      reg (tptr bC C m n) (tile_mmain C m) (tile_mview C m) (tile_nview C n) everywhere l) (gtile m n)).
    { apply gtile_cases; auto. }
    rewrite Forall_forall in F. apply (F k); auto.
  Qed.

  Lemma conf_m : forall m n, in_tiles C m n -> tile_mview C m = tsz nb (op_m ta A) m.
  Proof. intros m n HS. rewrite (sq_mv nb C _ HC m n HS), CM. reflexivity. Qed.
  Lemma conf_n : forall m n, in_tiles C m n -> tile_nview C n = tsz nb (op_n tb B) n.
  Proof. intros m n HS. rewrite (sq_nv nb C _ HC m n HS), CN. reflexivity. Qed.

  Lemma gtile_kdecl : forall env m n, in_tiles C m n ->
    In (bA, homeD A (in_tiles A)) env -> In (bB, homeD B (in_tiles B)) env ->
    In (bC, homeD C (in_tiles C)) env ->
    Forall (kdecl (home_env env)) (gtile m n).
  Proof.
    intros env m n HS EA EB EC. assert (HS' := HS). apply (dn_in nb C) in HS'; [|assumption].
    destruct HS' as (M1 & M2 & N1 & N2). apply gtile_cases; auto.
    - intros _. apply kdecl_intro; cbn; intros l HR.
      + left. destruct HR as [HR|[HR|HR]].
        * exfalso. unfold op_reg in HR. destruct (_ =? _); destruct HR as (x & y & Hx & Hy & _); lia.
        * exfalso. unfold op_reg in HR. destruct (_ =? _); destruct HR as (x & y & Hx & Hy & _); lia.
        * eexists. split; [right; right; left; reflexivity|]. cbn. eapply home_tile; eauto.
      + eexists. split; [right; right; left; reflexivity|]. split; [|discriminate]. cbn. eapply home_tile; eauto.
    - intros k K1 K2. apply (omp_zgemm_kdecl nb env A (in_tiles A) bA B (in_tiles B) bB C (in_tiles C)); auto.
      + apply opS_A; auto.
      + apply opS_B; auto.
      + rewrite (conf_m m n HS). lia.
      + apply Z.le_refl.
      + rewrite CK. apply Z.le_refl.
      + rewrite (conf_n m n HS). lia.
  Qed.

  Hypotheses (NA : bA <> bC) (NB : bB <> bC).

  Definition gsum (M : mem N) (i j : Z) (k : Z) : N :=
    nsum (fun l => nmul (op_el M ta bA A i l) (op_el M tb bB B l j)) 0 k.

  Lemma op_el_ext : forall (M M' : mem N) t b X i j, (forall l, fst l = b -> M l = M' l) ->
    op_el M t b X i j = op_el M' t b X i j.
  Proof.
    intros M M' t b X i j H. unfold op_el, el.
    destruct (t =? PlasmaNoTrans); [|destruct (t =? PlasmaTrans)]; rewrite ?H; reflexivity.
  Qed.

  Lemma group_other : forall m n ks M l, fst l <> bC -> krun (map (gtask m n) ks) M l = M l.
  Proof.
    intros m n ks. induction ks as [|k ks IH]; intros M l Hl; cbn [map krun]; [reflexivity|].
    rewrite IH by assumption. apply gemm_other. cbn. assumption.
  Qed.

  Lemma gtask_el : forall k M i j, in_tiles C (i / nb) (j / nb) -> 0 <= i < d_m C -> 0 <= j < d_n C ->
    0 <= k -> k * nb < K ->
    el (k_fun (gtask (i / nb) (j / nb) k) M) bC C i j
    = nadd (nmul alpha (nsum (fun l => nmul (op_el M ta bA A i l) (op_el M tb bB B l j))
              (k * nb) (Z.min ((k + 1) * nb) K)))
           (nmul (if k =? 0 then beta else n1) (el M bC C i j)).
  Proof.
    intros k M i j HS Hi Hj K1 K2. assert (HS' := HS). apply (dn_in nb C) in HS'; [|assumption].
    destruct HS' as (M1 & M2 & N1 & N2).
    destruct (pos_tile nb C _ HC i (d_m C) Hi) as (P1 & P2 & P3).
    destruct (pos_tile nb C _ HC j (d_n C) Hj) as (Q1 & Q2 & Q3).
    unfold gtask. cbn [k_fun omp_zgemm].
    rewrite (gemm_el nb A (in_tiles A) bA B (in_tiles B) bB C (in_tiles C)); auto.
    - rewrite !Z.eqb_refl. cbn [andb]. f_equal. f_equal. rewrite <- P3, <- Q3.
      replace (k * nb + tsz nb K k) with (Z.min ((k + 1) * nb) K) by (unfold tsz; lia).
      apply nsum_ext. intros l Hl. f_equal. f_equal. lia.
    - apply opS_A; auto.
    - apply opS_B; auto.
    - rewrite (conf_m _ _ HS). lia.
    - apply Z.le_refl.
    - rewrite CK. apply Z.le_refl.
    - rewrite (conf_n _ _ HS). lia.
  Qed.

  Lemma group_el : forall M i j t, in_tiles C (i / nb) (j / nb) -> 0 <= i < d_m C -> 0 <= j < d_n C ->
    0 <= t <= ntl nb K ->
    el (krun (map (gtask (i / nb) (j / nb)) (zrange 0 t)) M) bC C i j
    = if t =? 0 then el M bC C i j
      else nadd (nmul alpha (gsum M i j (Z.min (t * nb) K))) (nmul beta (el M bC C i j)).
  Proof.
    intros M i j t HS Hi Hj. pattern t. apply (zrange_ind_hi _ 0); clear t.
    - intros t H1 H2. assert (t = 0) as -> by lia. rewrite zrange_nil by lia. reflexivity.
    - intros t H1 IH H2. rewrite zrange_snoc by lia. rewrite map_app, krun_app. cbn [map krun].
      assert (Kt : t * nb < K) by (apply ntl_spec; auto; lia).
      rewrite gtask_el; auto. rewrite IH by lia.
      replace (t + 1 =? 0) with false by (symmetry; apply Z.eqb_neq; lia).
      rewrite (nsum_ext N _ (fun l => nmul (op_el M ta bA A i l) (op_el M tb bB B l j))).
      2:{ intros l Hl. f_equal; apply op_el_ext; intros x Hx; apply group_other; congruence. }
      unfold gsum. rewrite (nsum_app N _ 0 (t * nb) (Z.min ((t + 1) * nb) K)) by nia.
      destruct (t =? 0) eqn:E.
      + apply Z.eqb_eq in E. subst t. rewrite (nsum_nil N _ 0 (0 * nb)) by lia. ring.
      + replace (Z.min (t * nb) K) with (t * nb) by lia. ring.
  Qed.

  Lemma gtile_el : forall M i j, in_tiles C (i / nb) (j / nb) -> 0 <= i < d_m C -> 0 <= j < d_n C ->
    el (krun (gtile (i / nb) (j / nb)) M) bC C i j
    = nadd (nmul alpha (gsum M i j K)) (nmul beta (el M bC C i j)).
  Proof.
    intros M i j HS Hi Hj. unfold gtile. rewrite pzgemm_tile_eq by assumption.
    destruct (neqb alpha n0 || (K =? 0)) eqn:E.
    - cbn [krun gscale k_fun omp_zgemm]. unfold core_zgemm.
      rewrite (sq_set nb C _ HC) by assumption. unfold everywhere. rewrite !Z.eqb_refl. cbn [andb].
      destruct (pos_tile nb C _ HC i (d_m C) Hi) as (P1 & P2 & P3).
      destruct (pos_tile nb C _ HC j (d_n C) Hj) as (Q1 & Q2 & Q3).
      rewrite (sq_rd nb C _ HC) by assumption. rewrite <- P3, <- Q3.
      rewrite (nsum_nil N _ 0 0) by lia.
      rewrite orb_true_iff, Z.eqb_eq, neqb_eq in E. destruct E as [E|E].
      + rewrite E. ring.
      + unfold gsum. rewrite E. rewrite nsum_nil by lia. reflexivity.
    - rewrite orb_false_iff, Z.eqb_neq in E. destruct E as [_ E].
      rewrite group_el; auto.
      + pose proof (ntl_pos nb K Hb). pose proof (ntl_top nb K Hb HK).
        replace (ntl nb K =? 0) with false by (symmetry; apply Z.eqb_neq; lia).
        replace (Z.min (ntl nb K * nb) K) with K by lia. reflexivity.
      + split; [apply Z.div_pos; lia|lia].
  Qed.

  Lemma pzgemm_kgood : Forall kgood (pzgemm ta tb alpha bA A bB B beta bC C).
  Proof.
    rewrite pzgemm_eq. apply Forall_flat_map_intro. intros [m n] Hmn. apply idx_all_in in Hmn.
    apply gtile_kgood; assumption.
  Qed.

  Lemma pzgemm_kdecl : forall env,
    In (bA, homeD A (in_tiles A)) env -> In (bB, homeD B (in_tiles B)) env ->
    In (bC, homeD C (in_tiles C)) env ->
    Forall (kdecl (home_env env)) (pzgemm ta tb alpha bA A bB B beta bC C).
  Proof.
    intros. rewrite pzgemm_eq. apply Forall_flat_map_intro. intros [m n] Hmn. apply idx_all_in in Hmn.
    apply gtile_kdecl; assumption.
  Qed.

  Lemma pzgemm_other : forall M l, fst l <> bC -> krun (pzgemm ta tb alpha bA A bB B beta bC C) M l = M l.
  Proof.
    intros M l Hl. rewrite pzgemm_eq. apply flat_map_frame.
    - intros [m n] Hmn. apply idx_all_in in Hmn. apply kgood_sound, gtile_kgood; assumption.
    - intros [m n] Hmn W. apply idx_all_in in Hmn. apply gtile_writes in W; [|assumption].
      apply reg_block in W. cbn in W. congruence.
  Qed.

  Lemma gtile_reads : forall m n l, in_tiles C m n -> kreads (gtile m n) l -> fst l = bC ->
    reg (tptr bC C m n) (tile_mmain C m) (tile_mview C m) (tile_nview C n) everywhere l.
  Proof.
    intros m n l HS (k & Hk & W) E.
    assert (Z0 : forall t p ld x y q, op_reg t p ld x y q -> fst q = fst p).
    { intros t p ld x y q H. unfold op_reg in H. destruct (_ =? _); apply reg_block in H; assumption. }
    assert (F : Forall (fun k => k_reads k l ->
      reg (tptr bC C m n) (tile_mmain C m) (tile_mview C m) (tile_nview C n) everywhere l) (gtile m n)).
    { apply gtile_cases; auto.
      - intros _ [R|[R|R]]; [exfalso|exfalso|assumption]; apply Z0 in R; cbn in R; congruence.
      - intros k' _ _ [R|[R|R]]; [exfalso|exfalso|assumption]; apply Z0 in R;
          unfold op_tile in R; destruct (_ =? _) in R; cbn in R; congruence. }
    rewrite Forall_forall in F. apply (F k); auto.
  Qed.

  Lemma pzgemm_el : forall M i j, 0 <= i < d_m C -> 0 <= j < d_n C ->
    el (krun (pzgemm ta tb alpha bA A bB B beta bC C) M) bC C i j
    = nadd (nmul alpha (gsum M i j K)) (nmul beta (el M bC C i j)).
  Proof.
    intros M i j Hi Hj. pose proof (td_shape _ _ (sq_t nb C _ HC)) as SH.
    pose proof (in_tiles_pos C i j SH Hi Hj) as HS.
    rewrite (sq_mb nb C _ HC), (sq_nb nb C _ HC) in HS.
    rewrite <- gtile_el by assumption. rewrite pzgemm_eq. unfold el.
    apply (krun_groups N _ (fun mn => gtile (fst mn) (snd mn)) (idx_all C) M (i / nb, j / nb)).
    - intros [m n] Hmn. apply idx_all_in in Hmn. cbn [fst snd].
      split; [apply kgood_sound|apply kgood_decw]; apply gtile_kgood; assumption.
    - apply idx_all_NoDup.
    - intros [m n] [m' n'] x H1 H2 Hne W. apply idx_all_in in H1, H2. cbn [fst snd] in *.
      apply gtile_writes in W; [|assumption]. split.
      + intros W'. apply gtile_writes in W'; [|assumption].
        destruct (reg_tile_apart C _ bC (sq_t nb C _ HC) m' n' m n _ _ x H2 H1 W W'). congruence.
      + intros R. apply gtile_reads in R; [|assumption|apply reg_block in W; assumption].
        destruct (reg_tile_apart C _ bC (sq_t nb C _ HC) m' n' m n _ _ x H2 H1 W R). congruence.
    - apply idx_all_in. assumption.
    - left. unfold gtile. rewrite pzgemm_tile_eq by assumption.
      assert (R : reg (tptr bC C (i / nb) (j / nb)) (tile_mmain C (i / nb)) (tile_mview C (i / nb))
                    (tile_nview C (j / nb)) everywhere (bC, elem_off C i j)).
      { exists (i mod nb), (j mod nb). 
        destruct (pos_tile nb C _ HC i (d_m C) Hi) as (P1 & P2 & P3).
        destruct (pos_tile nb C _ HC j (d_n C) Hj) as (Q1 & Q2 & Q3).
        rewrite (sq_mv nb C _ HC _ _ HS), (sq_nv nb C _ HC _ _ HS).
        repeat split; try lia. unfold elem_off. rewrite (sq_mb nb C _ HC), (sq_nb nb C _ HC). reflexivity. }
      destruct (neqb alpha n0 || (K =? 0)) eqn:E.
      + eexists. split; [left; reflexivity|]. exact R.
      + rewrite orb_false_iff, Z.eqb_neq in E. destruct E as [_ E].
        exists (gtask (i / nb) (j / nb) 0). split; [|exact R].
        apply in_map. apply in_zrange. split; [lia|]. apply ntl_pos; auto. lia.
  Qed.
End Pzgemm.
