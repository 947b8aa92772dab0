(* The task lists of the tile QR routines, and what their tasks declare. *)
From Coq Require Import ZArith List Bool Lia.
From Verif Require Import Base NumModel NumProofs TaskModel TaskSpec TaskProofs DescModel DescSpec DescProofs MatModel MatSpec MatProofs RegionProofs
  LayoutModel LayoutProofs LayoutProofs2 DriverModel OpProofs QrModel QrSpec QrAlgProofs QrStepProofs QrKerProofs QrKerProofs2 QrMulProofs QrLiftProofs QrTaskProofs QrEffProofs
  QrUnmProofs QrFacProofs QrInvProofs.
Import ListNotations.
Open Scope Z_scope.

Lemma rev_flat_map : forall (X Y : Type) (g : X -> list Y) l, rev (flat_map g l) = flat_map (fun x => rev (g x)) (rev l).
Proof.
  intros X Y g l. induction l as [|x l IH]; [reflexivity|]. cbn [flat_map rev]. rewrite rev_app_distr, flat_map_app, IH. cbn [flat_map].
  rewrite app_nil_r. reflexivity.
Qed.
Lemma flat_map_map : forall (X Y W : Type) (f : Y -> list W) (g : X -> Y) l, flat_map f (map g l) = flat_map (fun x => f (g x)) l.
Proof. intros X Y W f g l. induction l; cbn [flat_map map]; [reflexivity|]. rewrite IHl. reflexivity. Qed.
Lemma flat_map_ext_in : forall (X Y : Type) (f g : X -> list Y) l, (forall x, In x l -> f x = g x) -> flat_map f l = flat_map g l.
Proof. intros X Y f g l H. induction l; cbn [flat_map]; [reflexivity|]. rewrite (H a (or_introl eq_refl)), IHl; [reflexivity|]. intros; apply H; right; assumption. Qed.

Ltac qr_lia := repeat match goal with H : d_m _ = _ |- _ => rewrite H in * | H : d_n _ = _ |- _ => rewrite H in * end; unfold tsz in *; lia.

Section Lists.
  Context {N : numbers}.
  Variables nb ib m K : Z.
  Hypothesis Hnb : 0 < nb.
  Hypothesis Hib : 0 < ib.
  Hypothesis HK : K <= m.
  Variables (T : desc) (bT : Z).
  Hypothesis HT : tok nb ib m K T.
  Variables (A : desc) (bA : Z).
  Hypothesis HA : sq nb A (in_tiles A).
  Hypothesis EmA : d_m A = m.
  Hypothesis EnA : K <= d_n A.
  Variable env : list (Z * (Z -> Z -> Prop)).
  Hypothesis HEA : In (bA, homeD A (in_tiles A)) env.
  Hypothesis HET : In (bT, homeD T (in_tiles T)) env.

  Local Notation tk_ok k := (kgood k /\ kdecl (home_env env) k).

  Lemma homeT : forall q k P kk l, in_tiles T q k -> kk <= nb -> reg (tptr bT T q k) (d_mb T) ib kk P l -> home_env env l (tptr bT T q k).
  Proof.
    intros q k P kk l Hin L HR. eapply home_sub; [exact HET|exact Hin| | | |exact HR].
    - rewrite (tk_ld _ _ _ _ _ HT q k Hin). apply (tk_mb _ _ _ _ _ HT).
    - rewrite (tk_mv _ _ _ _ _ HT q k Hin). lia.
    - rewrite (tk_nv _ _ _ _ _ HT q k Hin). lia.
  Qed.

  Lemma homeX : forall X bX m0 n0 mm nn P l, sq nb X (in_tiles X) -> In (bX, homeD X (in_tiles X)) env ->
    in_tiles X m0 n0 -> mm <= tsz nb (d_m X) m0 -> nn <= tsz nb (d_n X) n0 ->
    reg (tptr bX X m0 n0) (tile_mmain X m0) mm nn P l -> home_env env l (tptr bX X m0 n0).
  Proof.
    intros X bX m0 n0 mm nn P l HX HE Hin L1 L2 HR. eapply home_sub; [exact HE|exact Hin|reflexivity| | |exact HR].
    - rewrite (sq_mv _ _ _ HX m0 n0 Hin). assumption.
    - rewrite (sq_nv _ _ _ HX m0 n0 Hin). assumption.
  Qed.

  Section U.
    Variables (B : desc) (bB : Z).
    Hypothesis HB : sq nb B (in_tiles B).
    Hypothesis HEB : In (bB, homeD B (in_tiles B)) env.

    Lemma utask_l_ok : forall trans o n, s_ok nb m K o -> d_m B = m -> 0 <= n < d_nt B ->
      tk_ok (utask_l (N := N) nb ib m K T bT A bA B bB trans o n).
    Proof.
      intros trans [k q] n HO EmB Hn.
      destruct (ok_dims nb ib m K Hnb HK T HT A HA EmA EnA k q HO) as (D1 & D2 & D3 & D4 & D5 & D6 & D7 & D8 & D9).
      assert (I1 : in_tiles B k n). { destruct D2 as [D2 _]. split; [|assumption].
        assert (X : in_tiles B (k * nb / nb) (0 / nb) \/ d_n B <= 0). { destruct (Z_lt_dec 0 (d_n B)); [left; apply tile_of; auto; destruct HO as (O1 & O2 & O3 & O4); cbn [fst snd] in *; nia|right; lia]. }
        destruct X as [[X _]|X]; [rewrite Z.div_mul in X by lia; assumption|].
        exfalso. pose proof (td_shape _ _ (sq_t _ _ _ HB)) as SH. destruct (nview_spec B n SH ltac:(lia)) as [X1 X2].
        rewrite (sq_nb _ _ _ HB) in X1. nia. }
      assert (I2 : in_tiles B q n). { destruct (sq_in_n nb B (in_tiles B) HB k n I1) as [Q1 Q2]. unfold tsz in Q2.
        split; [|assumption]. assert (X : in_tiles B (q * nb / nb) (0 / nb)).
        { apply tile_of; auto; destruct HO as (O1 & O2 & O3 & O4); cbn [fst snd] in *; nia. }
        rewrite Z.div_mul in X by lia. apply X. }
      pose proof (sq_ld nb B (in_tiles B) HB k n I1) as L1. pose proof (sq_ld nb B (in_tiles B) HB q n I2) as L2.
      unfold utask_l. cbn [fst snd]. destruct (Z.eqb_spec q k) as [->|DQ].
      - split; [apply omp_zunmqr_kgood; rewrite <- EmB; lia|].
        apply kdecl_intro; cbn [omp_zunmqr k_deps k_reads k_writes]; change (PlasmaLeft =? PlasmaLeft) with true; cbv iota; intros l HR.
        + left. destruct HR as [HR|[HR|HR]].
          * eexists. split; [left; reflexivity|]. cbn [dep_in dep_addr]. eapply homeX; [exact HA|exact HEA|exact D2| | |exact HR]; qr_lia.
          * eexists. split; [right; left; reflexivity|]. eapply homeT; [exact D9| |exact HR]; qr_lia.
          * eexists. split; [right; right; left; reflexivity|]. eapply homeX; [exact HB|exact HEB|exact I1| | |exact HR]; qr_lia.
        + eexists. split; [right; right; left; reflexivity|]. split; [|discriminate].
          eapply homeX; [exact HB|exact HEB|exact I1| | |exact HR]; qr_lia.
      - assert (LQ : k < q) by (destruct HO as (_ & O2 & _); cbn [fst snd] in O2; lia). specialize (D8 LQ).
        split; [apply omp_ztsmqr_kgood; rewrite <- ?EmB in *; lia|].
        apply kdecl_intro; cbn [omp_ztsmqr k_deps k_reads k_writes]; change (PlasmaLeft =? PlasmaLeft) with true; cbv iota; intros l HR.
        + left. destruct HR as [HR|[HR|[HR|HR]]].
          * eexists. split; [left; reflexivity|]. cbn [dep_inout dep_addr]. eapply homeX; [exact HB|exact HEB|exact I1| | |exact HR]; qr_lia.
          * eexists. split; [right; left; reflexivity|]. eapply homeX; [exact HB|exact HEB|exact I2| | |exact HR]; qr_lia.
          * eexists. split; [right; right; left; reflexivity|]. eapply homeX; [exact HA|exact HEA|exact D1| | |exact HR]; qr_lia.
          * eexists. split; [right; right; right; left; reflexivity|]. eapply homeT; [exact D9| |exact HR]; qr_lia.
        + destruct HR as [HR|HR].
          * eexists. split; [left; reflexivity|]. split; [|discriminate]. cbn [dep_inout dep_addr]. eapply homeX; [exact HB|exact HEB|exact I1| | |exact HR]; qr_lia.
          * eexists. split; [right; left; reflexivity|]. split; [|discriminate]. eapply homeX; [exact HB|exact HEB|exact I2| | |exact HR]; qr_lia.
    Qed.

    Lemma utask_r_ok : forall trans o n, s_ok nb m K o -> d_n B = m -> 0 <= n < d_mt B ->
      tk_ok (utask_r (N := N) nb ib m K T bT A bA B bB trans o n).
    Proof.
      intros trans [k q] n HO EnB Hn.
      destruct (ok_dims nb ib m K Hnb HK T HT A HA EmA EnA k q HO) as (D1 & D2 & D3 & D4 & D5 & D6 & D7 & D8 & D9).
      assert (Bm : 0 < d_m B).
      { destruct (Z_lt_dec 0 (d_m B)); [assumption|]. exfalso. pose proof (td_shape _ _ (sq_t _ _ _ HB)) as SH. destruct (mview_spec B n SH ltac:(lia)) as [X1 X2].
        rewrite (sq_mb _ _ _ HB) in X1. nia. }
      assert (II : forall k', 0 <= k' -> k' * nb < m -> in_tiles B n k').
      { intros k' H1 H2. split; [assumption|]. assert (X : in_tiles B (0 / nb) (k' * nb / nb)) by (apply tile_of; auto; nia).
        rewrite Z.div_mul in X by lia. apply X. }
      assert (HO' := HO). destruct HO' as (O1 & O2 & O3 & O4). cbn [fst snd] in O1, O2, O3, O4.
      assert (I1 : in_tiles B n k) by (apply II; nia). assert (I2 : in_tiles B n q) by (apply II; nia).
      pose proof (sq_ld nb B (in_tiles B) HB n k I1) as L1.
      unfold utask_r. cbn [fst snd]. destruct (Z.eqb_spec q k) as [->|DQ].
      - split; [apply omp_zunmqr_kgood; lia|].
        apply kdecl_intro; cbn [omp_zunmqr k_deps k_reads k_writes]; change (PlasmaRight =? PlasmaLeft) with false; cbv iota; intros l HR.
        + left. destruct HR as [HR|[HR|HR]].
          * eexists. split; [left; reflexivity|]. cbn [dep_in dep_addr]. eapply homeX; [exact HA|exact HEA|exact D2| | |exact HR]; qr_lia.
          * eexists. split; [right; left; reflexivity|]. eapply homeT; [exact D9| |exact HR]; qr_lia.
          * eexists. split; [right; right; left; reflexivity|]. eapply homeX; [exact HB|exact HEB|exact I1| | |exact HR]; qr_lia.
        + eexists. split; [right; right; left; reflexivity|]. split; [|discriminate].
          eapply homeX; [exact HB|exact HEB|exact I1| | |exact HR]; qr_lia.
      - assert (LQ : k < q) by lia. specialize (D8 LQ).
        split; [apply omp_ztsmqr_kgood; lia|].
        apply kdecl_intro; cbn [omp_ztsmqr k_deps k_reads k_writes]; change (PlasmaRight =? PlasmaLeft) with false; cbv iota; intros l HR.
        + left. destruct HR as [HR|[HR|[HR|HR]]].
          * eexists. split; [left; reflexivity|]. cbn [dep_inout dep_addr]. eapply homeX; [exact HB|exact HEB|exact I1| | |exact HR]; qr_lia.
          * eexists. split; [right; left; reflexivity|]. eapply homeX; [exact HB|exact HEB|exact I2| | |exact HR]; qr_lia.
          * eexists. split; [right; right; left; reflexivity|]. eapply homeX; [exact HA|exact HEA|exact D1| | |exact HR]; qr_lia.
          * eexists. split; [right; right; right; left; reflexivity|]. eapply homeT; [exact D9| |exact HR]; qr_lia.
        + destruct HR as [HR|HR].
          * eexists. split; [left; reflexivity|]. split; [|discriminate]. cbn [dep_inout dep_addr]. eapply homeX; [exact HB|exact HEB|exact I1| | |exact HR]; qr_lia.
          * eexists. split; [right; left; reflexivity|]. split; [|discriminate]. eapply homeX; [exact HB|exact HEB|exact I2| | |exact HR]; qr_lia.
    Qed.
  End U.

  Lemma ftask_ok : forall lg n o, K = Z.min m n -> d_n A = n -> s_ok nb m K o ->
    tk_ok (ftask (N := N) lg nb ib m n T bT A bA o).
  Proof.
    intros lg n [k q] EK EnA' HO.
    destruct (ok_dims nb ib m K Hnb HK T HT A HA EmA EnA k q HO) as (D1 & D2 & D3 & D4 & D5 & D6 & D7 & D8 & D9).
    pose proof (sq_ld nb A (in_tiles A) HA k k D2) as L1. pose proof (sq_ld nb A (in_tiles A) HA q k D1) as L2.
    pose proof (tk_mb _ _ _ _ _ HT) as EMB. rewrite EnA' in *.
    unfold ftask. cbn [fst snd]. destruct (Z.eqb_spec q k) as [->|DQ].
    - split; [apply omp_zgeqrt_kgood; rewrite <- ?EmA; lia|].
      apply kdecl_intro; cbn [omp_zgeqrt k_deps k_reads k_writes]; intros l HR.
      + left. eexists. split; [left; reflexivity|]. cbn [dep_inout dep_addr]. eapply homeX; [exact HA|exact HEA|exact D2| | |exact HR]; qr_lia.
      + destruct HR as [HR|HR].
        * eexists. split; [left; reflexivity|]. split; [|discriminate]. cbn [dep_inout dep_addr]. eapply homeX; [exact HA|exact HEA|exact D2| | |exact HR]; qr_lia.
        * eexists. split; [right; left; reflexivity|]. split; [|discriminate]. eapply homeT; [exact D9| |exact HR]; qr_lia.
    - assert (LQ : k < q) by (destruct HO as (_ & O2 & _); cbn [fst snd] in O2; lia). specialize (D8 LQ).
      assert (EKN : tsz nb n k = tsz nb K k) by (rewrite EK in *; destruct HO as (O1 & O2 & O3 & O4); cbn [fst snd] in *; unfold tsz in *; nia).
      split; [apply omp_ztsqrt_kgood; rewrite <- ?EmA in *; try lia; unfold tsz in *; lia|].
      apply kdecl_intro; cbn [omp_ztsqrt k_deps k_reads k_writes]; intros l HR.
      + left. destruct HR as [HR|HR].
        * eexists. split; [left; reflexivity|]. cbn [dep_inout dep_addr]. eapply homeX; [exact HA|exact HEA|exact D2| | |exact HR]; qr_lia.
        * eexists. split; [right; left; reflexivity|]. eapply homeX; [exact HA|exact HEA|exact D1| | |exact HR]; qr_lia.
      + destruct HR as [HR|[HR|HR]].
        * eexists. split; [left; reflexivity|]. split; [|discriminate]. cbn [dep_inout dep_addr]. eapply homeX; [exact HA|exact HEA|exact D2| | |exact HR]; qr_lia.
        * eexists. split; [right; left; reflexivity|]. split; [|discriminate]. eapply homeX; [exact HA|exact HEA|exact D1| | |exact HR]; qr_lia.
        * eexists. split; [right; right; left; reflexivity|]. split; [|discriminate]. eapply homeT; [exact D9| |exact HR]; qr_lia.
  Qed.
End Lists.

Lemma in_olist : forall mt k0 k1 k q, In (k, q) (olist mt k0 k1) <-> (k0 <= k < k1 /\ k <= q < mt).
Proof.
  intros. unfold olist. rewrite in_flat_map. split.
  - intros (x & H1 & H2). apply in_map_iff in H2. destruct H2 as (y & E & H2). inversion E; subst. apply in_zrange in H1, H2. lia.
  - intros [H1 H2]. exists k. rewrite in_zrange. split; [assumption|]. apply in_map. apply in_zrange. assumption.
Qed.

Section Geqrf.
  Context {N : numbers}.
  Variable lg : N -> list N -> N * N * list N.
  Variables nb ib m n : Z.
  Local Notation K := (Z.min m n).
  Hypothesis Hnb : 0 < nb.
  Hypothesis Hib : 0 < ib.
  Variables (T : desc) (bT : Z).
  Hypothesis HT : tok nb ib m K T.
  Variables (A : desc) (bA : Z).
  Hypothesis HA : sq nb A (in_tiles A).
  Hypothesis EmA : d_m A = m.
  Hypothesis EnA : d_n A = n.
  Hypothesis Hm : 0 < m.
  Hypothesis Hn : 0 < n.

  Lemma pzgeqrf_eq : pzgeqrf lg bA A bT T
    = flat_map (stepts lg nb ib m n T bT A bA) (olist (d_mt A) 0 (Z.min (d_mt A) (d_nt A))).
  Proof.
    unfold pzgeqrf, olist. rewrite flat_map_flat_map. rewrite (tk_mb _ _ _ _ _ HT). apply flat_map_ext_in. intros k Hk. apply in_zrange in Hk.
    assert (I0 : in_tiles A k k) by (split; lia).
    assert (Emv : tile_mview A k = tsz nb m k) by (rewrite (sq_mv _ _ _ HA k k I0), EmA; reflexivity).
    assert (Env : tile_nview A k = tsz nb n k) by (rewrite (sq_nv _ _ _ HA k k I0), EnA; reflexivity).
    assert (Enn : forall n', In n' (zrange (k + 1) (d_nt A)) -> tile_nview A n' = tsz nb (d_n A) n').
    { intros n' Hn'. apply in_zrange in Hn'. apply (sq_nv _ _ _ HA k n'). split; lia. }
    rewrite (zrange_cons k (d_mt A)) by lia. cbn [map flat_map].
    unfold stepts at 1, ftask at 1. cbn [fst snd]. rewrite Z.eqb_refl. cbv zeta.
    rewrite Emv, Env, (tk_mb _ _ _ _ _ HT). cbn [app].
    f_equal. f_equal.
    - apply map_ext_in. intros n' Hn'. unfold utask_l. cbn [fst snd]. rewrite Z.eqb_refl. rewrite Enn by assumption.
      rewrite <- (tsz_min nb m n k), (tk_mb _ _ _ _ _ HT). reflexivity.
    - rewrite flat_map_map. apply flat_map_ext_in. intros q Hq. apply in_zrange in Hq.
      assert (I1 : in_tiles A q k) by (split; lia).
      assert (Emq : tile_mview A q = tsz nb m q) by (rewrite (sq_mv _ _ _ HA q k I1), EmA; reflexivity).
      destruct (A_ok nb m n Hnb A HA EmA EnA Hm Hn k q ltac:(lia) ltac:(lia)) as (O1 & O2 & O3 & O4). cbn [fst snd] in O1, O2, O3, O4.
      assert (EKN : tsz nb n k = tsz nb K k) by (unfold tsz in *; nia).
      unfold stepts, ftask. cbn [fst snd]. destruct (Z.eqb_spec q k); [lia|]. rewrite Emq, (tk_mb _ _ _ _ _ HT).
      f_equal. apply map_ext_in. intros n' Hn'. unfold utask_l. cbn [fst snd]. destruct (Z.eqb_spec q k); [lia|].
      rewrite Enn by assumption. rewrite (sq_mb _ _ _ HA), (tk_mb _ _ _ _ _ HT), EKN. reflexivity.
  Qed.

  Lemma geqrf_ok : forall env, In (bA, homeD A (in_tiles A)) env -> In (bT, homeD T (in_tiles T)) env ->
    Forall (fun k => kgood k /\ kdecl (home_env env) k) (pzgeqrf lg bA A bT T).
  Proof.
    intros env HEA HET. rewrite pzgeqrf_eq. apply Forall_flat_map_intro. intros [k q] Ho. apply in_olist in Ho.
    pose proof (A_ok nb m n Hnb A HA EmA EnA Hm Hn k q ltac:(lia) ltac:(lia)) as HO.
    unfold stepts. constructor.
    - eapply ftask_ok; eauto; lia.
    - apply Forall_forall. intros t Ht. apply in_map_iff in Ht. destruct Ht as (n' & <- & Hn'). apply in_zrange in Hn'. cbn [fst] in Hn'.
      eapply utask_l_ok; eauto; lia.
  Qed.
End Geqrf.

Section Unmqr.
  Context {N : numbers}.
  Variables nb ib m K : Z.
  Hypothesis Hnb : 0 < nb.
  Hypothesis Hib : 0 < ib.
  Hypothesis HK : 0 < K <= m.
  Variables (T : desc) (bT : Z).
  Hypothesis HT : tok nb ib m K T.
  Variables (A : desc) (bA : Z).
  Hypothesis HA : sq nb A (in_tiles A).
  Hypothesis EmA : d_m A = m.
  Hypothesis EnA : d_n A = K.
  Variables (B : desc) (bB : Z).
  Hypothesis HB : sq nb B (in_tiles B).

  (* the order in which a side and a transposition take the steps *)
  Definition uorder (side trans : Z) (os : list (Z * Z)) : list (Z * Z) :=
    if Bool.eqb (side =? PlasmaLeft) (trans =? PlasmaConjTrans) then os else rev os.

  Local Notation os := (olist (d_mt A) 0 (Z.min (d_mt A) (d_nt A))).

  Lemma os_ok : forall o, In o os -> s_ok nb m K o.
  Proof.
    intros [k q] Ho. apply in_olist in Ho. pose proof (A_ok nb m K Hnb A HA EmA EnA ltac:(lia) ltac:(lia) k q ltac:(lia) ltac:(lia)) as H.
    rewrite Z.min_r in H by lia. exact H.
  Qed.

  Lemma rev_olist : rev os = flat_map (fun k => map (pair k) (rev (zrange (k + 1) (d_mt A))) ++ [(k, k)]) (rev (zrange 0 (Z.min (d_mt A) (d_nt A)))).
  Proof.
    unfold olist. rewrite rev_flat_map. apply flat_map_ext_in. intros k Hk. apply in_rev in Hk. apply in_zrange in Hk.
    rewrite (zrange_cons k (d_mt A)) by lia. cbn [map rev]. rewrite map_rev. reflexivity.
  Qed.
  Lemma os_cons : os = flat_map (fun k => (k, k) :: map (pair k) (zrange (k + 1) (d_mt A))) (zrange 0 (Z.min (d_mt A) (d_nt A))).
  Proof.
    unfold olist. apply flat_map_ext_in. intros k Hk. apply in_zrange in Hk. rewrite (zrange_cons k (d_mt A)) by lia. reflexivity.
  Qed.

  Lemma A_view : forall k, 0 <= k < Z.min (d_mt A) (d_nt A) -> Z.min (tile_nview A k) (tile_mview A k) = tsz nb K k /\ tile_nview A k = tsz nb K k.
  Proof.
    intros k Hk. assert (I0 : in_tiles A k k) by (split; lia).
    rewrite (sq_mv _ _ _ HA k k I0), (sq_nv _ _ _ HA k k I0), EmA, EnA. unfold tsz. lia.
  Qed.

  Lemma pzunmqr_left_eq : forall trans, d_m B = m -> d_mt B = d_mt A ->
    pzunmqr (N := N) PlasmaLeft trans bA A bT T bB B
    = flat_map (fun o => map (utask_l nb ib m K T bT A bA B bB trans o) (zrange 0 (d_nt B))) (uorder PlasmaLeft trans os).
  Proof.
    intros trans EmB Emt. unfold pzunmqr, uorder. change (PlasmaLeft =? PlasmaLeft) with true. cbv iota. cbv zeta. rewrite Emt, (tk_mb _ _ _ _ _ HT).
    assert (U : forall k, 0 <= k < Z.min (d_mt A) (d_nt A) -> map (fun n => omp_zunmqr (N := N) PlasmaLeft trans (tile_mview B k) (tile_nview B n) (Z.min (tile_nview A k) (tile_mview A k)) ib
          (tptr bA A k k) (tile_mmain A k) (tptr bT T k k) ib (tptr bB B k n) (tile_mmain B k)) (zrange 0 (d_nt B))
      = map (utask_l nb ib m K T bT A bA B bB trans (k, k)) (zrange 0 (d_nt B))).
    { intros k Hk. apply map_ext_in. intros n Hn. apply in_zrange in Hn. assert (I : in_tiles B k n) by (split; lia).
      unfold utask_l. cbn [fst snd]. rewrite Z.eqb_refl. rewrite (proj1 (A_view k Hk)).
      rewrite (sq_mv _ _ _ HB k n I), (sq_nv _ _ _ HB k n I), EmB, (tk_mb _ _ _ _ _ HT). reflexivity. }
    assert (S : forall k q, 0 <= k < Z.min (d_mt A) (d_nt A) -> k + 1 <= q < d_mt A -> map (fun n => omp_ztsmqr (N := N) PlasmaLeft trans (d_mb B) (tile_nview B n) (tile_mview B q) (tile_nview B n) (tile_nview A k) ib
          (tptr bB B k n) (tile_mmain B k) (tptr bB B q n) (tile_mmain B q)
          (tptr bA A q k) (tile_mmain A q) (tptr bT T q k) ib) (zrange 0 (d_nt B))
      = map (utask_l nb ib m K T bT A bA B bB trans (k, q)) (zrange 0 (d_nt B))).
    { intros k q Hk Hq. apply map_ext_in. intros n Hn. apply in_zrange in Hn. assert (I : in_tiles B q n) by (split; lia).
      unfold utask_l. cbn [fst snd]. destruct (Z.eqb_spec q k); [lia|]. rewrite (proj2 (A_view k Hk)).
      rewrite (sq_mv _ _ _ HB q n I), (sq_nv _ _ _ HB q n I), EmB, (sq_mb _ _ _ HB), (tk_mb _ _ _ _ _ HT). reflexivity. }
    destruct (Z.eqb_spec trans PlasmaConjTrans); cbn [Bool.eqb].
    - rewrite os_cons, flat_map_flat_map. apply flat_map_ext_in. intros k Hk. apply in_zrange in Hk. cbn [flat_map]. rewrite flat_map_map.
      rewrite U by assumption. f_equal. apply flat_map_ext_in. intros q Hq. apply in_zrange in Hq. apply S; assumption.
    - rewrite rev_olist, flat_map_flat_map. apply flat_map_ext_in. intros k Hk. apply in_rev in Hk. apply in_zrange in Hk.
      rewrite flat_map_app. cbn [flat_map]. rewrite app_nil_r, flat_map_map. rewrite U by assumption. f_equal.
      apply flat_map_ext_in. intros q Hq. apply in_rev in Hq. apply in_zrange in Hq. apply S; assumption.
  Qed.

  Lemma pzunmqr_right_eq : forall trans, d_n B = m -> d_nt B = d_mt A ->
    pzunmqr (N := N) PlasmaRight trans bA A bT T bB B
    = flat_map (fun o => map (utask_r nb ib m K T bT A bA B bB trans o) (zrange 0 (d_mt B))) (uorder PlasmaRight trans os).
  Proof.
    intros trans EnB Ent. unfold pzunmqr, uorder. change (PlasmaRight =? PlasmaLeft) with false. cbv iota. cbv zeta. rewrite Ent, (tk_mb _ _ _ _ _ HT).
    assert (U : forall k, 0 <= k < Z.min (d_mt A) (d_nt A) -> map (fun n => omp_zunmqr (N := N) PlasmaRight trans (tile_mview B n) (tile_nview B k) (Z.min (tile_nview A k) (tile_mview A k)) ib
          (tptr bA A k k) (tile_mmain A k) (tptr bT T k k) ib (tptr bB B n k) (tile_mmain B n)) (zrange 0 (d_mt B))
      = map (utask_r nb ib m K T bT A bA B bB trans (k, k)) (zrange 0 (d_mt B))).
    { intros k Hk. apply map_ext_in. intros n Hn. apply in_zrange in Hn. assert (I : in_tiles B n k) by (split; lia).
      unfold utask_r. cbn [fst snd]. rewrite Z.eqb_refl. rewrite (proj1 (A_view k Hk)).
      rewrite (sq_mv _ _ _ HB n k I), (sq_nv _ _ _ HB n k I), EnB, (tk_mb _ _ _ _ _ HT). reflexivity. }
    assert (S : forall k q, 0 <= k < Z.min (d_mt A) (d_nt A) -> k + 1 <= q < d_mt A -> map (fun n => omp_ztsmqr (N := N) PlasmaRight trans (tile_mview B n) (d_nb B) (tile_mview B n) (tile_nview B q) (tile_nview A k) ib
          (tptr bB B n k) (tile_mmain B n) (tptr bB B n q) (tile_mmain B n)
          (tptr bA A q k) (tile_mmain A q) (tptr bT T q k) ib) (zrange 0 (d_mt B))
      = map (utask_r nb ib m K T bT A bA B bB trans (k, q)) (zrange 0 (d_mt B))).
    { intros k q Hk Hq. apply map_ext_in. intros n Hn. apply in_zrange in Hn. assert (I : in_tiles B n q) by (split; lia).
      unfold utask_r. cbn [fst snd]. destruct (Z.eqb_spec q k); [lia|]. rewrite (proj2 (A_view k Hk)).
      rewrite (sq_mv _ _ _ HB n q I), (sq_nv _ _ _ HB n q I), EnB, (sq_nb _ _ _ HB), (tk_mb _ _ _ _ _ HT). reflexivity. }
    destruct (Z.eqb_spec trans PlasmaConjTrans); cbn [Bool.eqb].
    - rewrite rev_olist, flat_map_flat_map. apply flat_map_ext_in. intros k Hk. apply in_rev in Hk. apply in_zrange in Hk.
      rewrite flat_map_app. cbn [flat_map]. rewrite app_nil_r, flat_map_map. rewrite U by assumption. f_equal.
      apply flat_map_ext_in. intros q Hq. apply in_rev in Hq. apply in_zrange in Hq. apply S; assumption.
    - rewrite os_cons, flat_map_flat_map. apply flat_map_ext_in. intros k Hk. apply in_zrange in Hk. cbn [flat_map]. rewrite flat_map_map.
      rewrite U by assumption. f_equal. apply flat_map_ext_in. intros q Hq. apply in_zrange in Hq. apply S; assumption.
  Qed.

  Lemma uorder_in : forall side trans o, In o (uorder side trans os) -> In o os.
  Proof. intros side trans o. unfold uorder. destruct (Bool.eqb _ _); [auto|]. intros H. apply in_rev. assumption. Qed.

  Lemma unmqr_left_ok : forall trans env, d_m B = m -> d_mt B = d_mt A ->
    In (bA, homeD A (in_tiles A)) env -> In (bT, homeD T (in_tiles T)) env -> In (bB, homeD B (in_tiles B)) env ->
    Forall (fun k => kgood k /\ kdecl (home_env env) k) (pzunmqr (N := N) PlasmaLeft trans bA A bT T bB B).
  Proof.
    intros trans env EmB Emt HEA HET HEB. rewrite pzunmqr_left_eq by assumption. apply Forall_flat_map_intro. intros o Ho. apply uorder_in, os_ok in Ho.
    apply Forall_forall. intros t Ht. apply in_map_iff in Ht. destruct Ht as (n' & <- & Hn'). apply in_zrange in Hn'.
    eapply utask_l_ok; eauto; lia.
  Qed.
  Lemma unmqr_right_ok : forall trans env, d_n B = m -> d_nt B = d_mt A ->
    In (bA, homeD A (in_tiles A)) env -> In (bT, homeD T (in_tiles T)) env -> In (bB, homeD B (in_tiles B)) env ->
    Forall (fun k => kgood k /\ kdecl (home_env env) k) (pzunmqr (N := N) PlasmaRight trans bA A bT T bB B).
  Proof.
    intros trans env EnB Ent HEA HET HEB. rewrite pzunmqr_right_eq by assumption. apply Forall_flat_map_intro. intros o Ho. apply uorder_in, os_ok in Ho.
    apply Forall_forall. intros t Ht. apply in_map_iff in Ht. destruct Ht as (n' & <- & Hn'). apply in_zrange in Hn'.
    eapply utask_r_ok; eauto; lia.
  Qed.
End Unmqr.
