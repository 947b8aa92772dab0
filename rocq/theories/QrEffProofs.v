(* The tasks of the tile QR factorization: what they do to the matrices. *)
From Coq Require Import ZArith List Bool Lia.
From Verif Require Import Base NumModel NumProofs TaskModel TaskSpec TaskProofs DescModel DescSpec DescProofs MatModel MatSpec MatProofs RegionProofs
  LayoutModel LayoutProofs LayoutProofs2 DriverModel OpProofs QrModel QrSpec QrAlgProofs QrStepProofs QrKerProofs QrKerProofs2 QrMulProofs QrLiftProofs QrTaskProofs.
Import ListNotations.
Open Scope Z_scope.

(* writing a corner of a tile *)
Lemma mset_corner : forall V p ld m n m' n' P f (M : mem V) l, m' <= m -> n' <= n ->
  mset p ld m' n' P f M l = mset p ld m n (fun i j => (i <? m') && (j <? n') && P i j) f M l.
Proof.
  intros V p ld m n m' n' P f M l Hm Hn. unfold mset. cbv zeta.
  set (i := (snd l - snd p) mod ld). set (j := (snd l - snd p) / ld).
  destruct (fst l =? fst p); cbn [andb]; [|reflexivity]. destruct (0 <? ld); cbn [andb]; [|reflexivity].
  destruct (Z.ltb_spec i m'), (Z.ltb_spec i m); cbn [andb]; try lia; try reflexivity.
  - destruct (0 <=? j); cbn [andb]; [|reflexivity].
    destruct (Z.ltb_spec j n'), (Z.ltb_spec j n); cbn [andb]; try lia; reflexivity.
  - destruct (0 <=? j); cbn [andb]; [|reflexivity]. destruct (j <? n); reflexivity.
Qed.

Lemma sq_set_sub : forall V nb A S b, sq nb A S -> forall (M : mem V) m n mm nn P f i j, S m n -> S (i / nb) (j / nb) ->
  0 <= i < d_m A -> 0 <= j < d_n A -> mm <= tsz nb (d_m A) m -> nn <= tsz nb (d_n A) n ->
  el (mset (tptr b A m n) (tile_mmain A m) mm nn P f M) b A i j
  = if (i / nb =? m) && (j / nb =? n) && ((i mod nb <? mm) && (j mod nb <? nn) && P (i mod nb) (j mod nb))
    then f (i mod nb) (j mod nb) else el M b A i j.
Proof.
  intros V nb A S b HQ M m n mm nn P f i j HS HS' Hi Hj Hm Hn.
  rewrite <- (sq_mv nb A S HQ m n HS) in Hm. rewrite <- (sq_nv nb A S HQ m n HS) in Hn.
  unfold el at 1. rewrite (mset_corner _ _ _ (tile_mview A m) (tile_nview A n)) by assumption.
  apply (sq_set nb A S HQ b M m n (fun i j => (i <? mm) && (j <? nn) && P i j)); assumption.
Qed.

(* the descriptor of the T factors *)
Record tok (nb ib m K : Z) (T : desc) : Prop := {
  tk_t : tiled T (in_tiles T);
  tk_mb : d_mb T = ib;
  tk_in : forall k q, s_ok nb m K (k, q) -> in_tiles T q k;
  tk_mv : forall q k, in_tiles T q k -> tile_mview T q = ib;
  tk_nv : forall q k, in_tiles T q k -> tile_nview T k = nb;
  tk_ld : forall q k, in_tiles T q k -> tile_mmain T q = ib }.

Section Eff.
  Context {N : numbers}.
  Local Notation vec := (Z -> N).
  Variables nb ib m K : Z.
  Hypothesis Hnb : 0 < nb.
  Hypothesis Hib : 0 < ib.
  Hypothesis HK : K <= m.
  Variables (T : desc) (bT : Z).
  Hypothesis HT : tok nb ib m K T.

  Definition tel (M : mem N) (q k a c : Z) : N := rd M (tptr bT T q k) (d_mb T) a c.

  Lemma tel_set : forall (M : mem N) q k q' k' kk P f a c, in_tiles T q k -> in_tiles T q' k' ->
    0 <= a < ib -> 0 <= c < nb -> kk <= nb ->
    tel (mset (tptr bT T q' k') (d_mb T) ib kk P f M) q k a c
    = if (q =? q') && (k =? k') && (c <? kk) && P a c then f a c else tel M q k a c.
  Proof.
    intros M q k q' k' kk P f a c H1 H2 Ha Hc Hk. unfold tel, rd. rewrite (tk_mb _ _ _ _ _ HT).
    destruct (Z.eqb_spec q q') as [->|D1]; cbn [andb].
    - destruct (Z.eqb_spec k k') as [->|D2]; cbn [andb].
      + rewrite (mset_corner _ _ _ ib nb) by lia. rewrite mset_in by lia.
        destruct (Z.ltb_spec a ib); [|lia]. cbn [andb]. reflexivity.
      + apply mset_out. intros R. assert (R2 : reg (tptr bT T q' k) ib ib nb everywhere (at_ (tptr bT T q' k) ib a c)) by (exists a, c; auto).
        destruct (reg_tile_apart T (in_tiles T) bT (tk_t _ _ _ _ _ HT) q' k q' k' everywhere P (at_ (tptr bT T q' k) ib a c) H1 H2); [| |contradiction].
        * rewrite (tk_mv _ _ _ _ _ HT q' k H1), (tk_nv _ _ _ _ _ HT q' k H1), (tk_ld _ _ _ _ _ HT q' k H1). assumption.
        * rewrite (tk_mv _ _ _ _ _ HT q' k' H2), (tk_nv _ _ _ _ _ HT q' k' H2), (tk_ld _ _ _ _ _ HT q' k' H2).
          eapply reg_sub; [apply Z.le_refl|exact Hk| |exact R]. auto.
    - apply mset_out. intros R. assert (R2 : reg (tptr bT T q k) ib ib nb everywhere (at_ (tptr bT T q k) ib a c)) by (exists a, c; auto).
      destruct (reg_tile_apart T (in_tiles T) bT (tk_t _ _ _ _ _ HT) q k q' k' everywhere P (at_ (tptr bT T q k) ib a c) H1 H2); [| |contradiction].
      + rewrite (tk_mv _ _ _ _ _ HT q k H1), (tk_nv _ _ _ _ _ HT q k H1), (tk_ld _ _ _ _ _ HT q k H1). assumption.
      + rewrite (tk_mv _ _ _ _ _ HT q' k' H2), (tk_nv _ _ _ _ _ HT q' k' H2), (tk_ld _ _ _ _ _ HT q' k' H2).
        eapply reg_sub; [apply Z.le_refl|exact Hk| |exact R]. auto.
  Qed.

  Lemma tel_block : forall (M : mem N) p ld mm nn P f q k a c, fst p <> bT ->
    tel (mset p ld mm nn P f M) q k a c = tel M q k a c.
  Proof.
    intros M p ld mm nn P f q k a c H. unfold tel, rd. apply mset_out. intros R. apply reg_block in R.
    cbn in R. congruence.
  Qed.

  Variables (A : desc) (bA : Z).
  Hypothesis HA : sq nb A (in_tiles A).
  Hypothesis EmA : d_m A = m.
  Hypothesis EnA : K <= d_n A.

  Lemma tile_in : forall (X : desc) i j, sq nb X (in_tiles X) -> 0 <= i -> i * nb < d_m X -> 0 <= j -> j * nb < d_n X -> in_tiles X i j.
  Proof.
    intros X i j HX Hi Hi2 Hj Hj2.
    assert (E : in_tiles X (i * nb / d_mb X) (j * nb / d_nb X)).
    { apply in_tiles_pos; [apply (td_shape _ _ (sq_t _ _ _ HX))|nia|nia]. }
    rewrite (sq_mb _ _ _ HX), (sq_nb _ _ _ HX), !Z.div_mul in E by lia. assumption.
  Qed.
  Lemma tile_of : forall (X : desc) i j, sq nb X (in_tiles X) -> 0 <= i < d_m X -> 0 <= j < d_n X -> in_tiles X (i / nb) (j / nb).
  Proof.
    intros X i j HX Hi Hj. pose proof (in_tiles_pos X i j (td_shape _ _ (sq_t _ _ _ HX)) Hi Hj) as E.
    rewrite (sq_mb _ _ _ HX), (sq_nb _ _ _ HX) in E. assumption.
  Qed.

  Lemma dm : forall i, 0 <= i -> 0 <= i / nb /\ i = i / nb * nb + i mod nb /\ 0 <= i mod nb < nb.
  Proof.
    intros i Hi. pose proof (Z.div_mod i nb). pose proof (Z.mod_pos_bound i nb Hnb). pose proof (Z.div_pos i nb Hi Hnb).
    split; [assumption|]. split; lia.
  Qed.
  Lemma dm_eq : forall i k r, i = k * nb + r -> 0 <= r < nb -> i / nb = k /\ i mod nb = r.
  Proof.
    intros i k r -> Hr. rewrite Z.div_add_l by lia. rewrite Z.div_small by lia.
    rewrite (Z.add_comm (k * nb) r), Z.mod_add by lia. rewrite Z.mod_small by lia. lia.
  Qed.

  (* ------------------------------------------------------------------ updates *)

  Variables (B : desc) (bB : Z).
  Hypothesis HB : sq nb B (in_tiles B).

  Definition utask_l (trans : Z) (o : Z * Z) (n : Z) : ktask N :=
    let k := fst o in let q := snd o in
    if q =? k then
      omp_zunmqr PlasmaLeft trans (tsz nb m k) (tsz nb (d_n B) n) (tsz nb K k) ib
        (tptr bA A k k) (tile_mmain A k) (tptr bT T k k) (d_mb T) (tptr bB B k n) (tile_mmain B k)
    else
      omp_ztsmqr PlasmaLeft trans nb (tsz nb (d_n B) n) (tsz nb m q) (tsz nb (d_n B) n) (tsz nb K k) ib
        (tptr bB B k n) (tile_mmain B k) (tptr bB B q n) (tile_mmain B q)
        (tptr bA A q k) (tile_mmain A q) (tptr bT T q k) (d_mb T).

  Definition utask_r (trans : Z) (o : Z * Z) (n : Z) : ktask N :=
    let k := fst o in let q := snd o in
    if q =? k then
      omp_zunmqr PlasmaRight trans (tsz nb (d_m B) n) (tsz nb m k) (tsz nb K k) ib
        (tptr bA A k k) (tile_mmain A k) (tptr bT T k k) (d_mb T) (tptr bB B n k) (tile_mmain B n)
    else
      omp_ztsmqr PlasmaRight trans (tsz nb (d_m B) n) nb (tsz nb (d_m B) n) (tsz nb m q) (tsz nb K k) ib
        (tptr bB B n k) (tile_mmain B n) (tptr bB B n q) (tile_mmain B n)
        (tptr bA A q k) (tile_mmain A q) (tptr bT T q k) (d_mb T).

  (* the arrays the tasks read hold the reflectors and the factor T *)
  Lemma ok_dims : forall k q, s_ok nb m K (k, q) ->
    in_tiles A q k /\ in_tiles A k k /\ 0 < tsz nb K k /\ tsz nb K k <= tsz nb (d_n A) k /\ tsz nb K k <= tsz nb m k /\
    tsz nb K k <= nb /\ 0 < tsz nb m q <= nb /\ (k < q -> tsz nb m k = nb) /\ in_tiles T q k.
  Proof.
    intros k q HO. pose proof (tk_in _ _ _ _ _ HT k q HO). destruct HO as (H1 & H2 & H3 & H4). cbn [fst snd] in *.
    unfold tsz. repeat split; try (apply tile_in; auto; try lia; nia); try lia; try nia; try (apply (proj1 H)); try (apply (proj2 H)).
    all: try (eapply tile_in; eauto; try lia; nia).
  Qed.

  Lemma ge_fields : forall k, s_p1 nb m K (k, k) = tsz nb m k /\ s_p2 nb m (k, k) = 0 /\ s_a nb (k, k) = k * nb /\
    s_b nb m (k, k) = k * nb + tsz nb m k /\ s_k nb K (k, k) = tsz nb K k /\
    forall El, s_V N nb K El (k, k) = v_unit (fun r c => El (k * nb + r) (k * nb + c)).
  Proof. intros k. unfold s_p1, s_p2, s_a, s_b, s_k, s_V. cbn [fst snd]. rewrite Z.eqb_refl. repeat split. Qed.
  Lemma ts_fields : forall k q, q <> k -> s_p1 nb m K (k, q) = tsz nb K k /\ s_p2 nb m (k, q) = tsz nb m q /\ s_a nb (k, q) = k * nb /\
    s_b nb m (k, q) = q * nb /\ s_k nb K (k, q) = tsz nb K k /\
    forall El, s_V N nb K El (k, q) = vst N (tsz nb K k) (fun r c => El (q * nb + r) (k * nb + c)).
  Proof.
    intros k q D. unfold s_p1, s_p2, s_a, s_b, s_k, s_V. cbn [fst snd]. destruct (Z.eqb_spec q k); [contradiction|]. repeat split.
  Qed.

  Lemma ge_data : forall k M tau, s_ok nb m K (k, k) -> s_good N nb m K ib (el M bA A) (tel M) tau (k, k) ->
    let A0 := memo (tsz nb m k) (tsz nb K k) (fun r c => if c <? r then rd M (tptr bA A k k) (tile_mmain A k) r c else n0) in
    let T0 := memo ib (tsz nb K k) (fun a c => if a <=? c mod ib then rd M (tptr bT T k k) (d_mb T) a c else n0) in
    (forall r c, 0 <= r < tsz nb m k -> 0 <= c < tsz nb K k -> v_unit A0 r c = s_V N nb K (el M bA A) (k, k) r c) /\
    all_good N (tsz nb m k) (v_unit A0) tau T0 ib (tsz nb K k) (tsz nb K k).
  Proof.
    intros k M tau HO (_ & HG) A0 T0. destruct (ge_fields k) as (E1 & E2 & E3 & E4 & E5 & E6).
    destruct (ok_dims k k HO) as (D1 & D2 & D3 & D4 & D5 & D6 & D7 & D8 & D9).
    rewrite E1, E2, E5, E6 in HG. rewrite Z.add_0_r in HG. rewrite E6.
    assert (EV : forall r c, 0 <= r < tsz nb m k -> 0 <= c < tsz nb K k ->
       v_unit A0 r c = v_unit (fun r c => el M bA A (k * nb + r) (k * nb + c)) r c).
    { intros r c Hr Hc. unfold v_unit. destruct (Z.eqb_spec r c); [reflexivity|]. destruct (Z.ltb_spec r c); [reflexivity|].
      unfold A0. rewrite memo_in by lia. destruct (Z.ltb_spec c r); [|lia].
      apply (sq_rd nb A (in_tiles A) HA); auto; rewrite ?EmA; lia. }
    split; [assumption|]. eapply all_good_cong; [assumption| | | |exact HG]; auto.
    - intros c r Hc Hr. symmetry. apply EV; assumption.
    - intros a c Hc Ha. unfold T0. pose proof (Z.mod_pos_bound c ib Hib). rewrite memo_in by lia.
      destruct (Z.leb_spec a (c mod ib)); [reflexivity|lia].
  Qed.

  Lemma ts_data : forall k q M tau, q <> k -> s_ok nb m K (k, q) -> s_good N nb m K ib (el M bA A) (tel M) tau (k, q) ->
    let V0 := memo (tsz nb m q) (tsz nb K k) (rd M (tptr bA A q k) (tile_mmain A q)) in
    let T0 := memo ib (tsz nb K k) (fun a c => if a <=? c mod ib then rd M (tptr bT T q k) (d_mb T) a c else n0) in
    (forall r c, 0 <= r < tsz nb K k + tsz nb m q -> 0 <= c < tsz nb K k ->
       vst N (tsz nb K k) V0 r c = s_V N nb K (el M bA A) (k, q) r c) /\
    all_good N (tsz nb K k + tsz nb m q) (vst N (tsz nb K k) V0) tau T0 ib (tsz nb K k) (tsz nb K k).
  Proof.
    intros k q M tau DQ HO (_ & HG) V0 T0. destruct (ts_fields k q DQ) as (E1 & E2 & E3 & E4 & E5 & E6).
    destruct (ok_dims k q HO) as (D1 & D2 & D3 & D4 & D5 & D6 & D7 & D8 & D9).
    rewrite E1, E2, E5, E6 in HG. rewrite E6.
    assert (EV : forall r c, 0 <= r < tsz nb K k + tsz nb m q -> 0 <= c < tsz nb K k ->
       vst N (tsz nb K k) V0 r c = vst N (tsz nb K k) (fun r c => el M bA A (q * nb + r) (k * nb + c)) r c).
    { intros r c Hr Hc. unfold vst, stk. destruct (Z.ltb_spec r (tsz nb K k)); [reflexivity|].
      unfold V0. rewrite memo_in by lia. apply (sq_rd nb A (in_tiles A) HA); auto; rewrite ?EmA; lia. }
    split; [assumption|]. eapply all_good_cong; [assumption| | | |exact HG]; auto.
    - intros c r Hc Hr. symmetry. apply EV; assumption.
    - intros a c Hc Ha. unfold T0. pose proof (Z.mod_pos_bound c ib Hib). rewrite memo_in by lia.
      destruct (Z.leb_spec a (c mod ib)); [reflexivity|lia].
  Qed.

  Lemma utask_l_eff : forall trans o n M tau, s_ok nb m K o -> d_m B = m -> 0 <= n -> n * nb < d_n B ->
    s_good N nb m K ib (el M bA A) (tel M) tau o ->
    forall i j, 0 <= i < m -> 0 <= j < d_n B ->
    el (k_fun (utask_l trans o n) M) bB B i j
    = if j / nb =? n then s_f N nb m K trans (el M bA A) tau o (colv N (el M bB B) j) i else el M bB B i j.
  Proof.
    intros trans [k q] n M tau HO EmB Hn1 Hn2 HG i j Hi Hj.
    pose proof (s_bounds nb m K Hnb HK (k, q) HO) as (_ & _ & B3 & _ & _).
    destruct (ok_dims k q HO) as (D1 & D2 & D3 & D4 & D5 & D6 & D7 & D8 & D9).
    assert (HO' := HO). destruct HO' as (O1 & O2 & O3 & O4). cbn [fst snd] in O1, O2, O3, O4.
    assert (TB : forall x, 0 <= x -> x * nb < m -> in_tiles B x n) by (intros; apply tile_in; auto; lia).
    assert (TK : in_tiles B k n) by (apply TB; nia).
    assert (TI : in_tiles B (i / nb) (j / nb)) by (apply tile_of; auto; lia).
    destruct (dm i ltac:(lia)) as (I1 & I2 & I3). destruct (dm j ltac:(lia)) as (J1 & J2 & J3).
    unfold utask_l. cbn [fst snd]. destruct (Z.eqb_spec q k) as [->|DQ].
    - destruct (ge_data k M tau HO HG) as [EV GG]. destruct (ge_fields k) as (E1 & E2 & E3 & E4 & E5 & E6).
      unfold omp_zunmqr. cbn [k_fun]. unfold core_zunmqr. change (PlasmaLeft =? PlasmaLeft) with true. cbv iota zeta.
      rewrite (sq_set_sub N nb B (in_tiles B) bB HB) by (auto; try lia; rewrite EmB; lia).
      unfold everywhere. rewrite andb_true_r.
      destruct (Z.eqb_spec (j / nb) n) as [EJ|DJ]; [|rewrite andb_false_r; reflexivity]. rewrite andb_true_r.
      unfold s_f. rewrite E1, E2, E3, E4, E5. rewrite Z.add_0_r.
      destruct (Z.eqb_spec (i / nb) k) as [EI|DI]; cbn [andb].
      + assert (R1 : 0 <= i mod nb < tsz nb m k) by (unfold tsz; nia).
        assert (C1 : 0 <= j mod nb < tsz nb (d_n B) n) by (unfold tsz; nia).
        destruct (Z.ltb_spec (i mod nb) (tsz nb m k)); [|lia].
        destruct (Z.ltb_spec (j mod nb) (tsz nb (d_n B) n)); [|lia]. cbn [andb].
        rewrite (unmqr_left N) with (tau := tau) by (auto; lia).
        replace i with (k * nb + i mod nb) at 2 by lia.
        unfold lift. rewrite put_1 by lia. apply hF_cong; auto; try lia.
        intros s Hs. unfold colv, gath. rewrite memo_in by lia. destruct (Z.ltb_spec s (tsz nb m k)); [|lia].
        rewrite (sq_rd nb B (in_tiles B) HB) by (auto; rewrite EmB; lia). f_equal. lia.
      + unfold lift. rewrite put_0; [reflexivity| |lia].
        intros R. apply DI. apply (dm_eq i k (i - k * nb)); unfold tsz in R; lia.
    - assert (LQ : k < q) by lia. specialize (D8 LQ).
      destruct (ts_data k q M tau DQ HO HG) as [EV GG]. destruct (ts_fields k q DQ) as (E1 & E2 & E3 & E4 & E5 & E6).
      assert (TQ : in_tiles B q n) by (apply TB; lia).
      unfold omp_ztsmqr. cbn [k_fun]. unfold core_ztsmqr. change (PlasmaLeft =? PlasmaLeft) with true. cbv iota zeta.
      match goal with |- context [tsmqr_mat ?s ?t ?a ?b ?c ?d ?k0 ?ib0 ?v ?t0 ?x ?y] =>
        pose proof (tsmqr_left N t a b c k0 ib0 v t0 x y tau Hib) as HR; set (R := tsmqr_mat s t a b c d k0 ib0 v t0 x y) in *;
        set (A1 := x) in *; set (A2 := y) in * end.
      cbv zeta in HR. fold R in HR. destruct HR as (R1 & R2 & R3); [lia|lia|exact GG|].
      rewrite (sq_set_sub N nb B (in_tiles B) bB HB) by (auto; try lia; rewrite EmB; lia).
      rewrite (sq_set_sub N nb B (in_tiles B) bB HB) by (auto; try lia; rewrite EmB; lia).
      unfold everywhere. rewrite !andb_true_r.
      destruct (Z.eqb_spec (j / nb) n) as [EJ|DJ]; [|rewrite !andb_false_r; reflexivity]. rewrite !andb_true_r.
      assert (C1 : 0 <= j mod nb < tsz nb (d_n B) n) by (unfold tsz; nia).
      destruct (Z.ltb_spec (j mod nb) (tsz nb (d_n B) n)); [|lia]. rewrite !andb_true_r.
      unfold s_f. rewrite E1, E2, E3, E4, E5.
      assert (HX : same N (tsz nb K k + tsz nb m q) (hF N trans (tsz nb K k + tsz nb m q) (vst N (tsz nb K k) (memo (tsz nb m q) (tsz nb K k) (rd M (tptr bA A q k) (tile_mmain A q)))) tau 0 (tsz nb K k) (colv N (stk N (tsz nb K k) A1 A2) (j mod nb)))
         (hF N trans (tsz nb K k + tsz nb m q) (s_V N nb K (el M bA A) (k, q)) tau 0 (tsz nb K k) (gath N (k * nb) (tsz nb K k) (q * nb) (colv N (el M bB B) j)))).
      { apply hF_cong; auto; try lia. intros s Hs. unfold colv, gath, stk.
        destruct (Z.ltb_spec s (tsz nb K k)).
        - unfold A1. rewrite memo_in by lia. rewrite (sq_rd nb B (in_tiles B) HB) by (auto; rewrite ?EmB; lia). f_equal. lia.
        - unfold A2. rewrite memo_in by lia. rewrite (sq_rd nb B (in_tiles B) HB) by (auto; rewrite ?EmB; lia). f_equal. lia. }
      assert (XK : forall x, in_tiles B x n -> 0 <= x) by (intros x [? _]; lia).
      unfold lift. destruct (Z.eqb_spec (i / nb) q) as [EI|DI]; cbn [andb].
      + assert (R4 : 0 <= i mod nb < tsz nb m q) by (unfold tsz; nia).
        destruct (Z.ltb_spec (i mod nb) (tsz nb m q)); [|lia].
        rewrite R3 by lia. rewrite HX by lia. replace i with (q * nb + i mod nb) at 2 by lia.
        rewrite put_2; [reflexivity| |lia]. rewrite E1, E3, E4 in B3. assumption.
      + destruct (Z.eqb_spec (i / nb) k) as [EK|DK]; cbn [andb].
        * destruct (Z.ltb_spec (i mod nb) nb); [|lia].
          destruct (Z.ltb_spec (i mod nb) (tsz nb K k)).
          -- rewrite R1 by lia. rewrite HX by lia. replace i with (k * nb + i mod nb) at 2 by lia.
             rewrite put_1 by lia. reflexivity.
          -- rewrite R2 by lia. unfold A1. rewrite memo_in by lia.
             rewrite (sq_rd nb B (in_tiles B) HB) by (auto; rewrite ?EmB; lia).
             rewrite put_0; [unfold colv; f_equal; lia|nia|].
             intros R0. apply DI. apply (dm_eq i q (i - q * nb)); unfold tsz in R0; lia.
        * rewrite put_0; [reflexivity| |].
          -- intros R0. apply DK. apply (dm_eq i k (i - k * nb)); unfold tsz in R0; lia.
          -- intros R0. apply DI. apply (dm_eq i q (i - q * nb)); unfold tsz in R0; lia.
  Qed.

  Lemma utask_l_block : forall trans o n (M : mem N) l, fst l <> bB -> k_fun (utask_l trans o n) M l = M l.
  Proof.
    intros trans o n M l H. unfold utask_l. cbv zeta. destruct (snd o =? fst o); cbn [k_fun omp_zunmqr omp_ztsmqr].
    - unfold core_zunmqr. cbv zeta. apply mset_out. intros R. apply reg_block in R. cbn in R. congruence.
    - unfold core_ztsmqr. cbv zeta. rewrite !mset_out; [reflexivity| |]; intros R; apply reg_block in R; cbn in R; congruence.
  Qed.
  Lemma utask_r_block : forall trans o n (M : mem N) l, fst l <> bB -> k_fun (utask_r trans o n) M l = M l.
  Proof.
    intros trans o n M l H. unfold utask_r. cbv zeta. destruct (snd o =? fst o); cbn [k_fun omp_zunmqr omp_ztsmqr].
    - unfold core_zunmqr. cbv zeta. apply mset_out. intros R. apply reg_block in R. cbn in R. congruence.
    - unfold core_ztsmqr. cbv zeta. rewrite !mset_out; [reflexivity| |]; intros R; apply reg_block in R; cbn in R; congruence.
  Qed.

  Lemma utask_r_eff : forall trans o n M tau, s_ok nb m K o -> d_n B = m -> 0 <= n -> n * nb < d_m B ->
    s_good N nb m K ib (el M bA A) (tel M) tau o ->
    forall i j, 0 <= i < d_m B -> 0 <= j < m ->
    el (k_fun (utask_r trans o n) M) bB B i j
    = if i / nb =? n then nconj (s_f N nb m K (flip trans) (el M bA A) tau o (fun s => nconj (el M bB B i s)) j)
      else el M bB B i j.
  Proof.
    intros trans [k q] n M tau HO EnB Hn1 Hn2 HG i j Hi Hj.
    pose proof (s_bounds nb m K Hnb HK (k, q) HO) as (_ & _ & B3 & _ & _).
    destruct (ok_dims k q HO) as (D1 & D2 & D3 & D4 & D5 & D6 & D7 & D8 & D9).
    assert (HO' := HO). destruct HO' as (O1 & O2 & O3 & O4). cbn [fst snd] in O1, O2, O3, O4.
    assert (TB : forall x, 0 <= x -> x * nb < m -> in_tiles B n x) by (intros; apply tile_in; auto; lia).
    assert (TK : in_tiles B n k) by (apply TB; nia).
    assert (TI : in_tiles B (i / nb) (j / nb)) by (apply tile_of; auto; lia).
    destruct (dm i ltac:(lia)) as (I1 & I2 & I3). destruct (dm j ltac:(lia)) as (J1 & J2 & J3).
    unfold utask_r. cbn [fst snd]. destruct (Z.eqb_spec q k) as [->|DQ].
    - destruct (ge_data k M tau HO HG) as [EV GG]. destruct (ge_fields k) as (E1 & E2 & E3 & E4 & E5 & E6).
      unfold omp_zunmqr. cbn [k_fun]. unfold core_zunmqr. change (PlasmaRight =? PlasmaLeft) with false. cbv iota zeta.
      rewrite (sq_set_sub N nb B (in_tiles B) bB HB) by (auto; try lia; rewrite EnB; lia).
      unfold everywhere. rewrite andb_true_r.
      destruct (Z.eqb_spec (i / nb) n) as [EI|DI]; [|reflexivity]. cbn [andb].
      unfold s_f. rewrite E1, E2, E3, E4, E5. rewrite Z.add_0_r.
      destruct (Z.eqb_spec (j / nb) k) as [EJ|DJ]; cbn [andb].
      + assert (R1 : 0 <= j mod nb < tsz nb m k) by (unfold tsz; nia).
        assert (C1 : 0 <= i mod nb < tsz nb (d_m B) n) by (unfold tsz; nia).
        destruct (Z.ltb_spec (j mod nb) (tsz nb m k)); [|lia].
        destruct (Z.ltb_spec (i mod nb) (tsz nb (d_m B) n)); [|lia]. cbn [andb].
        rewrite (unmqr_right N) with (tau := tau) by (auto; lia). f_equal.
        replace j with (k * nb + j mod nb) at 2 by lia.
        unfold lift. rewrite put_1 by lia. apply hF_cong; auto; try lia.
        intros s Hs. unfold colv, gath. rewrite memo_in by lia. destruct (Z.ltb_spec s (tsz nb m k)); [|lia].
        rewrite (sq_rd nb B (in_tiles B) HB) by (auto; rewrite ?EnB; lia). do 2 f_equal. lia.
      + unfold lift. rewrite put_0; [rewrite nconj_conj; reflexivity| |lia].
        intros R. apply DJ. apply (dm_eq j k (j - k * nb)); unfold tsz in R; lia.
    - assert (LQ : k < q) by lia. specialize (D8 LQ).
      destruct (ts_data k q M tau DQ HO HG) as [EV GG]. destruct (ts_fields k q DQ) as (E1 & E2 & E3 & E4 & E5 & E6).
      assert (TQ : in_tiles B n q) by (apply TB; lia).
      unfold omp_ztsmqr. cbn [k_fun]. unfold core_ztsmqr. change (PlasmaRight =? PlasmaLeft) with false. cbv iota zeta.
      match goal with |- context [tsmqr_mat ?s ?t ?a ?b ?c ?d ?k0 ?ib0 ?v ?t0 ?x ?y] =>
        pose proof (tsmqr_right N t a b d k0 ib0 v t0 x y tau Hib) as HR; set (R := tsmqr_mat s t a b c d k0 ib0 v t0 x y) in *;
        set (A1 := x) in *; set (A2 := y) in * end.
      cbv zeta in HR. fold R in HR. destruct HR as (R1 & R2 & R3); [lia|lia|exact GG|].
      rewrite (sq_set_sub N nb B (in_tiles B) bB HB) by (auto; try lia; rewrite EnB; lia).
      rewrite (sq_set_sub N nb B (in_tiles B) bB HB) by (auto; try lia; rewrite EnB; lia).
      unfold everywhere. rewrite !andb_true_r.
      destruct (Z.eqb_spec (i / nb) n) as [EI|DI]; [|reflexivity]. cbn [andb].
      assert (C1 : 0 <= i mod nb < tsz nb (d_m B) n) by (unfold tsz; nia).
      destruct (Z.ltb_spec (i mod nb) (tsz nb (d_m B) n)); [|lia]. cbn [andb].
      unfold s_f. rewrite E1, E2, E3, E4, E5.
      assert (HX : same N (tsz nb K k + tsz nb m q) (hF N (flip trans) (tsz nb K k + tsz nb m q) (vst N (tsz nb K k) (memo (tsz nb m q) (tsz nb K k) (rd M (tptr bA A q k) (tile_mmain A q)))) tau 0 (tsz nb K k)
           (fun s => nconj (if s <? tsz nb K k then A1 (i mod nb) s else A2 (i mod nb) (s - tsz nb K k))))
         (hF N (flip trans) (tsz nb K k + tsz nb m q) (s_V N nb K (el M bA A) (k, q)) tau 0 (tsz nb K k) (gath N (k * nb) (tsz nb K k) (q * nb) (fun s => nconj (el M bB B i s))))).
      { apply hF_cong; auto; try lia. intros s Hs. unfold gath.
        destruct (Z.ltb_spec s (tsz nb K k)).
        - unfold A1. rewrite memo_in by lia. rewrite (sq_rd nb B (in_tiles B) HB) by (auto; rewrite ?EnB; lia). do 2 f_equal. lia.
        - unfold A2. rewrite memo_in by lia. rewrite (sq_rd nb B (in_tiles B) HB) by (auto; rewrite ?EnB; lia). do 2 f_equal. lia. }
      unfold lift. destruct (Z.eqb_spec (j / nb) q) as [EJ|DJ]; cbn [andb].
      + assert (R4 : 0 <= j mod nb < tsz nb m q) by (unfold tsz; nia).
        destruct (Z.ltb_spec (j mod nb) (tsz nb m q)); [|lia].
        rewrite R3 by lia. f_equal. rewrite HX by lia. replace j with (q * nb + j mod nb) at 2 by lia.
        rewrite put_2; [reflexivity| |lia]. rewrite E1, E3, E4 in B3. assumption.
      + destruct (Z.eqb_spec (j / nb) k) as [EK|DK]; cbn [andb].
        * destruct (Z.ltb_spec (j mod nb) nb); [|lia].
          destruct (Z.ltb_spec (j mod nb) (tsz nb K k)).
          -- rewrite R1 by lia. f_equal. rewrite HX by lia. replace j with (k * nb + j mod nb) at 2 by lia.
             rewrite put_1 by lia. reflexivity.
          -- rewrite R2 by lia. unfold A1. rewrite memo_in by lia.
             rewrite (sq_rd nb B (in_tiles B) HB) by (auto; rewrite ?EnB; lia).
             rewrite put_0; [rewrite nconj_conj; f_equal; lia|nia|].
             intros R0. apply DJ. apply (dm_eq j q (j - q * nb)); unfold tsz in R0; lia.
        * rewrite put_0; [rewrite nconj_conj; reflexivity| |].
          -- intros R0. apply DK. apply (dm_eq j k (j - k * nb)); unfold tsz in R0; lia.
          -- intros R0. apply DJ. apply (dm_eq j q (j - q * nb)); unfold tsz in R0; lia.
  Qed.
End Eff.
