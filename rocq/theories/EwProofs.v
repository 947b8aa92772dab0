(* Element-wise operations, tile by tile. *)
From Coq Require Import ZArith List Bool Lia Ring.
From Verif Require Import Base NumModel NumProofs FieldModel TaskModel TaskSpec TaskProofs DescModel DescSpec
  DescDriverModel DescProofs DescProofs3 DescProofs4 MatModel MatSpec MatProofs RegionProofs
  LayoutModel LayoutProofs LayoutProofs2 DriverModel DriverSpec OpProofs SimProofs OperandProofs
  GemmModel GemmProofs GemmDriverProofs RankProofs LasetModel LasetProofs EwModel.
Import ListNotations.
Open Scope Z_scope.

(* ------------------------------------------------------------------ *)
(* one task per tile, in any order                                        *)

Section Sweep.
  Context {V : Type}.
  Variables (nb : Z) (B : desc) (b : Z) (t : Z * Z -> ktask V) (sel : Z -> Z -> bool)
    (val : mem V -> Z -> Z -> V) (L : list (Z * Z)).
  Hypothesis ND : NoDup L.
  Hypothesis FR : forall p M l, In p L -> fst l <> b -> k_fun (t p) M l = M l.
  Hypothesis EF : forall p M i j, In p L -> 0 <= i < d_m B -> 0 <= j < d_n B ->
    el (k_fun (t p) M) b B i j
    = if (i / nb =? fst p) && (j / nb =? snd p) && sel i j then val M i j else el M b B i j.
  Hypothesis VL : forall M M' i j, 0 <= i < d_m B -> 0 <= j < d_n B -> (forall l, fst l <> b -> M l = M' l) ->
    el M b B i j = el M' b B i j -> val M i j = val M' i j.
  Hypothesis CV : forall i j, 0 <= i < d_m B -> 0 <= j < d_n B -> sel i j = true -> In (i / nb, j / nb) L.

  Lemma sweep_off : forall l M0 i j, incl l L -> 0 <= i < d_m B -> 0 <= j < d_n B ->
    ~ In (i / nb, j / nb) l -> at_elem M0 b B i j (krun (map t l) M0) (el M0 b B i j).
  Proof.
    intros l M0 i j HI Hi Hj HN.
    assert (S : sims (at_elem M0 b B i j) (map t l) (fun c => fold_left (fun c _ => c) l c)).
    { apply (sims_map _ _ _ _ (fun _ c => c)). intros p Hp M c [HF HE]. split.
      - intros x Hx. rewrite FR; auto.
      - rewrite EF; auto. destruct (Z.eqb_spec (i / nb) (fst p)) as [E1|]; [|assumption].
        destruct (Z.eqb_spec (j / nb) (snd p)) as [E2|]; [|assumption].
        exfalso. apply HN. rewrite E1, E2. destruct p; assumption. }
    specialize (S M0 (el M0 b B i j)). cbv beta in S.
    rewrite fold_left_id in S by reflexivity. apply S. split; reflexivity.
  Qed.

  Lemma sweep_at : forall M0 i j, 0 <= i < d_m B -> 0 <= j < d_n B ->
    at_elem M0 b B i j (krun (map t L) M0) (if sel i j then val M0 i j else el M0 b B i j).
  Proof.
    intros M0 i j Hi Hj.
    assert (DEC : {In (i / nb, j / nb) L} + {~ In (i / nb, j / nb) L}) by (apply in_dec; exact loc_eq_dec).
    destruct DEC as [I|I].
    - destruct (in_split (A := Z * Z) _ _ I) as (l1 & l2 & E).
      pose proof ND as N. rewrite E in N.
      apply NoDup_remove_2 in N. rewrite in_app_iff in N.
      assert (I1 : incl l1 L) by (rewrite E; intros x Hx; apply in_or_app; auto).
      assert (I2 : incl l2 L) by (rewrite E; intros x Hx; apply in_or_app; right; right; auto).
      rewrite E, map_app, krun_app. cbn [map]. rewrite (krun_app _ [t (i / nb, j / nb)] (map t l2)).
      remember (krun (map t l1) M0) as M1 eqn:E1.
      assert (A1 : at_elem M0 b B i j M1 (el M0 b B i j)).
      { rewrite E1. apply sweep_off; auto. }
      clear E1. cbn [krun fold_left]. remember (k_fun (t (i / nb, j / nb)) M1) as M2 eqn:E2.
      assert (A2 : at_elem M0 b B i j M2 (if sel i j then val M0 i j else el M0 b B i j)).
      { rewrite E2. destruct A1 as [F1 V1]. split.
        - intros l Hl. rewrite FR; auto.
        - rewrite EF; auto. cbn [fst snd]. rewrite !Z.eqb_refl. cbn [andb].
          destruct (sel i j); [|assumption]. apply VL; auto. }
      clear E2. destruct A2 as [F2 V2].
      destruct (sweep_off l2 M2 i j I2 Hi Hj) as [F3 V3]; [tauto|]. split.
      + intros l Hl. rewrite F3; auto.
      + rewrite V3. assumption.
    - destruct (sel i j) eqn:ES; [exfalso; apply I, CV; auto|].
      apply sweep_off; auto. apply incl_refl.
  Qed.

  Lemma sweep_frame : forall M0 l, fst l <> b -> krun (map t L) M0 l = M0 l.
  Proof.
    clear ND EF VL CV. induction L as [|p l IH]; intros M0 x Hx; [reflexivity|].
    cbn [map krun fold_left]. change (fold_left (fun m k => k_fun k m) (map t l) (k_fun (t p) M0) x)
      with (krun (map t l) (k_fun (t p) M0) x).
    rewrite IH; auto.
    - apply FR; [left; reflexivity|assumption].
    - intros q M y Hq. apply FR. right; assumption.
  Qed.
End Sweep.

Lemma flat_map_map : forall A B C (f : B -> C) (g : A -> list B) l,
  map f (flat_map g l) = flat_map (fun x => map f (g x)) l.
Proof. intros. induction l; cbn; [reflexivity|]. rewrite map_app, IHl. reflexivity. Qed.

(* a flat_map whose pieces do not overlap *)
Lemma NoDup_flat_map : forall A B (g : A -> list B) l, NoDup l -> (forall x, In x l -> NoDup (g x)) ->
  (forall x y p, In x l -> In y l -> In p (g x) -> In p (g y) -> x = y) -> NoDup (flat_map g l).
Proof.
  intros A B g l H HN HD. induction H as [|x l Nx H IH]; cbn; [constructor|].
  apply NoDup_app_intro.
  - apply HN. left; reflexivity.
  - apply IH; intros; [apply HN; right; assumption|]. eapply HD; eauto; right; assumption.
  - intros p Hp Hq. apply in_flat_map in Hq. destruct Hq as (y & Hy & Hq).
    assert (x = y) by (eapply HD; eauto; [left; reflexivity|right; assumption]). subst. contradiction.
Qed.

(* ------------------------------------------------------------------ *)
(* additions                                                              *)

Section Add.
  Context {N : numbers}.
  Add Ring num_ring_ewadd : (nring N).
  Variables (nb : Z) (A B : desc) (bA bB transa : Z) (alpha beta : N).
  Hypothesis HA : dn nb A.
  Hypothesis HB : dn nb B.
  Hypothesis Hab : bA <> bB.
  Hypothesis Ht : valid_trans transa.
  Hypothesis Hm : op_m transa A = d_m B.
  Hypothesis Hn : op_n transa A = d_n B.

  Definition addv (M : mem N) (i j : Z) : N :=
    nadd (nmul beta (el M bB B i j)) (nmul alpha (op_el M transa bA A i j)).

  Lemma addv_local : forall M M' i j, (forall l, fst l <> bB -> M l = M' l) ->
    el M bB B i j = el M' bB B i j -> addv M i j = addv M' i j.
  Proof.
    intros M M' i j H E. unfold addv. rewrite E. apply f_equal. apply f_equal.
    unfold op_el. rewrite !(el_ext N M M' bA A); [reflexivity|intros; apply H; congruence..].
  Qed.

  Lemma add_tiles : forall m n, in_tiles B m n <-> op_S transa (in_tiles A) m n.
  Proof.
    intros m n. unfold op_S, op_m, op_n in *.
    destruct (transa =? PlasmaNoTrans); rewrite (dn_in nb B), (dn_in nb A) by assumption; rewrite Hm, Hn; tauto.
  Qed.

  Lemma ld_check : forall m n, in_tiles B m n ->
    ((transa =? PlasmaNoTrans) && (op_ld transa A m n <? Z.max 1 (tile_mview B m)) && (0 <? tile_mview B m))
     || (negb (transa =? PlasmaNoTrans) && (op_ld transa A m n <? Z.max 1 (tile_nview B n)) && (0 <? tile_nview B n))
     = false.
  Proof.
    intros m n HI. pose proof (proj1 (add_tiles m n) HI) as HS.
    rewrite (sq_mv nb B _ HB m n HI), (sq_nv nb B _ HB m n HI), <- Hm, <- Hn.
    unfold op_S, op_m, op_n, op_ld in *. destruct (transa =? PlasmaNoTrans); cbn [negb andb orb].
    - pose proof (sq_ld nb A _ HA m n HS). pose proof (sq_in_m nb A _ HA m n HS).
      rewrite orb_false_r. apply andb_false_iff. left. apply Z.ltb_ge. lia.
    - pose proof (sq_ld nb A _ HA n m HS). pose proof (sq_in_m nb A _ HA n m HS).
      apply andb_false_iff. left. apply Z.ltb_ge. lia.
  Qed.

  Lemma geadd_check_ok : forall m n, in_tiles B m n ->
    core_zgeadd_check transa (tile_mview B m) (tile_nview B n) (op_ld transa A m n) (tile_mmain B m) = 0.
  Proof.
    intros m n HI. pose proof (sq_in_m nb B _ HB m n HI) as Rm. pose proof (sq_in_n nb B _ HB m n HI) as Rn.
    pose proof (sq_ld nb B _ HB m n HI) as LD. unfold core_zgeadd_check. rewrite (ld_check m n HI).
    rewrite (sq_mv nb B _ HB m n HI) in *. rewrite (sq_nv nb B _ HB m n HI) in *.
    unfold ew_trans. rewrite (valid_trans_b transa Ht). cbn [negb].
    replace (tsz nb (d_m B) m <? 0) with false by (symmetry; apply Z.ltb_ge; lia).
    replace (tsz nb (d_n B) n <? 0) with false by (symmetry; apply Z.ltb_ge; lia).
    replace (tile_mmain B m <? Z.max 1 (tsz nb (d_m B) m)) with false by (symmetry; apply Z.ltb_ge; lia).
    reflexivity.
  Qed.

  Lemma tradd_check_ok : forall uplo m n, in_tiles B m n -> valid_uplo uplo ->
    core_ztradd_check uplo transa (tile_mview B m) (tile_nview B n) (op_ld transa A m n) (tile_mmain B m) = 0.
  Proof.
    intros uplo m n HI Hu. pose proof (sq_in_m nb B _ HB m n HI) as Rm. pose proof (sq_in_n nb B _ HB m n HI) as Rn.
    pose proof (sq_ld nb B _ HB m n HI) as LD. unfold core_ztradd_check. rewrite (ld_check m n HI).
    rewrite (sq_mv nb B _ HB m n HI) in *. rewrite (sq_nv nb B _ HB m n HI) in *.
    unfold ew_trans, ew_uplo. rewrite (valid_trans_b transa Ht).
    replace ((uplo =? PlasmaUpper) || (uplo =? PlasmaLower)) with true by (destruct Hu as [->| ->]; reflexivity).
    cbn [negb].
    replace (tsz nb (d_m B) m <? 0) with false by (symmetry; apply Z.ltb_ge; lia).
    replace (tsz nb (d_n B) n <? 0) with false by (symmetry; apply Z.ltb_ge; lia).
    replace (tile_mmain B m <? Z.max 1 (tsz nb (d_m B) m)) with false by (symmetry; apply Z.ltb_ge; lia).
    reflexivity.
  Qed.

  (* the assignment made by both kernels *)
  Lemma add_set : forall P M m n i j, in_tiles B m n -> 0 <= i < d_m B -> 0 <= j < d_n B ->
    el (if (tile_mview B m =? 0) || (tile_nview B n =? 0) || (neqb alpha n0 && neqb beta n1) then M
        else mset (tptr bB B m n) (tile_mmain B m) (tile_mview B m) (tile_nview B n) P
          (fun r c => nadd (nmul beta (rd M (tptr bB B m n) (tile_mmain B m) r c))
             (nmul alpha (op_rd M transa (op_tile transa bA A m n) (op_ld transa A m n) r c))) M) bB B i j
    = if (i / nb =? m) && (j / nb =? n) && P (i mod nb) (j mod nb) then addv M i j else el M bB B i j.
  Proof.
    intros P M m n i j HI Hi Hj.
    assert (HS : in_tiles B (i / nb) (j / nb)).
    { pose proof (in_tiles_pos B i j (td_shape _ _ (sq_t nb B _ HB))) as Q.
      rewrite (sq_mb nb B _ HB), (sq_nb nb B _ HB) in Q. apply Q; lia. }
    destruct (_ || _) eqn:E.
    - rewrite !orb_true_iff, !Z.eqb_eq, andb_true_iff, !neqb_eq in E.
      pose proof (sq_in_m nb B _ HB m n HI) as Rm. pose proof (sq_in_n nb B _ HB m n HI) as Rn.
      rewrite (sq_mv nb B _ HB m n HI), (sq_nv nb B _ HB m n HI) in E.
      destruct E as [[E|E]|[E1 E2]]; [lia|lia|].
      destruct (_ && _); [|reflexivity]. unfold addv. rewrite E1, E2. ring.
    - clear E. rewrite (sq_set nb B _ HB); auto.
      destruct (_ && _) eqn:E; [|reflexivity].
      rewrite !andb_true_iff, !Z.eqb_eq in E. destruct E as [[<- <-] _].
      destruct (pos_tile nb B _ HB i (d_m B) Hi) as (P1 & P2 & P3).
      destruct (pos_tile nb B _ HB j (d_n B) Hj) as (Q1 & Q2 & Q3).
      unfold addv. apply f_equal2; apply f_equal.
      + rewrite (sq_rd nb B _ HB); auto. rewrite <- P3, <- Q3. reflexivity.
      + rewrite (op_rd_el nb A (in_tiles A)); auto.
        * rewrite <- P3, <- Q3. reflexivity.
        * apply add_tiles. assumption.
        * rewrite Hm. assumption.
        * rewrite Hn. assumption.
  Qed.

  Definition gt (p : Z * Z) : ktask N :=
    omp_zgeadd transa (tile_mview B (fst p)) (tile_nview B (snd p)) alpha
      (op_tile transa bA A (fst p) (snd p)) (op_ld transa A (fst p) (snd p)) beta
      (tptr bB B (fst p) (snd p)) (tile_mmain B (fst p)).
  Definition dt (uplo : Z) (p : Z * Z) : ktask N :=
    omp_ztradd uplo transa (tile_mview B (fst p)) (tile_nview B (snd p)) alpha
      (op_tile transa bA A (fst p) (snd p)) (op_ld transa A (fst p) (snd p)) beta
      (tptr bB B (fst p) (snd p)) (tile_mmain B (fst p)).
  Definition tt_ (uplo : Z) (p : Z * Z) : ktask N := if fst p =? snd p then dt uplo p else gt p.

  Lemma gt_el : forall p M i j, in_tiles B (fst p) (snd p) -> 0 <= i < d_m B -> 0 <= j < d_n B ->
    el (k_fun (gt p) M) bB B i j
    = if (i / nb =? fst p) && (j / nb =? snd p) then addv M i j else el M bB B i j.
  Proof.
    intros p M i j HI Hi Hj. cbn [gt omp_zgeadd k_fun]. unfold core_zgeadd. rewrite (geadd_check_ok _ _ HI).
    cbn [Z.eqb negb]. rewrite (add_set everywhere) by assumption.
    replace (everywhere (i mod nb) (j mod nb)) with true by reflexivity. rewrite andb_true_r. reflexivity.
  Qed.

  Lemma dt_el : forall uplo p M i j, in_tiles B (fst p) (snd p) -> valid_uplo uplo ->
    0 <= i < d_m B -> 0 <= j < d_n B ->
    el (k_fun (dt uplo p) M) bB B i j
    = if (i / nb =? fst p) && (j / nb =? snd p) && uplo_sel uplo (i mod nb) (j mod nb)
      then addv M i j else el M bB B i j.
  Proof.
    intros uplo p M i j HI Hu Hi Hj. cbn [dt omp_ztradd k_fun]. unfold core_ztradd.
    rewrite (tradd_check_ok uplo _ _ HI Hu). cbn [Z.eqb negb].
    rewrite (add_set (fun i0 j0 => if uplo =? PlasmaLower then j0 <=? i0 else i0 <? Z.min (j0 + 1) (tile_mview B (fst p))))
      by assumption.
    destruct (Z.eqb_spec (i / nb) (fst p)) as [E|]; [|reflexivity]. cbn [andb].
    destruct (Z.eqb_spec (j / nb) (snd p)) as [E'|]; [|reflexivity]. cbn [andb].
    rewrite (sq_mv nb B _ HB _ _ HI).
    destruct (pos_tile nb B _ HB i (d_m B) Hi) as (P1 & P2 & P3). rewrite <- E.
    destruct Hu as [->| ->].
    - change (PlasmaUpper =? PlasmaLower) with false. cbn iota. unfold uplo_sel.
      change (PlasmaUpper =? PlasmaUpper) with true. cbn iota.
      replace (i mod nb <? Z.min (j mod nb + 1) (tsz nb (d_m B) (i / nb))) with (i mod nb <=? j mod nb); [reflexivity|].
      apply eq_true_iff_eq. rewrite Z.leb_le, Z.ltb_lt. lia.
    - reflexivity.
  Qed.

  Lemma core_geadd_other : forall tr m n a p ld be q ld' (M : mem N) l, fst l <> fst q ->
    core_zgeadd tr m n a p ld be q ld' M l = M l.
  Proof.
    intros. unfold core_zgeadd. destruct (negb _); [reflexivity|]. destruct (_ || _); [reflexivity|].
    apply mset_out. intros R. apply reg_block in R. congruence.
  Qed.
  Lemma core_tradd_other : forall u tr m n a p ld be q ld' (M : mem N) l, fst l <> fst q ->
    core_ztradd u tr m n a p ld be q ld' M l = M l.
  Proof.
    intros. unfold core_ztradd. destruct (negb _); [reflexivity|]. destruct (_ || _); [reflexivity|].
    apply mset_out. intros R. apply reg_block in R. congruence.
  Qed.

  Lemma quick_kgood : forall (q : bool) deps p ld m n P (f : mem N -> Z -> Z -> N) (R : loc -> Prop),
    m <= ld -> finite_set R -> (forall l, reg p ld m n P l -> R l) ->
    (forall M M' i j, 0 <= i < m -> 0 <= j < n -> P i j = true ->
       (forall x, R x -> M x = M' x) -> f M i j = f M' i j) ->
    kgood (mkktask deps (fun M => if q then M else mset p ld m n P (f M) M) R (reg p ld m n P)).
  Proof.
    intros q deps p ld m n P f R Hld HF HI HL. destruct q; [|apply mset_kgood; assumption].
    constructor; [|assumption|apply finite_reg]. split.
    - intros M l _. reflexivity.
    - intros M M' l H Hw. cbn in *. apply H. apply HI. assumption.
  Qed.

  Lemma gt_kgood : forall p, in_tiles B (fst p) (snd p) -> kgood (gt p).
  Proof.
    intros p HI. unfold gt, omp_zgeadd, core_zgeadd. rewrite (geadd_check_ok _ _ HI). cbn [Z.eqb negb].
    apply quick_kgood.
    - apply (td_ld B _ (sq_t nb B _ HB) _ _ HI).
    - apply finite_or; [apply op_reg_fin|apply finite_reg].
    - intros l H. right. assumption.
    - intros M M' i j Hi Hj _ HX. apply f_equal2; apply f_equal.
      + apply HX. right. exists i, j. auto.
      + eapply op_rd_local; eauto.
  Qed.
  Lemma dt_kgood : forall uplo p, in_tiles B (fst p) (snd p) -> valid_uplo uplo -> kgood (dt uplo p).
  Proof.
    intros uplo p HI Hu. unfold dt, omp_ztradd, core_ztradd. rewrite (tradd_check_ok _ _ _ HI Hu). cbn [Z.eqb negb].
    apply quick_kgood.
    - apply (td_ld B _ (sq_t nb B _ HB) _ _ HI).
    - apply finite_or; [apply op_reg_fin|apply finite_reg].
    - intros l (i & j & Hi & Hj & _ & E). right. exists i, j. auto.
    - intros M M' i j Hi Hj _ HX. apply f_equal2; apply f_equal.
      + apply HX. right. exists i, j. auto.
      + eapply op_rd_local; eauto.
  Qed.

  Lemma add_kdecl : forall env k P m n, In (bA, homeD A (in_tiles A)) env -> In (bB, homeD B (in_tiles B)) env ->
    in_tiles B m n ->
    k_deps k = [dep_in (op_tile transa bA A m n); dep_inout (tptr bB B m n)] ->
    (forall l, k_reads k l -> op_reg transa (op_tile transa bA A m n) (op_ld transa A m n) (tile_mview B m) (tile_nview B n) l
       \/ reg (tptr bB B m n) (tile_mmain B m) (tile_mview B m) (tile_nview B n) everywhere l) ->
    (forall l, k_writes k l -> reg (tptr bB B m n) (tile_mmain B m) (tile_mview B m) (tile_nview B n) P l) ->
    kdecl (home_env env) (k : ktask N).
  Proof.
    intros env k P m n EA EB HI ED HR HW. apply kdecl_intro; rewrite ED.
    - intros l Hl. left. destruct (HR l Hl) as [H|H].
      + eexists. split; [left; reflexivity|]. cbn.
        apply (op_reg_home nb env A (in_tiles A) bA transa m n (tile_mview B m) (tile_nview B n)); auto.
        * apply add_tiles. assumption.
        * rewrite Hm, (sq_mv nb B _ HB _ _ HI). lia.
        * rewrite Hn, (sq_nv nb B _ HB _ _ HI). lia.
      + eexists. split; [right; left; reflexivity|]. cbn. eapply home_tile; eauto.
    - intros l Hl. eexists. split; [right; left; reflexivity|]. split; [|discriminate]. cbn.
      eapply home_tile; eauto.
  Qed.

  Lemma gt_kdecl : forall env p, In (bA, homeD A (in_tiles A)) env -> In (bB, homeD B (in_tiles B)) env ->
    in_tiles B (fst p) (snd p) -> kdecl (home_env env) (gt p).
  Proof.
    intros env p EA EB HI. eapply (add_kdecl env _ everywhere (fst p) (snd p)); eauto; cbn; auto.
  Qed.
  Lemma dt_kdecl : forall env uplo p, In (bA, homeD A (in_tiles A)) env -> In (bB, homeD B (in_tiles B)) env ->
    in_tiles B (fst p) (snd p) -> kdecl (home_env env) (dt uplo p).
  Proof.
    intros env uplo p EA EB HI. eapply (add_kdecl env _ _ (fst p) (snd p)); eauto; cbn; auto.
    intros l H. exact H.
  Qed.

  (* the loops *)
  Lemma pzgeadd_eq : pzgeadd transa alpha bA A beta bB B = map gt (idx_all B).
  Proof.
    unfold pzgeadd, idx_all, pairs. rewrite flat_map_map.
    destruct (Sumbool.sumbool_of_bool (transa =? PlasmaNoTrans)) as [E|E]; rewrite E;
      apply flat_map_ext_in; intros m _; rewrite map_map; apply map_ext; intros n;
      unfold gt, op_tile, op_ld; cbn [fst snd]; rewrite E; reflexivity.
  Qed.

  Definition idx_low : list (Z * Z) :=
    flat_map (fun n => (n, n) :: map (fun m => (m, n)) (zrange (n + 1) (d_mt B))) (zrange 0 (Z.min (d_mt B) (d_nt B))).
  Definition idx_up : list (Z * Z) :=
    flat_map (fun m => (m, m) :: map (fun n => (m, n)) (zrange (m + 1) (d_nt B))) (zrange 0 (Z.min (d_mt B) (d_nt B))).
  Definition idx_tz (uplo : Z) : list (Z * Z) := if uplo =? PlasmaLower then idx_low else idx_up.

  Lemma idx_tz_in : forall uplo m n, valid_uplo uplo ->
    In (m, n) (idx_tz uplo) <-> in_tiles B m n /\ (if uplo =? PlasmaLower then n <= m else m <= n).
  Proof.
    intros uplo m n Hu. unfold idx_tz, in_tiles. destruct Hu as [->| ->]; cbn [Z.eqb Pos.eqb PlasmaUpper PlasmaLower].
    - unfold idx_up. rewrite in_flat_map. split.
      + intros (x & Hx & [E|I]); apply in_zrange in Hx; [injection E as <- <-; lia|].
        apply in_map_iff in I. destruct I as (y & E & I). injection E as <- <-. apply in_zrange in I. lia.
      + intros [[H1 H2] H3]. exists m. split; [apply in_zrange; lia|]. destruct (Z.eq_dec m n) as [->|]; [left; reflexivity|].
        right. apply in_map_iff. exists n. split; [reflexivity|apply in_zrange; lia].
    - unfold idx_low. rewrite in_flat_map. split.
      + intros (x & Hx & [E|I]); apply in_zrange in Hx; [injection E as <- <-; lia|].
        apply in_map_iff in I. destruct I as (y & E & I). injection E as <- <-. apply in_zrange in I. lia.
      + intros [[H1 H2] H3]. exists n. split; [apply in_zrange; lia|]. destruct (Z.eq_dec m n) as [->|]; [left; reflexivity|].
        right. apply in_map_iff. exists m. split; [reflexivity|apply in_zrange; lia].
  Qed.

  Lemma idx_tz_NoDup : forall uplo, NoDup (idx_tz uplo).
  Proof.
    intros uplo. unfold idx_tz. destruct (uplo =? PlasmaLower); [unfold idx_low|unfold idx_up];
      (apply NoDup_flat_map; [apply NoDup_zrange| |]).
    - intros x _. constructor.
      + intros I. apply in_map_iff in I. destruct I as (y & E & I). injection E as ->. apply in_zrange in I. lia.
      + apply NoDup_map_inj; [congruence|apply NoDup_zrange].
    - intros x y p _ _ [<-|H1] [E|H2]; try (injection E; congruence).
      + apply in_map_iff in H2. destruct H2 as (z & E & _). congruence.
      + apply in_map_iff in H1. destruct H1 as (z & E1 & _). congruence.
      + apply in_map_iff in H1. apply in_map_iff in H2. destruct H1 as (z & E1 & _), H2 as (z' & E2 & _). congruence.
    - intros x _. constructor.
      + intros I. apply in_map_iff in I. destruct I as (y & E & I). injection E as ->. apply in_zrange in I. lia.
      + apply NoDup_map_inj; [congruence|apply NoDup_zrange].
    - intros x y p _ _ [<-|H1] [E|H2]; try (injection E; congruence).
      + apply in_map_iff in H2. destruct H2 as (z & E & _). congruence.
      + apply in_map_iff in H1. destruct H1 as (z & E1 & _). congruence.
      + apply in_map_iff in H1. apply in_map_iff in H2. destruct H1 as (z & E1 & _), H2 as (z' & E2 & _). congruence.
  Qed.

  Lemma pztradd_eq : forall uplo, valid_uplo uplo ->
    pztradd uplo transa alpha bA A beta bB B = map (tt_ uplo) (idx_tz uplo).
  Proof.
    intros uplo Hu. unfold pztradd, idx_tz, idx_low, idx_up.
    destruct Hu as [->| ->]; cbn [Z.eqb Pos.eqb PlasmaUpper PlasmaLower]; rewrite flat_map_map;
      destruct (Sumbool.sumbool_of_bool (transa =? PlasmaNoTrans)) as [E|E]; rewrite E;
      apply flat_map_ext_in; intros x _; cbn [map]; rewrite map_map;
      (apply f_equal2; [ unfold tt_, dt, op_tile, op_ld; cbn [fst snd]; rewrite Z.eqb_refl, E; reflexivity
      | apply map_ext_in; intros y Hy; apply in_zrange in Hy; unfold tt_, gt, op_tile, op_ld; cbn [fst snd];
        rewrite ?E; match goal with |- context [?a =? ?b] => replace (a =? b) with false by (symmetry; apply Z.eqb_neq; lia) end;
        reflexivity ]).
  Qed.

  Lemma pzgeadd_at : forall M0 i j, 0 <= i < d_m B -> 0 <= j < d_n B ->
    at_elem M0 bB B i j (krun (pzgeadd transa alpha bA A beta bB B) M0) (addv M0 i j).
  Proof.
    intros M0 i j Hi Hj. rewrite pzgeadd_eq.
    apply (sweep_at nb B bB gt (fun _ _ => true) addv (idx_all B)); auto using idx_all_NoDup.
    - intros p M l _ Hl. apply core_geadd_other. assumption.
    - intros [m n] M i' j' Hp Hi' Hj'. apply idx_all_in in Hp. rewrite gt_el by assumption.
      rewrite andb_true_r. reflexivity.
    - intros M M' i' j' _ _. apply addv_local.
    - intros i' j' Hi' Hj' _. apply idx_all_in.
      pose proof (in_tiles_pos B i' j' (td_shape _ _ (sq_t nb B _ HB))) as Q.
      rewrite (sq_mb nb B _ HB), (sq_nb nb B _ HB) in Q. apply Q; lia.
  Qed.

  Lemma pztradd_at : forall uplo M0 i j, valid_uplo uplo -> 0 <= i < d_m B -> 0 <= j < d_n B ->
    at_elem M0 bB B i j (krun (pztradd uplo transa alpha bA A beta bB B) M0)
      (if uplo_sel uplo i j then addv M0 i j else el M0 bB B i j).
  Proof.
    intros uplo M0 i j Hu Hi Hj. rewrite (pztradd_eq uplo Hu). pose proof (sq_pos nb B _ HB) as Hb.
    apply (sweep_at nb B bB (tt_ uplo) (uplo_sel uplo) addv (idx_tz uplo)); auto using idx_tz_NoDup.
    - intros p M l _ Hl. unfold tt_. destruct (_ =? _); [apply core_tradd_other|apply core_geadd_other]; assumption.
    - intros [m n] M i' j' Hp Hi' Hj'. apply idx_tz_in in Hp; [|assumption]. destruct Hp as [HI HO].
      unfold tt_. cbn [fst snd].
      destruct (div_mod_pos i' nb Hb) as [Ei Ri]. destruct (div_mod_pos j' nb Hb) as [Ej Rj].
      destruct (Z.eqb_spec m n) as [->|Hne].
      + rewrite dt_el by assumption. cbn [fst snd].
        destruct (Z.eqb_spec (i' / nb) n) as [E1|]; [|reflexivity].
        destruct (Z.eqb_spec (j' / nb) n) as [E2|]; [|reflexivity]. cbn [andb].
        replace (uplo_sel uplo (i' mod nb) (j' mod nb)) with (uplo_sel uplo i' j'); [reflexivity|].
        unfold uplo_sel. destruct (uplo =? PlasmaUpper); [|destruct (uplo =? PlasmaLower); [|reflexivity]];
          apply eq_true_iff_eq; rewrite !Z.leb_le; nia.
      + rewrite gt_el by assumption. cbn [fst snd].
        destruct (Z.eqb_spec (i' / nb) m) as [E1|]; [|reflexivity].
        destruct (Z.eqb_spec (j' / nb) n) as [E2|]; [|reflexivity]. cbn [andb].
        replace (uplo_sel uplo i' j') with true; [reflexivity|]. symmetry.
        destruct Hu as [->| ->]; cbn [Z.eqb Pos.eqb PlasmaUpper PlasmaLower] in HO; unfold uplo_sel; cbn [Z.eqb Pos.eqb PlasmaUpper PlasmaLower];
          apply Z.leb_le; nia.
    - intros M M' i' j' _ _. apply addv_local.
    - intros i' j' Hi' Hj' HS. apply idx_tz_in; [assumption|]. split.
      + pose proof (in_tiles_pos B i' j' (td_shape _ _ (sq_t nb B _ HB))) as Q.
        rewrite (sq_mb nb B _ HB), (sq_nb nb B _ HB) in Q. apply Q; lia.
      + destruct (div_mod_pos i' nb Hb) as [Ei Ri]. destruct (div_mod_pos j' nb Hb) as [Ej Rj].
        destruct Hu as [->| ->]; unfold uplo_sel in HS; cbn [Z.eqb Pos.eqb PlasmaUpper PlasmaLower] in *;
          apply Z.leb_le in HS; nia.
  Qed.

  Lemma pzgeadd_frame : forall M0 l, fst l <> bB -> krun (pzgeadd transa alpha bA A beta bB B) M0 l = M0 l.
  Proof.
    intros. rewrite pzgeadd_eq. apply (sweep_frame bB); auto.
    intros p M l' _ Hl. apply core_geadd_other. assumption.
  Qed.
  Lemma pztradd_frame : forall uplo M0 l, valid_uplo uplo -> fst l <> bB ->
    krun (pztradd uplo transa alpha bA A beta bB B) M0 l = M0 l.
  Proof.
    intros. rewrite pztradd_eq by assumption. apply (sweep_frame bB); auto.
    intros p M l' _ Hl. unfold tt_. destruct (_ =? _); [apply core_tradd_other|apply core_geadd_other]; assumption.
  Qed.

  Lemma pzgeadd_kgood : Forall kgood (pzgeadd transa alpha bA A beta bB B).
  Proof.
    rewrite pzgeadd_eq. apply Forall_map. apply Forall_forall. intros [m n] Hp. apply idx_all_in in Hp.
    apply gt_kgood. assumption.
  Qed.
  Lemma pzgeadd_kdecl : forall env, In (bA, homeD A (in_tiles A)) env -> In (bB, homeD B (in_tiles B)) env ->
    Forall (kdecl (home_env env)) (pzgeadd transa alpha bA A beta bB B).
  Proof.
    intros. rewrite pzgeadd_eq. apply Forall_map. apply Forall_forall. intros [m n] Hp. apply idx_all_in in Hp.
    apply gt_kdecl; assumption.
  Qed.
  Lemma pztradd_kgood : forall uplo, valid_uplo uplo -> Forall kgood (pztradd uplo transa alpha bA A beta bB B).
  Proof.
    intros. rewrite pztradd_eq by assumption. apply Forall_map. apply Forall_forall. intros [m n] Hp.
    apply idx_tz_in in Hp; [|assumption]. unfold tt_. destruct (fst (m, n) =? snd (m, n)); [apply dt_kgood|apply gt_kgood]; tauto.
  Qed.
  Lemma pztradd_kdecl : forall uplo env, valid_uplo uplo ->
    In (bA, homeD A (in_tiles A)) env -> In (bB, homeD B (in_tiles B)) env ->
    Forall (kdecl (home_env env)) (pztradd uplo transa alpha bA A beta bB B).
  Proof.
    intros. rewrite pztradd_eq by assumption. apply Forall_map. apply Forall_forall. intros [m n] Hp.
    apply idx_tz_in in Hp; [|assumption]. unfold tt_. destruct (fst (m, n) =? snd (m, n)); [apply dt_kdecl|apply gt_kdecl]; tauto.
  Qed.
End Add.

(* ------------------------------------------------------------------ *)
(* the tiles selected by uplo, diagonal tile first in every row           *)

Section Tiles.
  Variables (uplo : Z) (A : desc).
  Hypothesis Hu : uplo = PlasmaGeneral \/ uplo = PlasmaUpper \/ uplo = PlasmaLower.

  Definition row_ul (m : Z) : list (Z * Z) :=
    if uplo =? PlasmaUpper then (if m <? d_nt A then [(m, m)] else []) ++ map (fun n => (m, n)) (zrange (m + 1) (d_nt A))
    else if uplo =? PlasmaLower then (if m <? d_nt A then [(m, m)] else []) ++ map (fun n => (m, n)) (zrange 0 (Z.min m (d_nt A)))
    else map (fun n => (m, n)) (zrange 0 (d_nt A)).
  Definition idx_ul : list (Z * Z) := flat_map row_ul (zrange 0 (d_mt A)).

  Lemma row_ul_in : forall r m n, 0 <= r -> In (m, n) (row_ul r) <-> m = r /\ 0 <= n < d_nt A /\ lsel uplo m n = true.
  Proof.
    intros r m n Hr. unfold row_ul, lsel.
    assert (IM : forall a b, In (m, n) (map (fun n => (r, n)) (zrange a b)) <-> m = r /\ a <= n < b).
    { intros a b. rewrite in_map_iff. split.
      - intros (y & E & I). injection E as <- <-. apply in_zrange in I. lia.
      - intros [-> H]. exists n. split; [reflexivity|apply in_zrange; lia]. }
    assert (ID : In (m, n) (if r <? d_nt A then [(r, r)] else []) <-> m = r /\ n = r /\ r < d_nt A).
    { destruct (Z.ltb_spec r (d_nt A)); cbn [In]; split.
      - intros [E|[]]. injection E as <- <-. lia.
      - intros (-> & -> & _). left; reflexivity.
      - tauto.
      - lia. }
    destruct Hu as [->|[->| ->]]; cbn [Z.eqb Pos.eqb PlasmaUpper PlasmaLower PlasmaGeneral orb andb];
      rewrite ?in_app_iff, ?IM, ?ID, ?orb_false_r, ?Z.leb_le; intuition lia.
  Qed.

  Lemma idx_ul_in : forall m n, In (m, n) idx_ul <-> in_tiles A m n /\ lsel uplo m n = true.
  Proof.
    intros m n. unfold idx_ul, in_tiles. rewrite in_flat_map. split.
    - intros (r & Hr & I). apply in_zrange in Hr. apply row_ul_in in I; [|lia]. destruct I as (-> & H & E). auto.
    - intros [[H1 H2] E]. exists m. split; [apply in_zrange; lia|]. apply row_ul_in; auto. lia.
  Qed.

  Lemma idx_ul_NoDup : NoDup idx_ul.
  Proof.
    apply NoDup_flat_map; [apply NoDup_zrange| |].
    - intros r Hr. unfold row_ul.
      assert (NM : forall a b, NoDup (map (fun n => (r, n)) (zrange a b))).
      { intros. apply NoDup_map_inj; [congruence|apply NoDup_zrange]. }
      destruct (uplo =? PlasmaUpper); [|destruct (uplo =? PlasmaLower)]; auto;
        (apply NoDup_app_intro; [destruct (r <? d_nt A); repeat constructor; tauto|apply NM|]);
        intros p Hp Hq; (destruct (r <? d_nt A); [|contradiction]); destruct Hp as [<-|[]];
        apply in_map_iff in Hq; destruct Hq as (y & E & I); injection E as ->; apply in_zrange in I; lia.
    - intros x y [m n] Hx Hy H1 H2. apply in_zrange in Hx, Hy. apply row_ul_in in H1; [|lia].
      apply row_ul_in in H2; [|lia]. destruct H1, H2. congruence.
  Qed.

  Lemma rows_eq : forall V (t : Z -> Z -> Z -> ktask V),
    (if uplo =? PlasmaUpper then
      flat_map (fun m => (if m <? d_nt A then [t PlasmaUpper m m] else []) ++
        map (t PlasmaGeneral m) (zrange (m + 1) (d_nt A))) (zrange 0 (d_mt A))
    else if uplo =? PlasmaLower then
      flat_map (fun m => (if m <? d_nt A then [t PlasmaLower m m] else []) ++
        map (t PlasmaGeneral m) (zrange 0 (Z.min m (d_nt A)))) (zrange 0 (d_mt A))
    else
      flat_map (fun m => map (t PlasmaGeneral m) (zrange 0 (d_nt A))) (zrange 0 (d_mt A)))
    = map (fun p => t (lu uplo (fst p) (snd p)) (fst p) (snd p)) idx_ul.
  Proof.
    intros V t. unfold idx_ul. rewrite flat_map_map. unfold row_ul.
    destruct Hu as [->|[->| ->]]; cbn [Z.eqb Pos.eqb PlasmaUpper PlasmaLower PlasmaGeneral];
      apply flat_map_ext_in; intros m _; rewrite ?map_app, map_map.
    - apply map_ext. intros n. unfold lu. cbn [fst snd]. destruct (m =? n); reflexivity.
    - apply f_equal2.
      + destruct (m <? d_nt A); [|reflexivity]. cbn [map fst snd]. unfold lu. rewrite Z.eqb_refl. reflexivity.
      + apply map_ext_in. intros n Hn. apply in_zrange in Hn. unfold lu. cbn [fst snd].
        replace (m =? n) with false by (symmetry; apply Z.eqb_neq; lia). reflexivity.
    - apply f_equal2.
      + destruct (m <? d_nt A); [|reflexivity]. cbn [map fst snd]. unfold lu. rewrite Z.eqb_refl. reflexivity.
      + apply map_ext_in. intros n Hn. apply in_zrange in Hn. unfold lu. cbn [fst snd].
        replace (m =? n) with false by (symmetry; apply Z.eqb_neq; lia). reflexivity.
  Qed.
End Tiles.

(* ------------------------------------------------------------------ *)
(* scaling                                                                *)

Section Scale.
  Context {F : fields}.
  Variables (nb : Z) (A : desc) (b uplo : Z) (cfrom cto : F).
  Hypothesis HA : dn nb A.
  Hypothesis Hu : uplo = PlasmaGeneral \/ uplo = PlasmaUpper \/ uplo = PlasmaLower.

  Definition sct (p : Z * Z) : ktask F :=
    omp_zlascl (lu uplo (fst p) (snd p)) cfrom cto (tile_mview A (fst p)) (tile_nview A (snd p))
      (tptr b A (fst p) (snd p)) (tile_mmain A (fst p)).
  Definition sclv (M : mem F) (i j : Z) : F := nmul (nmul cto (finv cfrom)) (el M b A i j).

  Lemma pzlascl_eq : pzlascl uplo cfrom cto b A = map sct (idx_ul uplo A).
  Proof.
    unfold pzlascl. cbv zeta.
    apply (rows_eq uplo A Hu F (fun u m n => omp_zlascl u cfrom cto (tile_mview A m) (tile_nview A n) (tptr b A m n) (tile_mmain A m))).
  Qed.

  Lemma sct_other : forall p M l, fst l <> b -> k_fun (sct p) M l = M l.
  Proof.
    intros. cbn [sct omp_zlascl k_fun]. unfold core_zlascl. apply mset_out. intros R. apply reg_block in R. cbn in R. congruence.
  Qed.

  Lemma pzlascl_at : forall M0 i j, 0 <= i < d_m A -> 0 <= j < d_n A ->
    at_elem M0 b A i j (krun (pzlascl uplo cfrom cto b A) M0) (if uplo_sel uplo i j then sclv M0 i j else el M0 b A i j).
  Proof.
    intros M0 i j Hi Hj. rewrite pzlascl_eq.
    assert (TI : forall i' j', 0 <= i' < d_m A -> 0 <= j' < d_n A -> in_tiles A (i' / nb) (j' / nb)).
    { intros i' j' Hi' Hj'. pose proof (in_tiles_pos A i' j' (td_shape _ _ (sq_t nb A _ HA))) as Q.
      rewrite (sq_mb nb A _ HA), (sq_nb nb A _ HA) in Q. apply Q; lia. }
    apply (sweep_at nb A b sct (uplo_sel uplo) sclv (idx_ul uplo A)); auto using idx_ul_NoDup.
    - intros p M l _ Hl. apply sct_other. assumption.
    - intros [m n] M i' j' Hp Hi' Hj'. apply idx_ul_in in Hp; [|assumption]. destruct Hp as [HI HS].
      cbn [sct omp_zlascl k_fun fst snd]. unfold core_zlascl. rewrite (sq_set nb A _ HA); auto.
      rewrite (sel_tiles nb A uplo HA Hu i' j').
      destruct (Z.eqb_spec (i' / nb) m) as [<-|]; cbn [andb]; [|reflexivity].
      destruct (Z.eqb_spec (j' / nb) n) as [<-|]; cbn [andb]; [|reflexivity].
      rewrite HS. cbn [andb]. destruct (uplo_sel _ _ _); [|reflexivity].
      destruct (pos_tile nb A _ HA i' (d_m A) Hi') as (P1 & P2 & P3).
      destruct (pos_tile nb A _ HA j' (d_n A) Hj') as (Q1 & Q2 & Q3).
      unfold sclv. apply f_equal. rewrite (sq_rd nb A _ HA); auto. rewrite <- P3, <- Q3. reflexivity.
    - intros M M' i' j' _ _ _ E. unfold sclv. rewrite E. reflexivity.
    - intros i' j' Hi' Hj' HS. apply idx_ul_in; [assumption|]. split; [auto|].
      rewrite (sel_tiles nb A uplo HA Hu i' j') in HS. apply andb_true_iff in HS. tauto.
  Qed.

  Lemma pzlascl_frame : forall M0 l, fst l <> b -> krun (pzlascl uplo cfrom cto b A) M0 l = M0 l.
  Proof.
    intros. rewrite pzlascl_eq. apply (sweep_frame b); auto. intros p M l' _ Hl. apply sct_other. assumption.
  Qed.

  Lemma pzlascl_kgood : Forall kgood (pzlascl uplo cfrom cto b A).
  Proof.
    rewrite pzlascl_eq. apply Forall_map. apply Forall_forall. intros [m n] Hp. apply idx_ul_in in Hp; [|assumption].
    destruct Hp as [HI _]. unfold sct, omp_zlascl, core_zlascl. cbn [fst snd].
    apply (mset_kgood F _ _ _ _ _ _ (fun M r c => nmul (nmul cto (finv cfrom)) (rd M (tptr b A m n) (tile_mmain A m) r c))).
    - apply (td_ld A _ (sq_t nb A _ HA) m n HI).
    - apply finite_reg.
    - intros M M' r c Hr Hc HP HX. apply f_equal. apply HX. exists r, c. auto.
  Qed.

  Lemma pzlascl_kdecl : forall env, In (b, homeD A (in_tiles A)) env ->
    Forall (kdecl (home_env env)) (pzlascl uplo cfrom cto b A).
  Proof.
    intros env HE. rewrite pzlascl_eq. apply Forall_map. apply Forall_forall. intros [m n] Hp.
    apply idx_ul_in in Hp; [|assumption]. destruct Hp as [HI _].
    apply kdecl_intro; cbn; intros l HR.
    - left. eexists. split; [left; reflexivity|]. cbn. eapply home_tile; eauto.
    - eexists. split; [left; reflexivity|]. split; [|discriminate]. cbn. eapply home_tile; eauto.
  Qed.
End Scale.

(* ------------------------------------------------------------------ *)
(* copying                                                                *)

Section Copy.
  Context {N : numbers}.
  Variables (nb : Z) (A B : desc) (bA bB uplo transa : Z).
  Hypothesis HA : dn nb A.
  Hypothesis HB : dn nb B.
  Hypothesis Hab : bA <> bB.
  Hypothesis Hu : uplo = PlasmaGeneral \/ uplo = PlasmaUpper \/ uplo = PlasmaLower.
  Hypothesis Hm : op_m transa A = d_m B.
  Hypothesis Hn : op_n transa A = d_n B.

  (* swap when transposing; source tile of a target tile, and back *)
  Definition sw (p : Z * Z) : Z * Z := if transa =? PlasmaNoTrans then p else (snd p, fst p).
  Lemma sw_sw : forall p, sw (sw p) = p.
  Proof. intros [m n]. unfold sw. destruct (transa =? PlasmaNoTrans); reflexivity. Qed.

  (* the task that fills target tile q *)
  Definition cpt (q : Z * Z) : ktask N :=
    omp_zlacpy_t (lu uplo (fst (sw q)) (snd (sw q))) transa (tile_mview A (fst (sw q))) (tile_nview A (snd (sw q)))
      (tptr bA A (fst (sw q)) (snd (sw q))) (tile_mmain A (fst (sw q)))
      (tptr bB B (fst q) (snd q)) (tile_mmain B (fst q)).

  Lemma lacpy_tile_eq : forall m n, lacpy_tile (N := N) transa bA A bB B m n
    = omp_zlacpy_t PlasmaGeneral transa (tile_mview A m) (tile_nview A n) (tptr bA A m n) (tile_mmain A m)
        (tptr bB B (fst (sw (m, n))) (snd (sw (m, n)))) (tile_mmain B (fst (sw (m, n)))).
  Proof. intros. unfold lacpy_tile, sw. destruct (transa =? PlasmaNoTrans); reflexivity. Qed.

  Lemma pzlacpy_eq : pzlacpy (N := N) uplo transa bA A bB B = map cpt (map sw (idx_ul uplo A)).
  Proof.
    rewrite map_map.
    pose (t := fun u m n => omp_zlacpy_t (N := N) u transa (tile_mview A m) (tile_nview A n) (tptr bA A m n) (tile_mmain A m)
        (tptr bB B (fst (sw (m, n))) (snd (sw (m, n)))) (tile_mmain B (fst (sw (m, n))))).
    transitivity (map (fun p => t (lu uplo (fst p) (snd p)) (fst p) (snd p)) (idx_ul uplo A)).
    2: { apply map_ext. intros [m n]. unfold cpt. rewrite sw_sw. reflexivity. }
    rewrite <- (rows_eq uplo A Hu N t). unfold pzlacpy.
    assert (SD : forall m : Z, sw (m, m) = (m, m)).
    { intros m. unfold sw. destruct (transa =? PlasmaNoTrans); reflexivity. }
    destruct (uplo =? PlasmaUpper); [|destruct (uplo =? PlasmaLower)]; apply flat_map_ext_in; intros m _.
    - apply f_equal2; [unfold t; rewrite SD; reflexivity|]. apply map_ext. intros n. apply lacpy_tile_eq.
    - apply f_equal2; [unfold t; rewrite SD; reflexivity|]. apply map_ext. intros n. apply lacpy_tile_eq.
    - apply map_ext. intros n. apply lacpy_tile_eq.
  Qed.

  Definition cpsel (i j : Z) : bool := if transa =? PlasmaNoTrans then uplo_sel uplo i j else uplo_sel uplo j i.
  Definition cpL : list (Z * Z) := map sw (idx_ul uplo A).

  Lemma cp_dims : (transa =? PlasmaNoTrans) = true /\ d_m A = d_m B /\ d_n A = d_n B
    \/ (transa =? PlasmaNoTrans) = false /\ d_n A = d_m B /\ d_m A = d_n B.
  Proof. unfold op_m, op_n in *. destruct (transa =? PlasmaNoTrans); auto. Qed.

  Lemma cpL_in : forall m n, In (m, n) cpL <->
    in_tiles B m n /\ lsel uplo (fst (sw (m, n))) (snd (sw (m, n))) = true.
  Proof.
    intros m n. unfold cpL.
    assert (T : in_tiles B m n <-> in_tiles A (fst (sw (m, n))) (snd (sw (m, n)))).
    { unfold sw. rewrite (dn_in nb B) by assumption.
      destruct cp_dims as [(E & E1 & E2)|(E & E1 & E2)]; rewrite E; cbn [fst snd];
        rewrite (dn_in nb A) by assumption; rewrite E1, E2; tauto. }
    rewrite T, in_map_iff. split.
    - intros ([x y] & E & I). rewrite <- E, sw_sw. cbn [fst snd]. apply idx_ul_in in I; assumption.
    - intros [H1 H2]. exists (sw (m, n)). rewrite sw_sw. split; [reflexivity|].
      destruct (sw (m, n)) as [x y]. apply idx_ul_in; auto.
  Qed.

  Lemma cpL_NoDup : NoDup cpL.
  Proof.
    apply NoDup_map_inj; [|apply idx_ul_NoDup; assumption].
    intros x y E. rewrite <- (sw_sw x), <- (sw_sw y), E. reflexivity.
  Qed.

  (* the tile assignment in terms of the target *)
  Lemma cpt_fun : forall m n (M : mem N), in_tiles B m n ->
    k_fun (cpt (m, n)) M = mset (tptr bB B m n) (tile_mmain B m) (tile_mview B m) (tile_nview B n)
      (fun r c => if transa =? PlasmaNoTrans then uplo_sel (lu uplo m n) r c else uplo_sel (lu uplo n m) c r)
      (fun r c => op_rd M transa (op_tile transa bA A m n) (op_ld transa A m n) r c) M.
  Proof.
    intros m n M HI. cbn [cpt omp_zlacpy_t k_fun fst snd]. unfold core_zlacpy_t, core_zlacpy, sw, op_tile, op_ld, op_rd.
    rewrite (sq_mv nb B _ HB m n HI), (sq_nv nb B _ HB m n HI).
    assert (T := HI). rewrite (dn_in nb B) in T by assumption.
    destruct cp_dims as [(E & E1 & E2)|(E & E1 & E2)]; rewrite E; cbn [fst snd].
    - assert (HT : in_tiles A m n) by (rewrite (dn_in nb A) by assumption; rewrite E1, E2; assumption).
      rewrite (sq_mv nb A _ HA m n HT), (sq_nv nb A _ HA m n HT), E1, E2. reflexivity.
    - assert (HT : in_tiles A n m) by (rewrite (dn_in nb A) by assumption; rewrite E1, E2; tauto).
      rewrite (sq_mv nb A _ HA n m HT), (sq_nv nb A _ HA n m HT), E1, E2.
      destruct (transa =? PlasmaTrans); reflexivity.
  Qed.

  Lemma cpt_other : forall q (M : mem N) l, fst l <> bB -> k_fun (cpt q) M l = M l.
  Proof.
    intros q M l Hl. cbn [cpt omp_zlacpy_t k_fun]. unfold core_zlacpy_t, core_zlacpy.
    destruct (transa =? PlasmaNoTrans); [|destruct (transa =? PlasmaTrans)];
      (apply mset_out; intros R; apply reg_block in R; cbn in R; congruence).
  Qed.

  Lemma pzlacpy_at : forall (M0 : mem N) i j, 0 <= i < d_m B -> 0 <= j < d_n B ->
    at_elem M0 bB B i j (krun (pzlacpy uplo transa bA A bB B) M0)
      (if cpsel i j then op_el M0 transa bA A i j else el M0 bB B i j).
  Proof.
    intros M0 i j Hi Hj. rewrite pzlacpy_eq.
    assert (TI : forall i' j', 0 <= i' < d_m B -> 0 <= j' < d_n B -> in_tiles B (i' / nb) (j' / nb)).
    { intros i' j' Hi' Hj'. pose proof (in_tiles_pos B i' j' (td_shape _ _ (sq_t nb B _ HB))) as Q.
      rewrite (sq_mb nb B _ HB), (sq_nb nb B _ HB) in Q. apply Q; lia. }
    assert (ST : forall i' j', cpsel i' j' = lsel uplo (fst (sw (i' / nb, j' / nb))) (snd (sw (i' / nb, j' / nb)))
      && (if transa =? PlasmaNoTrans then uplo_sel (lu uplo (i' / nb) (j' / nb)) (i' mod nb) (j' mod nb)
          else uplo_sel (lu uplo (j' / nb) (i' / nb)) (j' mod nb) (i' mod nb))).
    { intros i' j'. unfold cpsel, sw. destruct (transa =? PlasmaNoTrans); apply (sel_tiles nb A uplo HA Hu). }
    apply (sweep_at nb B bB cpt cpsel (fun M => op_el M transa bA A) cpL); auto using cpL_NoDup.
    - intros p M l _ Hl. apply cpt_other. assumption.
    - intros [m n] M i' j' Hp Hi' Hj'. apply cpL_in in Hp. destruct Hp as [HI HS].
      rewrite cpt_fun by assumption. rewrite (sq_set nb B _ HB); auto. rewrite ST. cbn [fst snd].
      destruct (Z.eqb_spec (i' / nb) m) as [<-|]; cbn [andb]; [|reflexivity].
      destruct (Z.eqb_spec (j' / nb) n) as [<-|]; cbn [andb]; [|reflexivity].
      rewrite HS. cbn [andb].
      match goal with |- (if ?b then _ else _) = _ => destruct b; [|reflexivity] end.
      destruct (pos_tile nb B _ HB i' (d_m B) Hi') as (P1 & P2 & P3).
      destruct (pos_tile nb B _ HB j' (d_n B) Hj') as (Q1 & Q2 & Q3).
      rewrite (op_rd_el nb A (in_tiles A)); auto.
      + rewrite <- P3, <- Q3. reflexivity.
      + unfold op_S. assert (T := HI). rewrite (dn_in nb B) in T by assumption.
        destruct cp_dims as [(E & E1 & E2)|(E & E1 & E2)]; rewrite E; rewrite (dn_in nb A) by assumption; rewrite E1, E2; tauto.
      + rewrite Hm. assumption.
      + rewrite Hn. assumption.
    - intros M M' i' j' _ _ H _. unfold op_el. rewrite !(el_ext N M M' bA A); [reflexivity|intros; apply H; congruence..].
    - intros i' j' Hi' Hj' HS. apply cpL_in. split; [auto|].
      rewrite ST in HS. apply andb_true_iff in HS. tauto.
  Qed.

  Lemma pzlacpy_frame : forall (M0 : mem N) l, fst l <> bB -> krun (pzlacpy uplo transa bA A bB B) M0 l = M0 l.
  Proof.
    intros. rewrite pzlacpy_eq. apply (sweep_frame bB); auto. intros p M l' _ Hl. apply cpt_other. assumption.
  Qed.

  Lemma pzlacpy_kgood : Forall kgood (pzlacpy (N := N) uplo transa bA A bB B).
  Proof.
    rewrite pzlacpy_eq. apply Forall_map. apply Forall_forall. intros [m n] Hp. apply cpL_in in Hp.
    destruct Hp as [HI _]. pose proof (td_ld B _ (sq_t nb B _ HB) m n HI) as LD.
    rewrite (sq_mv nb B _ HB m n HI) in LD.
    assert (T := HI). rewrite (dn_in nb B) in T by assumption.
    unfold cpt, omp_zlacpy_t, core_zlacpy_t, core_zlacpy, sw.
    destruct cp_dims as [(E & E1 & E2)|(E & E1 & E2)]; rewrite E; cbn [fst snd].
    - assert (HT : in_tiles A m n) by (rewrite (dn_in nb A) by assumption; rewrite E1, E2; assumption).
      apply mset_kgood.
      + rewrite (sq_mv nb A _ HA m n HT), E1. assumption.
      + apply finite_reg.
      + intros M M' r c Hr Hc HP HX. apply HX. exists r, c. auto.
    - assert (HT : in_tiles A n m) by (rewrite (dn_in nb A) by assumption; rewrite E1, E2; tauto).
      destruct (transa =? PlasmaTrans); apply mset_kgood.
      + rewrite (sq_nv nb A _ HA n m HT), E1. assumption.
      + apply finite_reg.
      + intros M M' r c Hr Hc HP HX. apply HX. exists c, r. auto.
      + rewrite (sq_nv nb A _ HA n m HT), E1. assumption.
      + apply finite_reg.
      + intros M M' r c Hr Hc HP HX. apply f_equal. apply HX. exists c, r. auto.
  Qed.

  Lemma pzlacpy_kdecl : forall env, In (bA, homeD A (in_tiles A)) env -> In (bB, homeD B (in_tiles B)) env ->
    Forall (kdecl (home_env env)) (pzlacpy (N := N) uplo transa bA A bB B).
  Proof.
    intros env EA EB. rewrite pzlacpy_eq. apply Forall_map. apply Forall_forall. intros [m n] Hp. apply cpL_in in Hp.
    destruct Hp as [HI _]. assert (T := HI). rewrite (dn_in nb B) in T by assumption.
    assert (HT : in_tiles A (fst (sw (m, n))) (snd (sw (m, n)))).
    { unfold sw. destruct cp_dims as [(E & E1 & E2)|(E & E1 & E2)]; rewrite E; cbn [fst snd];
        rewrite (dn_in nb A) by assumption; rewrite E1, E2; tauto. }
    apply kdecl_intro; cbn [cpt omp_zlacpy_t k_deps k_reads k_writes fst snd]; intros l HR.
    - left. eexists. split; [left; reflexivity|]. cbn [fst dep_in]. eapply home_tile; eauto.
    - eexists. split; [right; left; reflexivity|]. split; [|discriminate]. cbn [dep_out].
      apply (home_tile _ B (in_tiles B) bB m n everywhere); auto.
      rewrite (sq_mv nb B _ HB m n HI), (sq_nv nb B _ HB m n HI).
      enough (exists P, reg (tptr bB B m n) (tile_mmain B m) (tsz nb (d_m B) m) (tsz nb (d_n B) n) P l) as (P & R).
      { destruct R as (r & c & Hr & Hc & _ & El). exists r, c. auto. }
      unfold sw in *. destruct cp_dims as [(E & E1 & E2)|(E & E1 & E2)]; rewrite E in *; cbn [fst snd] in *.
      + rewrite (sq_mv nb A _ HA m n HT), (sq_nv nb A _ HA m n HT), E1, E2 in HR. eexists. exact HR.
      + rewrite (sq_mv nb A _ HA n m HT), (sq_nv nb A _ HA n m HT), E1, E2 in HR. eexists. exact HR.
  Qed.
End Copy.
