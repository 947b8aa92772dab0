(* What the tasks of the inversion of a triangular matrix do to its lower view. *)
From Coq Require Import ZArith List Bool Lia Ring.
From Verif Require Import Base NumModel NumProofs FieldModel TaskModel TaskSpec TaskProofs DescModel DescSpec
  DescDriverModel DescProofs DescPackProofs DescProofs3 DescProofs4 MatModel MatSpec MatProofs RegionProofs
  GuardModel GuardSpec GuardProofs GuardProofs2
  LayoutModel LayoutProofs LayoutProofs2 DriverModel DriverSpec OpProofs SimProofs OperandProofs
  GemmModel GemmProofs GemmDriverProofs RankModel RankProofs RankDriverProofs LasetModel LasetProofs
  TriModel TriSpec TriVecProofs TriProofs TrmmProofs TrsmProofs PotrfModel CholProofs PotrfProofs InvProofs ViewProofs TrtriModel TrtriTaskProofs.
Import ListNotations.
Open Scope Z_scope.

Section Steps.
  Context {F : fields}.
  Add Ring num_ring_trtri_steps : (nring F).
  Variables (nb n : Z) (A : desc) (SA : Z -> Z -> Prop) (bA uplo diag : Z).
  Hypothesis Hu : valid_uplo uplo.
  Hypothesis HQ : sq nb A SA.
  Hypotheses (DM : d_m A = n) (DN : d_n A = n).
  Let nt := ntl nb n.
  Hypothesis HSA : forall i j, 0 <= i < nt -> 0 <= j < nt -> uplo_sel uplo i j = true -> SA i j.
  Let Hb : 0 < nb := sq_pos nb A _ HQ.
  Let Hn : 0 <= n.
  Proof. rewrite <- DM. apply (go_m A (td_shape _ _ (sq_t nb A _ HQ))). Qed.

  Local Notation low := (vlow uplo).
  Local Notation tm := (vr uplo).
  Local Notation tn := (vc uplo).
  Local Notation tp := (vp A bA uplo).
  Local Notation tl := (vl A uplo).
  Local Notation rel := (vrel nb n A bA uplo).
  Local Notation stored := (vstored nb n).

  Let t_ld : forall m k, 0 <= k <= m -> m < nt -> tsz nb n (tm m k) <= tl m k.
  Proof. exact (vt_ld nb n A SA uplo Hu HQ DM HSA). Qed.
  Let t_full : forall k m, 0 <= k < m -> m < nt -> tsz nb n k = nb.
  Proof. exact (vt_full nb n A SA HQ DM). Qed.
  Let t_pos : forall k, 0 <= k < nt -> 0 < tsz nb n k <= nb.
  Proof. exact (vt_pos nb n A SA HQ DM). Qed.
  Let t_sel : forall a c, uplo_sel uplo (tm a c) (tn a c) = (c <=? a).
  Proof. exact (vsel nb n SA uplo Hu HSA). Qed.
  Let pos_el : forall m a, 0 <= m < nt -> 0 <= a < tsz nb n m ->
    0 <= m * nb + a < n /\ (m * nb + a) / nb = m /\ (m * nb + a) mod nb = a.
  Proof. exact (vpos_el nb n A SA HQ). Qed.
  Let el_pos : forall i, 0 <= i < n -> 0 <= i / nb < nt /\ 0 <= i mod nb < tsz nb n (i / nb) /\ i = i / nb * nb + i mod nb.
  Proof. exact (vel_pos nb n A SA HQ DM). Qed.

  Local Notation rtask := (@rtask F nb n A bA uplo diag).
  Local Notation utask := (@utask F nb n A bA uplo).
  Local Notation ltask := (@ltask F nb n A bA uplo diag).
  Local Notation ttask := (@ttask F nb n A bA uplo diag).
  Local Notation unit := (diag =? PlasmaUnit).

  (* conjugation of the view *)
  Definition cj (x : F) : F := if low then x else nconj x.
  Lemma cj_cj : forall x, cj (cj x) = x.
  Proof. intros x. unfold cj. destruct low; [reflexivity|apply nconj_conj]. Qed.
  Lemma cj_mul : forall x y, cj (nmul x y) = nmul (cj x) (cj y).
  Proof. intros. unfold cj. destruct low; [reflexivity|apply nconj_mul]. Qed.
  Lemma cj_add : forall x y, cj (nadd x y) = nadd (cj x) (cj y).
  Proof. intros. unfold cj. destruct low; [reflexivity|apply nconj_add]. Qed.
  Lemma cj_opp : forall x, cj (nopp x) = nopp (cj x).
  Proof. intros. unfold cj. destruct low; [reflexivity|apply nconj_opp]. Qed.
  Lemma cj_0 : cj n0 = n0.
  Proof. unfold cj. destruct low; [reflexivity|apply nconj_0]. Qed.
  Lemma cj_1 : cj n1 = n1.
  Proof. unfold cj. destruct low; [reflexivity|apply nconj_1]. Qed.
  Lemma cj_sum : forall f a b, cj (nsum f a b) = nsum (fun l => cj (f l)) a b.
  Proof. intros. unfold cj. destruct low; [reflexivity|apply nconj_sum]. Qed.
  Lemma cj_nz : forall x, x <> n0 -> cj x <> n0.
  Proof. intros x H E. apply H. rewrite <- (cj_cj x), E. apply cj_0. Qed.

  Variable M0 : mem F.

  Lemma rd_view2 : forall X M m k a c, rel M0 X M -> 0 <= k <= m -> m < nt ->
    0 <= a < tsz nb n m -> 0 <= c < tsz nb n k ->
    rd M (tp m k) (tl m k) (tm a c) (tn a c) = cj (X (m * nb + a) (k * nb + c)).
  Proof.
    intros X M m k a c HR Hk Hm Ha Hc.
    pose proof (vrel_rd nb n A SA bA uplo Hu HQ DM DN HSA M0 X M m k a c HR Hk Hm Ha Hc) as E.
    unfold low_rd in E. fold (vlow uplo) in E. rewrite <- E. unfold cj, vr, vc. destruct low; [reflexivity|].
    rewrite nconj_conj. reflexivity.
  Qed.

  (* element (r,c) of the triangular matrix in tile (k,k) of the view *)
  Definition tk (X : Z -> Z -> F) (k r c : Z) : F :=
    if unit && (r =? c) then n1 else if c <=? r then X (k * nb + r) (k * nb + c) else n0.

  Lemma tri_view : forall X M k r c, rel M0 X M -> 0 <= k < nt -> 0 <= r < tsz nb n k -> 0 <= c < tsz nb n k ->
    tri_rd M uplo diag (tp k k) (tl k k) (tm r c) (tn r c) = cj (tk X k r c).
  Proof.
    intros X M k r c HR Hk Hr Hc. unfold tri_rd, tk. rewrite t_sel.
    assert (E : (tm r c =? tn r c) = (r =? c)) by (unfold vr, vc; destruct low; [reflexivity|apply Z.eqb_sym]).
    rewrite E. destruct (unit && (r =? c)); [symmetry; apply cj_1|]. destruct (c <=? r) eqn:L.
    - apply rd_view2; auto; lia.
    - symmetry. apply cj_0.
  Qed.

  Lemma set_all : forall X X' M m k f, rel M0 X M -> 0 <= k <= m -> m < nt ->
    (forall a c, 0 <= a < tsz nb n m -> 0 <= c < tsz nb n k ->
       f (tm a c) (tn a c) = cj (X' (m * nb + a) (k * nb + c))) ->
    (forall i j, stored i j -> ~ (i / nb = m /\ j / nb = k) -> X' i j = X i j) ->
    rel M0 X' (mset (tp m k) (tl m k) (tsz nb n (tm m k)) (tsz nb n (tn m k)) everywhere f M).
  Proof.
    intros X X' M m k f HR Hk Hm H1 H2.
    apply (vrel_set nb n A SA bA uplo Hu HQ DM DN HSA M0 X X' M m k everywhere (fun _ _ => true)); auto.
    - intros a c Ha Hc _. specialize (H1 a c Ha Hc). rewrite <- (cj_cj (X' (m * nb + a) (k * nb + c))), <- H1.
      unfold cj, vr, vc. destruct low; reflexivity.
    - intros i j Hij HN. apply H2; [assumption|]. intros [E1 E2]. apply HN. auto.
  Qed.

  Lemma rtask_step : forall X X' M k m, rel M0 X M -> 0 <= k < m -> m < nt ->
    (forall r, 0 <= r < nb -> tk X k r r <> n0) ->
    (forall a r, 0 <= a < tsz nb n m -> 0 <= r < nb ->
       nsum (fun l => nmul (X' (m * nb + a) (k * nb + l)) (tk X k l r)) r nb = nopp (X (m * nb + a) (k * nb + r))) ->
    (forall i c, stored i c -> ~ (i / nb = m /\ c / nb = k) -> X' i c = X i c) ->
    rel M0 X' (k_fun (rtask k m) M).
  Proof.
    intros X X' M k m HR Hk Hm HD H1 H2. pose proof (t_full k m Hk Hm) as TK.
    cbn [TrtriTaskProofs.rtask omp_ztrsm k_fun]. unfold core_ztrsm.
    apply (set_all X X' M m k); auto; try lia.
    intros a c Ha Hc. rewrite TK in Hc.
    assert (SV : forall r l, 0 <= r < nb -> 0 <= l < nb ->
      op_tri M PlasmaNoTrans uplo diag (tp k k) (tl k k) (tm l r) (tn l r) = cj (tk X k l r)).
    { intros r l Hr Hl. unfold op_tri. change (PlasmaNoTrans =? PlasmaNoTrans) with true. cbv iota.
      apply tri_view; auto; lia. }
    assert (RB : forall r, 0 <= r < nb -> nmul (nopp n1) (rd M (tp m k) (tl m k) (tm a r) (tn a r))
      = cj (nopp (X (m * nb + a) (k * nb + r)))).
    { intros r Hr. rewrite (rd_view2 X) by (auto; lia). rewrite cj_opp. ring. }
    assert (UP : op_up uplo PlasmaNoTrans = negb low).
    { unfold vlow. destruct Hu as [->| ->]; reflexivity. }
    assert (SUM : forall r, 0 <= r < nb ->
      nsum (fun l => nmul (cj (tk X k l r)) (cj (X' (m * nb + a) (k * nb + l)))) r nb
      = cj (nopp (X (m * nb + a) (k * nb + r)))).
    { intros r Hr. rewrite <- H1 by lia. rewrite cj_sum. apply nsum_ext. intros l _. rewrite cj_mul. ring. }
    assert (ZL : forall r l, 0 <= l < r -> r < nb -> cj (tk X k l r) = n0).
    { intros r l Hl Hr. unfold tk. replace (l =? r) with false by (symmetry; apply Z.eqb_neq; lia).
      rewrite andb_false_r. replace (r <=? l) with false by (symmetry; apply Z.leb_gt; lia). apply cj_0. }
    unfold vr, vc in *. rewrite UP. destruct low; cbn [negb].
    - change (PlasmaRight =? PlasmaLeft) with false. cbv iota. rewrite TK.
      apply (solve_unique_down _ nb _ (fun r => cj (X' (m * nb + a) (k * nb + r)))); [| | |assumption].
      + intros r Hr. rewrite SV by lia. apply cj_nz. auto.
      + intros r l Hl Hr. rewrite SV by lia. apply ZL; lia.
      + intros r Hr. rewrite RB by lia. rewrite <- SUM by lia. apply nsum_ext. intros l Hl. rewrite SV by lia. reflexivity.
    - change (PlasmaLeft =? PlasmaLeft) with true. cbv iota. rewrite TK.
      apply (solve_unique_down _ nb _ (fun r => cj (X' (m * nb + a) (k * nb + r)))); [| | |assumption].
      + intros r Hr. rewrite SV by lia. apply cj_nz. auto.
      + intros r l Hl Hr. rewrite SV by lia. apply ZL; lia.
      + intros r Hr. rewrite RB by lia. rewrite <- SUM by lia. apply nsum_ext. intros l Hl. rewrite SV by lia. reflexivity.
  Qed.

  Lemma ltask_step : forall X X' M k j, rel M0 X M -> 0 <= j < k -> k < nt ->
    (forall r, 0 <= r < tsz nb n k -> tk X k r r <> n0) ->
    (forall r c, 0 <= r < tsz nb n k -> 0 <= c < nb ->
       nsum (fun l => nmul (tk X k r l) (X' (k * nb + l) (j * nb + c))) 0 (r + 1) = X (k * nb + r) (j * nb + c)) ->
    (forall i c, stored i c -> ~ (i / nb = k /\ c / nb = j) -> X' i c = X i c) ->
    rel M0 X' (k_fun (ltask k j) M).
  Proof.
    intros X X' M k j HR Hj Hk HD H1 H2. pose proof (t_full j k Hj Hk) as TJ.
    cbn [TrtriTaskProofs.ltask omp_ztrsm k_fun]. unfold core_ztrsm.
    apply (set_all X X' M k j); auto; try lia.
    intros a c Ha Hc. rewrite TJ in Hc.
    assert (SV : forall r l, 0 <= r < tsz nb n k -> 0 <= l < tsz nb n k ->
      op_tri M PlasmaNoTrans uplo diag (tp k k) (tl k k) (tm r l) (tn r l) = cj (tk X k r l)).
    { intros r l Hr Hl. unfold op_tri. change (PlasmaNoTrans =? PlasmaNoTrans) with true. cbv iota.
      apply tri_view; auto; lia. }
    assert (RB : forall r, 0 <= r < tsz nb n k -> nmul n1 (rd M (tp k j) (tl k j) (tm r c) (tn r c))
      = cj (X (k * nb + r) (j * nb + c))).
    { intros r Hr. rewrite (rd_view2 X) by (auto; lia). ring. }
    assert (UP : op_up uplo PlasmaNoTrans = negb low).
    { unfold vlow. destruct Hu as [->| ->]; reflexivity. }
    assert (SUM : forall r, 0 <= r < tsz nb n k ->
      nsum (fun l => nmul (cj (tk X k r l)) (cj (X' (k * nb + l) (j * nb + c)))) 0 (r + 1)
      = cj (X (k * nb + r) (j * nb + c))).
    { intros r Hr. rewrite <- H1 by lia. rewrite cj_sum. apply nsum_ext. intros l _. rewrite cj_mul. ring. }
    assert (ZL : forall r l, 0 <= r < tsz nb n k -> r < l < tsz nb n k -> cj (tk X k r l) = n0).
    { intros r l Hl Hr. unfold tk. replace (r =? l) with false by (symmetry; apply Z.eqb_neq; lia).
      rewrite andb_false_r. replace (l <=? r) with false by (symmetry; apply Z.leb_gt; lia). apply cj_0. }
    unfold vr, vc in *. rewrite UP. destruct low; cbn [negb].
    - change (PlasmaLeft =? PlasmaLeft) with true. cbv iota.
      apply (solve_unique _ (tsz nb n k) _ (fun r => cj (X' (k * nb + r) (j * nb + c)))); [| | |assumption].
      + intros r Hr. rewrite SV by lia. apply cj_nz. auto.
      + intros r l Hl Hr. rewrite SV by lia. apply ZL; lia.
      + intros r Hr. rewrite RB by lia. rewrite <- SUM by lia. apply nsum_ext. intros l Hl. rewrite SV by lia. reflexivity.
    - change (PlasmaRight =? PlasmaLeft) with false. cbv iota.
      apply (solve_unique _ (tsz nb n k) _ (fun r => cj (X' (k * nb + r) (j * nb + c)))); [| | |assumption].
      + intros r Hr. rewrite SV by lia. apply cj_nz. auto.
      + intros r l Hl Hr. rewrite SV by lia. apply ZL; lia.
      + intros r Hr. rewrite RB by lia. rewrite <- SUM by lia. apply nsum_ext. intros l Hl. rewrite SV by lia. reflexivity.
  Qed.

  Lemma utask_step : forall X X' M k m j, rel M0 X M -> 0 <= j < k -> k < m -> m < nt ->
    (forall a c, 0 <= a < tsz nb n m -> 0 <= c < nb ->
       X' (m * nb + a) (j * nb + c) = nadd (X (m * nb + a) (j * nb + c))
         (nsum (fun l => nmul (X (m * nb + a) (k * nb + l)) (X (k * nb + l) (j * nb + c))) 0 nb)) ->
    (forall i c, stored i c -> ~ (i / nb = m /\ c / nb = j) -> X' i c = X i c) ->
    rel M0 X' (k_fun (utask k m j) M).
  Proof.
    intros X X' M k m j HR Hj Hk Hm H1 H2.
    pose proof (t_full k m ltac:(lia) Hm) as TK. pose proof (t_full j m ltac:(lia) Hm) as TJ.
    cbn [TrtriTaskProofs.utask omp_zgemm k_fun]. unfold core_zgemm.
    apply (set_all X X' M m j); auto; try lia.
    intros a c Ha Hc. rewrite TJ in Hc. rewrite H1 by lia. rewrite cj_add, cj_sum, TK.
    rewrite (rd_view2 X) by (auto; lia).
    rewrite (nsum_ext F _ (fun l => cj (nmul (X (m * nb + a) (k * nb + l)) (X (k * nb + l) (j * nb + c))))); [ring|].
    intros l Hl. rewrite cj_mul.
    pose proof (rd_view2 X M m k a l HR ltac:(lia) ltac:(lia) ltac:(lia) ltac:(lia)) as E1.
    pose proof (rd_view2 X M k j l c HR ltac:(lia) ltac:(lia) ltac:(lia) ltac:(lia)) as E2.
    unfold op_rd, vr, vc in *. change (PlasmaNoTrans =? PlasmaNoTrans) with true. cbv iota.
    destruct low; rewrite E1, E2; ring.
  Qed.

  (* the elements that are stored for the triangular matrix *)
  Definition tsel (i j : Z) : bool := (j <=? i) && negb (unit && (i =? j)).

  Lemma tri_sel_view : forall a c, tri_sel uplo diag (tm a c) (tn a c) = tsel a c.
  Proof.
    intros a c. unfold tri_sel, tsel. rewrite t_sel. unfold vr, vc. destruct low; [reflexivity|].
    rewrite (Z.eqb_sym c a). reflexivity.
  Qed.

  Definition dcode (X : Z -> Z -> F) (k : Z) : Z :=
    if unit then 0
    else match find (fun a => neqb (X (k * nb + a) (k * nb + a)) n0) (zrange 0 (tsz nb n k)) with
         | Some a => k * nb + a + 1
         | None => 0
         end.

  Lemma neqb_cj : forall x, neqb (cj x) n0 = neqb x n0.
  Proof.
    intros x. apply eq_true_iff_eq. rewrite !neqb_eq. split; intros E.
    - rewrite <- (cj_cj x), E. apply cj_0.
    - rewrite E. apply cj_0.
  Qed.

  Lemma find_In : forall (f : Z -> bool) l x, find f l = Some x -> In x l /\ f x = true.
  Proof. intros f l x H. apply find_some in H. assumption. Qed.

  Lemma ttask_info : forall X M k, rel M0 X M -> 0 <= k < nt ->
    ck_info (ttask k) M = dcode X k /\
    (core_ztrtri_info diag (tsz nb n k) (tp k k) (tl k k) M = 0 <-> dcode X k = 0).
  Proof.
    intros X M k HR Hk. cbn [TrtriTaskProofs.ttask omp_ztrtri ck_info]. unfold core_ztrtri_info, dcode.
    destruct unit; [cbn; tauto|].
    rewrite (find_ext _ (fun a => neqb (X (k * nb + a) (k * nb + a)) n0)).
    - destruct (find _ _) as [a|] eqn:E; [|cbn; tauto]. apply find_In in E. destruct E as [E _]. apply in_zrange in E.
      cbv zeta. replace (a + 1 =? 0) with false by (symmetry; apply Z.eqb_neq; lia). split; [lia|].
      assert (0 <= k * nb) by nia. lia.
    - intros a Ha. apply in_zrange in Ha.
      pose proof (rd_view2 X M k k a a HR ltac:(lia) ltac:(lia) Ha Ha) as E. rewrite vr_diag, vc_diag in E.
      rewrite E. apply neqb_cj.
  Qed.

  (* Y is the inverse of the triangular matrix in tile (k,k) *)
  Lemma ttask_step : forall X X' Y M k, rel M0 X M -> 0 <= k < nt ->
    (forall r, 0 <= r < tsz nb n k -> tk X k r r <> n0) ->
    (forall r c, 0 <= r < tsz nb n k -> 0 <= c < tsz nb n k ->
       nsum (fun l => nmul (tk X k r l) (Y l c)) 0 (tsz nb n k) = delta r c) ->
    (forall r c, 0 <= r < tsz nb n k -> 0 <= c < tsz nb n k ->
       nsum (fun l => nmul (Y r l) (tk X k l c)) 0 (tsz nb n k) = delta r c) ->
    (forall a c, 0 <= a < tsz nb n k -> 0 <= c < tsz nb n k -> tsel a c = true ->
       X' (k * nb + a) (k * nb + c) = Y a c) ->
    (forall i j, stored i j -> ~ (i / nb = k /\ j / nb = k /\ tsel i j = true) -> X' i j = X i j) ->
    rel M0 X' (k_fun (ck_task (ttask k)) M).
  Proof.
    intros X X' Y M k HR Hk HD HY1 HY2 H1 H2.
    cbn [TrtriTaskProofs.ttask omp_ztrtri ck_task k_fun]. unfold core_ztrtri.
    assert (NI : core_ztrtri_info diag (tsz nb n k) (tp k k) (tl k k) M = 0).
    { apply (ttask_info X M k HR Hk). unfold dcode. destruct unit eqn:EU; [reflexivity|].
      destruct (find _ _) as [a|] eqn:E; [|reflexivity]. exfalso. apply find_In in E. destruct E as [E1 E2].
      apply in_zrange in E1. apply neqb_eq in E2. apply (HD a E1). unfold tk. rewrite EU, Z.leb_refl. exact E2. }
    rewrite NI. change (0 =? 0) with true. cbv iota.
    pose proof (fun f => vrel_set nb n A SA bA uplo Hu HQ DM DN HSA M0 X X' M k k (tri_sel uplo diag) tsel f HR) as G.
    rewrite vr_diag, vc_diag in G. apply G; clear G; try lia.
    - apply tri_sel_view.
    - intros a c Ha Hc HS. rewrite H1 by assumption.
      assert (SV : forall r l, 0 <= r < tsz nb n k -> 0 <= l < tsz nb n k ->
        tri_rd M uplo diag (tp k k) (tl k k) (tm r l) (tn r l) = cj (tk X k r l)).
      { intros r l Hr Hl. apply tri_view; auto; lia. }
      assert (ZL : forall r l, 0 <= r < l -> tk X k r l = n0).
      { intros r l Hl. unfold tk. replace (r =? l) with false by (symmetry; apply Z.eqb_neq; lia).
        rewrite andb_false_r. replace (l <=? r) with false by (symmetry; apply Z.leb_gt; lia). reflexivity. }
      assert (UP : (uplo =? PlasmaUpper) = negb low) by (apply (v_up nb n SA uplo Hu HSA)).
      rewrite UP. destruct (Sumbool.sumbool_of_bool low) as [L|L]; rewrite !L; unfold vr, vc, cj in SV; rewrite L in SV; cbn [negb].
      + apply (solve_unique _ (tsz nb n k) _ (fun l => Y l c)); [| | |assumption].
        * intros r Hr. rewrite SV by lia. auto.
        * intros r l Hr Hl. rewrite SV by lia. apply ZL; lia.
        * intros r Hr. rewrite (nsum_ext F _ (fun l => nmul (tk X k r l) (Y l c))) by (intros l Hl; rewrite SV by lia; reflexivity).
          transitivity (delta (N := F) r c); [|reflexivity]. rewrite <- HY1 by lia.
          rewrite (nsum_app _ _ 0 (r + 1) (tsz nb n k)) by lia. rewrite (nsum_0 _ _ (r + 1)); [ring|].
          intros l Hl. rewrite ZL by lia. ring.
      + rewrite <- (nconj_conj F (Y a c)). apply f_equal.
        apply (solve_unique_down _ (tsz nb n k) _ (fun l => nconj (Y a l))); [| | |assumption].
        * intros r Hr. rewrite SV by lia. intros E. apply (HD r Hr). rewrite <- (nconj_conj F (tk X k r r)), E. apply nconj_0.
        * intros r l Hl Hr. rewrite SV by lia. rewrite ZL by lia. apply nconj_0.
        * intros r Hr. rewrite (nsum_ext F _ (fun l => nconj (nmul (Y a l) (tk X k l r))))
            by (intros l Hl; rewrite SV by lia; rewrite nconj_mul; ring).
          rewrite <- nconj_sum. transitivity (nconj (delta (N := F) a r)).
          -- rewrite <- HY2 by lia. rewrite (nsum_app _ _ 0 r (tsz nb n k)) by lia. rewrite (nsum_0 _ _ 0 r).
             ++ apply f_equal. ring.
             ++ intros l Hl. rewrite ZL by lia. ring.
          -- unfold delta. rewrite (Z.eqb_sym a r). destruct (r =? a); [apply nconj_1|apply nconj_0].
    - intros i j Hij HN. apply H2; [assumption|]. intros (E1 & E2 & E3). apply HN. repeat split; auto.
      destruct Hij as (Hi & Hj & _).
      destruct (el_pos i Hi) as (_ & _ & A2). destruct (el_pos j Hj) as (_ & _ & B2). rewrite E1 in A2. rewrite E2 in B2.
      rewrite <- E3. rewrite A2, B2 at 2. unfold tsel. f_equal.
      + destruct (Z.leb_spec (j mod nb) (i mod nb)), (Z.leb_spec (k * nb + j mod nb) (k * nb + i mod nb)); auto; lia.
      + f_equal. f_equal. destruct (Z.eqb_spec (i mod nb) (j mod nb)), (Z.eqb_spec (k * nb + i mod nb) (k * nb + j mod nb)); auto; lia.
  Qed.
End Steps.
