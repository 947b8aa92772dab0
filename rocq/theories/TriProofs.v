(* Tile tasks of triangular multiply and solve, seen on one column (or row) of B. *)
From Coq Require Import ZArith List Bool Lia Ring.
From Verif Require Import Base NumModel NumProofs FieldModel TaskModel TaskSpec TaskProofs DescModel DescSpec
  DescDriverModel DescProofs DescProofs3 DescProofs4 MatModel MatSpec MatProofs RegionProofs
  LayoutModel LayoutProofs LayoutProofs2 DriverModel DriverSpec OpProofs SimProofs OperandProofs
  GemmModel GemmProofs GemmDriverProofs RankProofs RankDriverProofs LasetModel TriModel TriVecProofs.
Import ListNotations.
Open Scope Z_scope.

Lemma tri_rd_local : forall (N : numbers) uplo diag p ld n (M M' : mem N) i j, 0 <= i < n -> 0 <= j < n ->
  (forall x, reg p ld n n (uplo_sel uplo) x -> M x = M' x) ->
  tri_rd M uplo diag p ld i j = tri_rd M' uplo diag p ld i j.
Proof.
  intros N uplo diag p ld n M M' i j Hi Hj H. unfold tri_rd.
  destruct (_ && _); [reflexivity|]. destruct (uplo_sel uplo i j) eqn:E; [|reflexivity].
  apply H. exists i, j. auto.
Qed.

Lemma op_tri_local : forall (N : numbers) trans uplo diag p ld n (M M' : mem N) i j, 0 <= i < n -> 0 <= j < n ->
  (forall x, reg p ld n n (uplo_sel uplo) x -> M x = M' x) ->
  op_tri M trans uplo diag p ld i j = op_tri M' trans uplo diag p ld i j.
Proof.
  intros N trans uplo diag p ld n M M' i j Hi Hj H. unfold op_tri.
  rewrite (tri_rd_local N uplo diag p ld n M M' i j), (tri_rd_local N uplo diag p ld n M M' j i) by assumption.
  reflexivity.
Qed.

Lemma omp_ztrmm_kgood : forall (N : numbers) side uplo trans diag m n (alpha : N) A lda B ldb, m <= ldb ->
  kgood (omp_ztrmm side uplo trans diag m n alpha A lda B ldb).
Proof.
  intros. apply mset_kgood; auto.
  - apply finite_or; apply finite_reg.
  - intros M M' i j Hi Hj _ HX. apply f_equal. destruct (side =? PlasmaLeft); apply nsum_ext; intros l Hl; apply f_equal2.
    + eapply op_tri_local; eauto.
    + apply HX. right. exists l, j. auto.
    + apply HX. right. exists i, l. auto.
    + eapply op_tri_local; eauto.
Qed.

Lemma in_ord : forall (b : bool) n x, In x (if b then zdown n else zrange 0 n) <-> 0 <= x < n.
Proof. intros. destruct b; [apply in_zdown|apply in_zrange]. Qed.
Lemma in_ord' : forall (b : bool) n x, In x (if b then zrange 0 n else zdown n) <-> 0 <= x < n.
Proof. intros. destruct b; [apply in_zrange|apply in_zdown]. Qed.

Lemma omp_ztrsm_kgood : forall (F : fields) side uplo trans diag m n (alpha : F) A lda B ldb, m <= ldb ->
  kgood (omp_ztrsm side uplo trans diag m n alpha A lda B ldb).
Proof.
  intros. apply mset_kgood; auto.
  - apply finite_or; apply finite_reg.
  - intros M M' i j Hi Hj _ HX. destruct (side =? PlasmaLeft).
    + apply solve_ext; cbn [app].
      * intros r l Hr Hl. rewrite in_ord in Hr, Hl. eapply op_tri_local; eauto.
      * intros l Hl. rewrite in_ord in Hl. apply f_equal. apply HX. right. exists l, j. auto.
      * rewrite in_ord. assumption.
    + apply solve_ext; cbn [app].
      * intros r l Hr Hl. rewrite in_ord' in Hr, Hl. eapply op_tri_local; eauto.
      * intros l Hl. rewrite in_ord' in Hl. apply f_equal. apply HX. right. exists i, l. auto.
      * rewrite in_ord'. assumption.
Qed.

Section Tri.
  Context {N : numbers}.
  Add Ring num_ring_tri : (nring N).
  Variables (nb : Z) (A B : desc) (SA : Z -> Z -> Prop) (bA bB side uplo trans diag : Z).
  Hypotheses (HA : sq nb A SA) (HB : dn nb B).
  Hypothesis Hu : uplo = PlasmaUpper \/ uplo = PlasmaLower.
  Hypothesis AS : d_m A = d_n A.
  Definition lft : bool := side =? PlasmaLeft.
  Hypothesis AM : d_n A = if lft then d_m B else d_n B.
  Let K := d_n A.
  Definition oth : Z := if lft then d_n B else d_m B.
  Let nt := ntl nb K.
  Let nq := ntl nb oth.
  Hypothesis HSA : forall i j, 0 <= i < nt -> 0 <= j < nt -> uplo_sel uplo i j = true -> SA i j.
  Let Hb : 0 < nb := sq_pos nb B _ HB.
  Let HK : 0 <= K := go_n A (td_shape _ _ (sq_t nb A _ HA)).
  Let HmB : 0 <= d_m B := go_m B (td_shape _ _ (sq_t nb B _ HB)).
  Let HnB : 0 <= d_n B := go_n B (td_shape _ _ (sq_t nb B _ HB)).

  (* T, the matrix acting on a column (row) of B, is upper triangular *)
  Definition tup : bool := if lft then op_up uplo trans else negb (op_up uplo trans).
  Definition gside (p k : Z) : Prop := if tup then p < k else k < p.

  (* tile of B at position p along the vector and q across *)
  Definition vm (p q : Z) : Z := if lft then p else q.
  Definition vn (p q : Z) : Z := if lft then q else p.
  Definition vtp (p q : Z) : loc := tptr bB B (vm p q) (vn p q).
  Definition vld (p q : Z) : Z := tile_mmain B (vm p q).

  Definition ttask (a : N) (p q : Z) : ktask N :=
    omp_ztrmm side uplo trans diag (tile_mview B (vm p q)) (tile_nview B (vn p q)) a
      (tptr bA A p p) (tile_mmain A p) (vtp p q) (vld p q).
  Definition gtask (a b : N) (p k q : Z) : ktask N :=
    if lft then
      omp_zgemm trans PlasmaNoTrans (tile_mview B p) (tile_nview B q) (tsz nb K k) a
        (op_tile trans bA A p k) (op_ld trans A p k) (op_tile PlasmaNoTrans bB B k q) (op_ld PlasmaNoTrans B k q)
        b (tptr bB B p q) (tile_mmain B p)
    else
      omp_zgemm PlasmaNoTrans trans (tile_mview B q) (tile_nview B p) (tsz nb K k) a
        (op_tile PlasmaNoTrans bB B q k) (op_ld PlasmaNoTrans B q k) (op_tile trans bA A k p) (op_ld trans A k p)
        b (tptr bB B q p) (tile_mmain B q).

  Lemma tB : forall p q, 0 <= p < nt -> 0 <= q < nq -> in_tiles B (vm p q) (vn p q).
  Proof.
    intros p q Hp Hq. unfold in_tiles, vm, vn. rewrite (dn_mt nb B HB), (dn_nt nb B HB).
    unfold nt, nq, K, oth in *. rewrite AM in Hp. destruct lft; auto.
  Qed.
  Lemma tBl : forall p q, 0 <= p < nt -> 0 <= q < nq -> lft = true -> in_tiles B p q.
  Proof. intros p q Hp Hq L. pose proof (tB p q Hp Hq) as H. unfold vm, vn in H. rewrite L in H. exact H. Qed.
  Lemma tBr : forall p q, 0 <= p < nt -> 0 <= q < nq -> lft = false -> in_tiles B q p.
  Proof. intros p q Hp Hq L. pose proof (tB p q Hp Hq) as H. unfold vm, vn in H. rewrite L in H. exact H. Qed.

  Lemma mvB : forall m n, in_tiles B m n -> tile_mview B m = tsz nb (d_m B) m.
  Proof. intros m n. apply (sq_mv nb B _ HB). Qed.
  Lemma nvB : forall m n, in_tiles B m n -> tile_nview B n = tsz nb (d_n B) n.
  Proof. intros m n. apply (sq_nv nb B _ HB). Qed.
  Lemma KL : lft = true -> K = d_m B /\ oth = d_n B.
  Proof. intros L. unfold K, oth. rewrite AM, L. auto. Qed.
  Lemma KR : lft = false -> K = d_n B /\ oth = d_m B.
  Proof. intros L. unfold K, oth. rewrite AM, L. auto. Qed.

  Lemma op_mA : forall t, op_m t A = K.
  Proof. intros t. unfold op_m. destruct (t =? PlasmaNoTrans); auto. Qed.
  Lemma op_nA : forall t, op_n t A = K.
  Proof. intros t. unfold op_n. destruct (t =? PlasmaNoTrans); auto. Qed.

  Lemma sel_up : forall i j, uplo_sel uplo i j = if uplo =? PlasmaUpper then i <=? j else j <=? i.
  Proof. clear -Hu. intros. destruct Hu as [->| ->]; reflexivity. Qed.

  (* the tile of A that a gemm task uses lies in the stored triangle *)
  Lemma gside_S : forall p k, 0 <= p < nt -> 0 <= k < nt -> gside p k ->
    op_S trans SA (if lft then p else k) (if lft then k else p).
  Proof.
    intros p k Hp Hk HG. unfold op_S, gside, tup, op_up in *.
    destruct (trans =? PlasmaNoTrans); destruct lft; apply HSA; auto; rewrite sel_up;
      destruct (uplo =? PlasmaUpper); cbn in HG; apply Z.leb_le; lia.
  Qed.
  Lemma diag_S : forall p, 0 <= p < nt -> SA p p.
  Proof. intros p Hp. apply HSA; auto. rewrite sel_up, Z.leb_refl. destruct (uplo =? PlasmaUpper); reflexivity. Qed.

  Lemma ldB : forall m n, in_tiles B m n -> tile_mview B m <= tile_mmain B m.
  Proof. intros m n. apply (td_ld B _ (sq_t nb B _ HB)). Qed.

  Lemma gtask_kgood : forall a b p k q, 0 <= p < nt -> 0 <= q < nq -> kgood (gtask a b p k q).
  Proof.
    intros a b p k q Hp Hq. unfold gtask.
    destruct (Sumbool.sumbool_of_bool lft) as [L|L]; rewrite L; apply omp_zgemm_kgood.
    - apply (ldB p q). apply tBl; assumption.
    - apply (ldB q p). apply tBr; assumption.
  Qed.
  Lemma ttask_kgood : forall a p q, 0 <= p < nt -> 0 <= q < nq -> kgood (ttask a p q).
  Proof.
    intros a p q Hp Hq. apply omp_ztrmm_kgood. eapply ldB. apply tB; eassumption.
  Qed.

  Section Decl.
    Variable env : list (Z * (Z -> Z -> Prop)).
    Hypotheses (EA : In (bA, homeD A SA) env) (EB : In (bB, homeD B (in_tiles B)) env).

    Lemma gtask_kdecl_S : forall a b p k q, 0 <= p < nt -> 0 <= k < nt -> 0 <= q < nq ->
      op_S trans SA (if lft then p else k) (if lft then k else p) ->
      kdecl (home_env env) (gtask a b p k q).
    Proof.
      intros a b p k q Hp Hk Hq GS. unfold gtask.
      destruct (Sumbool.sumbool_of_bool lft) as [L|L]; rewrite L; rewrite L in GS.
      - destruct (KL L) as [E1 E2]. pose proof (tBl p q Hp Hq L) as T1. pose proof (tBl k q Hk Hq L) as T2.
        apply (omp_zgemm_kdecl nb env A SA bA B (in_tiles B) bB B (in_tiles B) bB); auto.
        + rewrite (mvB _ _ T1), op_mA, E1. lia.
        + rewrite op_nA. lia.
        + unfold op_m. cbn. rewrite E1. lia.
        + unfold op_n. cbn. rewrite (nvB _ _ T1). lia.
      - destruct (KR L) as [E1 E2]. pose proof (tBr p q Hp Hq L) as T1. pose proof (tBr k q Hk Hq L) as T2.
        apply (omp_zgemm_kdecl nb env B (in_tiles B) bB A SA bA B (in_tiles B) bB); auto.
        + unfold op_m. cbn. rewrite (mvB _ _ T1). lia.
        + unfold op_n. cbn. rewrite E1. lia.
        + rewrite op_mA. lia.
        + rewrite (nvB _ _ T1), op_nA, E1. lia.
    Qed.

    Lemma gtask_kdecl : forall a b p k q, 0 <= p < nt -> 0 <= k < nt -> 0 <= q < nq -> gside p k ->
      kdecl (home_env env) (gtask a b p k q).
    Proof. intros a b p k q Hp Hk Hq HG. apply gtask_kdecl_S; auto. apply gside_S; assumption. Qed.

    (* the dependences of the diagonal tasks of trmm and trsm *)
    Lemma dtask_kdecl_S : forall (kt : ktask N) p q, 0 <= p < nt -> 0 <= q < nq -> SA p p ->
      k_deps kt = [dep_in (tptr bA A p p); dep_inout (vtp p q)] ->
      k_reads kt = (fun l => reg (tptr bA A p p) (tile_mmain A p)
           (if side =? PlasmaLeft then tile_mview B (vm p q) else tile_nview B (vn p q))
           (if side =? PlasmaLeft then tile_mview B (vm p q) else tile_nview B (vn p q)) (uplo_sel uplo) l
         \/ reg (vtp p q) (vld p q) (tile_mview B (vm p q)) (tile_nview B (vn p q)) everywhere l) ->
      k_writes kt = reg (vtp p q) (vld p q) (tile_mview B (vm p q)) (tile_nview B (vn p q)) everywhere ->
      kdecl (home_env env) kt.
    Proof.
      intros kt p q Hp Hq TA ED ER EW. pose proof (tB p q Hp Hq) as TB.
      apply kdecl_intro; rewrite ED; [rewrite ER|rewrite EW]; intros l HR.
      - left. destruct HR as [HR|HR].
        + eexists. split; [left; reflexivity|]. cbn. eapply home_tile with (P := uplo_sel uplo); eauto.
          rewrite (sq_mv nb A _ HA _ _ TA), (sq_nv nb A _ HA _ _ TA), AS. revert HR. fold K.
          rewrite (mvB _ _ TB), (nvB _ _ TB). unfold vm, vn. fold lft.
          pose proof KL as KL'. pose proof KR as KR'. destruct lft.
          * destruct (KL' eq_refl) as [E _]. rewrite E. auto.
          * destruct (KR' eq_refl) as [E _]. rewrite E. auto.
        + eexists. split; [right; left; reflexivity|]. cbn. eapply home_tile; eauto.
      - eexists. split; [right; left; reflexivity|]. split; [|discriminate]. cbn. eapply home_tile; eauto.
    Qed.

    Lemma dtask_kdecl : forall (kt : ktask N) p q, 0 <= p < nt -> 0 <= q < nq ->
      k_deps kt = [dep_in (tptr bA A p p); dep_inout (vtp p q)] ->
      k_reads kt = (fun l => reg (tptr bA A p p) (tile_mmain A p)
           (if side =? PlasmaLeft then tile_mview B (vm p q) else tile_nview B (vn p q))
           (if side =? PlasmaLeft then tile_mview B (vm p q) else tile_nview B (vn p q)) (uplo_sel uplo) l
         \/ reg (vtp p q) (vld p q) (tile_mview B (vm p q)) (tile_nview B (vn p q)) everywhere l) ->
      k_writes kt = reg (vtp p q) (vld p q) (tile_mview B (vm p q)) (tile_nview B (vn p q)) everywhere ->
      kdecl (home_env env) kt.
    Proof. intros kt p q Hp Hq. apply dtask_kdecl_S; auto. apply diag_S. assumption. Qed.

    Lemma ttask_kdecl : forall a p q, 0 <= p < nt -> 0 <= q < nq -> kdecl (home_env env) (ttask a p q).
    Proof. intros a p q Hp Hq. apply (dtask_kdecl _ p q Hp Hq); reflexivity. Qed.
  End Decl.

  (* ---- values ---- *)
  Hypothesis NA : bA <> bB.
  Variable M0 : mem N.

  Definition tri_el (i j : Z) : N :=
    if (diag =? PlasmaUnit) && (i =? j) then n1
    else if uplo_sel uplo i j then el M0 bA A i j else n0.
  Definition op_tel (i j : Z) : N :=
    if trans =? PlasmaNoTrans then tri_el i j
    else if trans =? PlasmaTrans then tri_el j i else nconj (tri_el j i).
  Definition TT (r l : Z) : N := if lft then op_tel r l else op_tel l r.
  Definition elV (M : mem N) (r c : Z) : N := if lft then el M bB B r c else el M bB B c r.
  Definition vstate (c : Z) (M : mem N) (x : Z -> N) : Prop :=
    (forall l, fst l <> bB -> M l = M0 l) /\ forall r, 0 <= r < K -> elV M r c = x r.

  Lemma TT_zero : forall r l, (if tup then l < r else r < l) -> TT r l = n0.
  Proof.
    intros r l H. unfold TT, op_tel, tri_el, tup, op_up in *. rewrite !sel_up.
    replace (r =? l) with false.
    2:{ symmetry. apply Z.eqb_neq. intros ->. revert H. match goal with |- (if ?b then _ else _) -> _ => destruct b end; lia. }
    replace (l =? r) with false.
    2:{ symmetry. apply Z.eqb_neq. intros ->. revert H. match goal with |- (if ?b then _ else _) -> _ => destruct b end; lia. }
    rewrite andb_false_r.
    destruct (trans =? PlasmaNoTrans); destruct lft; destruct (uplo =? PlasmaUpper); cbn in H;
      destruct (trans =? PlasmaTrans);
      match goal with |- context [?a <=? ?b] => replace (a <=? b) with false by (symmetry; apply Z.leb_gt; lia) end;
      try reflexivity; apply nconj_0.
  Qed.

  (* strictly inside the stored triangle *)
  Lemma TT_tile : forall p k r l, r / nb = p -> l / nb = k -> gside p k ->
    TT r l = if lft then op_el M0 trans bA A r l else op_el M0 trans bA A l r.
  Proof.
    intros p k r l Er El HG. destruct (div_mod_pos r nb Hb) as [E1 R1]. destruct (div_mod_pos l nb Hb) as [E2 R2].
    rewrite Er in E1. rewrite El in E2.
    unfold TT, op_tel, tri_el, op_el, gside, tup, op_up in *. rewrite !sel_up.
    replace (r =? l) with false.
    2:{ symmetry. apply Z.eqb_neq. intros ->. revert HG. match goal with |- (if ?b then _ else _) -> _ => destruct b end; nia. }
    replace (l =? r) with false.
    2:{ symmetry. apply Z.eqb_neq. intros ->. revert HG. match goal with |- (if ?b then _ else _) -> _ => destruct b end; nia. }
    rewrite andb_false_r.
    destruct (trans =? PlasmaNoTrans); destruct lft; destruct (uplo =? PlasmaUpper); cbn in HG;
      match goal with |- context [?a <=? ?b] => replace (a <=? b) with true by (symmetry; apply Z.leb_le; nia) end;
      reflexivity.
  Qed.

  Lemma op_tri_el_S : forall M p r l, SA p p -> 0 <= r < tsz nb K p -> 0 <= l < tsz nb K p ->
    (forall l, fst l <> bB -> M l = M0 l) ->
    op_tri M trans uplo diag (tptr bA A p p) (tile_mmain A p) r l = op_tel (p * nb + r) (p * nb + l).
  Proof.
    intros M p r l TA Hr Hl HF.
    assert (RD : forall r c, 0 <= r < tsz nb K p -> 0 <= c < tsz nb K p ->
      tri_rd M uplo diag (tptr bA A p p) (tile_mmain A p) r c = tri_el (p * nb + r) (p * nb + c)).
    { intros r' c' Hr' Hc'. unfold tri_rd, tri_el. rewrite !sel_up.
      rewrite (sq_rd nb A _ HA); [|assumption|rewrite AS; assumption|assumption].
      replace (p * nb + r' =? p * nb + c') with (r' =? c') by (apply eq_true_iff_eq; rewrite !Z.eqb_eq; lia).
      replace (p * nb + c' <=? p * nb + r') with (c' <=? r') by (apply eq_true_iff_eq; rewrite !Z.leb_le; lia).
      replace (p * nb + r' <=? p * nb + c') with (r' <=? c') by (apply eq_true_iff_eq; rewrite !Z.leb_le; lia).
      destruct (_ && _); [reflexivity|]. destruct (if uplo =? PlasmaUpper then _ else _); [|reflexivity].
      apply HF. cbn. assumption. }
    unfold op_tri, op_tel. rewrite !RD by assumption. reflexivity.
  Qed.
  Lemma op_tri_el : forall M p r l, 0 <= p < nt -> 0 <= r < tsz nb K p -> 0 <= l < tsz nb K p ->
    (forall l, fst l <> bB -> M l = M0 l) ->
    op_tri M trans uplo diag (tptr bA A p p) (tile_mmain A p) r l = op_tel (p * nb + r) (p * nb + l).
  Proof. intros M p r l Hp. apply op_tri_el_S. apply diag_S. assumption. Qed.

  Lemma blk_sh : forall k (f : Z -> N), blk nb K f k = nsum (fun i => f (k * nb + i)) 0 (tsz nb K k).
  Proof.
    intros k f. unfold blk. replace (Z.min ((k + 1) * nb) K) with (tsz nb K k + k * nb) by (unfold tsz; lia).
    replace (nsum f (k * nb) (tsz nb K k + k * nb)) with (nsum f (0 + k * nb) (tsz nb K k + k * nb)) by reflexivity.
    rewrite nsum_shift. apply nsum_ext. intros l _. apply f_equal. lia.
  Qed.
  Lemma tile_div : forall k l, k * nb <= l < k * nb + tsz nb K k -> l / nb = k.
  Proof.
    intros k l Hl. unfold tsz in Hl. symmetry. apply Z.div_unique with (r := l - k * nb); [left|]; lia.
  Qed.

  Lemma posB : forall i j, 0 <= i < d_m B -> 0 <= j < d_n B -> in_tiles B (i / nb) (j / nb).
  Proof.
    intros i j Hi Hj. pose proof (in_tiles_pos B i j (td_shape _ _ (sq_t nb B _ HB))) as Q.
    rewrite (sq_mb nb B _ HB), (sq_nb nb B _ HB) in Q. apply Q; lia.
  Qed.
  Lemma posK : forall r, 0 <= r < K -> 0 <= r / nb /\ 0 <= r mod nb < tsz nb K (r / nb) /\ r = r / nb * nb + r mod nb.
  Proof. intros r Hr. apply (pos_tile nb B _ HB). assumption. Qed.
  Lemma posO : forall r, 0 <= r < oth -> 0 <= r / nb /\ 0 <= r mod nb < tsz nb oth (r / nb) /\ r = r / nb * nb + r mod nb.
  Proof. intros r Hr. apply (pos_tile nb B _ HB). assumption. Qed.

  Lemma vst_if : forall (c q : Z) M f x, (forall l, fst l <> bB -> M l = M0 l) ->
    (forall r, 0 <= r < K -> elV M r c = if c / nb =? q then f r else x r) ->
    vstate c M (if c / nb =? q then f else x).
  Proof. intros c q M f x H1 H2. split; [assumption|]. intros r Hr. rewrite H2 by assumption. destruct (c / nb =? q); reflexivity. Qed.

  Lemma gtask_step_S : forall a b p k q c M x, 0 <= p < nt -> 0 <= k < nt -> 0 <= q < nq -> gside p k ->
    op_S trans SA (if lft then p else k) (if lft then k else p) -> 0 <= c < oth -> vstate c M x ->
    vstate c (k_fun (gtask a b p k q) M) (if c / nb =? q then vge nb K TT p k a b x else x).
  Proof.
    intros a b p k q c M x Hp Hk Hq HG GS Hc [HF HX].
    destruct (posO c Hc) as (Q1 & Q2 & Q3).
    assert (TTT : forall r l, r / nb = p -> k * nb <= l < k * nb + tsz nb K k ->
               TT r l = if lft then op_el M0 trans bA A r l else op_el M0 trans bA A l r).
    { intros r l Er Hl. apply (TT_tile p k); [assumption|apply tile_div; assumption|assumption]. }
    destruct (Sumbool.sumbool_of_bool lft) as [L|L]; rewrite L in GS; apply vst_if; unfold gtask; rewrite L; cbn [k_fun omp_zgemm].
    - intros l Hl. rewrite gemm_other by (cbn; assumption). auto.
    - intros r Hr. destruct (KL L) as [E1 E2]. destruct (posK r Hr) as (P1 & P2 & P3).
      unfold elV in *. rewrite L in HX. rewrite L. setoid_rewrite L in TTT.
      pose proof (tBl p q Hp Hq L) as T1. pose proof (tBl k q Hk Hq L) as T2.
      rewrite (gemm_el nb A SA bA B (in_tiles B) bB B (in_tiles B)); auto; try lia.
      + unfold vge. destruct (r / nb =? p) eqn:Ep; cbn [andb].
        2:{ rewrite HX by assumption. destruct (c / nb =? q); reflexivity. }
        destruct (c / nb =? q) eqn:Eq; [|apply HX; assumption].
        apply Z.eqb_eq in Ep, Eq. subst p q. rewrite <- P3, <- Q3.
        apply f_equal2; [|apply f_equal; apply HX; assumption].
        apply f_equal. unfold blk. replace (Z.min ((k + 1) * nb) K) with (k * nb + tsz nb K k) by (unfold tsz; lia).
        apply nsum_ext. intros l Hl. replace (l + (k - k) * nb) with l by lia. apply f_equal2.
        * rewrite TTT by auto. apply op_el_ext. intros z Hz. apply HF. cbn. congruence.
        * unfold op_el. cbn. apply HX. unfold tsz in Hl. nia.
      + apply posB; lia.
      + rewrite (mvB _ _ T1), op_mA, E1. lia.
      + rewrite op_nA. lia.
      + unfold op_m. cbn. rewrite E1. lia.
      + unfold op_n. cbn. rewrite (nvB _ _ T1). lia.
    - intros l Hl. rewrite gemm_other by (cbn; assumption). auto.
    - intros r Hr. destruct (KR L) as [E1 E2]. destruct (posK r Hr) as (P1 & P2 & P3).
      unfold elV in *. rewrite L in HX. rewrite L. setoid_rewrite L in TTT.
      pose proof (tBr p q Hp Hq L) as T1. pose proof (tBr k q Hk Hq L) as T2.
      rewrite (gemm_el nb B (in_tiles B) bB A SA bA B (in_tiles B)); auto; try lia.
      + unfold vge. rewrite (andb_comm (c / nb =? q)). destruct (r / nb =? p) eqn:Ep; cbn [andb].
        2:{ rewrite HX by assumption. destruct (c / nb =? q); reflexivity. }
        destruct (c / nb =? q) eqn:Eq; [|apply HX; assumption].
        apply Z.eqb_eq in Ep, Eq. subst p q. rewrite <- P3, <- Q3.
        apply f_equal2; [|apply f_equal; apply HX; assumption].
        apply f_equal. unfold blk. replace (Z.min ((k + 1) * nb) K) with (k * nb + tsz nb K k) by (unfold tsz; lia).
        apply nsum_ext. intros l Hl. replace (l + (k - k) * nb) with l by lia.
        rewrite TTT by auto. rewrite <- (HX l) by (unfold tsz in Hl; nia).
        rewrite (op_el_ext M M0 trans bA A l r); [unfold op_el; cbn; ring|].
        intros z Hz. apply HF. cbn. congruence.
      + apply posB; lia.
      + unfold op_m. cbn. rewrite (mvB _ _ T1). lia.
      + unfold op_n. cbn. rewrite E1. lia.
      + rewrite op_mA. lia.
      + rewrite (nvB _ _ T1), op_nA, E1. lia.
  Qed.

  Lemma gtask_step : forall a b p k q c M x, 0 <= p < nt -> 0 <= k < nt -> 0 <= q < nq -> gside p k ->
    0 <= c < oth -> vstate c M x ->
    vstate c (k_fun (gtask a b p k q) M) (if c / nb =? q then vge nb K TT p k a b x else x).
  Proof. intros a b p k q c M x Hp Hk Hq HG. apply gtask_step_S; auto. apply gside_S; assumption. Qed.

  (* diagonal tasks: any function f of the tile *)
  Lemma dtask_step : forall (f : Z -> Z -> N) g p q c M x, 0 <= p < nt -> 0 <= q < nq -> 0 <= c < oth ->
    vstate c M x ->
    (forall r, 0 <= r < K -> r / nb = p -> c / nb = q -> 
       (if lft then f (r mod nb) (c mod nb) else f (c mod nb) (r mod nb)) = g r) ->
    (forall r, r / nb <> p -> g r = x r) ->
    vstate c (mset (vtp p q) (vld p q) (tile_mview B (vm p q)) (tile_nview B (vn p q)) everywhere f M)
      (if c / nb =? q then g else x).
  Proof.
    intros f g p q c M x Hp Hq Hc [HF HX] HG1 HG2. pose proof (tB p q Hp Hq) as TB. apply vst_if.
    - intros l Hl. rewrite mset_out; [auto|]. intros R. apply reg_block in R. cbn in R. congruence.
    - intros r Hr. unfold elV, vtp, vld, vm, vn in *. pose proof KL as KL'. pose proof KR as KR'. destruct lft.
      + destruct (KL' eq_refl) as [E1 E2]. rewrite (sq_set nb B _ HB); auto; try lia.
        2:{ apply posB; lia. }
        unfold everywhere. rewrite andb_true_r. destruct (Z.eqb_spec (r / nb) p) as [Ep|Ep]; cbn [andb].
        * destruct (Z.eqb_spec (c / nb) q) as [Eq|Eq]; [|apply HX; assumption]. apply HG1; assumption.
        * rewrite HX, HG2 by assumption. destruct (c / nb =? q); reflexivity.
      + destruct (KR' eq_refl) as [E1 E2]. rewrite (sq_set nb B _ HB); auto; try lia.
        2:{ apply posB; lia. }
        unfold everywhere. rewrite andb_true_r, andb_comm. destruct (Z.eqb_spec (r / nb) p) as [Ep|Ep]; cbn [andb].
        * destruct (Z.eqb_spec (c / nb) q) as [Eq|Eq]; [|apply HX; assumption]. apply HG1; assumption.
        * rewrite HX, HG2 by assumption. destruct (c / nb =? q); reflexivity.
  Qed.

  (* reading B in a diagonal task *)
  Lemma rdB : forall M x p q c l, 0 <= p < nt -> 0 <= q < nq -> 0 <= c < oth -> c / nb = q -> vstate c M x ->
    0 <= l < tsz nb K p ->
    (if lft then rd M (vtp p q) (vld p q) l (c mod nb) else rd M (vtp p q) (vld p q) (c mod nb) l) = x (p * nb + l).
  Proof.
    intros M x p q c l Hp Hq Hc Eq [HF HX] Hl. pose proof (tB p q Hp Hq) as TB.
    destruct (posO c Hc) as (Q1 & Q2 & Q3). rewrite Eq in Q2, Q3.
    assert (HP : 0 <= p * nb + l < K) by (unfold tsz in Hl; nia).
    rewrite <- (HX _ HP). unfold elV, vtp, vld, vm, vn in *. pose proof KL as KL'. pose proof KR as KR'. destruct lft.
    - destruct (KL' eq_refl) as [E1 E2]. rewrite (sq_rd nb B _ HB); auto.
      + rewrite <- Q3. reflexivity.
      + rewrite <- E1. assumption.
      + rewrite <- E2. assumption.
    - destruct (KR' eq_refl) as [E1 E2]. rewrite (sq_rd nb B _ HB); auto.
      + rewrite <- Q3. reflexivity.
      + rewrite <- E2. assumption.
      + rewrite <- E1. assumption.
  Qed.

  Lemma vsz : forall p q, 0 <= p < nt -> 0 <= q < nq ->
    (if lft then tile_mview B (vm p q) else tile_nview B (vn p q)) = tsz nb K p.
  Proof.
    intros p q Hp Hq. pose proof (tB p q Hp Hq) as TB. rewrite (mvB _ _ TB), (nvB _ _ TB). unfold vm, vn.
    pose proof KL as KL'. pose proof KR as KR'. destruct lft.
    - destruct (KL' eq_refl) as [E1 E2]. rewrite E1. reflexivity.
    - destruct (KR' eq_refl) as [E1 E2]. rewrite E1. reflexivity.
  Qed.

  Lemma ttask_step : forall a p q c M x, 0 <= p < nt -> 0 <= q < nq -> 0 <= c < oth -> vstate c M x ->
    vstate c (k_fun (ttask a p q) M) (if c / nb =? q then vtr nb K TT p a x else x).
  Proof.
    intros a p q c M x Hp Hq Hc HV. unfold ttask. cbn [k_fun omp_ztrmm]. unfold core_ztrmm.
    apply dtask_step; auto.
    - intros r Hr Ep Eq. unfold vtr. rewrite Ep, Z.eqb_refl. fold lft. pose proof (vsz p q Hp Hq) as VS.
      destruct (posK r Hr) as (P1 & P2 & P3). rewrite Ep in P2, P3.
      assert (RB := fun l => rdB M x p q c l Hp Hq Hc Eq HV).
      assert (TE : forall l, 0 <= l < tsz nb K p ->
        (if lft then op_tri M trans uplo diag (tptr bA A p p) (tile_mmain A p) (r mod nb) l
         else op_tri M trans uplo diag (tptr bA A p p) (tile_mmain A p) l (r mod nb)) = TT r (p * nb + l)).
      { intros l Hl. unfold TT. destruct HV as [HF _].
        destruct lft; rewrite op_tri_el by assumption; rewrite <- P3; reflexivity. }
      rewrite blk_sh. destruct lft; apply f_equal; rewrite VS; apply nsum_ext; intros l Hl.
      + rewrite RB, TE by assumption. reflexivity.
      + rewrite RB, TE by assumption. ring.
    - intros r Hne. unfold vtr. replace (r / nb =? p) with false; [reflexivity|]. symmetry. apply Z.eqb_neq. assumption.
  Qed.
End Tri.
