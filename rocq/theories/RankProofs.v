From Coq Require Import ZArith List Bool Lia Ring.
From Verif Require Import Base NumModel NumProofs TaskModel TaskSpec TaskProofs DescModel DescSpec
  DescDriverModel DescProofs DescProofs3 DescProofs4 MatModel MatSpec MatProofs RegionProofs
  LayoutModel LayoutProofs LayoutProofs2 DriverModel DriverSpec OpProofs SimProofs
  GemmModel GemmProofs RankModel.
Import ListNotations.
Open Scope Z_scope.

(* the loops over the tiles of a triangle: exactly one group acts on an element *)
Section TriFold.
  Context {T : Type}.
  Variables (nb uplo nt i j : Z).
  Hypotheses (Hb : 0 < nb) (Hi : 0 <= i < nt * nb) (Hj : 0 <= j < nt * nb).
  Hypothesis Hu : uplo = PlasmaUpper \/ uplo = PlasmaLower.
  Variables (F : T -> T) (d : Z -> T -> T) (o : Z -> Z -> T -> T).
  Hypothesis Hd : forall n c, d n c =
    if (i / nb =? n) && (j / nb =? n) && uplo_sel uplo (i mod nb) (j mod nb) then F c else c.
  Hypothesis Ho : forall n m c, n < m -> o n m c =
    if uplo =? PlasmaLower then (if (i / nb =? m) && (j / nb =? n) then F c else c)
    else (if (i / nb =? n) && (j / nb =? m) then F c else c).

  Let body n c := fold_left (fun c m => o n m c) (zrange (n + 1) nt) (d n c).

  Lemma tri_fold : forall c, fold_left (fun c n => body n c) (zrange 0 nt) c
    = if uplo_sel uplo i j then F c else c.
  Proof.
    intros c. destruct (div_mod_pos i nb Hb) as [Ei Ri]. destruct (div_mod_pos j nb Hb) as [Ej Rj].
    assert (Ti : 0 <= i / nb < nt) by (split; [apply Z.div_pos; lia|apply Z.div_lt_upper_bound; nia]).
    assert (Tj : 0 <= j / nb < nt) by (split; [apply Z.div_pos; lia|apply Z.div_lt_upper_bound; nia]).
    remember (i / nb) as I eqn:EI. remember (j / nb) as J eqn:EJ.
    assert (U : (uplo =? PlasmaLower) = true /\ (uplo =? PlasmaUpper) = false \/
                (uplo =? PlasmaLower) = false /\ (uplo =? PlasmaUpper) = true)
      by (destruct Hu as [->| ->]; [right|left]; split; reflexivity).
    assert (SL : forall a b, uplo_sel uplo a b = if uplo =? PlasmaLower then b <=? a else a <=? b).
    { intros a b. unfold uplo_sel. destruct U as [[-> ->]|[-> ->]]; reflexivity. }
    rewrite SL in *.
    (* the column (row) of tiles that matters *)
    set (x0 := if uplo =? PlasmaLower then J else I).
    assert (X0 : 0 <= x0 < nt) by (unfold x0; destruct (uplo =? PlasmaLower); assumption).
    rewrite (fold_left_only _ _ _ _ x0); [|apply NoDup_zrange|apply in_zrange; assumption|].
    - unfold body. rewrite Hd.
      set (y0 := if uplo =? PlasmaLower then I else J).
      destruct (Z.eq_dec x0 y0) as [E|E].
      + (* diagonal tile *)
        rewrite fold_left_id.
        * unfold x0, y0 in *. destruct U as [[U1 U2]|[U1 U2]]; rewrite U1 in *;
            subst I J; rewrite E in *; rewrite !Z.eqb_refl; cbn [andb].
          -- replace (j mod nb <=? i mod nb) with (j <=? i) by (apply eq_true_iff_eq; rewrite !Z.leb_le; lia).
             reflexivity.
          -- replace (i mod nb <=? j mod nb) with (i <=? j) by (apply eq_true_iff_eq; rewrite !Z.leb_le; lia).
             reflexivity.
        * intros m a Hm. apply in_zrange in Hm. rewrite Ho by lia.
          unfold x0, y0 in *. destruct U as [[U1 U2]|[U1 U2]]; rewrite U1 in *.
          -- replace (I =? m) with false by (symmetry; apply Z.eqb_neq; lia). reflexivity.
          -- replace (J =? m) with false by (symmetry; apply Z.eqb_neq; lia). rewrite andb_false_r. reflexivity.
      + replace ((I =? x0) && (J =? x0)) with false.
        2:{ symmetry. apply andb_false_iff. rewrite !Z.eqb_neq. unfold x0, y0 in E |- *.
            destruct (uplo =? PlasmaLower); lia. }
        cbn [andb].
        destruct (Z_lt_le_dec x0 y0) as [L|L].
        * (* tile in the triangle *)
          rewrite (fold_left_only _ _ _ _ y0); [|apply NoDup_zrange| |].
          -- rewrite Ho by lia. unfold x0, y0 in *. destruct U as [[U1 U2]|[U1 U2]]; rewrite U1 in *;
               rewrite !Z.eqb_refl; cbn [andb].
             ++ replace (j <=? i) with true by (symmetry; apply Z.leb_le; nia). reflexivity.
             ++ replace (i <=? j) with true by (symmetry; apply Z.leb_le; nia). reflexivity.
          -- apply in_zrange. unfold y0. destruct (uplo =? PlasmaLower); lia.
          -- intros m a Hm Hne. apply in_zrange in Hm. rewrite Ho by lia.
             unfold y0 in Hne. destruct U as [[U1 U2]|[U1 U2]]; rewrite U1 in *.
             ++ replace (I =? m) with false by (symmetry; apply Z.eqb_neq; lia). reflexivity.
             ++ replace (J =? m) with false by (symmetry; apply Z.eqb_neq; lia). rewrite andb_false_r. reflexivity.
        * (* tile outside the triangle *)
          rewrite fold_left_id.
          -- unfold x0, y0 in *. destruct U as [[U1 U2]|[U1 U2]]; rewrite U1 in *.
             ++ replace (j <=? i) with false by (symmetry; apply Z.leb_gt; nia). reflexivity.
             ++ replace (i <=? j) with false by (symmetry; apply Z.leb_gt; nia). reflexivity.
          -- intros m a Hm. apply in_zrange in Hm. rewrite Ho by lia.
             unfold x0, y0 in *. destruct U as [[U1 U2]|[U1 U2]]; rewrite U1 in *.
             ++ replace (I =? m) with false by (symmetry; apply Z.eqb_neq; lia). reflexivity.
             ++ replace (J =? m) with false by (symmetry; apply Z.eqb_neq; lia). rewrite andb_false_r. reflexivity.
    - intros n a Hn Hne. unfold body. rewrite fold_left_id.
      + rewrite Hd. unfold x0 in Hne. destruct U as [[U1 U2]|[U1 U2]]; rewrite U1 in *.
        * replace (J =? n) with false by (symmetry; apply Z.eqb_neq; lia). rewrite andb_false_r. reflexivity.
        * replace (I =? n) with false by (symmetry; apply Z.eqb_neq; lia). reflexivity.
      + intros m b Hm. apply in_zrange in Hm. rewrite Ho by lia.
        unfold x0 in Hne. destruct U as [[U1 U2]|[U1 U2]]; rewrite U1 in *.
        * replace (J =? n) with false by (symmetry; apply Z.eqb_neq; lia). rewrite andb_false_r. reflexivity.
        * replace (I =? n) with false by (symmetry; apply Z.eqb_neq; lia). reflexivity.
  Qed.
End TriFold.

Section Kernels.
  Context {N : numbers}.
  Add Ring num_ring_rk : (nring N).

  Lemma rank_t2_reg : forall ct trans p ld n k l, ct <> PlasmaNoTrans ->
    op_reg (rank_t2 ct trans) p ld k n l -> op_reg trans p ld n k l.
  Proof.
    intros ct trans p ld n k l Hct H. unfold rank_t2, op_reg in *.
    destruct (trans =? PlasmaNoTrans).
    - apply Z.eqb_neq in Hct. rewrite Hct in H. exact H.
    - exact H.
  Qed.

  Lemma diag_if : forall (b : bool) (rp : N -> N) v w, v = w -> (if b then rp v else v) = (if b then rp w else w).
  Proof. intros b rp v w ->. reflexivity. Qed.

  Lemma omp_rank_k_kgood : forall rp ct uplo trans n k (alpha : N) A lda beta C ldc,
    ct <> PlasmaNoTrans -> n <= ldc ->
    kgood (omp_rank_k rp ct uplo trans n k alpha A lda beta C ldc).
  Proof.
    intros. apply mset_kgood; auto.
    - apply finite_or; [apply op_reg_fin|apply finite_reg].
    - intros M M' i j Hi Hj HP HX. cbv zeta. apply diag_if. apply f_equal2.
      + apply f_equal. apply nsum_ext. intros l Hl. apply f_equal2.
        * eapply op_rd_local; eauto.
        * eapply (op_rd_local (rank_t2 ct trans) A lda k n); eauto.
          intros x Hx. apply HX. left. eapply rank_t2_reg; eauto.
      + apply f_equal. apply HX. right. exists i, j. auto.
  Qed.

  Lemma omp_rank_2k_kgood : forall rp ct uplo trans n k (alpha alpha2 : N) A lda B ldb beta C ldc,
    ct <> PlasmaNoTrans -> n <= ldc ->
    kgood (omp_rank_2k rp ct uplo trans n k alpha alpha2 A lda B ldb beta C ldc).
  Proof.
    intros. apply mset_kgood; auto.
    - apply finite_or; [apply op_reg_fin|]. apply finite_or; [apply op_reg_fin|apply finite_reg].
    - intros M M' i j Hi Hj HP HX. cbv zeta. apply diag_if. apply f_equal2.
      + apply f_equal2; apply f_equal; apply nsum_ext; intros l Hl; apply f_equal2.
        * eapply op_rd_local; eauto.
        * eapply (op_rd_local (rank_t2 ct trans) B ldb k n); eauto.
          intros x Hx. apply HX. right. left. eapply rank_t2_reg; eauto.
        * eapply (op_rd_local trans B ldb n k); eauto.
        * eapply (op_rd_local (rank_t2 ct trans) A lda k n); eauto.
          intros x Hx. apply HX. left. eapply rank_t2_reg; eauto.
      + apply f_equal. apply HX. right. right. exists i, j. auto.
  Qed.

  Variable nb : Z.

  Lemma rank_t2_tile : forall ct trans b A m k, ct <> PlasmaNoTrans ->
    op_tile (rank_t2 ct trans) b A k m = op_tile trans b A m k.
  Proof.
    intros ct trans b A m k H. unfold op_tile, rank_t2. apply Z.eqb_neq in H.
    destruct (trans =? PlasmaNoTrans); [rewrite H|]; reflexivity.
  Qed.
  Lemma rank_t2_ld : forall ct trans A m k, ct <> PlasmaNoTrans ->
    op_ld (rank_t2 ct trans) A k m = op_ld trans A m k.
  Proof.
    intros ct trans A m k H. unfold op_ld, rank_t2. apply Z.eqb_neq in H.
    destruct (trans =? PlasmaNoTrans); [rewrite H|]; reflexivity.
  Qed.
  Lemma rank_t2_S : forall ct trans (S : Z -> Z -> Prop) m k, ct <> PlasmaNoTrans ->
    op_S (rank_t2 ct trans) S k m = op_S trans S m k.
  Proof.
    intros ct trans S m k H. unfold op_S, rank_t2. apply Z.eqb_neq in H.
    destruct (trans =? PlasmaNoTrans); [rewrite H|]; reflexivity.
  Qed.
  Lemma rank_t2_mn : forall ct trans A, ct <> PlasmaNoTrans ->
    op_m (rank_t2 ct trans) A = op_n trans A /\ op_n (rank_t2 ct trans) A = op_m trans A.
  Proof.
    intros ct trans A H. unfold op_m, op_n, rank_t2. apply Z.eqb_neq in H.
    destruct (trans =? PlasmaNoTrans); [rewrite H|]; split; reflexivity.
  Qed.
End Kernels.

(* ------------------------------------------------------------------ *)
Section Rank.
  Context {N : numbers}.
  Add Ring num_ring_rank : (nring N).
  Variables (nb : Z) (A C : desc) (bA bB bC ct uplo trans : Z) (alpha alpha2 beta : N) (rp : N -> N).
  Hypotheses (HA : dn nb A) (HC : dn nb C).
  Hypothesis Hct : ct <> PlasmaNoTrans.
  Hypothesis Hu : uplo = PlasmaUpper \/ uplo = PlasmaLower.
  Hypotheses (CM : op_m trans A = d_m C) (CN : d_m C = d_n C).
  Let K := op_n trans A.
  Let t2 := rank_t2 ct trans.
  Let Hb : 0 < nb := sq_pos nb C _ HC.
  Let HK : 0 <= K.
  Proof. unfold K, op_n. pose proof (td_shape _ _ (sq_t nb A _ HA)) as SH.
    destruct (trans =? PlasmaNoTrans); [apply (go_n A SH)|apply (go_m A SH)]. Qed.

  Definition zb (k : Z) : N := if k =? 0 then beta else n1.

  Definition dtask (n k : Z) : ktask N :=
    omp_rank_k rp ct uplo trans (tsz nb (d_n C) n) (tsz nb K k) alpha
      (op_tile trans bA A n k) (op_ld trans A n k) (zb k) (tptr bC C n n) (tile_mmain C n).
  Definition d2task (n k : Z) : ktask N :=
    omp_rank_2k rp ct uplo trans (tsz nb (d_n C) n) (tsz nb K k) alpha alpha2
      (op_tile trans bA A n k) (op_ld trans A n k) (op_tile trans bB A n k) (op_ld trans A n k)
      (zb k) (tptr bC C n n) (tile_mmain C n).
  (* update of tile (x,y) of C by tiles k of X and Y *)
  Definition otask (bX bY : Z) (al z : N) (x y k : Z) : ktask N :=
    omp_zgemm trans t2 (tile_mview C x) (tile_nview C y) (tsz nb K k) al
      (op_tile trans bX A x k) (op_ld trans A x k) (op_tile t2 bY A k y) (op_ld t2 A k y)
      z (tptr bC C x y) (tile_mmain C x).
  Definition ox (n m : Z) : Z := if uplo =? PlasmaLower then m else n.
  Definition oy (n m : Z) : Z := if uplo =? PlasmaLower then n else m.

  Let Ct : d_mt C = ntl nb (d_n C).
  Proof. rewrite (dn_mt nb C HC). rewrite CN. reflexivity. Qed.
  Let Ct' : d_nt C = ntl nb (d_n C).
  Proof. apply (dn_nt nb C HC). Qed.

  Let HnC : 0 <= d_n C.
  Proof. apply (go_n C (td_shape _ _ (sq_t nb C _ HC))). Qed.

  Lemma tileC : forall x y, 0 <= x < ntl nb (d_n C) -> 0 <= y < ntl nb (d_n C) -> in_tiles C x y.
  Proof. intros. unfold in_tiles. rewrite Ct, Ct'. auto. Qed.

  Lemma tileS : forall x k, 0 <= x < ntl nb (d_n C) -> 0 <= k < ntl nb K -> op_S trans (in_tiles A) x k.
  Proof.
    intros x k [Hx1 Hx2] [Hk1 Hk2]. apply ntl_spec in Hx2; auto. apply ntl_spec in Hk2; auto.
    rewrite <- CN, <- CM in Hx2. unfold op_S, K, op_m, op_n in *.
    destruct (trans =? PlasmaNoTrans); apply (dn_in nb A); auto.
  Qed.

  Lemma mvC : forall x, 0 <= x < ntl nb (d_n C) -> tile_mview C x = tsz nb (d_n C) x.
  Proof. intros x Hx. rewrite (sq_mv nb C _ HC x x) by (apply tileC; auto). rewrite CN. reflexivity. Qed.
  Lemma nvC : forall x, 0 <= x < ntl nb (d_n C) -> tile_nview C x = tsz nb (d_n C) x.
  Proof. intros x Hx. apply (sq_nv nb C _ HC x x). apply tileC; auto. Qed.

  Definition col (n : Z) : list (ktask N) :=
    map (dtask n) (zrange 0 (ntl nb K)) ++
    flat_map (fun m => map (fun k => otask bA bA alpha (zb k) (ox n m) (oy n m) k) (zrange 0 (ntl nb K)))
      (zrange (n + 1) (ntl nb (d_n C))).
  Definition col2 (n : Z) : list (ktask N) :=
    map (d2task n) (zrange 0 (ntl nb K)) ++
    flat_map (fun m => flat_map (fun k => [otask bA bB alpha (zb k) (ox n m) (oy n m) k;
                                           otask bB bA alpha2 n1 (ox n m) (oy n m) k]) (zrange 0 (ntl nb K)))
      (zrange (n + 1) (ntl nb (d_n C))).

  Lemma flat_map_ext_in : forall X Y (f g : X -> list Y) l, (forall x, In x l -> f x = g x) ->
    flat_map f l = flat_map g l.
  Proof.
    intros X Y f g l H. induction l as [|x l IH]; cbn; [reflexivity|].
    rewrite H by (left; reflexivity). f_equal. apply IH. intros; apply H; right; assumption.
  Qed.

  Lemma app_eq : forall X (a b c d : list X), a = c -> b = d -> a ++ b = c ++ d.
  Proof. congruence. Qed.

  Let KK : (if trans =? PlasmaNoTrans then d_nt A else d_mt A) = ntl nb K.
  Proof.
    unfold K, op_n. destruct (trans =? PlasmaNoTrans); [apply (dn_nt nb A HA)|apply (dn_mt nb A HA)].
  Qed.

  Lemma mvK : forall x k, 0 <= x < ntl nb (d_n C) -> 0 <= k < ntl nb K ->
    (if trans =? PlasmaNoTrans then tile_nview A k else tile_mview A k) = tsz nb K k.
  Proof.
    intros x k Hx Hk. pose proof (tileS x k Hx Hk) as HS. unfold op_S, K, op_n in *.
    destruct (trans =? PlasmaNoTrans).
    - apply (sq_nv nb A _ HA _ _ HS).
    - apply (sq_mv nb A _ HA _ _ HS).
  Qed.

  Lemma prank_k_eq : prank_k rp ct uplo trans alpha bA A beta bC C = flat_map col (zrange 0 (ntl nb (d_n C))).
  Proof.
    unfold prank_k. rewrite Ct'. apply flat_map_ext_in. intros n Hn. apply in_zrange in Hn.
    unfold prank_k_col, col, otask, dtask, t2, rank_t2, op_tile, op_ld, ox, oy. cbv zeta.
    rewrite nvC by assumption. rewrite Ct.
    pose proof KK as KK'. pose proof mvK as mvK'.
    assert (E := Hct). apply Z.eqb_neq in E.
    destruct (trans =? PlasmaNoTrans) eqn:T.
    - rewrite KK'. apply app_eq.
      + apply map_ext_in. intros k Hk. apply in_zrange in Hk. rewrite (mvK' n k) by assumption. reflexivity.
      + rewrite E. destruct (uplo =? PlasmaLower) eqn:U; apply flat_map_ext_in; intros m Hm; apply in_zrange in Hm;
          apply map_ext_in; intros k Hk; apply in_zrange in Hk; rewrite (mvK' n k) by assumption;
          rewrite ?nvC, ?mvC by lia; reflexivity.
    - rewrite KK'. apply app_eq.
      + apply map_ext_in. intros k Hk. apply in_zrange in Hk. rewrite (mvK' n k) by assumption. reflexivity.
      + change (PlasmaNoTrans =? PlasmaNoTrans) with true. cbv iota.
        destruct (uplo =? PlasmaLower) eqn:U; apply flat_map_ext_in; intros m Hm; apply in_zrange in Hm;
          apply map_ext_in; intros k Hk; apply in_zrange in Hk; rewrite (mvK' n k) by assumption;
          rewrite ?nvC, ?mvC by lia; reflexivity.
  Qed.

  Lemma prank_2k_eq : prank_2k rp ct uplo trans alpha alpha2 bA A bB A beta bC C
    = flat_map col2 (zrange 0 (ntl nb (d_n C))).
  Proof.
    unfold prank_2k. rewrite Ct'. apply flat_map_ext_in. intros n Hn. apply in_zrange in Hn.
    unfold prank_2k_col, col2, otask, d2task, t2, rank_t2, op_tile, op_ld, ox, oy. cbv zeta.
    rewrite nvC by assumption. rewrite Ct.
    pose proof KK as KK'. pose proof mvK as mvK'.
    assert (E := Hct). apply Z.eqb_neq in E.
    destruct (trans =? PlasmaNoTrans) eqn:T.
    - rewrite KK'. apply app_eq.
      + apply map_ext_in. intros k Hk. apply in_zrange in Hk. rewrite (mvK' n k) by assumption. reflexivity.
      + rewrite E. destruct (uplo =? PlasmaLower) eqn:U; apply flat_map_ext_in; intros m Hm; apply in_zrange in Hm;
          apply flat_map_ext_in; intros k Hk; apply in_zrange in Hk; rewrite (mvK' n k) by assumption;
          rewrite ?nvC, ?mvC by lia; reflexivity.
    - rewrite KK'. apply app_eq.
      + apply map_ext_in. intros k Hk. apply in_zrange in Hk. rewrite (mvK' n k) by assumption. reflexivity.
      + change (PlasmaNoTrans =? PlasmaNoTrans) with true. cbv iota.
        destruct (uplo =? PlasmaLower) eqn:U; apply flat_map_ext_in; intros m Hm; apply in_zrange in Hm;
          apply flat_map_ext_in; intros k Hk; apply in_zrange in Hk; rewrite (mvK' n k) by assumption;
          rewrite ?nvC, ?mvC by lia; reflexivity.
  Qed.

  (* a property of all tasks *)
  Lemma col_forall : forall (P : ktask N -> Prop),
    (forall n k, 0 <= n < ntl nb (d_n C) -> 0 <= k < ntl nb K -> P (dtask n k)) ->
    (forall z x y k, 0 <= x < ntl nb (d_n C) -> 0 <= y < ntl nb (d_n C) -> 0 <= k < ntl nb K ->
       P (otask bA bA alpha z x y k)) ->
    Forall P (prank_k rp ct uplo trans alpha bA A beta bC C).
  Proof.
    intros P H1 H2. rewrite prank_k_eq. apply Forall_flat_map_intro. intros n Hn. apply in_zrange in Hn.
    apply Forall_app. split.
    - apply Forall_map, Forall_forall. intros k Hk. apply in_zrange in Hk. apply H1; assumption.
    - apply Forall_flat_map_intro. intros m Hm. apply in_zrange in Hm.
      apply Forall_map, Forall_forall. intros k Hk. apply in_zrange in Hk.
      apply H2; auto; unfold ox, oy; destruct (uplo =? PlasmaLower); lia.
  Qed.
  Lemma col2_forall : forall (P : ktask N -> Prop),
    (forall n k, 0 <= n < ntl nb (d_n C) -> 0 <= k < ntl nb K -> P (d2task n k)) ->
    (forall bX bY al z x y k, (bX = bA \/ bX = bB) -> (bY = bA \/ bY = bB) ->
       0 <= x < ntl nb (d_n C) -> 0 <= y < ntl nb (d_n C) -> 0 <= k < ntl nb K ->
       P (otask bX bY al z x y k)) ->
    Forall P (prank_2k rp ct uplo trans alpha alpha2 bA A bB A beta bC C).
  Proof.
    intros P H1 H2. rewrite prank_2k_eq. apply Forall_flat_map_intro. intros n Hn. apply in_zrange in Hn.
    apply Forall_app. split.
    - apply Forall_map, Forall_forall. intros k Hk. apply in_zrange in Hk. apply H1; assumption.
    - apply Forall_flat_map_intro. intros m Hm. apply in_zrange in Hm.
      apply Forall_flat_map_intro. intros k Hk. apply in_zrange in Hk.
      constructor; [|constructor; [|constructor]];
        (apply H2; auto; unfold ox, oy; destruct (uplo =? PlasmaLower); lia).
  Qed.

  Lemma ldC : forall x, 0 <= x < ntl nb (d_n C) -> tsz nb (d_n C) x <= tile_mmain C x.
  Proof. intros x Hx. rewrite <- mvC by assumption. apply (td_ld C _ (sq_t nb C _ HC) x x). apply tileC; auto. Qed.

  Lemma prank_k_kgood : Forall kgood (prank_k rp ct uplo trans alpha bA A beta bC C).
  Proof.
    apply col_forall.
    - intros n k Hn Hk. apply omp_rank_k_kgood; auto. apply ldC; assumption.
    - intros. apply omp_zgemm_kgood. rewrite mvC by assumption. apply ldC; assumption.
  Qed.
  Lemma prank_2k_kgood : Forall kgood (prank_2k rp ct uplo trans alpha alpha2 bA A bB A beta bC C).
  Proof.
    apply col2_forall.
    - intros n k Hn Hk. apply omp_rank_2k_kgood; auto. apply ldC; assumption.
    - intros. apply omp_zgemm_kgood. rewrite mvC by assumption. apply ldC; assumption.
  Qed.

  Lemma t2_S : forall x k, 0 <= x < ntl nb (d_n C) -> 0 <= k < ntl nb K -> op_S t2 (in_tiles A) k x.
  Proof. intros. unfold t2. rewrite rank_t2_S by assumption. apply tileS; assumption. Qed.
  Lemma t2_m : op_m t2 A = K.
  Proof. apply (rank_t2_mn ct trans A Hct). Qed.
  Lemma t2_n : op_n t2 A = d_n C.
  Proof. unfold t2. rewrite (proj2 (rank_t2_mn ct trans A Hct)), CM. exact CN. Qed.

  Lemma otask_kdecl : forall env bX bY al z x y k,
    In (bX, homeD A (in_tiles A)) env -> In (bY, homeD A (in_tiles A)) env -> In (bC, homeD C (in_tiles C)) env ->
    0 <= x < ntl nb (d_n C) -> 0 <= y < ntl nb (d_n C) -> 0 <= k < ntl nb K ->
    kdecl (home_env env) (otask bX bY al z x y k).
  Proof.
    intros env bX bY al z x y k EX EY EC Hx Hy Hk.
    apply (omp_zgemm_kdecl nb env A (in_tiles A) bX A (in_tiles A) bY C (in_tiles C) bC); auto.
    - apply tileS; assumption.
    - apply t2_S; assumption.
    - apply tileC; assumption.
    - rewrite mvC, CM, CN by assumption. lia.
    - apply Z.le_refl.
    - rewrite t2_m. apply Z.le_refl.
    - rewrite nvC, t2_n by assumption. lia.
  Qed.

  Lemma diag_home : forall env n l, In (bC, homeD C (in_tiles C)) env -> 0 <= n < ntl nb (d_n C) ->
    reg (tptr bC C n n) (tile_mmain C n) (tsz nb (d_n C) n) (tsz nb (d_n C) n) (uplo_sel uplo) l ->
    home_env env l (tptr bC C n n).
  Proof.
    intros env n l HE Hn HR. rewrite <- (mvC n Hn) in HR at 1. rewrite <- (nvC n Hn) in HR.
    eapply home_tile; eauto. apply tileC; assumption.
  Qed.

  Lemma dtask_kdecl : forall env n k,
    In (bA, homeD A (in_tiles A)) env -> In (bC, homeD C (in_tiles C)) env ->
    0 <= n < ntl nb (d_n C) -> 0 <= k < ntl nb K -> kdecl (home_env env) (dtask n k).
  Proof.
    intros env n k EA EC Hn Hk. apply kdecl_intro; cbn; intros l HR.
    - left. destruct HR as [HR|HR].
      + eexists. split; [left; reflexivity|]. cbn. eapply (op_reg_home nb env A (in_tiles A)); eauto.
        * apply tileS; assumption.
        * rewrite CM, CN. apply Z.le_refl.
        * apply Z.le_refl.
      + eexists. split; [right; left; reflexivity|]. cbn. eapply diag_home; eauto.
    - eexists. split; [right; left; reflexivity|]. split; [|discriminate]. cbn. eapply diag_home; eauto.
  Qed.
  Lemma d2task_kdecl : forall env n k,
    In (bA, homeD A (in_tiles A)) env -> In (bB, homeD A (in_tiles A)) env -> In (bC, homeD C (in_tiles C)) env ->
    0 <= n < ntl nb (d_n C) -> 0 <= k < ntl nb K -> kdecl (home_env env) (d2task n k).
  Proof.
    intros env n k EA EB EC Hn Hk. apply kdecl_intro; cbn; intros l HR.
    - left. destruct HR as [HR|[HR|HR]].
      + eexists. split; [left; reflexivity|]. cbn. eapply (op_reg_home nb env A (in_tiles A)); eauto.
        * apply tileS; assumption.
        * rewrite CM, CN. apply Z.le_refl.
        * apply Z.le_refl.
      + eexists. split; [right; left; reflexivity|]. cbn. eapply (op_reg_home nb env A (in_tiles A)); eauto.
        * apply tileS; assumption.
        * rewrite CM, CN. apply Z.le_refl.
        * apply Z.le_refl.
      + eexists. split; [right; right; left; reflexivity|]. cbn. eapply diag_home; eauto.
    - eexists. split; [right; right; left; reflexivity|]. split; [|discriminate]. cbn. eapply diag_home; eauto.
  Qed.

  Lemma prank_k_kdecl : forall env,
    In (bA, homeD A (in_tiles A)) env -> In (bC, homeD C (in_tiles C)) env ->
    Forall (kdecl (home_env env)) (prank_k rp ct uplo trans alpha bA A beta bC C).
  Proof.
    intros env EA EC. apply col_forall; intros.
    - apply dtask_kdecl; assumption.
    - apply otask_kdecl; assumption.
  Qed.
  Lemma prank_2k_kdecl : forall env,
    In (bA, homeD A (in_tiles A)) env -> In (bB, homeD A (in_tiles A)) env -> In (bC, homeD C (in_tiles C)) env ->
    Forall (kdecl (home_env env)) (prank_2k rp ct uplo trans alpha alpha2 bA A bB A beta bC C).
  Proof.
    intros env EA EB EC. apply col2_forall.
    - intros. apply d2task_kdecl; assumption.
    - intros bX bY al z x y k HX HY Hx Hy Hk. apply otask_kdecl; auto.
      + destruct HX as [->| ->]; assumption.
      + destruct HY as [->| ->]; assumption.
  Qed.

  (* ---- values ---- *)
  Hypotheses (NA : bA <> bC) (NB : bB <> bC).
  Variable M0 : mem N.

  Definition part (bX bY i j k : Z) : N :=
    nsum (fun l => nmul (op_el M0 trans bX A i l) (op_el M0 t2 bY A l j)) (k * nb) (Z.min ((k + 1) * nb) K).

  Lemma otask_step : forall bX bY al z x y k i j M c, bX <> bC -> bY <> bC ->
    0 <= x < ntl nb (d_n C) -> 0 <= y < ntl nb (d_n C) -> 0 <= k < ntl nb K ->
    0 <= i < d_n C -> 0 <= j < d_n C ->
    at_elem M0 bC C i j M c ->
    at_elem M0 bC C i j (k_fun (otask bX bY al z x y k) M)
      (if (i / nb =? x) && (j / nb =? y) then nadd (nmul al (part bX bY i j k)) (nmul z c) else c).
  Proof.
    intros bX bY al z x y k i j M c NX NY Hx Hy Hk Hi Hj [HF HE]. split.
    - intros l Hl. cbn [k_fun otask omp_zgemm]. rewrite gemm_other by (cbn; assumption). auto.
    - assert (HS : in_tiles C (i / nb) (j / nb)).
      { pose proof (in_tiles_pos C i j (td_shape _ _ (sq_t nb C _ HC))) as Q.
        rewrite (sq_mb nb C _ HC), (sq_nb nb C _ HC) in Q. apply Q; lia. }
      cbn [k_fun otask omp_zgemm].
      rewrite (gemm_el nb A (in_tiles A) bX A (in_tiles A) bY C (in_tiles C)); auto; try lia.
      + destruct ((i / nb =? x) && (j / nb =? y)) eqn:E; [|exact HE].
        rewrite andb_true_iff, !Z.eqb_eq in E. destruct E as [<- <-].
        destruct (pos_tile nb C _ HC i (d_n C) Hi) as (P1 & P2 & P3).
        destruct (pos_tile nb C _ HC j (d_n C) Hj) as (Q1 & Q2 & Q3).
        rewrite <- P3, <- Q3, HE. apply f_equal2; [|reflexivity]. apply f_equal. unfold part.
        replace (k * nb + tsz nb K k) with (Z.min ((k + 1) * nb) K) by (unfold tsz; lia).
        apply nsum_ext. intros l Hl. replace (l + (k - k) * nb) with l by lia.
        apply f_equal2; apply op_el_ext; intros q Hq; apply HF; congruence.
      + apply tileS; assumption.
      + apply t2_S; assumption.
      + apply tileC; assumption.
      + rewrite mvC, CM, CN by assumption. lia.
      + fold K. apply Z.le_refl.
      + rewrite t2_m. apply Z.le_refl.
      + rewrite nvC, t2_n by assumption. lia.
  Qed.

  Lemma rank_other : forall n k M l, fst l <> bC -> k_fun (dtask n k) M l = M l.
  Proof. intros n k M l Hl. apply mset_out. intros R. apply reg_block in R. cbn in R. congruence. Qed.
  Lemma rank2_other : forall n k M l, fst l <> bC -> k_fun (d2task n k) M l = M l.
  Proof. intros n k M l Hl. apply mset_out. intros R. apply reg_block in R. cbn in R. congruence. Qed.

  (* one product of a diagonal update *)
  Lemma diag_sum : forall bX bY M i j k, bX <> bC -> bY <> bC -> i / nb = j / nb -> 0 <= k < ntl nb K ->
    0 <= i < d_n C -> 0 <= j < d_n C -> 0 <= i / nb < ntl nb (d_n C) ->
    (forall l, fst l <> bC -> M l = M0 l) ->
    nsum (fun l => nmul (op_rd M trans (op_tile trans bX A (i / nb) k) (op_ld trans A (i / nb) k) (i mod nb) l)
                        (op_rd M t2 (op_tile trans bY A (i / nb) k) (op_ld trans A (i / nb) k) l (j mod nb)))
         0 (tsz nb K k)
    = part bX bY i j k.
  Proof.
    intros bX bY M i j k NX NY Eij Hk Hi Hj Ht HF. unfold part.
    destruct (pos_tile nb C _ HC i (d_n C) Hi) as (P1 & P2 & P3).
    destruct (pos_tile nb C _ HC j (d_n C) Hj) as (Q1 & Q2 & Q3).
    replace (Z.min ((k + 1) * nb) K) with (tsz nb K k + k * nb) by (unfold tsz; lia).
    assert (SH : forall f : Z -> N, nsum f (k * nb) (tsz nb K k + k * nb)
                 = nsum (fun i => f (i + k * nb)) 0 (tsz nb K k))
      by (intros f; rewrite <- nsum_shift; reflexivity).
    rewrite SH. clear SH. apply nsum_ext. intros l Hl.
    rewrite (op_rd_el nb A (in_tiles A)); auto.
    - unfold t2. rewrite <- (rank_t2_tile ct trans bY A (i / nb) k Hct).
      rewrite <- (rank_t2_ld ct trans A (i / nb) k Hct).
      rewrite (op_rd_el nb A (in_tiles A)); auto.
      + rewrite <- P3. rewrite Eij at 1. rewrite <- Q3. rewrite (Z.add_comm l (k * nb)).
        apply f_equal2; apply op_el_ext; intros q Hq; apply HF; congruence.
      + rewrite rank_t2_S by assumption. apply tileS; assumption.
      + rewrite (proj1 (rank_t2_mn ct trans A Hct)). exact Hl.
      + rewrite (proj2 (rank_t2_mn ct trans A Hct)), CM, CN, Eij. exact Q2.
    - apply tileS; assumption.
    - rewrite CM, CN. exact P2.
  Qed.

  Lemma posC : forall i, 0 <= i < d_n C -> 0 <= i / nb < ntl nb (d_n C) /\ 0 <= i < ntl nb (d_n C) * nb.
  Proof.
    intros i Hi. assert (0 <= i / nb) by (apply Z.div_pos; lia).
    destruct (div_mod_pos i nb Hb) as [E R]. split.
    - split; [assumption|]. apply ntl_spec; auto. nia.
    - pose proof (ntl_top nb (d_n C) Hb HnC). lia.
  Qed.

  (* numbers that the kernels keep on the diagonal: all, or the real ones *)
  Variable sc : N -> Prop.
  Hypothesis sc_rp : forall x, sc x -> rp x = x.
  Hypothesis sc_add : forall x y, sc x -> sc y -> sc (nadd x y).
  Hypothesis sc_beta : forall x, sc x -> sc (nmul beta x).
  Definition at_sc (i j : Z) (M : mem N) (c : N) : Prop := at_elem M0 bC C i j M c /\ (i = j -> sc c).

  Lemma sc_zb : forall k x, sc x -> sc (nmul (zb k) x).
  Proof.
    intros k x H. unfold zb. destruct (k =? 0); auto.
    replace (nmul n1 x) with x by ring. assumption.
  Qed.

  Lemma mod_eq : forall i j, i / nb = j / nb -> (i mod nb =? j mod nb) = (i =? j).
  Proof.
    intros i j E. destruct (div_mod_pos i nb Hb) as [E1 _]. destruct (div_mod_pos j nb Hb) as [E2 _].
    apply eq_true_iff_eq. rewrite !Z.eqb_eq. rewrite E in E1. lia.
  Qed.

  Lemma otask_sc : forall bX bY al z x y k i j M c, bX <> bC -> bY <> bC ->
    0 <= x < ntl nb (d_n C) -> 0 <= y < ntl nb (d_n C) -> 0 <= k < ntl nb K -> x <> y ->
    0 <= i < d_n C -> 0 <= j < d_n C ->
    at_sc i j M c ->
    at_sc i j (k_fun (otask bX bY al z x y k) M)
      (if (i / nb =? x) && (j / nb =? y) then nadd (nmul al (part bX bY i j k)) (nmul z c) else c).
  Proof.
    intros bX bY al z x y k i j M c NX NY Hx Hy Hk Hxy Hi Hj [HA' HcS]. split.
    - apply otask_step; assumption.
    - intros X. subst j.
      replace ((i / nb =? x) && (i / nb =? y)) with false; auto.
      symmetry. apply andb_false_iff. rewrite !Z.eqb_neq. lia.
  Qed.

  Lemma dtask_step : forall n k i j M c, (i = j -> sc (nmul alpha (part bA bA i j k))) -> 0 <= n < ntl nb (d_n C) -> 0 <= k < ntl nb K ->
    0 <= i < d_n C -> 0 <= j < d_n C ->
    at_sc i j M c ->
    at_sc i j (k_fun (dtask n k) M)
      (if (i / nb =? n) && (j / nb =? n) && uplo_sel uplo (i mod nb) (j mod nb)
       then nadd (nmul alpha (part bA bA i j k)) (nmul (zb k) c) else c).
  Proof.
    intros n k i j M c HSC Hn Hk Hi Hj [[HF HE] HcS].
    assert (RP : forall b v, b = (i =? j) -> (i = j -> sc v) -> (if b : bool then rp v else v) = v).
    { intros b v -> Q. destruct (i =? j) eqn:X; auto. apply Z.eqb_eq in X. auto. }
    split; [split|].
    - intros l Hl. rewrite rank_other by assumption. auto.
    - assert (HS : in_tiles C (i / nb) (j / nb)) by (apply tileC; apply posC; assumption).
      unfold dtask. cbn [k_fun omp_rank_k]. unfold core_rank_k.
      rewrite <- (mvC n Hn) at 1. rewrite <- (nvC n Hn).
      rewrite (sq_set nb C _ HC); auto; try lia; [|apply tileC; assumption].
      destruct ((i / nb =? n) && (j / nb =? n) && uplo_sel uplo (i mod nb) (j mod nb)) eqn:E; [|exact HE].
      rewrite !andb_true_iff, !Z.eqb_eq in E. destruct E as [[En En'] Es].
      destruct (pos_tile nb C _ HC i (d_n C) Hi) as (P1 & P2 & P3).
      destruct (pos_tile nb C _ HC j (d_n C) Hj) as (Q1 & Q2 & Q3).
      cbv zeta. rewrite mod_eq by congruence.
      match goal with |- (if ?b then rp ?v else ?v) = ?w => assert (V : v = w) end.
      2:{ rewrite V. apply RP; auto. intros X. apply sc_add; auto. apply sc_zb; auto. }
      apply f_equal2.
      + apply f_equal. subst n. fold t2. apply diag_sum; auto; try congruence.
      + apply f_equal. rewrite (sq_rd nb C _ HC).
        * rewrite <- HE. rewrite <- En at 1. rewrite <- En'. rewrite <- P3, <- Q3. reflexivity.
        * apply tileC; assumption.
        * rewrite CN, <- En. exact P2.
        * rewrite <- En'. exact Q2.
    - intros X. destruct ((i / nb =? n) && (j / nb =? n) && uplo_sel uplo (i mod nb) (j mod nb)); auto.
      apply sc_add; auto. apply sc_zb; auto.
  Qed.

  Lemma d2task_step : forall n k i j M c,
    (i = j -> sc (nadd (nmul alpha (part bA bB i j k)) (nmul alpha2 (part bB bA i j k)))) -> 0 <= n < ntl nb (d_n C) -> 0 <= k < ntl nb K ->
    0 <= i < d_n C -> 0 <= j < d_n C ->
    at_sc i j M c ->
    at_sc i j (k_fun (d2task n k) M)
      (if (i / nb =? n) && (j / nb =? n) && uplo_sel uplo (i mod nb) (j mod nb)
       then nadd (nadd (nmul alpha (part bA bB i j k)) (nmul alpha2 (part bB bA i j k))) (nmul (zb k) c) else c).
  Proof.
    intros n k i j M c HSC Hn Hk Hi Hj [[HF HE] HcS].
    assert (RP : forall b v, b = (i =? j) -> (i = j -> sc v) -> (if b : bool then rp v else v) = v).
    { intros b v -> Q. destruct (i =? j) eqn:X; auto. apply Z.eqb_eq in X. auto. }
    split; [split|].
    - intros l Hl. rewrite rank2_other by assumption. auto.
    - assert (HS : in_tiles C (i / nb) (j / nb)) by (apply tileC; apply posC; assumption).
      unfold d2task. cbn [k_fun omp_rank_2k]. unfold core_rank_2k.
      rewrite <- (mvC n Hn) at 1. rewrite <- (nvC n Hn).
      rewrite (sq_set nb C _ HC); auto; try lia; [|apply tileC; assumption].
      destruct ((i / nb =? n) && (j / nb =? n) && uplo_sel uplo (i mod nb) (j mod nb)) eqn:E; [|exact HE].
      rewrite !andb_true_iff, !Z.eqb_eq in E. destruct E as [[En En'] Es].
      destruct (pos_tile nb C _ HC i (d_n C) Hi) as (P1 & P2 & P3).
      destruct (pos_tile nb C _ HC j (d_n C) Hj) as (Q1 & Q2 & Q3).
      cbv zeta. rewrite mod_eq by congruence.
      match goal with |- (if ?b then rp ?v else ?v) = ?w => assert (V : v = w) end.
      2:{ rewrite V. apply RP; auto. intros X. apply sc_add; auto. apply sc_zb; auto. }
      apply f_equal2.
      + subst n. fold t2. apply f_equal2; apply f_equal; apply diag_sum; auto; try congruence.
      + apply f_equal. rewrite (sq_rd nb C _ HC).
        * rewrite <- HE. rewrite <- En at 1. rewrite <- En'. rewrite <- P3, <- Q3. reflexivity.
        * apply tileC; assumption.
        * rewrite CN, <- En. exact P2.
        * rewrite <- En'. exact Q2.
    - intros X. destruct ((i / nb =? n) && (j / nb =? n) && uplo_sel uplo (i mod nb) (j mod nb)); auto.
      apply sc_add; auto. apply sc_zb; auto.
  Qed.

  (* all tiles k *)
  Definition full (bX bY i j : Z) : N :=
    nsum (fun l => nmul (op_el M0 trans bX A i l) (op_el M0 t2 bY A l j)) 0 K.

  Lemma part_sum : forall bX bY i j, nsum (part bX bY i j) 0 (ntl nb K) = full bX bY i j.
  Proof.
    intros. unfold part, full. rewrite nsum_tiles; auto.
    - pose proof (ntl_top nb K Hb HK). replace (Z.min (ntl nb K * nb) K) with K by lia. reflexivity.
    - apply Z.div_pos; lia.
    - destruct (Z.eq_dec K 0) as [E|E].
      + left. rewrite E. unfold ntl. apply Z.div_small. lia.
      + right. assert (ntl nb K - 1 < ntl nb K) as L by lia. apply ntl_spec in L; auto; [lia|].
        pose proof (ntl_pos nb K Hb). lia.
  Qed.

  Definition fin (s c : N) : N := if K =? 0 then c else nadd s (nmul beta c).

  Lemma fold_fin : forall term c, 
    fold_left (fun c k => nadd (term k) (nmul (zb k) c)) (zrange 0 (ntl nb K)) c
    = fin (nsum term 0 (ntl nb K)) c.
  Proof.
    intros. unfold zb, fin. rewrite fold_accum by (apply Z.div_pos; lia).
    replace (ntl nb K =? 0) with (K =? 0); [reflexivity|].
    apply eq_true_iff_eq. rewrite !Z.eqb_eq. split; intros E.
    - rewrite E. unfold ntl. apply Z.div_small. lia.
    - destruct (Z.eq_dec K 0); auto. pose proof (ntl_pos nb K Hb). lia.
  Qed.

  Lemma fold_left_if : forall X Y (b : bool) (f : X -> Y -> X) l a,
    fold_left (fun a y => if b then f a y else a) l a = if b then fold_left f l a else a.
  Proof. intros X Y [|] f l a; [reflexivity|]. apply fold_left_id. auto. Qed.

  Lemma prank_k_at : forall i j, (i = j -> sc (el M0 bC C i j)) ->
    (forall k, 0 <= k -> i = j -> sc (nmul alpha (part bA bA i j k))) -> 0 <= i < d_n C -> 0 <= j < d_n C ->
    at_elem M0 bC C i j (krun (prank_k rp ct uplo trans alpha bA A beta bC C) M0)
      (if uplo_sel uplo i j then fin (nmul alpha (full bA bA i j)) (el M0 bC C i j) else el M0 bC C i j).
  Proof.
    intros i j HcS HpS Hi Hj. rewrite prank_k_eq.
    set (term k := nmul alpha (part bA bA i j k)).
    set (dstep n c := if (i / nb =? n) && (j / nb =? n) && uplo_sel uplo (i mod nb) (j mod nb)
                      then fin (nsum term 0 (ntl nb K)) c else c).
    set (ostep n m c := if (i / nb =? ox n m) && (j / nb =? oy n m)
                      then fin (nsum term 0 (ntl nb K)) c else c).
    assert (S : sims (at_sc i j) (flat_map col (zrange 0 (ntl nb (d_n C))))
      (fun c => fold_left (fun c n => fold_left (fun c m => ostep n m c) (zrange (n + 1) (ntl nb (d_n C))) (dstep n c))
                  (zrange 0 (ntl nb (d_n C))) c)).
    { apply (sims_flat_map _ _ _ _ (fun n c => fold_left (fun c m => ostep n m c)
               (zrange (n + 1) (ntl nb (d_n C))) (dstep n c))).
      intros n Hn. apply in_zrange in Hn. unfold col.
      apply (sims_app _ _ _ (dstep n) (fun c => fold_left (fun c m => ostep n m c) (zrange (n + 1) (ntl nb (d_n C))) c)).
      - eapply sims_ext; [|apply sims_map with (f := fun k c =>
          if (i / nb =? n) && (j / nb =? n) && uplo_sel uplo (i mod nb) (j mod nb)
          then nadd (term k) (nmul (zb k) c) else c)].
        + intros c. cbv beta. rewrite fold_left_if. rewrite fold_fin. reflexivity.
        + intros k Hk M c HR. apply in_zrange in Hk. apply dtask_step; auto. intros; apply HpS; [lia|assumption].
      - apply sims_flat_map. intros m Hm. apply in_zrange in Hm.
        eapply sims_ext; [|apply sims_map with (f := fun k c =>
          if (i / nb =? ox n m) && (j / nb =? oy n m) then nadd (term k) (nmul (zb k) c) else c)].
        + intros c. cbv beta. rewrite fold_left_if. rewrite fold_fin. reflexivity.
        + intros k Hk M c HR. apply in_zrange in Hk. apply otask_sc; auto;
            unfold ox, oy; destruct (uplo =? PlasmaLower); lia. }
    specialize (S M0 (el M0 bC C i j)). cbv beta in S.
    rewrite (tri_fold nb uplo (ntl nb (d_n C)) i j Hb) with (F := fin (nsum term 0 (ntl nb K))) in S; auto.
    - unfold term in S. rewrite nsum_mul_l, part_sum in S. apply S. split; [split; auto|assumption].
    - apply posC; assumption.
    - apply posC; assumption.
    - intros n m c Hnm. unfold ostep, ox, oy. destruct (uplo =? PlasmaLower); reflexivity.
  Qed.

  Lemma two_adds : forall (t u z c : N), nadd u (nmul n1 (nadd t (nmul z c))) = nadd (nadd t u) (nmul z c).
  Proof. intros. ring. Qed.

  Lemma prank_2k_at : forall i j, (i = j -> sc (el M0 bC C i j)) ->
    (forall k, 0 <= k -> i = j -> sc (nadd (nmul alpha (part bA bB i j k)) (nmul alpha2 (part bB bA i j k)))) -> 0 <= i < d_n C -> 0 <= j < d_n C ->
    at_elem M0 bC C i j (krun (prank_2k rp ct uplo trans alpha alpha2 bA A bB A beta bC C) M0)
      (if uplo_sel uplo i j
       then fin (nadd (nmul alpha (full bA bB i j)) (nmul alpha2 (full bB bA i j))) (el M0 bC C i j)
       else el M0 bC C i j).
  Proof.
    intros i j HcS HpS Hi Hj. rewrite prank_2k_eq.
    set (term k := nadd (nmul alpha (part bA bB i j k)) (nmul alpha2 (part bB bA i j k))).
    set (dstep n c := if (i / nb =? n) && (j / nb =? n) && uplo_sel uplo (i mod nb) (j mod nb)
                      then fin (nsum term 0 (ntl nb K)) c else c).
    set (ostep n m c := if (i / nb =? ox n m) && (j / nb =? oy n m)
                      then fin (nsum term 0 (ntl nb K)) c else c).
    assert (S : sims (at_sc i j) (flat_map col2 (zrange 0 (ntl nb (d_n C))))
      (fun c => fold_left (fun c n => fold_left (fun c m => ostep n m c) (zrange (n + 1) (ntl nb (d_n C))) (dstep n c))
                  (zrange 0 (ntl nb (d_n C))) c)).
    { apply (sims_flat_map _ _ _ _ (fun n c => fold_left (fun c m => ostep n m c)
               (zrange (n + 1) (ntl nb (d_n C))) (dstep n c))).
      intros n Hn. apply in_zrange in Hn. unfold col2.
      apply (sims_app _ _ _ (dstep n) (fun c => fold_left (fun c m => ostep n m c) (zrange (n + 1) (ntl nb (d_n C))) c)).
      - eapply sims_ext; [|apply sims_map with (f := fun k c =>
          if (i / nb =? n) && (j / nb =? n) && uplo_sel uplo (i mod nb) (j mod nb)
          then nadd (term k) (nmul (zb k) c) else c)].
        + intros c. cbv beta. rewrite fold_left_if. rewrite fold_fin. reflexivity.
        + intros k Hk M c HR. apply in_zrange in Hk. apply d2task_step; auto. intros; apply HpS; [lia|assumption].
      - apply sims_flat_map. intros m Hm. apply in_zrange in Hm.
        eapply sims_ext; [|apply sims_flat_map with (f := fun k c =>
          if (i / nb =? ox n m) && (j / nb =? oy n m) then nadd (term k) (nmul (zb k) c) else c)].
        + intros c. cbv beta. rewrite fold_left_if. rewrite fold_fin. reflexivity.
        + intros k Hk M c HR. apply in_zrange in Hk. cbn [krun].
          assert (Hx : 0 <= ox n m < ntl nb (d_n C)) by (unfold ox; destruct (uplo =? PlasmaLower); lia).
          assert (Hy : 0 <= oy n m < ntl nb (d_n C)) by (unfold oy; destruct (uplo =? PlasmaLower); lia).
          assert (Hxy : ox n m <> oy n m) by (unfold ox, oy; destruct (uplo =? PlasmaLower); lia).
          pose proof (otask_sc bA bB alpha (zb k) (ox n m) (oy n m) k i j M c NA NB Hx Hy Hk Hxy Hi Hj HR) as H1.
          pose proof (otask_sc bB bA alpha2 n1 (ox n m) (oy n m) k i j _ _ NB NA Hx Hy Hk Hxy Hi Hj H1) as H2.
          destruct ((i / nb =? ox n m) && (j / nb =? oy n m)); [|exact H2].
          rewrite two_adds in H2. exact H2. }
    specialize (S M0 (el M0 bC C i j)). cbv beta in S.
    rewrite (tri_fold nb uplo (ntl nb (d_n C)) i j Hb) with (F := fin (nsum term 0 (ntl nb K))) in S; auto.
    - unfold term in S. rewrite nsum_add, !nsum_mul_l, !part_sum in S. apply S. split; [split; auto|assumption].
    - apply posC; assumption.
    - apply posC; assumption.
    - intros n m c Hnm. unfold ostep, ox, oy. destruct (uplo =? PlasmaLower); reflexivity.
  Qed.
End Rank.
