From Coq Require Import ZArith List Bool Lia Ring.
From Verif Require Import Base NumModel NumProofs TaskModel TaskSpec TaskProofs DescModel DescSpec
  DescDriverModel DescProofs DescProofs3 DescProofs4 MatModel MatSpec MatProofs RegionProofs
  LayoutModel LayoutProofs LayoutProofs2 DriverModel DriverSpec OpProofs SimProofs OperandProofs
  GemmModel GemmProofs GemmDriverProofs RankProofs RankDriverProofs SymmModel.
Import ListNotations.
Open Scope Z_scope.

Lemma omp_sym_mm_kgood : forall (N : numbers) rp ct side uplo m n (alpha : N) A lda B ldb beta C ldc,
  ct <> PlasmaNoTrans -> uplo = PlasmaUpper \/ uplo = PlasmaLower -> m <= ldc ->
  kgood (omp_sym_mm rp ct side uplo m n alpha A lda B ldb beta C ldc).
Proof.
  intros N rp ct side uplo m n alpha A lda B ldb beta C ldc Hct Hu HL. apply mset_kgood; auto.
  - apply finite_or; [apply finite_reg|]. apply finite_or; apply finite_reg.
  - intros M M' i j Hi Hj HP HX.
    assert (SR : forall a i j, a = (if side =? PlasmaLeft then m else n) -> 0 <= i < a -> 0 <= j < a ->
      sym_rd M rp ct uplo A lda i j = sym_rd M' rp ct uplo A lda i j).
    { intros a i' j' -> Hi' Hj'. unfold sym_rd.
      destruct (Z.eqb_spec i' j') as [<-|Hne].
      - apply f_equal. apply HX. left. exists i', i'. split; [assumption|]. split; [assumption|].
        split; [|reflexivity]. destruct Hu as [->| ->]; unfold uplo_sel; cbn; apply Z.leb_refl.
      - destruct (uplo_sel uplo i' j') eqn:E.
        + apply HX. left. exists i', j'. auto.
        + assert (E' : uplo_sel uplo j' i' = true).
          { revert E. destruct Hu as [->| ->]; unfold uplo_sel; cbn; rewrite Z.leb_gt, Z.leb_le; lia. }
          assert (R : rd M A lda j' i' = rd M' A lda j' i') by (apply HX; left; exists j', i'; auto).
          unfold op_rd. apply Z.eqb_neq in Hct. rewrite Hct. destruct (ct =? PlasmaTrans); rewrite R; reflexivity. }
    apply f_equal2.
    + apply f_equal. destruct (side =? PlasmaLeft); apply nsum_ext; intros l Hl; apply f_equal2.
      * eapply SR; eauto.
      * apply HX. right. left. exists l, j. auto.
      * apply HX. right. left. exists i, l. auto.
      * eapply SR; eauto.
    + apply f_equal. apply HX. right. right. exists i, j. auto.
Qed.

Section Symm.
  Context {N : numbers}.
  Add Ring num_ring_symm : (nring N).
  Variables (rp : N -> N) (nb : Z) (A B C : desc) (bA bB bC ct side uplo : Z) (alpha beta : N).
  Hypotheses (HA : dn nb A) (HB : dn nb B) (HC : dn nb C).
  Hypothesis Hct : ct <> PlasmaNoTrans.
  Hypothesis Hu : uplo = PlasmaUpper \/ uplo = PlasmaLower.
  Hypotheses (BM : d_m B = d_m C) (BN : d_n B = d_n C) (AS : d_m A = d_n A).
  Let left := side =? PlasmaLeft.
  Hypothesis AM : d_n A = if left then d_m C else d_n C.
  Let K := d_n A.
  Let Hb : 0 < nb := sq_pos nb C _ HC.
  Let HK : 0 <= K := go_n A (td_shape _ _ (sq_t nb A _ HA)).
  Let HmC : 0 <= d_m C := go_m C (td_shape _ _ (sq_t nb C _ HC)).
  Let HnC : 0 <= d_n C := go_n C (td_shape _ _ (sq_t nb C _ HC)).

  Let zb (k : Z) : N := if k =? 0 then beta else n1.
  Definition symx (m n : Z) : Z := if side =? PlasmaLeft then m else n.
  (* how the stored tile of A is used *)
  Definition sym_t (m n k : Z) : Z :=
    if side =? PlasmaLeft
    then (if uplo =? PlasmaLower then (if k <? m then PlasmaNoTrans else ct)
          else (if k <? m then ct else PlasmaNoTrans))
    else (if uplo =? PlasmaLower then (if k <? n then ct else PlasmaNoTrans)
          else (if k <? n then PlasmaNoTrans else ct)).

  Definition stask (m n k : Z) : ktask N :=
    if symx m n =? k then
      omp_sym_mm rp ct side uplo (tile_mview C m) (tile_nview C n) alpha (tptr bA A k k) (tile_mmain A k)
        (if side =? PlasmaLeft then tptr bB B k n else tptr bB B m k)
        (if side =? PlasmaLeft then tile_mmain B k else tile_mmain B m)
        (zb k) (tptr bC C m n) (tile_mmain C m)
    else if side =? PlasmaLeft then
      omp_zgemm (sym_t m n k) PlasmaNoTrans (tile_mview C m) (tile_nview C n) (tsz nb K k) alpha
        (op_tile (sym_t m n k) bA A m k) (op_ld (sym_t m n k) A m k)
        (op_tile PlasmaNoTrans bB B k n) (op_ld PlasmaNoTrans B k n)
        (zb k) (tptr bC C m n) (tile_mmain C m)
    else
      omp_zgemm PlasmaNoTrans (sym_t m n k) (tile_mview C m) (tile_nview C n) (tsz nb K k) alpha
        (op_tile PlasmaNoTrans bB B m k) (op_ld PlasmaNoTrans B m k)
        (op_tile (sym_t m n k) bA A k n) (op_ld (sym_t m n k) A k n)
        (zb k) (tptr bC C m n) (tile_mmain C m).

  Let Cm : d_mt C = ntl nb (d_m C) := dn_mt nb C HC.
  Let Cn : d_nt C = ntl nb (d_n C) := dn_nt nb C HC.
  Lemma tC : forall m n, 0 <= m < ntl nb (d_m C) -> 0 <= n < ntl nb (d_n C) -> in_tiles C m n.
  Proof. intros. unfold in_tiles. rewrite Cm, Cn. auto. Qed.
  Lemma tB : forall m n, 0 <= m < ntl nb (d_m C) -> 0 <= n < ntl nb (d_n C) -> in_tiles B m n.
  Proof. intros. unfold in_tiles. rewrite (dn_mt nb B HB), (dn_nt nb B HB), BM, BN. auto. Qed.
  Lemma tA : forall m n, 0 <= m < ntl nb K -> 0 <= n < ntl nb K -> in_tiles A m n.
  Proof. intros. unfold in_tiles. rewrite (dn_mt nb A HA), (dn_nt nb A HA), AS. auto. Qed.

  Lemma kview : forall k, 0 <= k < ntl nb K -> (exists x, 0 <= x < ntl nb (if left then d_n C else d_m C)) ->
    (if left then tile_mview C k else tile_nview C k) = tsz nb K k.
  Proof.
    intros k Hk [x Hx]. unfold K in *. rewrite AM in *. unfold left in *. destruct (side =? PlasmaLeft).
    - apply (sq_mv nb C _ HC k x). apply tC; assumption.
    - apply (sq_nv nb C _ HC x k). apply tC; assumption.
  Qed.

  Lemma psym_mm_eq : psym_mm rp ct side uplo alpha bA A bB B beta bC C
    = flat_map (fun m => flat_map (fun n => map (stask m n) (zrange 0 (ntl nb K)))
                           (zrange 0 (ntl nb (d_n C)))) (zrange 0 (ntl nb (d_m C))).
  Proof.
    unfold psym_mm. rewrite Cm, Cn. apply flat_map_ext_in. intros m Hm. apply in_zrange in Hm.
    apply flat_map_ext_in. intros n Hn. apply in_zrange in Hn.
    unfold psym_mm_tile, stask, sym_t, symx. cbv zeta. rewrite Cm, Cn.
    pose proof kview as KV. unfold left in *.
    assert (E := Hct). apply Z.eqb_neq in E.
    destruct (side =? PlasmaLeft) eqn:SD.
    - unfold K in *. rewrite AM in *.
      destruct (uplo =? PlasmaLower); apply map_ext_in; intros k Hk; apply in_zrange in Hk;
        rewrite (KV k) by (try assumption; exists n; assumption);
        destruct (Z.ltb_spec k m); destruct (Z.eqb_spec k m); destruct (Z.eqb_spec m k); try lia;
        unfold op_tile, op_ld; rewrite ?E; reflexivity.
    - unfold K in *. rewrite AM in *.
      destruct (uplo =? PlasmaLower); apply map_ext_in; intros k Hk; apply in_zrange in Hk;
        rewrite (KV k) by (try assumption; exists m; assumption);
        destruct (Z.ltb_spec k n); destruct (Z.eqb_spec n k); try lia;
        unfold op_tile, op_ld; rewrite ?E; reflexivity.
  Qed.

  Lemma sym_forall : forall (P : ktask N -> Prop),
    (forall m n k, 0 <= m < ntl nb (d_m C) -> 0 <= n < ntl nb (d_n C) -> 0 <= k < ntl nb K -> P (stask m n k)) ->
    Forall P (psym_mm rp ct side uplo alpha bA A bB B beta bC C).
  Proof.
    intros P H. rewrite psym_mm_eq. apply Forall_flat_map_intro. intros m Hm. apply in_zrange in Hm.
    apply Forall_flat_map_intro. intros n Hn. apply in_zrange in Hn.
    apply Forall_map, Forall_forall. intros k Hk. apply in_zrange in Hk. apply H; assumption.
  Qed.

  Lemma ldCs : forall m n, in_tiles C m n -> tile_mview C m <= tile_mmain C m.
  Proof. intros m n. apply (td_ld C _ (sq_t nb C _ HC)). Qed.

  Lemma psym_mm_kgood : Forall kgood (psym_mm rp ct side uplo alpha bA A bB B beta bC C).
  Proof.
    apply sym_forall. intros m n k Hm Hn Hk. pose proof (ldCs m n (tC m n Hm Hn)) as L. unfold stask.
    destruct (symx m n =? k); [|destruct (side =? PlasmaLeft)].
    - apply omp_sym_mm_kgood; assumption.
    - apply omp_zgemm_kgood; assumption.
    - apply omp_zgemm_kgood; assumption.
  Qed.

  Lemma sym_t_S : forall m n k x y, 0 <= x < ntl nb K -> 0 <= y < ntl nb K -> op_S (sym_t m n k) (in_tiles A) x y.
  Proof. intros m n k x y Hx Hy. unfold op_S. destruct (sym_t m n k =? PlasmaNoTrans); apply tA; assumption. Qed.
  Lemma op_mA : forall t, op_m t A = K.
  Proof. intros t. unfold op_m. destruct (t =? PlasmaNoTrans); auto. Qed.
  Lemma op_nA : forall t, op_n t A = K.
  Proof. intros t. unfold op_n. destruct (t =? PlasmaNoTrans); auto. Qed.

  (* ranges of tile indices on the contracted side *)
  Lemma rK : forall m n, 0 <= m < ntl nb (d_m C) -> 0 <= n < ntl nb (d_n C) -> 0 <= symx m n < ntl nb K.
  Proof. intros m n Hm Hn. unfold K, symx. rewrite AM. unfold left. destruct (side =? PlasmaLeft); assumption. Qed.

  Lemma dmC : forall m n, in_tiles C m n -> tile_mview C m = tsz nb (d_m C) m.
  Proof. intros m n. apply (sq_mv nb C _ HC). Qed.
  Lemma dnC : forall m n, in_tiles C m n -> tile_nview C n = tsz nb (d_n C) n.
  Proof. intros m n. apply (sq_nv nb C _ HC). Qed.

  Lemma psym_mm_kdecl : forall env,
    In (bA, homeD A (in_tiles A)) env -> In (bB, homeD B (in_tiles B)) env -> In (bC, homeD C (in_tiles C)) env ->
    Forall (kdecl (home_env env)) (psym_mm rp ct side uplo alpha bA A bB B beta bC C).
  Proof.
    intros env EA EB EC. apply sym_forall. intros m n k Hm Hn Hk. unfold stask.
    pose proof (tC m n Hm Hn) as TC. pose proof (rK m n Hm Hn) as RK.
    destruct (symx m n =? k) eqn:EK.
    - apply Z.eqb_eq in EK. apply kdecl_intro; cbn; intros l HR.
      + left. destruct HR as [HR|[HR|HR]].
        * eexists. split; [left; reflexivity|]. cbn. eapply home_tile with (P := uplo_sel uplo); eauto.
          -- apply tA; assumption.
          -- assert (TA := tA k k Hk Hk). rewrite (sq_mv nb A _ HA _ _ TA), (sq_nv nb A _ HA _ _ TA), AS.
             revert HR. rewrite (dmC m n TC), (dnC m n TC). unfold symx in EK. fold K. rewrite <- EK.
             pose proof AM as AM'. unfold left in AM'. unfold K. destruct (side =? PlasmaLeft); rewrite AM'; auto.
        * eexists. split; [right; left; reflexivity|]. cbn.
          assert (TB := tB m n Hm Hn). rewrite (dmC m n TC), (dnC m n TC), <- BM, <- BN in HR.
          rewrite <- (sq_mv nb B _ HB _ _ TB), <- (sq_nv nb B _ HB _ _ TB) in HR.
          unfold symx in EK. destruct (side =? PlasmaLeft); subst k; eapply home_tile; eauto.
        * eexists. split; [right; right; left; reflexivity|]. cbn. eapply home_tile; eauto.
      + eexists. split; [right; right; left; reflexivity|]. split; [|discriminate]. cbn. eapply home_tile; eauto.
    - destruct (side =? PlasmaLeft) eqn:SD.
      + assert (KC : K = d_m C) by (unfold K; rewrite AM; unfold left; rewrite ?SD; reflexivity).
        apply (omp_zgemm_kdecl nb env A (in_tiles A) bA B (in_tiles B) bB C (in_tiles C) bC); auto.
        * apply sym_t_S; [rewrite KC|]; assumption.
        * apply tB; [rewrite <- KC|]; assumption.
        * rewrite (dmC m n TC), op_mA, KC. lia.
        * rewrite op_nA. lia.
        * unfold op_m. cbn. rewrite BM, KC. lia.
        * unfold op_n. cbn. rewrite (dnC m n TC), BN. lia.
      + assert (KC : K = d_n C) by (unfold K; rewrite AM; unfold left; rewrite ?SD; reflexivity).
        apply (omp_zgemm_kdecl nb env B (in_tiles B) bB A (in_tiles A) bA C (in_tiles C) bC); auto.
        * apply tB; [|rewrite <- KC]; assumption.
        * apply sym_t_S; [|rewrite KC]; assumption.
        * unfold op_m. cbn. rewrite (dmC m n TC), BM. lia.
        * unfold op_n. cbn. rewrite BN, KC. lia.
        * rewrite op_mA. lia.
        * rewrite (dnC m n TC), op_nA, KC. lia.
  Qed.

  (* ---- values ---- *)
  Hypotheses (NA : bA <> bC) (NB : bB <> bC).
  Variable M0 : mem N.
  Hypothesis Hdiag : forall i, 0 <= i < K -> rp (el M0 bA A i i) = el M0 bA A i i.

  Definition sym_el (i j : Z) : N :=
    if uplo_sel uplo i j then el M0 bA A i j else op_el M0 ct bA A i j.
  Definition sterm (i j l : Z) : N :=
    if side =? PlasmaLeft then nmul (sym_el i l) (el M0 bB B l j) else nmul (el M0 bB B i l) (sym_el l j).
  Definition spart (i j k : Z) : N := nsum (sterm i j) (k * nb) (Z.min ((k + 1) * nb) K).

  (* a tile strictly inside or outside the stored triangle *)
  Lemma op_sym : forall t i l, 
    (t = PlasmaNoTrans /\ uplo_sel uplo i l = true) \/ (t = ct /\ uplo_sel uplo i l = false) ->
    op_el M0 t bA A i l = sym_el i l.
  Proof.
    intros t i l H. unfold sym_el. destruct H as [[-> ->]|[-> ->]]; [|reflexivity].
    reflexivity.
  Qed.

  Lemma sel_lower : forall i j, uplo_sel uplo i j = if uplo =? PlasmaLower then j <=? i else i <=? j.
  Proof. intros. destruct Hu as [->| ->]; reflexivity. Qed.

  Lemma sym_t_ok_l : forall i n k l, side =? PlasmaLeft = true -> i / nb <> k -> l / nb = k ->
    op_el M0 (sym_t (i / nb) n k) bA A i l = sym_el i l.
  Proof.
    intros i n k l SD Hne El. apply op_sym. rewrite sel_lower. unfold sym_t. rewrite SD.
    destruct (div_mod_pos i nb Hb) as [Ei Ri]. destruct (div_mod_pos l nb Hb) as [El' Rl].
    rewrite El in El'. remember (i / nb) as I eqn:EI. clear EI.
    destruct (uplo =? PlasmaLower); destruct (Z.ltb_spec k I).
    - left. split; [reflexivity|]. apply Z.leb_le. nia.
    - right. split; [reflexivity|]. apply Z.leb_gt. nia.
    - right. split; [reflexivity|]. apply Z.leb_gt. nia.
    - left. split; [reflexivity|]. apply Z.leb_le. nia.
  Qed.
  Lemma sym_t_ok_r : forall j m k l, side =? PlasmaLeft = false -> j / nb <> k -> l / nb = k ->
    op_el M0 (sym_t m (j / nb) k) bA A l j = sym_el l j.
  Proof.
    intros j m k l SD Hne El. apply op_sym. rewrite sel_lower. unfold sym_t. rewrite SD.
    destruct (div_mod_pos j nb Hb) as [Ei Ri]. destruct (div_mod_pos l nb Hb) as [El' Rl].
    rewrite El in El'. remember (j / nb) as I eqn:EI. clear EI.
    destruct (uplo =? PlasmaLower); destruct (Z.ltb_spec k I).
    - right. split; [reflexivity|]. apply Z.leb_gt. nia.
    - left. split; [reflexivity|]. apply Z.leb_le. nia.
    - left. split; [reflexivity|]. apply Z.leb_le. nia.
    - right. split; [reflexivity|]. apply Z.leb_gt. nia.
  Qed.

  Lemma tile_div : forall k l, k * nb <= l < k * nb + tsz nb K k -> l / nb = k.
  Proof.
    intros k l Hl. unfold tsz in Hl. symmetry. apply Z.div_unique with (r := l - k * nb); [left|]; lia.
  Qed.

  (* reading the diagonal tile *)
  Lemma sym_rd_el : forall M k r c, 0 <= k < ntl nb K -> 0 <= r < tsz nb K k -> 0 <= c < tsz nb K k ->
    (forall l, fst l <> bC -> M l = M0 l) ->
    sym_rd M rp ct uplo (tptr bA A k k) (tile_mmain A k) r c = sym_el (k * nb + r) (k * nb + c).
  Proof.
    intros M k r c Hk Hr Hc HF. pose proof (tA k k Hk Hk) as TA.
    assert (RD : forall r c, 0 <= r < tsz nb K k -> 0 <= c < tsz nb K k ->
      rd M (tptr bA A k k) (tile_mmain A k) r c = el M0 bA A (k * nb + r) (k * nb + c)).
    { intros r' c' Hr' Hc'. rewrite (sq_rd nb A _ HA); auto.
      - apply HF. cbn. assumption.
      - rewrite AS. assumption. }
    unfold sym_rd, sym_el. rewrite !sel_lower.
    replace (k * nb + c <=? k * nb + r) with (c <=? r) by (apply eq_true_iff_eq; rewrite !Z.leb_le; lia).
    replace (k * nb + r <=? k * nb + c) with (r <=? c) by (apply eq_true_iff_eq; rewrite !Z.leb_le; lia).
    destruct (Z.eqb_spec r c) as [<-|Hne].
    - rewrite RD by assumption. rewrite Z.leb_refl. destruct (uplo =? PlasmaLower); apply Hdiag;
        (split; [nia|unfold tsz in Hr; lia]).
    - destruct (if uplo =? PlasmaLower then c <=? r else r <=? c); [apply RD; assumption|].
      unfold op_rd, op_el. rewrite !RD by assumption. reflexivity.
  Qed.

  Lemma sh : forall k (f : Z -> N), nsum f (k * nb) (Z.min ((k + 1) * nb) K)
                 = nsum (fun i => f (k * nb + i)) 0 (tsz nb K k).
  Proof.
    intros k f. replace (Z.min ((k + 1) * nb) K) with (tsz nb K k + k * nb) by (unfold tsz; lia).
    replace (nsum f (k * nb) (tsz nb K k + k * nb)) with (nsum f (0 + k * nb) (tsz nb K k + k * nb)) by reflexivity.
    rewrite nsum_shift. apply nsum_ext. intros l _. f_equal. lia.
  Qed.

  Lemma stask_step : forall m n k i j M c, 
    0 <= m < ntl nb (d_m C) -> 0 <= n < ntl nb (d_n C) -> 0 <= k < ntl nb K ->
    0 <= i < d_m C -> 0 <= j < d_n C ->
    at_elem M0 bC C i j M c ->
    at_elem M0 bC C i j (k_fun (stask m n k) M)
      (if (i / nb =? m) && (j / nb =? n) then nadd (nmul alpha (spart i j k)) (nmul (zb k) c) else c).
  Proof.
    intros m n k i j M c Hm Hn Hk Hi Hj [HF HE].
    assert (HS : in_tiles C (i / nb) (j / nb)).
    { pose proof (in_tiles_pos C i j (td_shape _ _ (sq_t nb C _ HC))) as Q.
      rewrite (sq_mb nb C _ HC), (sq_nb nb C _ HC) in Q. apply Q; lia. }
    pose proof (tC m n Hm Hn) as TC. pose proof (rK m n Hm Hn) as RK.
    destruct (pos_tile nb C _ HC i (d_m C) Hi) as (P1 & P2 & P3).
    destruct (pos_tile nb C _ HC j (d_n C) Hj) as (Q1 & Q2 & Q3).
    unfold stask. destruct (symx m n =? k) eqn:EK.
    - apply Z.eqb_eq in EK. split.
      + intros l Hl. cbn [k_fun omp_sym_mm]. unfold core_sym_mm.
        rewrite mset_out; [auto|]. intros R. apply reg_block in R. cbn in R. congruence.
      + cbn [k_fun omp_sym_mm]. unfold core_sym_mm.
        rewrite (sq_set nb C _ HC); auto. unfold everywhere. rewrite andb_true_r.
        destruct ((i / nb =? m) && (j / nb =? n)) eqn:E; [|exact HE].
        rewrite andb_true_iff, !Z.eqb_eq in E. destruct E as [Em En].
        apply f_equal2.
        * apply f_equal. unfold spart. rewrite sh. rewrite (dmC m n TC), (dnC m n TC).
          assert (TB := tB m n Hm Hn).
          unfold sterm. unfold symx in EK. destruct (side =? PlasmaLeft) eqn:SD.
          -- assert (KC : K = d_m C) by (unfold K; rewrite AM; unfold left; rewrite ?SD; reflexivity).
             subst k. rewrite <- KC. apply nsum_ext. intros l Hl. apply f_equal2.
             ++ rewrite sym_rd_el; auto.
                ** rewrite <- Em, <- P3. reflexivity.
                ** rewrite KC, <- Em. assumption.
             ++ rewrite (sq_rd nb B _ HB); [|assumption|rewrite BM, <- KC; assumption|rewrite BN, <- En; assumption].
                rewrite <- En, <- Q3. apply HF. cbn. assumption.
          -- assert (KC : K = d_n C) by (unfold K; rewrite AM; unfold left; rewrite ?SD; reflexivity).
             subst k. rewrite <- KC. apply nsum_ext. intros l Hl. apply f_equal2.
             ++ rewrite (sq_rd nb B _ HB); [|assumption|rewrite BM, <- Em; assumption|rewrite BN, <- KC; assumption].
                rewrite <- Em, <- P3. apply HF. cbn. assumption.
             ++ rewrite sym_rd_el; auto.
                ** rewrite <- En, <- Q3. reflexivity.
                ** rewrite KC, <- En. assumption.
        * apply f_equal. rewrite (sq_rd nb C _ HC).
          -- rewrite <- Em, <- En, <- P3, <- Q3. exact HE.
          -- assumption.
          -- rewrite <- Em. assumption.
          -- rewrite <- En. assumption.
    - assert (NE : symx m n <> k) by (apply Z.eqb_neq; exact EK). clear EK.
      unfold spart, sterm. unfold symx in *. destruct (side =? PlasmaLeft) eqn:SD.
      + split.
        * intros l Hl. cbn [k_fun omp_zgemm]. rewrite gemm_other by (cbn; assumption). auto.
        * assert (KC : K = d_m C) by (unfold K; rewrite AM; unfold left; rewrite ?SD; reflexivity).
          cbn [k_fun omp_zgemm].
          rewrite (gemm_el nb A (in_tiles A) bA B (in_tiles B) bB C (in_tiles C)); auto; try lia.
          -- destruct ((i / nb =? m) && (j / nb =? n)) eqn:E; [|exact HE].
             rewrite andb_true_iff, !Z.eqb_eq in E. destruct E as [Em En]. subst m n.
             rewrite <- P3, <- Q3, HE. apply f_equal2; [|reflexivity]. apply f_equal.
             replace (Z.min ((k + 1) * nb) K) with (k * nb + tsz nb K k) by (unfold tsz; lia).
             apply nsum_ext. intros l Hl. replace (l + (k - k) * nb) with l by lia.
             rewrite <- (sym_t_ok_l i (j / nb) k l SD NE (tile_div k l Hl)).
             apply f_equal2; [apply op_el_ext; intros q Hq|]; apply HF; cbn; congruence.
          -- apply sym_t_S; [|assumption]. rewrite KC. assumption.
          -- apply tB; [|assumption]. rewrite <- KC. assumption.
          -- rewrite (dmC m n TC), op_mA, KC. lia.
          -- rewrite op_nA. lia.
          -- unfold op_m. cbn. rewrite BM, KC. lia.
          -- unfold op_n. cbn. rewrite (dnC m n TC), BN. lia.
      + split.
        * intros l Hl. cbn [k_fun omp_zgemm]. rewrite gemm_other by (cbn; assumption). auto.
        * assert (KC : K = d_n C) by (unfold K; rewrite AM; unfold left; rewrite ?SD; reflexivity).
          cbn [k_fun omp_zgemm].
          rewrite (gemm_el nb B (in_tiles B) bB A (in_tiles A) bA C (in_tiles C)); auto; try lia.
          -- destruct ((i / nb =? m) && (j / nb =? n)) eqn:E; [|exact HE].
             rewrite andb_true_iff, !Z.eqb_eq in E. destruct E as [Em En]. subst m n.
             rewrite <- P3, <- Q3, HE. apply f_equal2; [|reflexivity]. apply f_equal.
             replace (Z.min ((k + 1) * nb) K) with (k * nb + tsz nb K k) by (unfold tsz; lia).
             apply nsum_ext. intros l Hl. replace (l + (k - k) * nb) with l by lia.
             rewrite <- (sym_t_ok_r j (i / nb) k l SD NE (tile_div k l Hl)).
             apply f_equal2; [|apply op_el_ext; intros q Hq]; apply HF; cbn; congruence.
          -- apply tB; [assumption|]. rewrite <- KC. assumption.
          -- apply sym_t_S; [assumption|]. rewrite KC. assumption.
          -- unfold op_m. cbn. rewrite (dmC m n TC), BM. lia.
          -- unfold op_n. cbn. rewrite BN, KC. lia.
          -- rewrite op_mA. lia.
          -- rewrite (dnC m n TC), op_nA, KC. lia.
  Qed.

  Lemma psym_mm_at : forall i j, 0 <= i < d_m C -> 0 <= j < d_n C ->
    at_elem M0 bC C i j (krun (psym_mm rp ct side uplo alpha bA A bB B beta bC C) M0)
      (nadd (nmul alpha (nsum (sterm i j) 0 K)) (nmul beta (el M0 bC C i j))).
  Proof.
    intros i j Hi Hj. rewrite psym_mm_eq.
    set (G := fun c k => nadd (nmul alpha (spart i j k)) (nmul (zb k) c)).
    assert (S : sims (at_elem M0 bC C i j)
      (flat_map (fun m => flat_map (fun n => map (stask m n) (zrange 0 (ntl nb K)))
                           (zrange 0 (ntl nb (d_n C)))) (zrange 0 (ntl nb (d_m C))))
      (fun c => fold_left (fun c m => fold_left (fun c n =>
                  if (i / nb =? m) && (j / nb =? n) then fold_left G (zrange 0 (ntl nb K)) c else c)
                  (zrange 0 (ntl nb (d_n C))) c) (zrange 0 (ntl nb (d_m C))) c)).
    { apply (sims_flat_map _ _ _ _ (fun m c => fold_left (fun c n =>
                  if (i / nb =? m) && (j / nb =? n) then fold_left G (zrange 0 (ntl nb K)) c else c)
                  (zrange 0 (ntl nb (d_n C))) c)).
      intros m Hm. apply in_zrange in Hm.
      apply (sims_flat_map _ _ _ _ (fun n c =>
                  if (i / nb =? m) && (j / nb =? n) then fold_left G (zrange 0 (ntl nb K)) c else c)).
      intros n Hn. apply in_zrange in Hn.
      eapply sims_ext; [|apply sims_map with (f := fun k c => if (i / nb =? m) && (j / nb =? n) then G c k else c)].
      - intros c. cbv beta. rewrite (fold_left_if _ _ ((i / nb =? m) && (j / nb =? n)) G). reflexivity.
      - intros k Hk M c HR. apply in_zrange in Hk. apply stask_step; assumption. }
    specialize (S M0 (el M0 bC C i j)). cbv beta in S.
    assert (Ti : 0 <= i / nb < ntl nb (d_m C)).
    { split; [apply Z.div_pos; lia|]. apply ntl_spec; auto; [apply Z.div_pos; lia|].
      destruct (div_mod_pos i nb Hb). lia. }
    assert (Tj : 0 <= j / nb < ntl nb (d_n C)).
    { split; [apply Z.div_pos; lia|]. apply ntl_spec; auto; [apply Z.div_pos; lia|].
      destruct (div_mod_pos j nb Hb). lia. }
    rewrite (fold_left_only _ _ _ _ (i / nb)) in S; [|apply NoDup_zrange|apply in_zrange; assumption|].
    2:{ intros m c Hm Hne. apply fold_left_id. intros n c' Hn.
        replace (i / nb =? m) with false by (symmetry; apply Z.eqb_neq; lia). reflexivity. }
    rewrite (fold_left_only _ _ _ _ (j / nb)) in S; [|apply NoDup_zrange|apply in_zrange; assumption|].
    2:{ intros n c Hn Hne.
        replace (j / nb =? n) with false by (symmetry; apply Z.eqb_neq; lia). rewrite andb_false_r. reflexivity. }
    rewrite !Z.eqb_refl in S. cbn [andb] in S.
    unfold G, zb in S. rewrite fold_accum in S by (apply Z.div_pos; lia).
    assert (K0 : K <> 0) by (unfold K; rewrite AM; destruct left; lia).
    replace (ntl nb K =? 0) with false in S.
    2:{ symmetry. apply Z.eqb_neq. pose proof (ntl_pos nb K Hb). lia. }
    rewrite nsum_mul_l in S. unfold spart in S. rewrite nsum_tiles in S; auto.
    - pose proof (ntl_top nb K Hb HK). replace (Z.min (ntl nb K * nb) K) with K in S by lia.
      apply S. split; auto.
    - apply Z.div_pos; lia.
    - right. assert (ntl nb K - 1 < ntl nb K) as L by lia. apply ntl_spec in L; auto; [lia|].
      pose proof (ntl_pos nb K Hb). lia.
  Qed.
End Symm.
