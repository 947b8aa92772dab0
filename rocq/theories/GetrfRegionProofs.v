(* The LU factorization of a tile matrix, on every schedule. *)
From Coq Require Import ZArith List Bool Lia Ring.
From Verif Require Import Base NumModel NumProofs FieldModel TaskModel TaskSpec TaskProofs DescModel DescSpec DescProofs
  DescDriverModel MatModel MatSpec MatProofs RegionProofs LayoutModel SwpModel SwpSpec SwpProofs GuardModel GuardSpec GuardProofs GuardProofs2
  GroupProofs PanelProofs PotrfDriverProofs SwpDriverProofs LuProofs GridProofs GetrfModel GetrfSpec GetrfAbsProofs GetrfPanelProofs
  GetrfProofs GetrfLinkProofs.
Import ListNotations.
Open Scope Z_scope.

Lemma sure_sound : forall V (k : ktask V), cksound (sure k).
Proof. intros V k. split; reflexivity. Qed.

Lemma no_tasks : forall V (M : mem V) (Q : mem V -> Z -> Prop), (forall M', (forall l, M' l = M l) -> Q M' 0) ->
  gregion_ensures [] M Q.
Proof.
  intros V M Q H. apply gregion_intro; [constructor|constructor| | |].
  - intros l1 a l2 b l3 E. destruct l1; discriminate.
  - intros l1 a l2 b l3 E. destruct l1; discriminate.
  - intros M' st E _ HF. cbn in E. subst st. apply H. intros l. apply HF. intros k [].
Qed.

Section Region.
  Context {F : fields}.
  Add Ring num_ring_lur : (nring F).
  Variable bigger : F -> F -> bool.
  Variables (nb b : Z) (A : desc) (pI : loc) (ib mpt : Z).
  Hypothesis G : gen_ok A.
  Hypothesis Emb : d_mb A = nb.
  Hypothesis Enb : d_nb A = nb.
  Hypothesis Hm : 0 < d_m A.
  Hypothesis Hn : 0 < d_n A.
  Hypothesis Hib : 0 < ib.
  Hypothesis Hmpt : 0 < mpt.
  Hypothesis Hpi : fst pI <> b.

  Let m := d_m A.
  Let n := d_n A.
  Let q := Z.min m n.

  Lemma comparison_order : comparison bigger -> order bigger /\ forall x, x <> n0 -> bigger x n0 = true.
  Proof. intros [C1 C2 C3 C4]. split; [constructor; assumption|assumption]. Qed.

  Lemma dep0_column : forall m (B : Z -> Z -> F) k, 0 <= k -> dep0 m B k -> column_depends m B k.
  Proof.
    intros m' B k Hk (x & X1 & X2). exists (fun j => nopp (x j)). intros i Hi. specialize (X2 i Hi).
    rewrite nsum_snoc, X1 in X2 by lia.
    rewrite (nsum_ext F _ (fun j => nmul (nopp n1) (nmul (B i j) (x j)))) by (intros; ring). rewrite nsum_mul_l.
    transitivity (nadd (nadd (nsum (fun j => nmul (B i j) (x j)) 0 k) (nmul (B i k) n1)) (nmul (nopp n1) (nsum (fun j => nmul (B i j) (x j)) 0 k)));
      [ring|]. rewrite X2. ring.
  Qed.

  (* what the invariant says at the end *)
  Lemma outcome : forall M M', let ks := pzgetrf bigger b A pI ib mpt in let st := first_code (kcodes ks M) in
    (st = 0 -> meq M' (krun (map ck_task ks) M)) ->
    lu_outcome bigger m n (lel M b A) (lel M' b A) (pivots M' pI) st.
  Proof.
    intros M M' ks st0 HM. unfold lu_outcome. fold q.
    destruct (pzgetrf_inv bigger nb b A pI ib mpt G Emb Enb Hm Hn Hib Hmpt (fun _ _ => false) (or_introl (fun _ _ => eq_refl)) M M 0
      (conj eq_refl eq_refl)) as (X & p & S & LG & HC & LU & FL).
    change (0 =? 0) with true in HC, LU, FL. cbv iota in HC, LU, FL. fold ks in S, HC, LU, FL. fold st0 in HC, LU, FL.
    fold m n q in HC, LU, LG, FL.
    split; [assumption|]. split.
    - intros E0. specialize (HM E0). specialize (LU E0). destruct S as [S1 S2 S3 S4]. fold m n q in S1, S2.
      assert (EX : forall i j, 0 <= i < m -> 0 <= j < n -> lel M' b A i j = X i j).
      { intros i j Hi Hj. unfold lel, el. rewrite HM. apply S1; assumption. }
      assert (EP : forall t, 0 <= t < q -> pivots M' pI t = p t).
      { intros t Ht. unfold pivots. rewrite HM. apply (S2 t Ht). }
      assert (QM : q <= m /\ q <= n) by (unfold q; lia).
      split; [|split].
      + split.
        * intros t Ht. rewrite EP by assumption. specialize (LG t Ht). cbn beta in LG. lia.
        * intros i j [Hi Hj]. fold q.
          assert (EPM : source (interchanges (pivots M' pI) (Z.to_nat q)) i = perm (fun t => p t - 1) 0 q i).
          { rewrite interchanges_z by (unfold q, m, n; lia). unfold perm. apply (f_equal (fun s => source s i)). apply map_ext_in.
            intros t Ht. apply in_zrange in Ht. rewrite EP by assumption. reflexivity. }
          rewrite EPM. transitivity (nsum (fun l => nmul (factor_L X i l) (factor_U X l j)) 0 q).
          -- apply (lu_done (fun _ _ => false) m n _ X (fun t => p t - 1) (fun _ => q) (fun j => Z.min (j + 1) q)); auto; unfold m, n; lia.
          -- apply (nsum_ext F). intros l Hl. unfold factor_L, factor_U. rewrite (EX i l), (EX l j) by lia. reflexivity.
      + intros t Ht. unfold factor_U. fold q in Ht. rewrite Z.leb_refl, EX by lia.
        pose proof (lu_nz _ _ _ _ _ _ _ _ _ LU t ltac:(lia) ltac:(cbv beta; lia) ltac:(lia)) as NZ. unfold full in NZ.
        rewrite perm_same in NZ by lia. assumption.
      + intros CO. destruct (comparison_order CO) as [O1 O2].
        destruct (pzgetrf_inv bigger nb b A pI ib mpt G Emb Enb Hm Hn Hib Hmpt bigger (or_intror (conj O1 eq_refl)) M M 0
          (conj eq_refl eq_refl)) as (X' & p' & S' & LG' & HC' & LU' & _).
        change (0 =? 0) with true in HC', LU'. cbv iota in HC', LU'. fold ks in S', HC', LU'. fold st0 in HC', LU'.
        fold m n q in HC', LU', LG'. specialize (LU' E0). destruct S' as [S1' S2' _ _]. fold m n q in S1', S2'.
        intros i t Ht Hi. fold q in Ht.
        pose proof (lu_small _ _ _ _ _ _ _ _ _ LU' i t ltac:(lia) ltac:(cbv beta; lia) Hi) as SM. unfold full in SM.
        rewrite !perm_same in SM by lia. unfold factor_U, factor_L. rewrite Z.leb_refl.
        replace (i =? t) with false by (symmetry; apply Z.eqb_neq; lia). replace (t <? i) with true by (symmetry; apply Z.ltb_lt; lia).
        rewrite !EX by lia. rewrite <- !S1 by lia. rewrite !S1' by lia. assumption.
    - intros N CO. destruct (comparison_order CO) as [O1 O2]. apply dep0_column; [lia|]. apply FL; assumption.
  Qed.

  Lemma pzgetrf_sound : Forall kgood (map ck_task (pzgetrf bigger b A pI ib mpt)) /\ Forall cksound (pzgetrf bigger b A pI ib mpt).
  Proof.
    assert (K : forall k, In k (pzgetrf bigger b A pI ib mpt) -> kgood (ck_task k) /\ cksound k).
    { intros k Hk. rewrite (pzgetrf_parts (F := F)) in Hk. apply in_app_or in Hk. destruct Hk as [Hk|Hk]; [|rewrite <- map_app in Hk].
      - apply in_flat_map in Hk. destruct Hk as (j & Hj & Hk). apply in_zrange in Hj.
        apply in_app_or in Hk. destruct Hk as [Hk|[<-|Hk]].
        + apply in_map_iff in Hk. destruct Hk as (t & <- & Ht). apply in_map_iff in Ht. destruct Ht as (x & <- & _).
          split; [apply fake_kgood|apply sure_sound].
        + apply (panel_kgood bigger nb b A pI ib mpt G Emb Enb Hm Hn Hib Hmpt Hpi j Hj).
        + apply in_map_iff in Hk. destruct Hk as (t & <- & Ht). apply in_map_iff in Ht. destruct Ht as (x & <- & Hx). apply in_zrange in Hx.
          split; [|apply sure_sound]. apply (update_kgood nb b A pI G Emb Enb Hm Hn Hpi j x); lia.
      - apply in_map_iff in Hk. destruct Hk as (t & <- & Ht). split; [|apply sure_sound]. cbn [sure ck_task].
        apply in_app_or in Ht. destruct Ht as [Ht|Ht].
        + apply in_map_iff in Ht. destruct Ht as (x & <- & _). apply fake_kgood.
        + destruct (in_partL b A pI t Ht) as [(d & ->)|(j & Hj & ->)]; [apply fake_kgood|].
          apply (left_kgood nb b A pI G Emb Enb Hm Hn Hpi j); lia. }
    split; apply Forall_forall.
    - intros x Hx. apply in_map_iff in Hx. destruct Hx as (k & <- & Hk). apply K. assumption.
    - intros k Hk. apply K. assumption.
  Qed.

  Lemma pzgetrf_writes : forall k l, In k (pzgetrf bigger b A pI ib mpt) -> k_writes (ck_task k) l ->
    (exists i j, in_matrix m n i j /\ l = (b, elem_off A i j)) \/ (exists t, 0 <= t < q /\ l = (fst pI, snd pI + t)).
  Proof.
    intros k l Hk Hl.
    assert (IC : forall c, incol nb b A l c -> exists i j, in_matrix m n i j /\ l = (b, elem_off A i j)).
    { intros c (Hc & i & j & Hi & Hj & ->). exists i, j. split; [|reflexivity]. pose proof (nv_spec nb A G Enb c Hc) as NV.
      pose proof (nb_pos nb A G Emb). unfold m, n. split; [assumption|nia]. }
    apply (in_map ck_task) in Hk. rewrite (pzgetrf_tasks (F := F)) in Hk.
    apply in_app_or in Hk. destruct Hk as [Hk|Hk]; [|apply in_app_or in Hk; destruct Hk as [Hk|Hk]].
    - destruct (in_partF _ _ _ _ _ _ _ Hk) as [(d & E)|[(x & Hx & E)|(x & c & Hx & Hc & E)]]; rewrite E in Hl.
      + destruct Hl.
      + destruct Hl as [Hl|Hl].
        * left. apply (IC x). apply (incol_col nb b A G Emb Enb Hm Hn x x); try lia; assumption.
        * right. destruct Hl as (t & Ht & ->). exists t. split; [|reflexivity].
          pose proof (nv_spec nb A G Enb x ltac:(lia)). pose proof (nb_pos nb A G Emb). rewrite Emb in Ht. unfold q, m, n. nia.
      + left. apply (IC c). apply (incol_col nb b A G Emb Enb Hm Hn x c); try lia; assumption.
    - apply in_map_iff in Hk. destruct Hk as (x & E & _). rewrite <- E in Hl. destruct Hl.
    - destruct (in_partL _ _ _ _ Hk) as [(d & E)|(x & Hx & E)]; rewrite E in Hl.
      + destruct Hl.
      + left. apply (IC x). apply (incol_col nb b A G Emb Enb Hm Hn (x + 1) x); try lia; assumption.
  Qed.

  Lemma pzgetrf_region : forall M, gregion_ensures (pzgetrf bigger b A pI ib mpt) M (fun M' st =>
    lu_outcome bigger m n (lel M b A) (lel M' b A) (pivots M' pI) st /\
    (forall l, (forall i j, in_matrix m n i j -> l <> (b, elem_off A i j)) ->
       (forall t, 0 <= t < q -> l <> (fst pI, snd pI + t)) -> M' l = M l)).
  Proof.
    intros M. destruct pzgetrf_sound as [K1 K2]. apply gregion_intro; try assumption.
    - apply (pzgetrf_klinked bigger nb b A pI ib mpt G Emb Enb Hm Hn Hpi).
    - apply (pzgetrf_fail_chain bigger b A pI ib mpt).
    - intros M' st0 E HM HF. rewrite gseq_codes in E. subst st0. split; [apply outcome; assumption|].
      intros l H1 H2. apply HF. intros k Hk HW. destruct (pzgetrf_writes k l Hk HW) as [(i & j & Hij & E)|(t & Ht & E)].
      + apply (H1 i j Hij E).
      + apply (H2 t Ht E).
  Qed.
End Region.

(* plasma_omp_zgetrf on a matrix made by plasma_desc_general_create *)
Lemma omp_async_zgetrf_region : forall (F : fields) (bigger : F -> F -> bool) nb m n A size b pI ib mpt,
  0 <= m -> 0 <= n -> ge_create nb m n = CrOk A size -> 0 < ib -> 0 < mpt -> fst pI <> b ->
  forall M, gregion_ensures (omp_async_zgetrf bigger b A pI ib mpt) M (fun M' st =>
    lu_outcome bigger m n (lel M b A) (lel M' b A) (pivots M' pI) st /\
    (forall l, (forall i j, in_matrix m n i j -> l <> (b, elem_off A i j)) ->
       (forall t, 0 <= t < Z.min m n -> l <> (fst pI, snd pI + t)) -> M' l = M l)).
Proof.
  intros F bigger nb m n A size b pI ib mpt H1 H2 HC Hib Hmpt Hpi M.
  destruct (ge_create_gen _ _ _ _ _ HC) as (G & E1 & E2 & E3 & E4). unfold omp_async_zgetrf. rewrite E3, E4.
  assert (EM : Z.min m n = 0 -> gregion_ensures [] M (fun M' st =>
    lu_outcome bigger m n (lel M b A) (lel M' b A) (pivots M' pI) st /\
    (forall l, (forall i j, in_matrix m n i j -> l <> (b, elem_off A i j)) ->
       (forall t, 0 <= t < Z.min m n -> l <> (fst pI, snd pI + t)) -> M' l = M l))).
  { intros Q0. apply no_tasks. intros M' HM. split; [|auto]. unfold lu_outcome, factored, U_regular, well_pivoted. rewrite Q0.
    split; [lia|]. split; [|intros H; contradiction]. intros _. split; [|split; intros; lia].
    split; [intros; lia|]. intros i j [Hi Hj]. lia. }
  destruct (Z.eqb_spec m 0) as [Z1|Z1]; [|destruct (Z.eqb_spec n 0) as [Z2|Z2]]; cbn [orb].
  - apply EM. lia.
  - apply EM. lia.
  - clear EM. rewrite <- E3, <- E4. apply pzgetrf_region with (nb := nb); auto; lia.
Qed.
