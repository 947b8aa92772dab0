(* The panel factorization in memory does what the algorithm on matrices does. *)
From Coq Require Import ZArith List Bool Lia Ring.
From Verif Require Import Base NumModel NumProofs FieldModel TaskModel TaskSpec TaskProofs DescModel DescSpec DescProofs
  DescDriverModel MatModel MatProofs LayoutModel TriModel SwpModel SwpSpec SwpProofs LuProofs GridProofs GetrfModel
  GetrfAbsProofs.
Import ListNotations.
Open Scope Z_scope.

Lemma at_at : forall p ld r c i j, at_ (at_ p ld r c) ld i j = at_ p ld (r + i) (c + j).
Proof. intros. unfold at_. cbn [fst snd]. f_equal. lia. Qed.

Lemma fold_left_ext_in : forall A B (f g : A -> B -> A) l a, (forall a b, In b l -> f a b = g a b) ->
  fold_left f l a = fold_left g l a.
Proof.
  intros A B f g l. induction l as [|b l IH]; intros a H; [reflexivity|]. cbn [fold_left].
  rewrite H by (left; reflexivity). apply IH. intros a' b' Hb. apply H. right; assumption.
Qed.

Lemma fold_left_map' : forall A B C (f : A -> C -> A) (g : B -> C) l a,
  fold_left f (map g l) a = fold_left (fun a b => f a (g b)) l a.
Proof. intros A B C f g l. induction l as [|b l IH]; intros a; [reflexivity|]. cbn. apply IH. Qed.

Section Sim.
  Context {F : fields}.
  Add Ring num_ring_sim : (nring F).
  Variable bigger : F -> F -> bool.
  Variables (b : Z) (W : desc) (pI : loc) (ib size : Z).
  Hypothesis G : gen_ok W.
  Hypothesis Hm : 0 < d_m W.
  Hypothesis Hn : 0 < d_n W.
  Hypothesis Hnb : d_n W <= d_nb W.
  Hypothesis Hmb : d_n W <= d_mb W.
  Hypothesis Hib : 0 < ib.
  Hypothesis Hsize : 0 < size.
  Hypothesis Hpi : fst pI <> b.

  Let m := d_m W.
  Let n := d_n W.
  Let mb := d_mb W.
  Let q := Z.min m n.
  Let L (i j : Z) : loc := (b, elem_off W i j).
  Let SH := gk_shape W G.

  Lemma L_inj : forall s c s' c', 0 <= s < m -> 0 <= c < n -> 0 <= s' < m -> 0 <= c' < n ->
    L s c = L s' c' -> s = s' /\ c = c'.
  Proof. intros s c s' c' Hs Hc Hs' Hc' E. injection E as E. apply (gen_ok_inj W); assumption. Qed.

  Lemma sim_mt : d_mt W = (m - 1) / mb + 1.
  Proof. rewrite (mt_aligned W SH). destruct (Z.eqb_spec (d_m W) 0); [lia|reflexivity]. Qed.

  Lemma sim_mv : forall l, 0 <= l < d_mt W -> tile_mview W l = Z.min mb (m - l * mb).
  Proof. intros l Hl. apply (mview_spec W l SH Hl). Qed.

  Lemma sim_mt0 : 0 < d_mt W.
  Proof. destruct (row_tile W 0 SH ltac:(lia)) as [H _]. lia. Qed.

  Lemma sim_nt0 : 0 < d_nt W.
  Proof. destruct (col_tile W 0 SH ltac:(lia)) as [H _]. lia. Qed.

  Lemma sim_nv : tile_nview W 0 = n.
  Proof.
    pose proof sim_nt0. destruct (nview_spec W 0 SH ltac:(lia)) as [E _]. unfold n. lia.
  Qed.

  Lemma sim_mmain : forall l, 0 <= l < d_mt W -> tile_mview W l <= tile_mmain W l.
  Proof.
    intros l Hl. apply mmain_ge_mview; [exact SH| |assumption]. rewrite (gk_type W G). discriminate.
  Qed.

  (* the places of a tile *)
  Lemma sim_at : forall l i c, 0 <= l < d_mt W -> 0 <= i < tile_mview W l -> 0 <= c < n ->
    at_ (tptr b W l 0) (tile_mmain W l) i c = L (l * mb + i) c.
  Proof.
    intros l i c Hl Hi Hc. pose proof sim_nt0. unfold at_, tptr, L. cbn [fst snd].
    pose proof (elem_off_tile W l 0 i c SH Hl ltac:(lia) Hi) as E. rewrite sim_nv in E. specialize (E Hc).
    rewrite Z.mul_0_l, Z.add_0_l in E. fold mb in E. rewrite E. reflexivity.
  Qed.

  Lemma sim_at0 : forall i c, 0 <= i < Z.min mb m -> 0 <= c < n ->
    at_ (tptr b W 0 0) (tile_mmain W 0) i c = L i c.
  Proof.
    intros i c Hi Hc. pose proof sim_mt0. rewrite sim_at; [|lia| |assumption].
    - reflexivity.
    - rewrite sim_mv by lia. lia.
  Qed.

  (* the place of a row *)
  Lemma sim_row : forall r c0 c, 0 <= r < m -> 0 <= c0 -> 0 <= c -> c0 + c < n ->
    at_ (at_ (tptr b W (r / mb) 0) (tile_mmain W (r / mb)) (r mod mb) c0) (tile_mmain W (r / mb)) 0 c = L r (c0 + c).
  Proof.
    intros r c0 c Hr H0 H1 H2. rewrite at_at. destruct (row_tile W r SH Hr) as [R1 R2]. fold mb in R1, R2.
    rewrite sim_at by lia. f_equal. pose proof (Z.div_mod r mb). pose proof (go_mb W SH). fold mb in H3. lia.
  Qed.

  (* ---------------------------------------------------------------- *)
  (* the search                                                          *)

  Lemma sim_search : forall (M : mem F) X j, repr m n L M X -> 0 <= j < q ->
    search bigger b W size j M = a_search bigger m mb size j (fun d => X (j + d) j).
  Proof.
    intros M X j R Hj. unfold q in Hj. pose proof sim_mt0 as MT0.
    assert (E0 : forall i, 0 <= i -> j + i < Z.min mb m ->
      rd M (tptr b W 0 0) (tile_mmain W 0) (j + i) j = X (j + i) j).
    { intros i Hi Hi2. unfold rd. rewrite sim_at0 by lia. apply R; lia. }
    assert (ER : forall r, 0 <= r < size -> search_rank bigger b W r size j M = a_search_rank bigger m mb size j (fun d => X (j + d) j) r).
    { intros r Hr. unfold search_rank, a_search_rank. cbv zeta. rewrite <- sim_mt.
      replace (rd M (tptr b W 0 0) (tile_mmain W 0) j j) with (X (j + 0) j).
      2:{ rewrite <- E0 by (unfold mb; lia). f_equal; lia. }
      apply fold_left_ext_in. intros s l Hl. apply in_rank_tiles in Hl; [|lia|lia]. unfold cand.
      destruct (Z.eqb_spec l 0) as [->|N].
      - rewrite sim_mv by lia. apply fold_left_ext_in. intros s' i Hi. apply in_zrange in Hi. cbv zeta.
        rewrite E0 by lia. reflexivity.
      - rewrite fold_left_map'. rewrite sim_mv by lia. apply fold_left_ext_in. intros s' i Hi. apply in_zrange in Hi.
        cbv zeta. unfold better. replace (j + (mb * l + i - j)) with (l * mb + i) by lia.
        assert (EX : rd M (tptr b W l 0) (tile_mmain W l) i j = X (l * mb + i) j).
        { unfold rd. rewrite sim_at by (try rewrite sim_mv by lia; lia). apply R; nia. }
        rewrite EX. reflexivity. }
    unfold search, a_search. rewrite ER by lia. apply fold_left_ext_in. intros s r Hr. apply in_zrange in Hr. cbv zeta.
    rewrite ER by lia. reflexivity.
  Qed.

  (* ---------------------------------------------------------------- *)
  (* number kernels                                                      *)

  Lemma sim_update_tile : forall info k kb j l, 0 <= k <= j -> j < k + kb -> k + kb <= q -> 0 <= l < d_mt W ->
    eff m n L (fun M : mem F => update_tile b W info k kb j M l) (fun X : Z -> Z -> F => a_update_tile m mb info k kb j X l).
  Proof.
    intros info k kb j l Hk Hj Hq Hl. unfold q in Hq. pose proof sim_mt0 as MT0.
    destruct (mview_spec W l SH Hl) as [_ VP]. rewrite sim_mv in VP by assumption.
    set (r0 := if l =? 0 then j + 1 else l * mb).
    set (h := if l =? 0 then tile_mview W 0 - j - 1 else tile_mview W l).
    assert (HR : 0 <= r0 /\ r0 + h <= m /\ 0 <= h).
    { unfold r0, h. destruct (Z.eqb_spec l 0) as [->|N]; rewrite sim_mv by lia; nia. }
    assert (RI : forall i, 0 <= i < m -> (rowin m mb j l i = true <-> r0 <= i < r0 + h)).
    { intros i Hi. rewrite (rowin_spec m n). unfold r0, h. destruct (Z.eqb_spec l 0) as [->|N]; rewrite sim_mv by lia; nia. }
    assert (HP : forall i c0 c, 0 <= i < h -> 0 <= c0 -> 0 <= c -> c0 + c < n ->
      at_ (if l =? 0 then at_ (tptr b W 0 0) (tile_mmain W 0) (j + 1) c0 else at_ (tptr b W l 0) (tile_mmain W l) 0 c0)
          (if l =? 0 then tile_mmain W 0 else tile_mmain W l) i c = L (r0 + i) (c0 + c)).
    { intros i c0 c Hi H0 H1 H2. unfold r0, h in *. destruct (Z.eqb_spec l 0) as [->|N]; rewrite at_at.
      - rewrite sim_mv in Hi by lia. rewrite sim_at0 by lia. reflexivity.
      - rewrite sim_at by lia. f_equal. }
    assert (LD : h <= (if l =? 0 then tile_mmain W 0 else tile_mmain W l)).
    { unfold h. destruct (Z.eqb_spec l 0) as [->|N]; [pose proof (sim_mmain 0 ltac:(lia)); lia|apply sim_mmain; assumption]. }
    set (X1 := fun (X : Z -> Z -> F) i c => if ablk r0 h j 1 i c then nmul (finv (X j j)) (X i c) else X i c).
    (* scaling *)
    assert (S1 : eff m n L (fun M => zscal h (finv (rd M (tptr b W 0 0) (tile_mmain W 0) j j))
        (if l =? 0 then at_ (tptr b W 0 0) (tile_mmain W 0) (j + 1) j else at_ (tptr b W l 0) (tile_mmain W l) 0 j) M) X1).
    { unfold zscal, X1.
      apply (eff_block m n L L_inj _ (Z.max 1 h) h 1
        (fun M i _ => nmul (finv (rd M (tptr b W 0 0) (tile_mmain W 0) j j))
           (rd M (if l =? 0 then at_ (tptr b W 0 0) (tile_mmain W 0) (j + 1) j else at_ (tptr b W l 0) (tile_mmain W l) 0 j) 1 i 0))
        (fun X i c => nmul (finv (X j j)) (X i c))); try lia.
      - intros i c Hi Hc. assert (c = 0) by lia. subst c. rewrite <- (HP i j 0) by lia. unfold at_. f_equal; lia.
      - intros M X R i c Hi Hc. assert (c = 0) by lia. subst c. f_equal.
        + f_equal. unfold rd. rewrite sim_at0 by lia. apply R; lia.
        + rewrite <- R by lia. rewrite <- (HP i j 0) by lia. unfold rd, at_. reflexivity. }
    set (X2 := fun (X : Z -> Z -> F) i c => if ablk r0 h (j + 1) (k + kb - j - 1) i c
                 then nadd (X i c) (nmul (nopp n1) (nmul (X i j) (X j c))) else X i c).
    assert (S2 : eff m n L (zgeru h (k + kb - j - 1) (nopp n1)
        (if l =? 0 then at_ (tptr b W 0 0) (tile_mmain W 0) (j + 1) j else at_ (tptr b W l 0) (tile_mmain W l) 0 j)
        (at_ (tptr b W 0 0) (tile_mmain W 0) j (j + 1)) (tile_mmain W 0)
        (if l =? 0 then at_ (tptr b W 0 0) (tile_mmain W 0) (j + 1) (j + 1) else at_ (tptr b W l 0) (tile_mmain W l) 0 (j + 1))
        (if l =? 0 then tile_mmain W 0 else tile_mmain W l)) X2).
    { unfold zgeru, X2.
      set (PX := if l =? 0 then at_ (tptr b W 0 0) (tile_mmain W 0) (j + 1) j else at_ (tptr b W l 0) (tile_mmain W l) 0 j).
      set (PA := if l =? 0 then at_ (tptr b W 0 0) (tile_mmain W 0) (j + 1) (j + 1) else at_ (tptr b W l 0) (tile_mmain W l) 0 (j + 1)).
      set (ld := if l =? 0 then tile_mmain W 0 else tile_mmain W l).
      apply (eff_block m n L L_inj PA ld h (k + kb - j - 1)
        (fun M i c => nadd (rd M PA ld i c) (nmul (nopp n1) (nmul (rd M PX 1 i 0)
           (rd M (at_ (tptr b W 0 0) (tile_mmain W 0) j (j + 1)) (tile_mmain W 0) 0 c))))
        (fun X i c => nadd (X i c) (nmul (nopp n1) (nmul (X i j) (X j c)))) r0 (j + 1)); try (unfold ld; lia).
      - intros i c Hi Hc. apply (HP i (j + 1) c); lia.
      - intros M X R i c Hi Hc. f_equal; [|f_equal; f_equal].
        + unfold rd, PA, ld. rewrite (HP i (j + 1) c) by lia. apply R; lia.
        + rewrite <- R by lia. replace j with (j + 0) at 1 by lia. rewrite <- (HP i j 0) by lia. unfold rd, PX, at_. reflexivity.
        + unfold rd. rewrite at_at. rewrite sim_at0 by lia. rewrite Z.add_0_r. apply R; lia. }
    apply (eff_ext m n L _ (fun X => X2 (if info =? 0 then X1 X else X))).
    - assert (E : forall M : mem F, update_tile b W info k kb j M l =
        zgeru h (k + kb - j - 1) (nopp n1)
          (if l =? 0 then at_ (tptr b W 0 0) (tile_mmain W 0) (j + 1) j else at_ (tptr b W l 0) (tile_mmain W l) 0 j)
          (at_ (tptr b W 0 0) (tile_mmain W 0) j (j + 1)) (tile_mmain W 0)
          (if l =? 0 then at_ (tptr b W 0 0) (tile_mmain W 0) (j + 1) (j + 1) else at_ (tptr b W l 0) (tile_mmain W l) 0 (j + 1))
          (if l =? 0 then tile_mmain W 0 else tile_mmain W l)
          ((fun M => if info =? 0 then zscal h (finv (rd M (tptr b W 0 0) (tile_mmain W 0) j j))
             (if l =? 0 then at_ (tptr b W 0 0) (tile_mmain W 0) (j + 1) j else at_ (tptr b W l 0) (tile_mmain W l) 0 j) M else M) M)).
      { intros M. unfold update_tile, h. cbv zeta. destruct (l =? 0); reflexivity. }
      intros M X R. rewrite E.
      exact (eff_comp m n L _ _ _ _ (eff_if m n L (info =? 0) _ _ _ _ S1 (eff_id m n L)) S2 M X R).
    - intros X i c Hi Hc. unfold a_update_tile, X2, a_rowup. cbv zeta.
      destruct (rowin m mb j l i) eqn:RW.
      + apply RI in RW; [|assumption].
        assert (V : forall c, (if info =? 0 then X1 X else X) i c = if (info =? 0) && (c =? j) then nmul (finv (X j j)) (X i c) else X i c).
        { intros c'. destruct (info =? 0); [|reflexivity]. cbn [andb]. unfold X1.
          destruct (ablk_spec r0 h j 1 i c') as [Q|Q], (Z.eqb_spec c' j); try reflexivity; lia. }
        assert (VJ : (if info =? 0 then X1 X else X) j c = X j c).
        { destruct (info =? 0); [|reflexivity]. unfold X1. destruct (ablk_spec r0 h j 1 j c) as [Q|Q]; [|reflexivity].
          exfalso. unfold r0 in *. destruct (Z.eqb_spec l 0); nia. }
        rewrite !V, VJ. destruct (ablk_spec r0 h (j + 1) (k + kb - j - 1) i c), (Z.ltb_spec j c), (Z.ltb_spec c (k + kb)); cbn [andb]; try lia; try reflexivity.
        ring.
      + assert (NR : ~ (r0 <= i < r0 + h)) by (rewrite <- RI by assumption; congruence).
        destruct (ablk_spec r0 h (j + 1) (k + kb - j - 1) i c); [lia|]. destruct (info =? 0); [|reflexivity]. unfold X1.
        destruct (ablk_spec r0 h j 1 i c); [lia|reflexivity].
  Qed.

  Lemma sim_update : forall info k kb j, 0 <= k <= j -> j < k + kb -> k + kb <= q ->
    eff m n L (fun M : mem F => fold_left (update_rank b W size info k kb j) (zrange 0 size) M)
              (a_update m mb size info k kb j).
  Proof.
    intros info k kb j Hk Hj Hq M X R. unfold update_rank. rewrite fold_flat_map.
    unfold a_update. rewrite <- sim_mt. fold (all_tiles size (d_mt W)).
    refine (eff_fold m n L (update_tile b W info k kb j) (fun X l => a_update_tile m mb info k kb j X l) _ _ M X R).
    intros l Hl. apply in_all_tiles in Hl; [|assumption]. apply sim_update_tile; assumption.
  Qed.

  Lemma sim_gemm_tile : forall k kb l, 0 <= k -> 0 < kb -> k + kb <= q -> 0 <= l < d_mt W ->
    eff m n L (fun M : mem F => gemm_tile b W k kb M l) (fun X : Z -> Z -> F => a_gemm_tile m n mb k kb X l).
  Proof.
    intros k kb l Hk Hkb Hq Hl. unfold q in Hq. pose proof sim_mt0 as MT0.
    destruct (mview_spec W l SH Hl) as [_ VP]. rewrite sim_mv in VP by assumption.
    set (r0 := if l =? 0 then k + kb else l * mb).
    set (h := if l =? 0 then tile_mview W 0 - k - kb else tile_mview W l).
    assert (HR : 0 <= r0 /\ r0 + h <= m /\ 0 <= h).
    { unfold r0, h. destruct (Z.eqb_spec l 0) as [->|N]; rewrite sim_mv by lia; nia. }
    assert (RI : forall i, 0 <= i < m -> (rowin m mb (k + kb - 1) l i = true <-> r0 <= i < r0 + h)).
    { intros i Hi. rewrite (rowin_spec m n). unfold r0, h. destruct (Z.eqb_spec l 0) as [->|N]; rewrite sim_mv by lia; nia. }
    assert (HP : forall i c0 c, 0 <= i < h -> 0 <= c0 -> 0 <= c -> c0 + c < n ->
      at_ (if l =? 0 then at_ (tptr b W 0 0) (tile_mmain W 0) (k + kb) c0 else at_ (tptr b W l 0) (tile_mmain W l) 0 c0)
          (if l =? 0 then tile_mmain W 0 else tile_mmain W l) i c = L (r0 + i) (c0 + c)).
    { intros i c0 c Hi H0 H1 H2. unfold r0, h in *. destruct (Z.eqb_spec l 0) as [->|N]; rewrite at_at.
      - rewrite sim_mv in Hi by lia. rewrite sim_at0 by lia. reflexivity.
      - rewrite sim_at by lia. f_equal. }
    assert (LD : h <= (if l =? 0 then tile_mmain W 0 else tile_mmain W l)).
    { unfold h. destruct (Z.eqb_spec l 0) as [->|N]; [pose proof (sim_mmain 0 ltac:(lia)); lia|apply sim_mmain; assumption]. }
    assert (E : forall M : mem F, gemm_tile b W k kb M l =
      core_zgemm PlasmaNoTrans PlasmaNoTrans h (n - k - kb) kb (nopp n1)
        (if l =? 0 then at_ (tptr b W 0 0) (tile_mmain W 0) (k + kb) k else at_ (tptr b W l 0) (tile_mmain W l) 0 k)
        (if l =? 0 then tile_mmain W 0 else tile_mmain W l)
        (at_ (tptr b W 0 0) (tile_mmain W 0) k (k + kb)) (tile_mmain W 0) n1
        (if l =? 0 then at_ (tptr b W 0 0) (tile_mmain W 0) (k + kb) (k + kb) else at_ (tptr b W l 0) (tile_mmain W l) 0 (k + kb))
        (if l =? 0 then tile_mmain W 0 else tile_mmain W l) M).
    { intros M. unfold gemm_tile, h. cbv zeta. rewrite sim_nv. destruct (l =? 0); reflexivity. }
    apply (eff_ext m n L _ (a_gemm r0 h (k + kb) (n - k - kb) k kb)).
    - intros M X R. rewrite E. revert M X R. apply eff_gemm; try lia.
      + exact L_inj.
      + intros i c Hi Hc. apply HP; lia.
      + intros i c Hi Hc. rewrite at_at. apply sim_at0; lia.
      + intros i c Hi Hc. apply HP; lia.
    - intros X i c Hi Hc. unfold a_gemm, a_gemm_tile, a_rowgemm. destruct (rowin m mb (k + kb - 1) l i) eqn:RW.
      + apply RI in RW; [|assumption].
        destruct (ablk_spec r0 h (k + kb) (n - k - kb) i c), (Z.leb_spec (k + kb) c), (Z.ltb_spec c n); cbn [andb]; try lia; reflexivity.
      + assert (NR : ~ (r0 <= i < r0 + h)) by (rewrite <- RI by assumption; congruence).
        destruct (ablk_spec r0 h (k + kb) (n - k - kb) i c); [lia|reflexivity].
  Qed.

  Lemma sim_gemms : forall k kb, 0 <= k -> 0 < kb -> k + kb <= q ->
    eff m n L (fun M : mem F => fold_left (gemm_rank b W size k kb) (zrange 0 size) M) (a_gemms m n mb size k kb).
  Proof.
    intros k kb Hk Hkb Hq M X R. unfold gemm_rank. rewrite fold_flat_map.
    unfold a_gemms. rewrite <- sim_mt. fold (all_tiles size (d_mt W)).
    refine (eff_fold m n L (gemm_tile b W k kb) (fun X l => a_gemm_tile m n mb k kb X l) _ _ M X R).
    intros l Hl. apply in_all_tiles in Hl; [|assumption]. apply sim_gemm_tile; assumption.
  Qed.

  Lemma sim_trsm : forall k kb, 0 <= k -> 0 < kb -> k + kb <= q ->
    eff m n L (block_trsm (F := F) b W k kb) (a_trsm k kb (k + kb) (n - k - kb)).
  Proof.
    intros k kb Hk Hkb Hq. unfold q in Hq. pose proof sim_mt0 as MT0. unfold block_trsm. cbv zeta. rewrite sim_nv.
    apply eff_trsm; try lia.
    - exact L_inj.
    - pose proof (sim_mmain 0 ltac:(lia)) as H. rewrite sim_mv in H by lia. lia.
    - intros i c Hi Hc. rewrite at_at. apply sim_at0; lia.
    - intros i c Hi Hc. rewrite at_at. apply sim_at0; lia.
  Qed.

  Lemma sim_swap : forall r r' c0 w, 0 <= r < m -> 0 <= r' < m -> 0 <= c0 -> 0 <= w -> c0 + w <= n ->
    eff m n L (zswap (V := F) w (at_ (tptr b W (r / mb) 0) (tile_mmain W (r / mb)) (r mod mb) c0) (tile_mmain W (r / mb))
                       (at_ (tptr b W (r' / mb) 0) (tile_mmain W (r' / mb)) (r' mod mb) c0) (tile_mmain W (r' / mb)))
              (a_swap r r' c0 w).
  Proof.
    intros r r' c0 w Hr Hr' H0 H1 H2. apply eff_swap; try assumption.
    - exact L_inj.
    - intros c Hc. apply sim_row; lia.
    - intros c Hc. apply sim_row; lia.
    - intros <-. split; reflexivity.
  Qed.

  (* ---------------------------------------------------------------- *)
  (* the state                                                           *)

  Definition ipiv_at (i : Z) : loc := (fst pI, snd pI + i).

  Record st (M0 M : mem (cell F)) (X : Z -> Z -> F) (p : Z -> Z) : Prop := {
    st_num : forall i j, 0 <= i < m -> 0 <= j < n -> fst (M (L i j)) = X i j;
    st_piv : forall t, 0 <= t < q -> snd (M (ipiv_at t)) = p t;
    st_fst : forall l, ~ panel m n L l -> fst (M l) = fst (M0 l);
    st_snd : forall l, ~ ipiv_sec pI 0 q l -> snd (M l) = snd (M0 l) }.

  Lemma st_nums : forall M0 M X p f g, eff m n L f g -> st M0 M X p -> st M0 (on_nums f M) (g X) p.
  Proof.
    intros M0 M X p f g E [S1 S2 S3 S4]. destruct (E (nums M) X) as [E1 E2].
    { intros i j Hi Hj. apply S1; assumption. }
    constructor; cbn [on_nums fst snd]; try assumption.
    intros l Hl. unfold on_nums. cbn [fst]. rewrite E2 by assumption. apply S3. assumption.
  Qed.

  Lemma st_ext : forall M0 M X X' p p', st M0 M X p -> (forall i j, 0 <= i < m -> 0 <= j < n -> X i j = X' i j) ->
    (forall t, 0 <= t < q -> p t = p' t) -> st M0 M X' p'.
  Proof.
    intros M0 M X X' p p' [S1 S2 S3 S4] EX EP. constructor; try assumption.
    - intros i j Hi Hj. rewrite S1 by assumption. auto.
    - intros t Ht. rewrite S2 by assumption. auto.
  Qed.

  Lemma st_set : forall M0 M X p t v, st M0 M X p -> 0 <= t < q ->
    st M0 (ipiv_set pI t v M) X (fun u => if u =? t then v else p u).
  Proof.
    intros M0 M X p t v [S1 S2 S3 S4] Ht.
    assert (E : forall l, fst (ipiv_set pI t v M l) = fst (M l)).
    { intros l. unfold ipiv_set, upd. destruct (loc_eqb_spec l (fst pI, snd pI + t)) as [->|]; reflexivity. }
    constructor.
    - intros i j Hi Hj. rewrite E. auto.
    - intros u Hu. unfold ipiv_set, upd, ipiv_at. destruct (loc_eqb_spec (fst pI, snd pI + u) (fst pI, snd pI + t)) as [Q|Q].
      + injection Q as Q. destruct (Z.eqb_spec u t); [reflexivity|lia].
      + destruct (Z.eqb_spec u t) as [->|]; [congruence|]. apply S2. assumption.
    - intros l Hl. rewrite E. auto.
    - intros l Hl. unfold ipiv_set, upd. destruct (loc_eqb_spec l (fst pI, snd pI + t)) as [->|]; [|auto].
      exfalso. apply Hl. exists t. split; [assumption|reflexivity].
  Qed.

  Lemma st_rd : forall M0 M X p t, st M0 M X p -> 0 <= t < q -> ipiv_rd M pI t = p t.
  Proof. intros M0 M X p t S Ht. exact (st_piv _ _ _ _ S t Ht). Qed.

  Lemma sim_pivot : forall M0 M s k kb j, st M0 M (aX s) (aP s) -> 0 <= k <= j -> j < k + kb -> k + kb <= q ->
    let r := pivot_step bigger b W pI size k kb j (M, aI s) in
    let s' := a_pivot bigger m mb size k kb j s in
    st M0 (fst r) (aX s') (aP s') /\ snd r = aI s'.
  Proof.
    intros M0 M s k kb j S Hk Hj Hq. unfold pivot_step, a_pivot. cbn [fst snd]. cbv zeta.
    rewrite (sim_search (nums M) (aX s) j) by (try lia; intros i c Hi Hc; apply (st_num _ _ _ _ S); assumption).
    destruct (a_search_spec bigger m n mb size ltac:(unfold n, mb; lia) ltac:(unfold m; lia) Hsize j (fun d => aX s (j + d) j) ltac:(unfold q in *; lia))
      as (B & _ & _).
    set (mx := a_search bigger m mb size j (fun d => aX s (j + d) j)) in *.
    pose proof (st_set M0 M (aX s) (aP s) j (j + fst mx - k + 1) S ltac:(lia)) as S'.
    destruct ((aI s =? 0) && neqb (snd mx) n0).
    - cbn [fst snd aX aP aI]. split; [exact S'|reflexivity].
    - destruct (Z.eqb_spec (j + fst mx) j) as [E|E]; cbn [fst snd aX aP aI]; (split; [|reflexivity]); [exact S'|].
      unfold q in Hq. pose proof sim_mt0 as MT0.
      assert (J0 : j / mb = 0) by (apply Z.div_small; unfold mb, n in *; lia).
      assert (J1 : j mod mb = j) by (apply Z.mod_small; unfold mb, n in *; lia).
      pose proof (sim_swap j (j + fst mx) k kb ltac:(lia) ltac:(lia) ltac:(lia) ltac:(lia) ltac:(lia)) as SW.
      rewrite J0, J1 in SW. exact (st_nums _ _ _ _ _ _ SW S').
  Qed.

  Lemma sim_column : forall M0 M s k kb j, st M0 M (aX s) (aP s) -> 0 <= k <= j -> j < k + kb -> k + kb <= q ->
    let r := column_step bigger b W pI size k kb (M, aI s) j in
    let s' := a_column bigger m mb size k kb s j in
    st M0 (fst r) (aX s') (aP s') /\ snd r = aI s'.
  Proof.
    intros M0 M s k kb j S Hk Hj Hq. destruct (sim_pivot M0 M s k kb j S Hk Hj Hq) as [P1 P2].
    unfold column_step, a_column. cbv zeta. cbn [fst snd aX aP aI]. rewrite P2. split; [|reflexivity].
    apply (st_nums _ _ _ _ _ _ (sim_update (aI (a_pivot bigger m mb size k kb j s)) k kb j Hk Hj Hq) P1).
  Qed.

  (* two states that belong together *)
  Definition together (M0 : mem (cell F)) (r : mem (cell F) * Z) (s : ast (F := F)) : Prop :=
    st M0 (fst r) (aX s) (aP s) /\ snd r = aI s.

  Lemma sim_columns : forall M0 k kb, 0 <= k -> k + kb <= q -> forall h r s, k <= h <= k + kb -> together M0 r s ->
    together M0 (fold_left (column_step bigger b W pI size k kb) (zrange k h) r)
                (fold_left (a_column bigger m mb size k kb) (zrange k h) s).
  Proof.
    intros M0 k kb Hk Hq h r s Hh T. revert Hh. pattern h. apply (zrange_ind_hi _ k); clear h.
    - intros h Hh _. rewrite zrange_nil by assumption. exact T.
    - intros h Hh IH Hh2. rewrite zrange_snoc by assumption. rewrite !fold_left_app. cbn [fold_left].
      destruct (IH ltac:(lia)) as [T1 T2].
      remember (fold_left (column_step bigger b W pI size k kb) (zrange k h) r) as r1 eqn:E1. clear E1.
      destruct r1 as [M1 i1]. cbn [fst snd] in T1, T2. subst i1. apply sim_column; try assumption; lia.
  Qed.

  (* the pivot adjustment *)
  Lemma sim_shift : forall M0 M X p k kb d, st M0 M X p -> 0 <= k -> k + kb <= q ->
    st M0 (fold_left (fun M i => ipiv_set pI (i - 1) (ipiv_rd M pI (i - 1) + d) M) (zrange (k + 1) (k + kb + 1)) M)
       X (fun t => if (k <=? t) && (t <? k + kb) then p t + d else p t).
  Proof.
    intros M0 M X p k kb d S Hk Hq.
    assert (Gh : forall h, h <= k + kb + 1 ->
      st M0 (fold_left (fun M i => ipiv_set pI (i - 1) (ipiv_rd M pI (i - 1) + d) M) (zrange (k + 1) h) M)
       X (fun t => if (k <=? t) && (t <? h - 1) then p t + d else p t)).
    { intros h. pattern h. apply (zrange_ind_hi _ (k + 1)); clear h.
      - intros h Hh _. rewrite zrange_nil by assumption. cbn [fold_left]. apply (st_ext _ _ _ _ _ _ S); auto.
        intros t Ht. destruct (Z.leb_spec k t), (Z.ltb_spec t (h - 1)); cbn [andb]; try reflexivity; lia.
      - intros h Hh IH Hh2. rewrite zrange_snoc, fold_left_app by assumption. cbn [fold_left].
        specialize (IH ltac:(lia)).
        remember (fold_left (fun M i => ipiv_set pI (i - 1) (ipiv_rd M pI (i - 1) + d) M) (zrange (k + 1) h) M) as M1 eqn:E1. clear E1.
        rewrite (st_rd _ _ _ _ (h - 1) IH) by lia.
        apply (st_ext _ _ _ _ _ _ (st_set _ _ _ _ (h - 1) ((if (k <=? h - 1) && (h - 1 <? h - 1) then p (h - 1) + d else p (h - 1)) + d) IH ltac:(lia))); auto.
        intros t Ht. destruct (Z.eqb_spec t (h - 1)) as [->|N].
        + destruct (Z.leb_spec k (h - 1)), (Z.ltb_spec (h - 1) (h - 1)), (Z.ltb_spec (h - 1) (h + 1 - 1)); cbn [andb]; lia.
        + destruct (Z.leb_spec k t), (Z.ltb_spec t (h - 1)), (Z.ltb_spec t (h + 1 - 1)); cbn [andb]; lia. }
    specialize (Gh (k + kb + 1) ltac:(lia)). apply (st_ext _ _ _ _ _ _ Gh); auto.
    intros t Ht. replace (k + kb + 1 - 1) with (k + kb) by lia. reflexivity.
  Qed.

  (* row interchanges *)
  Lemma sim_swap_rows : forall M0 p c0 w lo hi M X, st M0 M X p -> 0 <= lo -> hi <= q ->
    (forall t, lo <= t < hi -> t <= p t - 1 < m) -> 0 <= c0 -> 0 <= w -> c0 + w <= n ->
    st M0 (fold_left (swap_row b W pI w c0) (zrange lo hi) M)
          (fold_left (fun X t => a_swap t (p t - 1) c0 w X) (zrange lo hi) X) p.
  Proof.
    intros M0 p c0 w lo hi M X S Hlo. revert S. pattern hi. apply (zrange_ind_hi _ lo); clear hi.
    - intros hi Hh S _ _ _ _ _. rewrite zrange_nil by assumption. exact S.
    - intros hi Hh IH S Hq HP H0 H1 H2. rewrite zrange_snoc by assumption. rewrite !fold_left_app. cbn [fold_left].
      specialize (IH S ltac:(lia) ltac:(intros; apply HP; lia) H0 H1 H2).
      remember (fold_left (swap_row b W pI w c0) (zrange lo hi) M) as M1 eqn:E1. clear E1.
      remember (fold_left (fun X t => a_swap t (p t - 1) c0 w X) (zrange lo hi) X) as X1 eqn:E1. clear E1.
      unfold swap_row. cbv zeta. rewrite (st_rd _ _ _ _ hi IH) by lia. specialize (HP hi ltac:(lia)).
      unfold q in Hq.
      exact (st_nums _ _ _ _ _ _ (sim_swap hi (p hi - 1) c0 w ltac:(lia) ltac:(lia) H0 H1 H2) IH).
  Qed.

  Lemma sim_block : forall M0 r s k, 0 <= k < q -> together M0 r s ->
    legal m 0 k (fun t => aP s t - 1) -> 0 <= aI s <= q ->
    together M0 (block_step bigger b W pI ib size r k) (a_block bigger m n mb ib size s k).
  Proof.
    intros M0 r s k Hk T L0 HI. unfold block_step, a_block. cbv zeta. fold m n. fold q.
    assert (KB : 0 < Z.min (q - k) ib) by lia. assert (KQ : k + Z.min (q - k) ib <= q) by lia.
    remember (Z.min (q - k) ib) as kb eqn:EK. clear EK.
    pose proof (sim_columns M0 k kb ltac:(lia) KQ (k + kb) r s ltac:(lia) T) as [T1 T2].
    destruct T as [TA TB].
    destruct (a_columns_legal bigger m n mb size ltac:(unfold n, mb; lia) ltac:(unfold m; lia) Hsize k kb s ltac:(lia) ltac:(lia) KQ L0 HI)
      as (J1 & J2 & J3).
    remember (fold_left (column_step bigger b W pI size k kb) (zrange k (k + kb)) r) as r1 eqn:E1. clear E1.
    remember (fold_left (a_column bigger m mb size k kb) (zrange k (k + kb)) s) as s1 eqn:E1. clear E1.
    split; [|exact T2]. cbn [fst aX aP].
    replace (Z.min m (k + kb)) with (k + kb) by (unfold q in KQ; lia). rewrite sim_nv.
    pose proof (sim_shift M0 (fst r1) (aX s1) (aP s1) k kb k T1 ltac:(lia) KQ) as S2.
    change (fun t : Z => if (k <=? t) && (t <? k + kb) then aP s1 t + k else aP s1 t) with (a_shift k kb (aP s1)) in S2.
    pose proof (a_shift_legal m n mb k kb (aP s1) J1 J2) as LG.
    apply (st_nums _ _ _ _ _ _ (sim_gemms k kb ltac:(lia) KB KQ)).
    apply (st_nums _ _ _ _ _ _ (sim_trsm k kb ltac:(lia) KB KQ)).
    unfold q in KQ. apply sim_swap_rows; try (unfold q; lia); [exact S2|]. intros t Ht. apply LG. lia.
  Qed.

  Lemma sim_blocks : forall M0 M X p, st M0 M X p ->
    together M0 (fold_left (block_step bigger b W pI ib size) (a_blocks m n ib) (M, 0))
                (fold_left (a_block bigger m n mb ib size) (a_blocks m n ib) (mkast X p 0)).
  Proof.
    intros M0 M X p S. unfold a_blocks. fold q.
    assert (Q0 : 0 < q) by (unfold q, m, n; lia).
    assert (TB : forall t, t < (q - 1) / ib + 1 -> t * ib < q).
    { intros t Ht. pose proof (Z.mul_div_le (q - 1) ib Hib). nia. }
    assert (Gh : forall h, 0 <= h <= (q - 1) / ib + 1 ->
      let r := fold_left (block_step bigger b W pI ib size) (map (fun t => t * ib) (zrange 0 h)) (M, 0) in
      let s := fold_left (a_block bigger m n mb ib size) (map (fun t => t * ib) (zrange 0 h)) (mkast X p 0) in
      together M0 r s /\ legal m 0 (Z.min (h * ib) q) (fun t => aP s t - 1) /\ 0 <= aI s <= q).
    { intros h. pattern h. apply (zrange_ind_hi _ 0); clear h.
      - intros h Hh Hh2. assert (h = 0) by lia. subst h. rewrite zrange_nil by lia. cbn [map fold_left]. cbv zeta.
        split; [split; [exact S|reflexivity]|]. cbn [aI aP]. split; [intros t Ht; lia|lia].
      - intros h Hh IH Hh2. destruct (IH ltac:(lia)) as (J1 & J2 & J3). clear IH. cbv zeta.
        rewrite zrange_snoc by lia. rewrite map_app, !fold_left_app. cbn [map fold_left].
        remember (fold_left (block_step bigger b W pI ib size) (map (fun t => t * ib) (zrange 0 h)) (M, 0)) as r1 eqn:E1. clear E1.
        remember (fold_left (a_block bigger m n mb ib size) (map (fun t => t * ib) (zrange 0 h)) (mkast X p 0)) as s1 eqn:E1. clear E1.
        pose proof (TB h ltac:(lia)) as TBh. replace (Z.min (h * ib) q) with (h * ib) in J2 by lia.
        split; [apply sim_block; try assumption; nia|].
        destruct (a_block_legal bigger m n mb ib size ltac:(unfold n, mb; lia) ltac:(unfold m; lia) Hib Hsize s1 (h * ib) ltac:(fold q; nia) J2 J3)
          as [K1 K2]. fold q in K1, K2. replace (h * ib + ib) with ((h + 1) * ib) in K1 by lia. split; assumption. }
    pose proof (Z.div_pos (q - 1) ib ltac:(lia) Hib) as P0.
    apply (Gh ((q - 1) / ib + 1) ltac:(lia)).
  Qed.

  Lemma sim_left : forall M0 p ks M X, st M0 M X p -> (forall t, 0 <= t < q -> t <= p t - 1 < m) ->
    (forall k, In k ks -> ib <= k < q) ->
    st M0 (fold_left (fun M k => fold_left (swap_row b W pI ib (k - ib)) (zrange k q) M) ks M)
          (fold_left (a_left m n ib p) ks X) p.
  Proof.
    intros M0 p ks. induction ks as [|k ks IH]; intros M X S HP HK; [exact S|]. cbn [fold_left].
    apply IH; [|assumption|intros k' Hk'; apply HK; right; assumption].
    specialize (HK k (or_introl eq_refl)). unfold a_left. fold q.
    apply sim_swap_rows; try assumption; unfold q in *; try lia. intros t Ht. apply HP. lia.
  Qed.

  Lemma sim_getrf : forall M0 M X p, st M0 M X p ->
    together M0 (core_zgetrf bigger b W pI ib size M) (a_getrf bigger m n mb ib size X p).
  Proof.
    intros M0 M X p S. pose proof (sim_blocks M0 M X p S) as [T1 T2].
    destruct (a_blocks_inv bigger m n mb ib size ltac:(unfold n, mb; lia) ltac:(unfold m; lia) Hib Hsize (fun _ _ => false)
      (or_introl (fun _ _ => eq_refl)) X X p ltac:(reflexivity)) as (J1 & _ & _).
    unfold core_zgetrf, a_getrf. cbv zeta. fold m n q. fold (a_blocks m n ib).
    change (map (fun t => t * ib) (zrange 0 ((q - 1) / ib + 1))) with (a_blocks m n ib).
    remember (fold_left (block_step bigger b W pI ib size) (a_blocks m n ib) (M, 0)) as r1 eqn:E1. clear E1.
    remember (fold_left (a_block bigger m n mb ib size) (a_blocks m n ib) (mkast X p 0)) as s1 eqn:E1. clear E1.
    split; [|exact T2]. cbn [fst aX aP]. apply sim_left; [exact T1|intros t Ht; apply J1; assumption|].
    assert (Q0 : 0 < q) by (unfold q, m, n; lia). pose proof (Z.div_pos (q - 1) ib ltac:(lia) Hib) as P0.
    intros k Hk. unfold a_blocks in Hk. fold q in Hk. rewrite zrange_cons in Hk by lia. cbn [map tl] in Hk.
    apply in_map_iff in Hk. destruct Hk as (t & <- & Ht). apply in_zrange in Ht.
    pose proof (Z.mul_div_le (q - 1) ib Hib). nia.
  Qed.
End Sim.
