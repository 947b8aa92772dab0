From Coq Require Import ZArith List Bool Lia.
From Verif Require Import Base NumModel TaskModel TaskSpec TaskProofs DescModel DescSpec DescDriverModel DescProofs DescProofs3
  DescProofs4 MatModel MatSpec MatProofs RegionProofs LayoutModel LayoutProofs DriverModel DriverSpec OpProofs OperandProofs
  GemmProofs RankDriverProofs EwDriverProofs SwpModel SwpSpec SwpProofs GroupProofs PanelProofs.
Import ListNotations.
Open Scope Z_scope.

Lemma lines_ext : forall V R C C' (L L' : Z -> Z -> loc) f (M M' : mem V), C = C' ->
  (forall s c, L s c = L' s c) -> lines R C L f M M' -> lines R C' L' f M M'.
Proof.
  intros V R C C' L L' f M M' <- HL [H1 H2]. split.
  - intros s c Hs Hc. rewrite <- !HL. apply H1; assumption.
  - intros l Hl. apply H2. intros (s & c & Hs & Hc & E). apply Hl. exists s, c. rewrite <- HL. auto.
Qed.

Section Mat.
  Context {V : Type}.
  Variables (nb b : Z) (A : desc).
  Hypothesis G : gen_ok A.
  Hypothesis Emb : d_mb A = nb.
  Hypothesis Enb : d_nb A = nb.
  Let SH := gk_shape A G.
  Variables (pI : loc) (ipiv : Z -> Z) (incx : Z).
  Hypothesis HX : incx = 1 \/ incx = -1.

  Lemma mat_dn : dn nb A.
  Proof. constructor; [apply dense_tiled|..]; assumption. Qed.

  Lemma swp_source_range : forall k, 0 <= k -> legal_pivots ipiv k ->
    forall s, 0 <= s < k -> 0 <= source (swp_list ipiv k incx) s < k.
  Proof.
    intros k Hk HL s Hs. apply source_range; [|assumption].
    pose proof (interchanges_in ipiv k Hk HL) as HI. destruct HX as [->| ->].
    - rewrite swp_list_fwd by assumption. assumption.
    - rewrite swp_list_bwd by assumption. unfold swaps_in in *. rewrite Forall_forall in *.
      intros p Hp. apply HI. apply in_rev. assumption.
  Qed.

  (* rows *)
  Let Er n i c : loc := (b, elem_off A i (n * nb + c)).
  Let Tr n m : loc := tptr b A m n.

  Lemma row_view : forall n, 0 <= n < d_nt A ->
    let W := the_view A 0 (n * d_nb A) (d_m A) (tile_nview A n) in
    gen_ok W /\ d_m W = d_m A /\ d_n W = tile_nview A n /\ d_n W <= d_nb W /\
    (forall r c, elem_off W r c = elem_off A r (n * nb + c)).
  Proof.
    intros n Hn. destruct (nview_spec A n SH Hn) as [E1 E2]. cbv zeta. unfold the_view.
    destruct (desc_view_opt A 0 (n * d_nb A) (d_m A) (tile_nview A n)) as [W|] eqn:EV.
    - pose proof (go_nb A SH). pose proof (go_m A SH).
      destruct (view_ok A 0 (n * d_nb A) (d_m A) (tile_nview A n) W G) as (GW & W1 & W2 & W3 & W4 & _ & _ & _ & W5);
        try assumption; try lia; try nia.
      + apply Z.mod_0_l. pose proof (go_mb A SH). lia.
      + apply Z.mod_mul. lia.
      + split; [assumption|]. split; [assumption|]. split; [assumption|]. split; [lia|].
        intros r c. rewrite W5, Enb. reflexivity.
    - exfalso. unfold desc_view_opt in EV. pose proof (go_im A G). pose proof (go_jn A SH).
      destruct (Z.ltb_spec (d_gm A) (d_i A + 0 + d_m A)); [lia|].
      destruct (Z.ltb_spec (d_gn A) (d_j A + n * d_nb A + tile_nview A n)); [lia|discriminate].
  Qed.

  Lemma col_reg_panel : forall n l, 0 <= n < d_nt A ->
    (col_reg b A n l <-> panel (d_m A) (tile_nview A n) (Er n) l).
  Proof.
    intros n l Hn. unfold col_reg, panel, reg, Er. split.
    - intros (m & Hm & r & c & Hr & Hc & _ & ->).
      destruct (tile_row A m r SH Hm Hr) as (R1 & _). exists (m * d_mb A + r), c.
      split; [assumption|]. split; [assumption|]. rewrite <- Enb, elem_off_tile by assumption. reflexivity.
    - intros (i & c & Hi & Hc & ->). destruct (row_tile A i SH Hi) as [M1 M2].
      exists (i / d_mb A). split; [assumption|]. exists (i mod d_mb A), c.
      split; [assumption|]. split; [assumption|]. split; [reflexivity|].
      destruct (div_mod_pos i (d_mb A) (go_mb A SH)) as [E _]. rewrite <- Enb. rewrite E at 1.
      replace (d_mb A * (i / d_mb A) + i mod d_mb A) with (i / d_mb A * d_mb A + i mod d_mb A) by lia.
      rewrite elem_off_tile by assumption. reflexivity.
  Qed.

  Lemma row_inj : forall p s c p' s' c', 0 <= p < d_nt A -> 0 <= p' < d_nt A ->
    0 <= s < d_m A -> 0 <= s' < d_m A -> 0 <= c < tile_nview A p -> 0 <= c' < tile_nview A p' ->
    Er p s c = Er p' s' c' -> p = p' /\ s = s' /\ c = c'.
  Proof.
    intros p s c p' s' c' Hp Hp' Hs Hs' Hc Hc' E. unfold Er in E. injection E as E.
    destruct (tile_col A p c SH Hp Hc) as (C1 & C2 & C3). destruct (tile_col A p' c' SH Hp' Hc') as (C1' & C2' & C3').
    rewrite Enb in *. apply (gen_ok_inj A) in E; try assumption. destruct E as [E1 E2].
    rewrite E2 in C2, C3. split; [congruence|]. split; [assumption|congruence].
  Qed.

  Lemma row_home : forall env p l, In (b, homeD A (in_tiles A)) env -> 0 <= p < d_nt A ->
    panel (d_m A) (tile_nview A p) (Er p) l -> exists q, 0 <= q < d_mt A /\ home_env env l (Tr p q).
  Proof.
    intros env p l HE Hp Hl. apply col_reg_panel in Hl; [|assumption]. destruct Hl as (m & Hm & Hr).
    exists m. split; [assumption|]. eapply home_tile; eauto. split; assumption.
  Qed.

  Lemma row_task_lines : legal_pivots ipiv (d_m A) -> forall p (M : mem V), 0 <= p < d_nt A ->
    lines (d_m A) (tile_nview A p) (Er p) (source (swp_list ipiv (d_m A) incx)) M
      (k_fun (swp_task_row b A pI ipiv incx p) M).
  Proof.
    intros HL p M Hp. destruct (row_view p Hp) as (GW & W1 & W2 & W3 & W4).
    cbn [k_fun swp_task_row].
    remember (the_view A 0 (p * d_nb A) (d_m A) (tile_nview A p)) as W eqn:EW. clear EW.
    rewrite <- W1 in HL |- *. pose proof (row_lines (V := V) b W GW ipiv incx HX W3 HL M) as HR.
    eapply lines_ext; [|intros s c; unfold Er; rewrite <- W4; reflexivity|exact HR]. assumption.
  Qed.

  Lemma pzgeswp_row_eq : pzgeswp PlasmaRowwise b A pI ipiv incx
    = ptasks (d_nt A) (d_mt A) Tr (swp_task_row (V := V) b A pI ipiv incx).
  Proof.
    unfold pzgeswp. change (PlasmaRowwise =? PlasmaRowwise) with true. cbv iota.
    unfold ptasks. rewrite (flat_map_concat_map g_list), map_map, <- flat_map_concat_map. reflexivity.
  Qed.

  (* columns *)
  Let Ec m j r : loc := (b, elem_off A (m * nb + r) j).
  Let Tc m n : loc := tptr b A m n.

  Lemma col_view : forall m, 0 <= m < d_mt A ->
    let W := the_view A (m * d_mb A) 0 (tile_mview A m) (d_n A) in
    gen_ok W /\ d_n W = d_n A /\ d_m W = tile_mview A m /\ d_m W <= d_mb W /\
    (forall r c, elem_off W r c = elem_off A (m * nb + r) c).
  Proof.
    intros n Hn. destruct (mview_spec A n SH Hn) as [E1 E2]. cbv zeta. unfold the_view.
    destruct (desc_view_opt A (n * d_mb A) 0 (tile_mview A n) (d_n A)) as [W|] eqn:EV.
    - pose proof (go_mb A SH). pose proof (go_n A SH).
      destruct (view_ok A (n * d_mb A) 0 (tile_mview A n) (d_n A) W G) as (GW & W1 & W2 & W3 & W4 & _ & _ & _ & W5);
        try assumption; try lia; try nia.
      + apply Z.mod_mul. lia.
      + apply Z.mod_0_l. pose proof (go_nb A SH). lia.
      + split; [assumption|]. split; [assumption|]. split; [assumption|]. split; [lia|].
        intros r c. rewrite W5, Emb. reflexivity.
    - exfalso. unfold desc_view_opt in EV. pose proof (go_im A G). pose proof (go_jn A SH).
      destruct (Z.ltb_spec (d_gm A) (d_i A + n * d_mb A + tile_mview A n)); [lia|].
      destruct (Z.ltb_spec (d_gn A) (d_j A + 0 + d_n A)); [lia|discriminate].
  Qed.

  Lemma row_reg_panel : forall m l, 0 <= m < d_mt A ->
    (row_reg b A m l <-> panel (d_n A) (tile_mview A m) (Ec m) l).
  Proof.
    intros m l Hm. unfold row_reg, panel, reg, Ec. split.
    - intros (n & Hn & r & c & Hr & Hc & _ & ->).
      destruct (tile_col A n c SH Hn Hc) as (C1 & _). exists (n * d_nb A + c), r.
      split; [assumption|]. split; [assumption|]. rewrite <- Emb, elem_off_tile by assumption. reflexivity.
    - intros (j & r & Hj & Hr & ->). destruct (col_tile A j SH Hj) as [M1 M2].
      exists (j / d_nb A). split; [assumption|]. exists r, (j mod d_nb A).
      split; [assumption|]. split; [assumption|]. split; [reflexivity|].
      destruct (div_mod_pos j (d_nb A) (go_nb A SH)) as [E _]. rewrite <- Emb. rewrite E at 1.
      replace (d_nb A * (j / d_nb A) + j mod d_nb A) with (j / d_nb A * d_nb A + j mod d_nb A) by lia.
      rewrite elem_off_tile by assumption. reflexivity.
  Qed.

  Lemma col_inj : forall p s c p' s' c', 0 <= p < d_mt A -> 0 <= p' < d_mt A ->
    0 <= s < d_n A -> 0 <= s' < d_n A -> 0 <= c < tile_mview A p -> 0 <= c' < tile_mview A p' ->
    Ec p s c = Ec p' s' c' -> p = p' /\ s = s' /\ c = c'.
  Proof.
    intros p s c p' s' c' Hp Hp' Hs Hs' Hc Hc' E. unfold Ec in E. injection E as E.
    destruct (tile_row A p c SH Hp Hc) as (C1 & C2 & C3). destruct (tile_row A p' c' SH Hp' Hc') as (C1' & C2' & C3').
    rewrite Emb in *. apply (gen_ok_inj A) in E; try assumption. destruct E as [E1 E2].
    rewrite E1 in C2, C3. split; [congruence|]. split; [assumption|congruence].
  Qed.

  Lemma col_home : forall env p l, In (b, homeD A (in_tiles A)) env -> 0 <= p < d_mt A ->
    panel (d_n A) (tile_mview A p) (Ec p) l -> exists q, 0 <= q < d_nt A /\ home_env env l (Tc p q).
  Proof.
    intros env p l HE Hp Hl. apply row_reg_panel in Hl; [|assumption]. destruct Hl as (m & Hm & Hr).
    exists m. split; [assumption|]. eapply home_tile; eauto. split; assumption.
  Qed.

  Lemma col_task_lines : legal_pivots ipiv (d_n A) -> forall p (M : mem V), 0 <= p < d_mt A ->
    lines (d_n A) (tile_mview A p) (Ec p) (source (swp_list ipiv (d_n A) incx)) M
      (k_fun (swp_task_col b A pI ipiv incx p) M).
  Proof.
    intros HL p M Hp. destruct (col_view p Hp) as (GW & W1 & W2 & W3 & W4).
    cbn [k_fun swp_task_col].
    remember (the_view A (p * d_mb A) 0 (tile_mview A p) (d_n A)) as W eqn:EW. clear EW.
    rewrite <- W1 in HL |- *. pose proof (col_lines (V := V) b W GW ipiv incx HX W3 HL M) as HR.
    eapply lines_ext; [|intros s c; unfold Ec; rewrite <- W4; reflexivity|exact HR]. assumption.
  Qed.

  Lemma pzgeswp_col_eq : pzgeswp PlasmaColumnwise b A pI ipiv incx
    = ptasks (d_mt A) (d_nt A) Tc (swp_task_col (V := V) b A pI ipiv incx).
  Proof.
    unfold pzgeswp. change (PlasmaColumnwise =? PlasmaRowwise) with false. cbv iota.
    unfold ptasks. rewrite (flat_map_concat_map g_list), map_map, <- flat_map_concat_map. reflexivity.
  Qed.

  (* both *)
  Definition valid_colrow (colrow : Z) : Prop := colrow = PlasmaColumnwise \/ colrow = PlasmaRowwise.
  Definition swp_src (colrow : Z) (i j : Z) : Z * Z :=
    if colrow =? PlasmaRowwise then (source (swp_list ipiv (d_m A) incx) i, j)
    else (i, source (swp_list ipiv (d_n A) incx) j).
  Definition swp_len (colrow : Z) : Z := if colrow =? PlasmaRowwise then d_m A else d_n A.

  Variable colrow : Z.
  Hypothesis HC : valid_colrow colrow.
  Hypothesis HL : legal_pivots ipiv (swp_len colrow).

  Lemma pzgeswp_kgood : Forall kgood (pzgeswp (V := V) colrow b A pI ipiv incx).
  Proof.
    destruct HC as [->| ->].
    - rewrite pzgeswp_col_eq. apply (ptasks_kgood (d_mt A) (d_nt A) (d_n A) (tile_mview A) Ec Tc
        (source (swp_list ipiv (d_n A) incx))).
      + apply swp_source_range; [apply (go_n A SH)|exact HL].
      + intros p l Hp. apply row_reg_panel. assumption.
      + intros p l Hp. apply row_reg_panel. assumption.
      + apply col_task_lines. exact HL.
    - rewrite pzgeswp_row_eq. apply (ptasks_kgood (d_nt A) (d_mt A) (d_m A) (tile_nview A) Er Tr
        (source (swp_list ipiv (d_m A) incx))).
      + apply swp_source_range; [apply (go_m A SH)|exact HL].
      + intros p l Hp. apply col_reg_panel. assumption.
      + intros p l Hp. apply col_reg_panel. assumption.
      + apply row_task_lines. exact HL.
  Qed.

  Lemma pzgeswp_linked : forall env (ins outs : list (ktask V)), In (b, homeD A (in_tiles A)) env ->
    functional (home_env env) ->
    Forall (kdecl (home_env env)) ins -> Forall (kdecl (home_env env)) outs ->
    (forall k l, In k ins -> k_reads k l -> fst l <> b) ->
    klinked (ins ++ pzgeswp colrow b A pI ipiv incx ++ outs).
  Proof.
    intros env ins outs HE HF DI DO RI. destruct HC as [->| ->].
    - rewrite pzgeswp_col_eq. apply (panels_linked (d_mt A) (d_nt A) (d_n A) (tile_mview A) Ec Tc b pI
        (swp_task_col b A pI ipiv incx) (home_env env)); try assumption.
      + apply col_inj.
      + reflexivity.
      + reflexivity.
      + intros p l Hp. apply row_reg_panel. assumption.
      + intros p l Hp. apply row_reg_panel. assumption.
      + intros p l Hp. apply col_home; assumption.
    - rewrite pzgeswp_row_eq. apply (panels_linked (d_nt A) (d_mt A) (d_m A) (tile_nview A) Er Tr b pI
        (swp_task_row b A pI ipiv incx) (home_env env)); try assumption.
      + apply row_inj.
      + reflexivity.
      + reflexivity.
      + intros p l Hp. apply col_reg_panel. assumption.
      + intros p l Hp. apply col_reg_panel. assumption.
      + intros p l Hp. apply row_home; assumption.
  Qed.

  Lemma pzgeswp_el : forall (M : mem V) i j, 0 <= i < d_m A -> 0 <= j < d_n A ->
    el (krun (pzgeswp colrow b A pI ipiv incx) M) b A i j
    = el M b A (fst (swp_src colrow i j)) (snd (swp_src colrow i j)).
  Proof.
    intros M i j Hi Hj. unfold el.
    destruct (div_mod_pos i (d_mb A) (go_mb A SH)) as [Ei _].
    destruct (div_mod_pos j (d_nb A) (go_nb A SH)) as [Ej _].
    rewrite Emb in Ei. rewrite Enb in Ej.
    destruct HC as [->| ->].
    - destruct (row_tile A i SH Hi) as [I1 I2]. rewrite Emb in I1, I2.
      rewrite pzgeswp_col_eq.
      pose proof (ptasks_run (d_mt A) (d_nt A) (d_n A) (tile_mview A) Ec Tc
        (source (swp_list ipiv (d_n A) incx)) (swp_task_col (V := V) b A pI ipiv incx)) as HR.
      specialize (HR col_inj (swp_source_range (d_n A) (go_n A SH) HL) (col_task_lines HL)).
      specialize (HR M (i / nb) j (i mod nb) I1 Hj I2). unfold Ec in HR at 1 2.
      replace (i / nb * nb + i mod nb) with i in HR by lia. exact HR.
    - destruct (col_tile A j SH Hj) as [I1 I2]. rewrite Enb in I1, I2.
      rewrite pzgeswp_row_eq.
      pose proof (ptasks_run (d_nt A) (d_mt A) (d_m A) (tile_nview A) Er Tr
        (source (swp_list ipiv (d_m A) incx)) (swp_task_row (V := V) b A pI ipiv incx)) as HR.
      specialize (HR row_inj (swp_source_range (d_m A) (go_m A SH) HL) (row_task_lines HL)).
      specialize (HR M (j / nb) i (j mod nb) I1 Hi I2). unfold Er in HR at 1 2.
      replace (j / nb * nb + j mod nb) with j in HR by lia. exact HR.
  Qed.

  Lemma pzgeswp_other : forall (M : mem V) l, fst l <> b -> krun (pzgeswp colrow b A pI ipiv incx) M l = M l.
  Proof.
    intros M l Hl. destruct HC as [->| ->].
    - rewrite pzgeswp_col_eq. apply (ptasks_other (d_mt A) (d_nt A) (d_n A) (tile_mview A) Ec Tc b
        (source (swp_list ipiv (d_n A) incx))); auto.
      + apply col_task_lines. exact HL.
    - rewrite pzgeswp_row_eq. apply (ptasks_other (d_nt A) (d_mt A) (d_m A) (tile_nview A) Er Tr b
        (source (swp_list ipiv (d_m A) incx))); auto.
      + apply row_task_lines. exact HL.
  Qed.
End Mat.

(* one dense operand worked on by tasks that are ordered in some other way *)
Lemma ge_region1_linked : forall V nb bA A pA lda (comp : list (ktask V)),
  dn nb A -> d_m A <= lda -> fst pA <> bA -> Forall kgood comp ->
  (forall env ins outs, In (bA, homeD A (in_tiles A)) env -> functional (home_env env) ->
     Forall (kdecl (home_env env)) ins -> Forall (kdecl (home_env env)) outs ->
     (forall k l, In k ins -> k_reads k l -> fst l <> bA) ->
     (forall k l, In k outs -> k_writes k l -> fst l <> bA) ->
     klinked (ins ++ comp ++ outs)) ->
  forall M, region_ensures (pzge2desc pA lda bA A ++ comp ++ pzdesc2ge bA A pA lda) M
    (fun M' => exists M3,
      (forall i j, 0 <= i < d_m A -> 0 <= j < d_n A -> el M3 bA A i j = ul M pA lda i j) /\
      (forall l, fst l <> bA -> M3 l = M l) /\
      (forall i j, 0 <= i < d_m A -> 0 <= j < d_n A -> ul M' pA lda i j = el (krun comp M3) bA A i j) /\
      (forall l, ~ in_user pA lda (d_m A) (d_n A) l -> M' l = krun comp M3 l)).
Proof.
  intros V nb bA A pA lda comp HA LA HF CG CL M.
  assert (OK : forall o, In o [ge_opnd bA A pA lda] -> ook nb o)
    by (intros o [<-|[]]; apply ge_opnd_ok; assumption).
  assert (NB : NoDup (map o_b [ge_opnd bA A pA lda])) by (cbn; constructor; [intros []|constructor]).
  assert (ND : NoDup [ge_opnd bA A pA lda]) by (constructor; [intros []|constructor]).
  assert (HP : forall o o', In o [ge_opnd bA A pA lda] -> In o' [ge_opnd bA A pA lda] -> fst (o_p o) <> o_b o')
    by (intros o o' [<-|[]] [<-|[]]; cbn; assumption).
  assert (HAO : forall o o', In o [ge_opnd bA A pA lda] -> In o' [ge_opnd bA A pA lda] -> o = o' \/ oapart o o')
    by (intros o o' [<-|[]] [<-|[]]; left; reflexivity).
  assert (HAI : forall o, In o [ge_opnd bA A pA lda] -> In o [ge_opnd bA A pA lda] \/
     forall o', In o' [ge_opnd bA A pA lda] -> oapart o o') by (intros o Ho; left; assumption).
  pose proof (ops_region_linked (V := V) nb [ge_opnd bA A pA lda] [ge_opnd bA A pA lda] [ge_opnd bA A pA lda]
    OK (incl_refl _) (incl_refl _) NB HP ND ND HAO comp CG M) as R.
  assert (K : klinked (flat_map (@o_in V) [ge_opnd bA A pA lda] ++ comp ++ flat_map o_out [ge_opnd bA A pA lda])).
  { apply (CL (ops_env [ge_opnd bA A pA lda] [ge_opnd bA A pA lda])).
    - left. reflexivity.
    - apply (ops_env_functional nb); auto using incl_refl.
    - apply (ins_kdecl nb); auto using incl_refl.
    - apply (outs_kdecl nb); auto using incl_refl.
    - cbn [flat_map]. rewrite app_nil_r. intros k l Hk Hl E. apply HF. rewrite <- E. symmetry.
      apply (copy_in_reads V nb A bA pA lda k l HA Hk Hl).
    - cbn [flat_map]. rewrite app_nil_r. intros k l Hk Hl E. apply HF. rewrite <- E. symmetry.
      apply (copy_out_writes V nb A bA pA lda k l HA Hk Hl). }
  specialize (R K). cbn [flat_map] in R. rewrite !app_nil_r, ge_opnd_in, ge_opnd_out in R.
  eapply region_mono; [|exact R].
  intros M' (M3 & H1 & H2 & H3 & H4). exists M3. split; [|split; [|split]].
  - intros i j Hi Hj. apply (H1 (ge_opnd bA A pA lda)); [left; reflexivity|]. apply (ge_opnd_el nb); assumption.
  - intros l Hl. apply H2. intros o [<-|[]]. exact Hl.
  - intros i j Hi Hj. apply (H3 (ge_opnd bA A pA lda)); [left; reflexivity|]. apply (ge_opnd_el nb); assumption.
  - intros l Hl. apply H4. intros o [<-|[]]. apply ge_user_out. assumption.
Qed.

Lemma ge_create_gen : forall nb m n A size, ge_create nb m n = CrOk A size ->
  gen_ok A /\ d_mb A = nb /\ d_nb A = nb /\ d_m A = m /\ d_n A = n.
Proof.
  intros nb m n A size H. unfold ge_create in H.
  destruct (general_create_ok _ _ _ _ _ _ _ _ _ _ _ (Z.le_refl 0) (Z.le_refl 0) H) as (G & -> & _).
  split; [assumption|]. repeat split.
Qed.

Lemma drv_mono : forall V (d : driver V) M (Q Q' : mem V -> Prop), (forall M', Q M' -> Q' M') ->
  driver_ensures d M Q -> driver_ensures d M Q'.
Proof. intros V d M Q Q' H HD. destruct d; cbn in *; [destruct HD; auto|]. eapply region_mono; eauto. Qed.

Section Driver.
  Context {V : Type}.
  Variables (nb colrow m n : Z) (pA : loc) (lda : Z) (pI : loc) (ipiv : Z -> Z) (bA : Z).
  Hypothesis Hnb : 0 < nb.
  Hypothesis HC : valid_colrow colrow.
  Hypothesis Hm : 0 <= m.
  Hypothesis Hn : 0 <= n.
  Hypothesis Hlda : Z.max 1 m <= lda.
  Hypothesis HF : fst pA <> bA.
  Let k := if colrow =? PlasmaRowwise then m else n.
  Hypothesis HL : legal_pivots ipiv k.

  Definition swp_at (s : list (Z * Z)) (i j : Z) : Z * Z :=
    if colrow =? PlasmaRowwise then (source s i, j) else (i, source s j).

  Definition swp_post (s : list (Z * Z)) (M M' : mem V) : Prop :=
    (forall i j, in_matrix m n i j -> ul M' pA lda i j = ul M pA lda (fst (swp_at s i j)) (snd (swp_at s i j))) /\
    (forall l, fst l <> bA -> ~ in_user pA lda m n l -> M' l = M l).

  Lemma zgeswp_driver : forall incx (M : mem V), incx = 1 \/ incx = -1 ->
    driver_ensures (zgeswp nb colrow m n pA lda pI ipiv incx bA) M (swp_post (swp_list ipiv k incx) M).
  Proof.
    intros incx M HX. unfold zgeswp.
    assert (E1 : negb (colrow =? PlasmaColumnwise) && negb (colrow =? PlasmaRowwise) = false)
      by (destruct HC as [->| ->]; reflexivity).
    rewrite E1. clear E1.
    destruct (Z.ltb_spec m 0); [lia|]. destruct (Z.ltb_spec n 0); [lia|].
    destruct (Z.ltb_spec lda (Z.max 1 m)); [lia|].
    destruct (Z.eqb_spec (Z.min n m) 0) as [E|E].
    { split; [reflexivity|]. split; [|auto]. intros i j [Hi Hj]. lia. }
    destruct (ge_create_succeeds nb m n Hnb Hm Hn) as (A & EA & _). rewrite EA. cbn [with_desc].
    destruct (ge_create_gen _ _ _ _ _ EA) as (G & A1 & A2 & A3 & A4). clear EA.
    unfold driver_ensures, omp_async_zgeswp. rewrite A3, A4.
    destruct (Z.eqb_spec (Z.min m n) 0); [lia|].
    assert (HL' : legal_pivots ipiv (swp_len A colrow)).
    { unfold swp_len. rewrite A3, A4. exact HL. }
    eapply region_mono; [|apply (ge_region1_linked V nb)].
    - intros M' (M3 & P1 & P2 & P3 & P4). rewrite A3, A4 in P1, P3, P4. split.
      + intros i j [Hi Hj]. rewrite P3 by assumption.
        rewrite (pzgeswp_el nb) by (try assumption; rewrite ?A3, ?A4; assumption).
        assert (S : swp_src A ipiv incx colrow i j = swp_at (swp_list ipiv k incx) i j).
        { unfold swp_src, swp_at, k. rewrite A3, A4. destruct (colrow =? PlasmaRowwise); reflexivity. }
        rewrite S. apply P1.
        * unfold swp_at. destruct (colrow =? PlasmaRowwise) eqn:EC; cbn [fst]; [|assumption].
          apply swp_source_range; [assumption|assumption| |assumption]. exact HL.
        * unfold swp_at. destruct (colrow =? PlasmaRowwise) eqn:EC; cbn [snd]; [assumption|].
          apply swp_source_range; [assumption|assumption| |assumption]. exact HL.
      + intros l Hb Hl. rewrite P4 by assumption. rewrite (pzgeswp_other nb) by assumption. apply P2. assumption.
    - apply mat_dn; assumption.
    - lia.
    - assumption.
    - apply (pzgeswp_kgood nb); assumption.
    - intros env ins outs HE HFn DI DO RI _. revert HE HFn DI DO RI. apply (pzgeswp_linked nb); assumption.
  Qed.

  Lemma k_nonneg : 0 <= k.
  Proof. unfold k. destruct (colrow =? PlasmaRowwise); assumption. Qed.

  Lemma zgeswp_forward : forall M : mem V,
    driver_ensures (zgeswp nb colrow m n pA lda pI ipiv 1 bA) M (swp_post (interchanges ipiv (Z.to_nat k)) M).
  Proof. intros M. rewrite <- swp_list_fwd by apply k_nonneg. apply zgeswp_driver. left; reflexivity. Qed.

  Lemma zgeswp_backward : forall M : mem V,
    driver_ensures (zgeswp nb colrow m n pA lda pI ipiv (-1) bA) M (swp_post (rev (interchanges ipiv (Z.to_nat k))) M).
  Proof. intros M. rewrite <- swp_list_bwd by apply k_nonneg. apply zgeswp_driver. right; reflexivity. Qed.

  Lemma swp_at_in : forall s i j, swaps_in k s -> in_matrix m n i j ->
    in_matrix m n (fst (swp_at s i j)) (snd (swp_at s i j)).
  Proof.
    intros s i j HS [Hi Hj]. unfold swp_at, k in *. destruct (colrow =? PlasmaRowwise); split; cbn [fst snd]; auto;
      apply source_range; assumption.
  Qed.

  Lemma swp_restores : forall s s' (M M1 M2 : mem V), swaps_in k s' ->
    (forall i, source s (source s' i) = i) -> swp_post s M M1 -> swp_post s' M1 M2 ->
    (forall i j, in_matrix m n i j -> ul M2 pA lda i j = ul M pA lda i j) /\
    (forall l, fst l <> bA -> ~ in_user pA lda m n l -> M2 l = M l).
  Proof.
    intros s s' M M1 M2 HS HI [A1 A2] [B1 B2]. split.
    - intros i j Hij. rewrite B1 by assumption. rewrite A1 by (apply swp_at_in; assumption).
      unfold swp_at. destruct (colrow =? PlasmaRowwise); cbn [fst snd]; rewrite HI; reflexivity.
    - intros l Hb Hl. rewrite B2, A2 by assumption. reflexivity.
  Qed.

  Lemma swaps_rev : forall s, swaps_in k s -> swaps_in k (rev s).
  Proof. intros s H. unfold swaps_in in *. rewrite Forall_forall in *. intros p Hp. apply H. apply in_rev. assumption. Qed.

  Lemma zgeswp_round_trip : forall M : mem V,
    driver_ensures (zgeswp nb colrow m n pA lda pI ipiv 1 bA) M (fun M1 =>
      driver_ensures (zgeswp nb colrow m n pA lda pI ipiv (-1) bA) M1 (fun M2 =>
        (forall i j, in_matrix m n i j -> ul M2 pA lda i j = ul M pA lda i j) /\
        (forall l, fst l <> bA -> ~ in_user pA lda m n l -> M2 l = M l))).
  Proof.
    intros M.
    assert (X : forall M1, swp_post (interchanges ipiv (Z.to_nat k)) M M1 ->
      driver_ensures (zgeswp nb colrow m n pA lda pI ipiv (-1) bA) M1 (fun M2 =>
        (forall i j, in_matrix m n i j -> ul M2 pA lda i j = ul M pA lda i j) /\
        (forall l, fst l <> bA -> ~ in_user pA lda m n l -> M2 l = M l))).
    { intros M1 P1. eapply drv_mono; [|apply zgeswp_backward]. intros M2 P2.
      eapply swp_restores; [| |exact P1|exact P2].
      - apply swaps_rev, interchanges_in; [apply k_nonneg|exact HL].
      - intros i. apply source_rev. }
    eapply drv_mono; [exact X|]. apply zgeswp_forward.
  Qed.
End Driver.
