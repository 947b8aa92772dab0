(* Interchanges of rows or columns of one panel. *)
From Coq Require Import ZArith List Bool Lia.
From Verif Require Import Base TaskModel TaskSpec TaskProofs DescModel DescSpec DescProofs MatModel MatSpec
  MatProofs RegionProofs SwpModel SwpSpec.
Import ListNotations.
Open Scope Z_scope.

(* ------------------------------------------------------------------ *)
(* transpositions                                                        *)

Lemma transposed_range : forall a b i k, 0 <= a < k -> 0 <= b < k -> 0 <= i < k -> 0 <= transposed a b i < k.
Proof. intros a b i k Ha Hb Hi. unfold transposed. destruct (i =? a); [assumption|]. destruct (i =? b); assumption. Qed.

Lemma transposed_inv : forall a b i, transposed a b (transposed a b i) = i.
Proof.
  intros a b i. unfold transposed.
  destruct (Z.eqb_spec i a) as [->|N1].
  - destruct (Z.eqb_spec b a) as [->|N2]; [reflexivity|]. rewrite Z.eqb_refl. reflexivity.
  - destruct (Z.eqb_spec i b) as [->|N2].
    + rewrite Z.eqb_refl. reflexivity.
    + destruct (Z.eqb_spec i a); [contradiction|]. destruct (Z.eqb_spec i b); [contradiction|reflexivity].
Qed.

Lemma transposed_same : forall a i, transposed a a i = i.
Proof. intros a i. unfold transposed. destruct (Z.eqb_spec i a) as [->|]; reflexivity. Qed.

Definition swaps_in (k : Z) (s : list (Z * Z)) : Prop :=
  Forall (fun p => 0 <= fst p < k /\ 0 <= snd p < k) s.

Lemma source_range : forall k s i, swaps_in k s -> 0 <= i < k -> 0 <= source s i < k.
Proof.
  intros k s i HS Hi. induction HS as [|p s [H1 H2] HS IH]; [exact Hi|].
  change (0 <= transposed (fst p) (snd p) (source s i) < k). apply transposed_range; assumption.
Qed.

Lemma source_app : forall s t i, source (s ++ t) i = source s (source t i).
Proof. intros s t i. unfold source. apply fold_right_app. Qed.

Lemma source_rev : forall s i, source s (source (rev s) i) = i.
Proof.
  induction s as [|p s IH]; intros i; [reflexivity|]. cbn [rev]. rewrite source_app.
  change (source (p :: s)) with (fun i => transposed (fst p) (snd p) (source s i)). cbv beta. rewrite IH.
  change (source [p] i) with (transposed (fst p) (snd p) i). apply transposed_inv.
Qed.

Lemma source_rev2 : forall s i, source (rev s) (source s i) = i.
Proof. intros s i. rewrite <- (rev_involutive s) at 2. apply source_rev. Qed.

Lemma interchanges_eq : forall ipiv k, interchanges ipiv k = map (fun i => (i, ipiv i - 1)) (zrange 0 (Z.of_nat k)).
Proof.
  intros ipiv. induction k as [|k IH]; [reflexivity|]. cbn [interchanges]. rewrite IH.
  rewrite Nat2Z.inj_succ. unfold Z.succ. rewrite zrange_snoc by lia. rewrite map_app. reflexivity.
Qed.

Lemma interchanges_z : forall ipiv k, 0 <= k ->
  interchanges ipiv (Z.to_nat k) = map (fun i => (i, ipiv i - 1)) (zrange 0 k).
Proof. intros ipiv k Hk. rewrite interchanges_eq, Z2Nat.id by assumption. reflexivity. Qed.

Lemma interchanges_in : forall ipiv k, 0 <= k -> legal_pivots ipiv k ->
  swaps_in k (interchanges ipiv (Z.to_nat k)).
Proof.
  intros ipiv k Hk HL. rewrite interchanges_z by assumption. unfold swaps_in. apply Forall_forall.
  intros p Hp. apply in_map_iff in Hp. destruct Hp as (i & <- & Hi). apply in_zrange in Hi.
  specialize (HL i Hi). cbn [fst snd]. lia.
Qed.

Lemma swp_indices_fwd : forall k, 0 <= k -> swp_indices 1 k 1 = zrange 0 k.
Proof.
  intros k Hk. unfold swp_indices. change (0 <? 1) with true. cbv iota.
  rewrite Z.div_1_r. replace (k - 1 + 1) with k by lia.
  rewrite <- (map_id (zrange 0 k)) at 2. apply map_ext. intros t. lia.
Qed.

Lemma rev_zrange : forall k, 0 <= k -> map (fun t => k - 1 - t) (zrange 0 k) = rev (zrange 0 k).
Proof.
  intros k Hk. pattern k. apply natlike_ind; [reflexivity| |assumption]. clear k Hk. intros k Hk IH.
  unfold Z.succ. rewrite (zrange_snoc 0 k) at 2 by assumption. rewrite rev_app_distr. cbn [rev app].
  rewrite <- IH. rewrite zrange_cons by lia. cbn [map]. apply f_equal2; [lia|].
  assert (E : forall n lo, zrange_nat (lo + 1) n = map (fun t => t + 1) (zrange_nat lo n)).
  { induction n as [|n IHn]; intros lo; cbn [zrange_nat map]; [reflexivity|]. rewrite IHn. reflexivity. }
  unfold zrange. replace (k + 1 - (0 + 1)) with (k - 0) by lia. rewrite E, map_map. apply map_ext. intros t. lia.
Qed.

Lemma swp_indices_bwd : forall k, 0 <= k -> swp_indices 1 k (-1) = rev (zrange 0 k).
Proof.
  intros k Hk. unfold swp_indices. change (0 <? -1) with false. cbv iota. change (- (-1)) with 1.
  rewrite Z.div_1_r. replace (k - 1 + 1) with k by lia. rewrite <- rev_zrange by assumption.
  apply map_ext. intros t. lia.
Qed.

(* the interchanges carried out for an increment of 1 or -1 *)
Definition swp_list (ipiv : Z -> Z) (k incx : Z) : list (Z * Z) :=
  map (fun i => (i, ipiv i - 1)) (swp_indices 1 k incx).

Lemma swp_list_fwd : forall ipiv k, 0 <= k -> swp_list ipiv k 1 = interchanges ipiv (Z.to_nat k).
Proof. intros ipiv k Hk. unfold swp_list. rewrite swp_indices_fwd, interchanges_z by assumption. reflexivity. Qed.
Lemma swp_list_bwd : forall ipiv k, 0 <= k -> swp_list ipiv k (-1) = rev (interchanges ipiv (Z.to_nat k)).
Proof. intros ipiv k Hk. unfold swp_list. rewrite swp_indices_bwd, interchanges_z, map_rev by assumption. reflexivity. Qed.

Lemma swp_indices_in : forall k incx i, 0 <= k -> incx = 1 \/ incx = -1 -> In i (swp_indices 1 k incx) -> 0 <= i < k.
Proof.
  intros k incx i Hk [->| ->]; [rewrite swp_indices_fwd by assumption|rewrite swp_indices_bwd, <- in_rev by assumption];
    intro H; apply in_zrange in H; assumption.
Qed.

(* ------------------------------------------------------------------ *)
(* exchanging locations                                                  *)

Section Grid.
  Context {V : Type}.

  Lemma swap_loc_1 : forall (M : mem V) a b, swap_loc a b M a = M b.
  Proof.
    intros M a b. unfold swap_loc, upd. destruct (loc_eqb_spec a b) as [->|N]; [reflexivity|].
    destruct (loc_eqb_spec a a); congruence.
  Qed.
  Lemma swap_loc_2 : forall (M : mem V) a b, swap_loc a b M b = M a.
  Proof. intros M a b. unfold swap_loc, upd. destruct (loc_eqb_spec b b); congruence. Qed.
  Lemma swap_loc_3 : forall (M : mem V) a b l, l <> a -> l <> b -> swap_loc a b M l = M l.
  Proof.
    intros M a b l Ha Hb. unfold swap_loc, upd.
    destruct (loc_eqb_spec l b); [congruence|]. destruct (loc_eqb_spec l a); congruence.
  Qed.

  (* a panel: R lines of length C *)
  Variables (R C : Z) (L : Z -> Z -> loc).
  Hypothesis LI : forall s c s' c', 0 <= s < R -> 0 <= c < C -> 0 <= s' < R -> 0 <= c' < C ->
    L s c = L s' c' -> s = s' /\ c = c'.

  Definition panel (l : loc) : Prop := exists s c, 0 <= s < R /\ 0 <= c < C /\ l = L s c.

  (* M' holds in line s what M holds in line f s *)
  Definition lines (f : Z -> Z) (M M' : mem V) : Prop :=
    (forall s c, 0 <= s < R -> 0 <= c < C -> M' (L s c) = M (L (f s) c)) /\
    (forall l, ~ panel l -> M' l = M l).

  Lemma swap_lines : forall a b (M : mem V) t, 0 <= a < R -> 0 <= b < R -> a <> b -> 0 <= t <= C ->
    let M' := fold_left (fun M c => swap_loc (L a c) (L b c) M) (zrange 0 t) M in
    (forall s c, 0 <= s < R -> 0 <= c < C -> M' (L s c) = if c <? t then M (L (transposed a b s) c) else M (L s c)) /\
    (forall l, ~ panel l -> M' l = M l).
  Proof.
    intros a b M t Ha Hb Hab Ht. revert Ht. pattern t. apply (zrange_ind_hi _ 0); clear t.
    - intros t Ht _. rewrite zrange_nil by assumption. cbn. split; [|auto].
      intros s c Hs Hc. destruct (Z.ltb_spec c t); [lia|reflexivity].
    - intros t Ht IH Ht2. destruct (IH ltac:(lia)) as [I1 I2]. clear IH.
      rewrite zrange_snoc by assumption. cbv zeta in *. rewrite fold_left_app. cbn [fold_left].
      remember (fold_left (fun M c => swap_loc (L a c) (L b c) M) (zrange 0 t) M) as M1 eqn:E1. clear E1.
      split.
      + intros s c Hs Hc. destruct (Z.eq_dec c t) as [->|Nc].
        * destruct (Z.ltb_spec t (t + 1)); [|lia]. unfold transposed.
          destruct (Z.eqb_spec s a) as [->|Nsa].
          -- rewrite swap_loc_1. rewrite I1 by lia. destruct (Z.ltb_spec t t); [lia|reflexivity].
          -- destruct (Z.eqb_spec s b) as [->|Nsb].
             ++ rewrite swap_loc_2. rewrite I1 by lia. destruct (Z.ltb_spec t t); [lia|reflexivity].
             ++ rewrite swap_loc_3.
                ** rewrite I1 by lia. destruct (Z.ltb_spec t t); [lia|reflexivity].
                ** intros E. apply LI in E; lia.
                ** intros E. apply LI in E; lia.
        * rewrite swap_loc_3.
          -- rewrite I1 by assumption. destruct (Z.ltb_spec c t), (Z.ltb_spec c (t + 1)); try lia; reflexivity.
          -- intros E. apply LI in E; lia.
          -- intros E. apply LI in E; lia.
      + intros l Hl. rewrite swap_loc_3; [apply I2; assumption| |]; intros ->; apply Hl.
        * exists a, t. repeat split; lia.
        * exists b, t. repeat split; lia.
  Qed.

  Lemma zswap_lines : forall a b (M : mem V) X incx Y incy, 0 <= a < R -> 0 <= b < R -> a <> b -> 0 <= C ->
    (forall c, 0 <= c < C -> at_ X incx 0 c = L a c) -> (forall c, 0 <= c < C -> at_ Y incy 0 c = L b c) ->
    lines (transposed a b) M (zswap C X incx Y incy M).
  Proof.
    intros a b M X incx Y incy Ha Hb Hab HC HX HY.
    assert (E : zswap C X incx Y incy M = fold_left (fun M c => swap_loc (L a c) (L b c) M) (zrange 0 C) M).
    { unfold zswap. assert (G : forall l (M : mem V), (forall c, In c l -> 0 <= c < C) ->
        fold_left (fun M c => swap_loc (at_ X incx 0 c) (at_ Y incy 0 c) M) l M
        = fold_left (fun M c => swap_loc (L a c) (L b c) M) l M).
      { induction l as [|c l IH]; intros M1 Hl; cbn; [reflexivity|]. rewrite HX, HY by (apply Hl; left; reflexivity).
        apply IH. intros d Hd. apply Hl. right. assumption. }
      apply G. intros c Hc. apply in_zrange in Hc. assumption. }
    rewrite E. clear E. destruct (swap_lines a b M C Ha Hb Hab ltac:(lia)) as [I1 I2]. split; [|exact I2].
    intros s c Hs Hc. rewrite I1 by assumption. destruct (Z.ltb_spec c C); [reflexivity|lia].
  Qed.

  Lemma lines_same : forall f M, (forall s, f s = s) -> lines f M M.
  Proof. intros f M H. split; auto. intros s c _ _. rewrite H. reflexivity. Qed.

  (* a sequence of interchanges *)
  Lemma fold_lines : forall (step : mem V -> Z -> mem V) (sw : Z -> Z * Z) (idx : list Z),
    (forall i M, In i idx -> lines (transposed (fst (sw i)) (snd (sw i))) M (step M i)) ->
    swaps_in R (map sw idx) ->
    forall M, lines (source (map sw idx)) M (fold_left step idx M).
  Proof.
    intros step sw idx. induction idx as [|i idx IH]; intros HS HR M.
    - cbn. apply lines_same. reflexivity.
    - cbn [map fold_left]. cbn [map] in HR. inversion HR as [|? ? H1 H2]; subst.
      destruct (HS i M (or_introl eq_refl)) as [A1 A2].
      destruct (IH (fun j M Hj => HS j M (or_intror Hj)) H2 (step M i)) as [B1 B2].
      split.
      + intros s c Hs Hc. rewrite B1 by assumption. rewrite A1; [reflexivity| |assumption].
        apply source_range; assumption.
      + intros l Hl. rewrite B2, A2 by assumption. reflexivity.
  Qed.

  Lemma lines_sound : forall f deps (g : mem V -> mem V) (P : loc -> Prop),
    (forall s, 0 <= s < R -> 0 <= f s < R) ->
    (forall M, lines f M (g M)) -> (forall l, P l <-> panel l) ->
    ksound {| k_deps := deps; k_fun := g; k_reads := P; k_writes := P |}.
  Proof.
    intros f deps g P HF HL HP. split; cbn.
    - intros M l Hl. apply (proj2 (HL M)). rewrite <- HP. assumption.
    - intros M M' l HA Hl. apply HP in Hl. destruct Hl as (s & c & Hs & Hc & ->).
      rewrite (proj1 (HL M)), (proj1 (HL M')) by assumption. apply HA. apply HP. exists (f s), c. auto.
  Qed.
End Grid.

(* ------------------------------------------------------------------ *)
(* the panels of a matrix                                                *)

Section Panel.
  Context {V : Type}.
  Variables (b : Z) (W : desc).
  Hypothesis G : gen_ok W.
  Let SH := gk_shape W G.

  Variables (ipiv : Z -> Z) (incx : Z).
  Hypothesis HX : incx = 1 \/ incx = -1.

  Lemma row_lines : d_n W <= d_nb W -> legal_pivots ipiv (d_m W) -> forall M : mem V,
    lines (d_m W) (d_n W) (fun i c => (b, elem_off W i c)) (source (swp_list ipiv (d_m W) incx)) M
      (core_zgeswp PlasmaRowwise b W 1 (d_m W) ipiv incx M).
  Proof.
    intros HN HL M. unfold core_zgeswp. change (PlasmaRowwise =? PlasmaRowwise) with true. cbv iota.
    pose proof (go_m W SH) as Hm0. pose proof (go_n W SH) as Hn0. pose proof (go_nb W SH) as Hnb0.
    assert (LI : forall s c s' c', 0 <= s < d_m W -> 0 <= c < d_n W -> 0 <= s' < d_m W -> 0 <= c' < d_n W ->
       (b, elem_off W s c) = (b, elem_off W s' c') -> s = s' /\ c = c').
    { intros s c s' c' Hs Hc Hs' Hc' E. injection E as E. apply (gen_ok_inj W); assumption. }
    assert (PT : forall i c, 0 <= c < d_n W ->
      at_ (b, tile_addr W (i / d_mb W) 0 + i mod d_mb W) (tile_mmain W (i / d_mb W)) 0 c = (b, elem_off W i c)).
    { intros i c Hc. unfold at_, elem_off. cbn [fst snd]. rewrite (Z.div_small c), (Z.mod_small c) by lia.
      f_equal. lia. }
    unfold swp_list. apply fold_lines.
    - intros i M1 Hi. apply swp_indices_in in Hi; [|assumption|assumption]. cbn [fst snd].
      specialize (HL i Hi). unfold swp_row. destruct (Z.eqb_spec (ipiv i - 1) i) as [E|E].
      + rewrite E. apply lines_same. apply transposed_same.
      + cbv zeta. unfold tptr. cbn [fst snd].
        apply zswap_lines; try lia; auto.
    - unfold swaps_in. apply Forall_forall. intros p Hp. apply in_map_iff in Hp. destruct Hp as (i & <- & Hi).
      apply swp_indices_in in Hi; [|assumption|assumption]. specialize (HL i Hi). cbn [fst snd]. lia.
  Qed.

  Lemma col_lines : d_m W <= d_mb W -> legal_pivots ipiv (d_n W) -> forall M : mem V,
    lines (d_n W) (d_m W) (fun j r => (b, elem_off W r j)) (source (swp_list ipiv (d_n W) incx)) M
      (core_zgeswp PlasmaColumnwise b W 1 (d_n W) ipiv incx M).
  Proof.
    intros HN HL M. unfold core_zgeswp. change (PlasmaColumnwise =? PlasmaRowwise) with false. cbv iota.
    pose proof (go_m W SH) as Hm0. pose proof (go_n W SH) as Hn0. pose proof (go_mb W SH) as Hmb0.
    assert (LI : forall s c s' c', 0 <= s < d_n W -> 0 <= c < d_m W -> 0 <= s' < d_n W -> 0 <= c' < d_m W ->
       (b, elem_off W c s) = (b, elem_off W c' s') -> s = s' /\ c = c').
    { intros s c s' c' Hs Hc Hs' Hc' E. injection E as E. apply (gen_ok_inj W) in E; intuition. }
    assert (PT : forall j r, 0 <= r < d_m W ->
      at_ (b, tile_addr W 0 (j / d_nb W) + (j mod d_nb W) * tile_mmain W 0) 1 0 r = (b, elem_off W r j)).
    { intros j r Hr. unfold at_, elem_off. cbn [fst snd]. rewrite (Z.div_small r), (Z.mod_small r) by lia.
      f_equal. lia. }
    unfold swp_list. apply fold_lines.
    - intros i M1 Hi. apply swp_indices_in in Hi; [|assumption|assumption]. cbn [fst snd].
      specialize (HL i Hi). unfold swp_col. destruct (Z.eqb_spec (ipiv i - 1) i) as [E|E].
      + rewrite E. apply lines_same. apply transposed_same.
      + cbv zeta. unfold tptr. cbn [fst snd].
        apply (zswap_lines (d_n W) (d_m W) (fun j r => (b, elem_off W r j))); try lia; auto.
    - unfold swaps_in. apply Forall_forall. intros p Hp. apply in_map_iff in Hp. destruct Hp as (i & <- & Hi).
      apply swp_indices_in in Hi; [|assumption|assumption]. specialize (HL i Hi). cbn [fst snd]. lia.
  Qed.
End Panel.
