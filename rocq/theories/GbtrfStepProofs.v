(* The tasks of plasma_pzgbtrf are sound, and a step of the factorization. *)
From Coq Require Import ZArith List Bool Lia Ring.
From Verif Require Import Base NumModel NumProofs FieldModel TaskModel TaskSpec TaskProofs DescModel DescSpec DescProofs
  DescPackProofs DescDriverModel MatModel MatSpec MatProofs RegionProofs LayoutModel OpProofs GemmModel GemmProofs TriModel TriVecProofs
  SwpModel SwpSpec SwpProofs LuProofs GridProofs GuardModel GuardSpec GuardProofs GuardProofs2 BandLayoutProofs NormGbLayoutProofs
  GetrfModel GetrfSpec GetrfAbsProofs GetrfPanelProofs GetrfProofs GetrfRegionProofs GbtrsSpec GbtrfModel GbtrfMathProofs GbtrfTaskProofs
  GbtrfUpdateProofs.
Import ListNotations.
Open Scope Z_scope.

Section Tasks.
  Context {F : fields}.
  Variable bigger : F -> F -> bool.
  Variables (A : desc) (nb n kl ku b : Z) (pI : loc) (ib mpt : Z).
  Hypothesis HA : gd_ok A nb n n kl ku.
  Hypothesis BK : band_ok A.
  Hypothesis Hib : 0 < ib.
  Hypothesis Hmpt : 0 < mpt.
  Hypothesis Hpi : fst pI <> b.
  Let T := ntl nb n.
  Let Lg := gE A b.

  Lemma part_finite : forall k c, finite_set (gb_part b A k c).
  Proof.
    intros k c. unfold gb_part.
    exists (flat_map (fun r => flat_map (fun x => map (fun y => at_ (tptr b A r c) (tile_mmain_band A r c) x y) (zrange 0 (tile_nview A c)))
      (zrange 0 (tile_mview A r))) (zrange k (Z.min (k + d_klt A) (d_mt A)))).
    intros l. rewrite in_flat_map. split.
    - intros (r & Hr & Hl). apply in_flat_map in Hl. destruct Hl as (x & Hx & Hl). apply in_map_iff in Hl.
      destruct Hl as (y & <- & Hy). apply in_zrange in Hr, Hx, Hy. exists r. split; [assumption|]. exists x, y. auto.
    - intros (r & Hr & x & y & Hx & Hy & _ & ->). exists r. split; [apply in_zrange; assumption|].
      apply in_flat_map. exists x. split; [apply in_zrange; assumption|]. apply in_map_iff. exists y.
      split; [reflexivity|apply in_zrange; assumption].
  Qed.

  (* ---------------- the update ---------------- *)

  Section Upd.
    Variables (k c : Z).
    Hypothesis Hk : 0 <= k.
    Hypothesis Hc : k < c < Z.min T (k + d_kut A).

    Lemma uL_part : forall i j, 0 <= i < uh A nb n k -> 0 <= j < nb + uw nb n c ->
      (j < nb -> gb_part b A k k (uL A nb b k c i j)) /\ (nb <= j -> gb_part b A k c (uL A nb b k c i j)).
    Proof.
      intros i j Hi Hj. destruct (u_facts A nb n kl ku k c HA Hk Hc) as (U1 & U2 & U3 & U4 & U5 & U6 & U7 & U8 & U9 & U10 & U11).
      unfold uL, uh in *. split; intros H; destruct (Z.ltb_spec j nb); try lia; apply (gf_part A nb n kl ku b HA); try lia.
      - exists (k * nb + i), (k * nb + j). rewrite U7. split; [lia|]. split; [lia|reflexivity].
      - exists (k * nb + i), (c * nb + (j - nb)). fold (uw nb n c). split; [lia|]. split; [lia|reflexivity].
    Qed.
    Lemma part_uL : forall l, gb_part b A k c l -> exists i j, 0 <= i < uh A nb n k /\ nb <= j < nb + uw nb n c /\ l = uL A nb b k c i j.
    Proof.
      intros l Hl. destruct (u_facts A nb n kl ku k c HA Hk Hc) as (U1 & U2 & U3 & U4 & U5 & U6 & U7 & U8 & U9 & U10 & U11).
      apply (gf_part A nb n kl ku b HA) in Hl; [|lia|lia]. destruct Hl as (i & j & Hi & Hj & ->). fold (uw nb n c) in Hj.
      exists (i - k * nb), (nb + (j - c * nb)). unfold uh, uL. split; [lia|]. split; [lia|].
      destruct (Z.ltb_spec (nb + (j - c * nb)) nb); [lia|]. f_equal; lia.
    Qed.

    Lemma update_kgood : kgood (gb_update (F := F) b A pI k c).
    Proof.
      destruct (u_facts A nb n kl ku k c HA Hk Hc) as (U1 & U2 & U3 & U4 & U5 & U6 & U7 & U8 & U9 & U10 & U11).
      constructor; [|apply finite_or; [|apply finite_or]; auto using part_finite, ipiv_sec_finite|apply part_finite].
      assert (S0 : forall M : mem (cell F), ustate A nb n b k c M (fun i j => fst (M (uL A nb b k c i j)))) by (intros M i j _ _; reflexivity).
      split.
      - intros M l Hl. cbn [gb_update k_writes k_fun] in *.
        destruct (upd_sim A nb n kl ku b pI k c HA BK Hk Hc M _ (ipiv_rd M (gb_ipiv A pI k)) (S0 M) (fun t _ => eq_refl)) as (S1 & S2 & S3).
        destruct (finite_dec _ l (panel_finite' (uh A nb n k) (nb + uw nb n c) (uL A nb b k c))) as [(i & j & Hi & Hj & ->)|NP]; [|apply S2; assumption].
        destruct (uL_part i j Hi Hj) as [_ Q]. destruct (Z_lt_le_dec j nb) as [L|L]; [|exfalso; apply Hl; auto].
        apply injective_projections; [|apply S3]. rewrite S1 by assumption. rewrite (u_fun_left A) by lia. reflexivity.
      - intros M M' l HR Hl. cbn [gb_update k_writes k_reads k_fun] in *.
        apply part_uL in Hl. destruct Hl as (i & j & Hi & Hj & ->).
        destruct (upd_sim A nb n kl ku b pI k c HA BK Hk Hc M _ (ipiv_rd M (gb_ipiv A pI k)) (S0 M) (fun t _ => eq_refl)) as (S1 & S2 & S3).
        assert (S0' : ustate A nb n b k c M' (fun i j => fst (M (uL A nb b k c i j)))).
        { intros i' j' Hi' Hj'. rewrite <- HR; [reflexivity|]. destruct (uL_part i' j' Hi' Hj') as [Q1 Q2].
          destruct (Z_lt_le_dec j' nb) as [L|L]; auto. }
        destruct (upd_sim A nb n kl ku b pI k c HA BK Hk Hc M' _ (ipiv_rd M (gb_ipiv A pI k)) S0') as (S1' & S2' & S3').
        { intros t Ht. unfold ipiv_rd. rewrite <- HR; [reflexivity|]. right. right. exists t.
          rewrite (gf_mb A nb n kl ku HA), (gd_m _ _ _ _ _ _ HA). split; [lia|reflexivity]. }
        apply injective_projections; [rewrite S1, S1' by lia; reflexivity|]. rewrite S3, S3'. rewrite HR; [reflexivity|].
        right. left. apply uL_part; lia.
    Qed.

    (* the update on the matrix *)
    Lemma update_spec : forall M : mem (cell F), (forall t, 0 <= t < nb -> 1 <= ipiv_rd M (gb_ipiv A pI k) t <= ph nb n kl k) ->
      let M' := gb_update_fun b A pI k c M in
      (forall l, snd (M' l) = snd (M l)) /\
      (forall i j, tbe A nb n i j -> ~ (k * nb <= i < gR A nb n k /\ c * nb <= j < c * nb + pw nb n c) -> M' (Lg i j) = M (Lg i j)) /\
      (forall i j, k * nb <= i < gR A nb n k -> c * nb <= j < c * nb + pw nb n c ->
         fst (M (Lg (k * nb + perm (fun t => ipiv_rd M (gb_ipiv A pI k) t - 1) 0 nb (i - k * nb)) j)) =
         nadd (nsum (fun t => nmul (fst (M (Lg i (k * nb + t)))) (fst (M' (Lg (k * nb + t) j)))) 0 (Z.min nb (i - k * nb))) (fst (M' (Lg i j)))).
    Proof.
      intros M HP. cbv zeta. destruct (u_facts A nb n kl ku k c HA Hk Hc) as (U1 & U2 & U3 & U4 & U5 & U6 & U7 & U8 & U9 & U10 & U11).
      destruct (upd_sim A nb n kl ku b pI k c HA BK Hk Hc M (fun i j => fst (M (uL A nb b k c i j))) (ipiv_rd M (gb_ipiv A pI k))
        (fun i j _ _ => eq_refl) (fun t _ => eq_refl)) as (S1 & S2 & S3).
      split; [exact S3|]. split.
      - intros i j TB NR. destruct (kg_sound _ update_kgood) as [KS _]. apply (KS M). cbn [gb_update k_writes].
        rewrite (gf_part A nb n kl ku b HA) by lia. intros (i' & j' & Hi' & Hj' & E).
        apply (gf_inj A nb n kl ku b HA BK) in E; [|assumption|apply (gR_tbe A nb n kl ku HA k c); try assumption; lia].
        destruct E as [-> ->]. auto.
      - intros i j Hi Hj. fold (uw nb n c) in Hj.
        assert (OK : u_ok nb n kl k (ipiv_rd M (gb_ipiv A pI k)) = true) by (apply u_ok_spec; assumption).
        pose proof (u_fun_eq A nb n kl ku k c HA Hk Hc (ipiv_rd M (gb_ipiv A pI k)) (fun i j => fst (M (uL A nb b k c i j)))
          (i - k * nb) (nb + (j - c * nb)) OK ltac:(unfold uh; lia) ltac:(lia)) as E. cbv beta in E.
        assert (UC : forall s, uL A nb b k c s (nb + (j - c * nb)) = Lg (k * nb + s) j).
        { intros s. unfold uL. destruct (Z.ltb_spec (nb + (j - c * nb)) nb); [lia|]. unfold Lg. f_equal; lia. }
        rewrite UC in E. rewrite E. apply (f_equal2 nadd).
        + apply (nsum_ext F). intros t Ht. rewrite <- S1 by (unfold uh; lia). rewrite UC.
          unfold uL. destruct (Z.ltb_spec t nb); [|lia]. unfold Lg. replace (k * nb + (i - k * nb)) with i by lia. reflexivity.
        + rewrite <- S1 by (unfold uh; lia). rewrite UC. replace (k * nb + (i - k * nb)) with i by lia. reflexivity.
    Qed.
  End Upd.

  (* ---------------- the panel ---------------- *)

  Section Pan.
    Variable k : Z.
    Hypothesis Hk : 0 <= k < T.
    Let W := gb_view A k k.
    Let size := Z.min mpt (Z.min (Z.min (d_mt A) (d_nt A) - k) (d_klt A)).

    Lemma p_facts : 0 < nb /\ k * nb < n /\ 0 < pw nb n k <= nb /\ pw nb n k <= ph nb n kl k /\ k * nb + ph nb n kl k <= gR A nb n k /\
      gR A nb n k <= n /\ 0 < size /\ k * nb + pw nb n k <= n.
    Proof.
      pose proof (gf_pos A nb n kl ku HA) as NB. assert (KN : k * nb < n) by (apply (gf_T A nb n kl ku HA); fold T; lia).
      pose proof (ph_gR A nb n kl ku HA k Hk). pose proof (gd_kl0 _ _ _ _ _ _ HA). pose proof (gf_klt1 A BK).
      unfold size. rewrite (gd_mt _ _ _ _ _ _ HA), (gd_nt _ _ _ _ _ _ HA). fold T. unfold ph, pw, gR in *. lia.
    Qed.

    Lemma p_view : gen_ok W /\ d_m W = ph nb n kl k /\ d_n W = pw nb n k /\ d_mb W = nb /\ d_nb W = nb /\
      (forall r x, 0 <= r < ph nb n kl k -> 0 <= x < pw nb n k -> elem_off W r x = elem_off A (k * nb + r) (k * nb + x)).
    Proof. apply (gf_view A nb n kl ku HA BK k k); [lia|]. pose proof (gf_kut1 A BK). fold T. lia. Qed.

    Lemma p_q : Z.min (gb_rows A k) (tile_nview A k) = pw nb n k.
    Proof.
      rewrite (gf_rows A nb n kl ku HA), (gf_nv A nb n kl ku HA) by (fold T; lia). pose proof p_facts. lia.
    Qed.

    Let core M := core_zgetrf bigger b W (gb_ipiv A pI k) ib size M.

    Lemma p_core : forall M, gb_panel_fun bigger b A pI ib size k M = (fst (core M), if snd (core M) =? 0 then 0 else k * nb + snd (core M)).
    Proof. intros M. unfold gb_panel_fun. cbv zeta. rewrite (gf_mb A nb n kl ku HA). reflexivity. Qed.

    Lemma p_frame : forall M l,
      (~ (exists i j, k * nb <= i < k * nb + ph nb n kl k /\ k * nb <= j < k * nb + pw nb n k /\ l = Lg i j) -> fst (fst (core M) l) = fst (M l)) /\
      (~ ipiv_sec (gb_ipiv A pI k) 0 (pw nb n k) l -> snd (fst (core M) l) = snd (M l)).
    Proof.
      intros M l. destruct p_view as (G & W1 & W2 & W3 & W4 & W5). destruct p_facts as (P1 & P2 & P3 & P4 & P5 & P6 & P7 & P8).
      destruct (core_frame bigger b W (gb_ipiv A pI k) ib size G ltac:(lia) ltac:(lia) ltac:(lia) ltac:(lia) Hib P7 M l) as [C1 C2].
      rewrite W1, W2 in *. rewrite Z.min_r in C2 by lia. split.
      - intros H. apply C1. intros (i & j & Hi & Hj & ->). apply H. exists (k * nb + i), (k * nb + j).
        split; [lia|]. split; [lia|]. unfold Lg, gE. rewrite W5 by assumption. reflexivity.
      - exact C2.
    Qed.

    Lemma p_local : forall M M', (forall l, gb_part b A k k l \/ ipiv_sec (gb_ipiv A pI k) 0 (pw nb n k) l -> M l = M' l) ->
      snd (core M) = snd (core M') /\ (forall l, gb_part b A k k l \/ ipiv_sec (gb_ipiv A pI k) 0 (pw nb n k) l -> fst (core M) l = fst (core M') l).
    Proof.
      intros M M' H. destruct p_view as (G & W1 & W2 & W3 & W4 & W5). destruct p_facts as (P1 & P2 & P3 & P4 & P5 & P6 & P7 & P8).
      assert (PT : forall i j, 0 <= i < gR A nb n k - k * nb -> 0 <= j < pw nb n k -> gb_part b A k k (Lg (k * nb + i) (k * nb + j))).
      { intros i j Hi Hj. apply (gf_part A nb n kl ku b HA); [lia|fold T; lia|]. exists (k * nb + i), (k * nb + j).
        split; [lia|]. split; [lia|reflexivity]. }
      destruct (core_local bigger b W (gb_ipiv A pI k) ib size G ltac:(lia) ltac:(lia) ltac:(lia) ltac:(lia) Hib P7 Hpi M M') as (C1 & C2 & C3).
      { rewrite W1, W2. intros i j Hi Hj. rewrite W5 by assumption. apply H. left. apply (PT i j); lia. }
      { rewrite W1, W2. rewrite Z.min_r by lia. intros t Ht. apply H. right. exists t. auto. }
      rewrite W1, W2 in C2, C3. rewrite Z.min_r in C3 by lia. split; [exact C1|].
      intros l [Hl|Hl].
      - pose proof Hl as Hl0. apply (gf_part A nb n kl ku b HA) in Hl; [|lia|fold T; lia]. destruct Hl as (i & j & Hi & Hj & ->).
        destruct (Z_lt_le_dec i (k * nb + ph nb n kl k)) as [L|L].
        + specialize (C2 (i - k * nb) (j - k * nb) ltac:(lia) ltac:(lia)). rewrite W5 in C2 by lia.
          replace (k * nb + (i - k * nb)) with i in C2 by lia. replace (k * nb + (j - k * nb)) with j in C2 by lia. exact C2.
        + assert (NP : forall MM, fst (core MM) (gE A b i j) = MM (gE A b i j)).
          { intros MM. apply injective_projections; apply p_frame.
            - intros (i' & j' & Hi' & Hj' & E). apply (gf_inj A nb n kl ku b HA BK) in E; [lia| |];
                apply (gR_tbe A nb n kl ku HA k k); try lia; pose proof (gf_kut1 A BK); fold T; lia.
            - intros (t & _ & E). apply (f_equal fst) in E. cbn in E. congruence. }
          rewrite !NP. apply H. left. exact Hl0.
      - destruct Hl as (t & Ht & ->). apply C3. assumption.
    Qed.

    Lemma panel_kgood : kgood (ck_task (gb_panel bigger b A pI ib mpt k)) /\ cksound (gb_panel bigger b A pI ib mpt k).
    Proof.
      assert (FS : finite_set (fun l => gb_part b A k k l \/ ipiv_sec (gb_ipiv A pI k) 0 (Z.min (gb_rows A k) (tile_nview A k)) l)).
      { apply finite_or; [apply part_finite|apply ipiv_sec_finite]. }
      destruct p_facts as (P1 & P2 & P3 & P4 & P5 & P6 & P7 & P8).
      split.
      - constructor; [|exact FS|exact FS]. unfold gb_panel. cbv zeta. fold size. split; cbn [ck_task k_fun k_reads k_writes]; rewrite p_q.
        + intros M l Hl. rewrite p_core. cbn [fst]. apply injective_projections; apply p_frame.
          * intros (i & j & Hi & Hj & ->). apply Hl. left. apply (gf_part A nb n kl ku b HA); [lia|fold T; lia|]. exists i, j. 
            split; [lia|]. split; [lia|reflexivity].
          * intros H. apply Hl. right. exact H.
        + intros M M' l H Hl. rewrite !p_core. cbn [fst]. apply (p_local M M' H). assumption.
      - unfold gb_panel. cbv zeta. fold size. split; cbn [ck_task k_reads ck_info ck_may_fail]; [|discriminate].
        rewrite p_q. intros M M' H. rewrite !p_core. cbn [snd]. destruct (p_local M M' H) as [-> _]. reflexivity.
    Qed.

    (* the panel on the matrix *)
    Lemma panel_spec : forall M, let r := gb_panel_fun bigger b A pI ib size k M in
      let info := snd (core M) in
      snd r = (if info =? 0 then 0 else k * nb + info) /\
      lu_outcome bigger (ph nb n kl k) (pw nb n k) (fun i j => fst (M (Lg (k * nb + i) (k * nb + j))))
        (fun i j => fst (fst r (Lg (k * nb + i) (k * nb + j)))) (pivots (fst r) (gb_ipiv A pI k)) info /\
      (forall i j, tbe A nb n i j -> ~ (k * nb <= i < k * nb + ph nb n kl k /\ k * nb <= j < k * nb + pw nb n k) ->
         fst (fst r (Lg i j)) = fst (M (Lg i j))) /\
      (forall l, ~ ipiv_sec (gb_ipiv A pI k) 0 (pw nb n k) l -> snd (fst r l) = snd (M l)).
    Proof.
      intros M. cbv zeta. rewrite p_core. cbn [fst snd]. split; [reflexivity|].
      destruct p_view as (G & W1 & W2 & W3 & W4 & W5). destruct p_facts as (P1 & P2 & P3 & P4 & P5 & P6 & P7 & P8).
      split; [|split].
      - pose proof (core_outcome bigger b W (gb_ipiv A pI k) ib size G ltac:(lia) ltac:(lia) ltac:(lia) ltac:(lia) Hib P7 M _ (fun l => eq_refl)) as O.
        fold (core M) in O. rewrite W1, W2 in O.
        assert (EL : forall (MM : mem (cell F)) i j, 0 <= i < ph nb n kl k -> 0 <= j < pw nb n k -> lel MM b W i j = fst (MM (Lg (k * nb + i) (k * nb + j)))).
        { intros MM i j Hi Hj. unfold lel, el. rewrite W5 by assumption. reflexivity. }
        destruct O as (O1 & O2 & O3). unfold GetrfSpec.factored, U_regular, well_pivoted in O2.
        unfold lu_outcome, GetrfSpec.factored, U_regular, well_pivoted.
        rewrite Z.min_r in * by lia. split; [exact O1|]. split.
        + intros E. destruct (O2 E) as ([Q1 Q1'] & Q2 & Q3). split; [|split].
          * split; [exact Q1|]. intros i j [Hi Hj].
            specialize (Q1' i j (conj Hi Hj)).
            assert (SR : 0 <= source (interchanges (pivots (fst (core M)) (gb_ipiv A pI k)) (Z.to_nat (pw nb n k))) i < ph nb n kl k).
            { rewrite interchanges_z by lia. apply source_range; [|assumption]. unfold swaps_in. apply Forall_forall. intros p Hp.
              apply in_map_iff in Hp. destruct Hp as (t & <- & Ht). apply in_zrange in Ht. cbn [fst snd].
              specialize (Q1 t Ht). lia. }
            rewrite EL in Q1' by assumption. rewrite Q1'. apply (nsum_ext F). intros l Hl. unfold factor_L, factor_U.
            rewrite !EL by lia. reflexivity.
          * intros t Ht. specialize (Q2 t Ht). unfold factor_U in *. rewrite EL in Q2 by lia. exact Q2.
          * intros CO i t Ht Hi. specialize (Q3 CO i t Ht Hi). unfold factor_L, factor_U in *.
            rewrite !EL in Q3 by lia. exact Q3.
        + intros N CO. destruct (O3 N CO) as [x Hx]. exists x. intros i Hi. specialize (Hx i Hi). rewrite EL in Hx by lia.
          rewrite Hx. apply (nsum_ext F). intros j Hj. rewrite EL by lia. reflexivity.
      - intros i j TB NR. apply p_frame. intros (i' & j' & Hi' & Hj' & E).
        apply (gf_inj A nb n kl ku b HA BK) in E; [destruct E as [-> ->]; auto|assumption|].
        apply (gR_tbe A nb n kl ku HA k k); try lia; pose proof (gf_kut1 A BK); fold T; lia.
      - intros l Hl. apply p_frame. assumption.
    Qed.
  End Pan.

  (* ---------------- the shift of the pivots ---------------- *)

  Section Shift.
    Variable k : Z.
    Hypothesis Hk : 0 <= k < T.

    Lemma shift_fold : forall (p : loc) d h (M : mem (cell F)), 0 <= h ->
      let M' := fold_left (fun M i => ipiv_set p i (ipiv_rd M p i + d) M) (zrange 0 h) M in
      (forall l, fst (M' l) = fst (M l)) /\ (forall t, 0 <= t < h -> ipiv_rd M' p t = ipiv_rd M p t + d) /\
      (forall l, ~ ipiv_sec p 0 h l -> M' l = M l).
    Proof.
      intros p d h M H0. cbv zeta. revert H0. pattern h. apply (zrange_ind_hi _ 0); clear h.
      - intros h Hh H0. rewrite zrange_nil by assumption. cbn [fold_left]. split; [reflexivity|]. split; [lia|reflexivity].
      - intros h Hh IH H0. destruct (IH Hh) as (I1 & I2 & I3). rewrite zrange_snoc, fold_left_app by lia. cbn [fold_left].
        remember (fold_left (fun M i => ipiv_set p i (ipiv_rd M p i + d) M) (zrange 0 h) M) as M1 eqn:E1. clear E1.
        assert (NI : ~ ipiv_sec p 0 h (fst p, snd p + h)).
        { intros (t & Ht & E). injection E as E. lia. }
        split; [|split].
        + intros l. unfold ipiv_set, upd. destruct (loc_eqb_spec l (fst p, snd p + h)) as [->|NE].
          * cbn [fst]. apply I1.
          * apply I1.
        + intros t Ht. unfold ipiv_set, upd. unfold ipiv_rd at 1. destruct (loc_eqb_spec (fst p, snd p + t) (fst p, snd p + h)) as [E|NE].
          * injection E as E. assert (t = h) as -> by lia. cbn [snd]. unfold ipiv_rd. rewrite I3 by assumption. reflexivity.
          * apply I2. assert (t <> h) by congruence. lia.
        + intros l Hl. unfold ipiv_set, upd. destruct (loc_eqb_spec l (fst p, snd p + h)) as [->|NE].
          * exfalso. apply Hl. exists h. split; [lia|reflexivity].
          * apply I3. intros (t & Ht & ->). apply Hl. exists t. split; [lia|reflexivity].
    Qed.

    Lemma shift_kgood : kgood (gb_shift (F := F) A pI k).
    Proof.
      constructor; [|apply ipiv_sec_finite|apply ipiv_sec_finite]. destruct (p_facts k Hk) as (P1 & P2 & P3 & P4 & P5 & P6 & P7 & P8).
      unfold gb_shift. cbv zeta. rewrite (p_q k Hk). split; cbn [k_fun k_writes k_reads]; destruct (0 <? k); auto.
      - intros M l Hl. destruct (shift_fold (gb_ipiv A pI k) (k * d_mb A) (pw nb n k) M ltac:(lia)) as (_ & _ & S). auto.
      - intros M M' l H Hl. destruct (shift_fold (gb_ipiv A pI k) (k * d_mb A) (pw nb n k) M ltac:(lia)) as (S1 & S2 & S3).
        destruct (shift_fold (gb_ipiv A pI k) (k * d_mb A) (pw nb n k) M' ltac:(lia)) as (S1' & S2' & S3').
        specialize (H l Hl) as EL. destruct Hl as (t & Ht & ->). apply injective_projections.
        + rewrite S1, S1', EL. reflexivity.
        + specialize (S2 t Ht). specialize (S2' t Ht). unfold ipiv_rd in *. rewrite S2, S2', EL. reflexivity.
    Qed.

    Lemma shift_spec : forall M, let M' := k_fun (gb_shift (F := F) A pI k) M in
      (forall l, fst (M' l) = fst (M l)) /\
      (forall t, 0 <= t < pw nb n k -> pivots M' pI (k * nb + t) = ipiv_rd M (gb_ipiv A pI k) t + k * nb) /\
      (forall t, t < k * nb \/ k * nb + pw nb n k <= t -> pivots M' pI t = pivots M pI t).
    Proof.
      intros M. cbv zeta. destruct (p_facts k Hk) as (P1 & P2 & P3 & P4 & P5 & P6 & P7 & P8).
      unfold gb_shift. cbv zeta. rewrite (p_q k Hk). cbn [k_fun].
      destruct (Z.ltb_spec 0 k) as [L|L].
      - destruct (shift_fold (gb_ipiv A pI k) (k * d_mb A) (pw nb n k) M ltac:(lia)) as (S1 & S2 & S3).
        split; [exact S1|]. rewrite (gf_mb A nb n kl ku HA) in *. split.
        + intros t Ht. specialize (S2 t Ht). rewrite <- S2. unfold pivots, ipiv_rd, ipiv_at, gb_ipiv. cbn [fst snd].
          rewrite (gf_mb A nb n kl ku HA). rewrite Z.add_assoc. reflexivity.
        + intros t Ht. unfold pivots. rewrite S3; [reflexivity|]. intros (t' & Ht' & E). unfold ipiv_at, gb_ipiv in E. cbn [fst snd] in E.
          rewrite (gf_mb A nb n kl ku HA) in E. injection E as E. lia.
      - assert (k = 0) as -> by lia. split; [reflexivity|]. split; [|reflexivity].
        intros t Ht. unfold pivots, ipiv_rd, ipiv_at, gb_ipiv. cbn [fst snd]. replace (snd pI + 0 * d_mb A + t) with (snd pI + (0 * nb + t)) by lia. lia.
    Qed.
  End Shift.

  Lemma gbtrf_sound : Forall kgood (map ck_task (pzgbtrf bigger b A pI ib mpt)) /\ Forall cksound (pzgbtrf bigger b A pI ib mpt).
  Proof.
    assert (H : forall x, In x (pzgbtrf bigger b A pI ib mpt) -> kgood (ck_task x) /\ cksound x).
    { intros x Hx. unfold pzgbtrf in Hx. rewrite (gd_mt _ _ _ _ _ _ HA), (gd_nt _ _ _ _ _ _ HA) in Hx. fold T in Hx.
      apply in_flat_map in Hx. destruct Hx as (k & Hk & Hx). apply in_zrange in Hk. rewrite Z.min_id in Hk.
      destruct Hx as [<-|Hx]; [apply panel_kgood; assumption|]. apply in_app_iff in Hx. destruct Hx as [Hx|[<-|[]]].
      - apply in_map_iff in Hx. destruct Hx as (c & <- & Hc). apply in_zrange in Hc. split; [|apply sure_sound].
        apply update_kgood; fold T; lia.
      - split; [apply shift_kgood; assumption|apply sure_sound]. }
    split; apply Forall_forall.
    - intros t Ht. apply in_map_iff in Ht. destruct Ht as (x & <- & Hx). apply H. assumption.
    - intros x Hx. apply H. assumption.
  Qed.
End Tasks.
