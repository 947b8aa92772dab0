(* All updates of one step, and of all steps. *)
From Coq Require Import ZArith List Bool Lia.
From Verif Require Import Base NumModel NumProofs TaskModel TaskSpec TaskProofs DescModel DescSpec DescProofs MatModel MatSpec MatProofs RegionProofs
  LayoutModel LayoutProofs LayoutProofs2 DriverModel OpProofs QrModel QrSpec QrAlgProofs QrStepProofs QrKerProofs QrKerProofs2 QrMulProofs QrLiftProofs QrTaskProofs QrEffProofs.
Import ListNotations.
Open Scope Z_scope.

Section Unm.
  Context {N : numbers}.
  Local Notation vec := (Z -> N).
  Variables nb ib m K : Z.
  Hypothesis Hnb : 0 < nb.
  Hypothesis Hib : 0 < ib.
  Hypothesis HK : K <= m.
  Variables (T : desc) (bT : Z).
  Hypothesis HT : tok nb ib m K T.
  Variables (A : desc) (bA : Z).
  Hypothesis HA : sq nb A (in_tiles A).
  Hypothesis EmA : d_m A = m.
  Hypothesis EnA : K <= d_n A.
  Variables (B : desc) (bB : Z).
  Hypothesis HB : sq nb B (in_tiles B).
  Hypothesis BT : bB <> bT.

  Local Notation good M tau o := (s_good N nb m K ib (el M bA A) (tel T bT M) tau o).
  Local Notation step trans M tau o := (s_f N nb m K trans (el M bA A) tau o).
  Local Notation ul_ := (utask_l nb ib m K T bT A bA B bB).
  Local Notation ur_ := (utask_r nb ib m K T bT A bA B bB).

  Lemma s_reads_tile : forall o i j, s_ok nb m K o -> s_reads nb m K o i j ->
    j / nb = fst o /\ 0 <= i < m /\ 0 <= j < K.
  Proof.
    intros [k q] i j (H1 & H2 & H3 & H4) (R1 & R2 & _). unfold s_k in R1. cbn [fst snd] in *.
    split; [|nia]. apply (dm_eq nb Hnb j k (j - k * nb)); lia.
  Qed.

  Lemma updates_l : forall trans o tau ns M, s_ok nb m K o -> d_m B = m ->
    bB <> bA \/ (B = A /\ bB = bA /\ ~ In (fst o) ns) ->
    NoDup ns -> (forall n, In n ns -> 0 <= n /\ n * nb < d_n B) -> good M tau o ->
    (forall i j, 0 <= i < m -> 0 <= j < d_n B ->
       el (krun (map (ul_ trans o) ns) M) bB B i j
       = if in_dec Z.eq_dec (j / nb) ns then step trans M tau o (colv N (el M bB B) j) i else el M bB B i j) /\
    (forall l, fst l <> bB -> krun (map (ul_ trans o) ns) M l = M l).
  Proof.
    intros trans o tau ns M HO EmB. revert M. induction ns as [|n ns IH]; intros M HX HN HR HG.
    - split; [|reflexivity]. intros i j Hi Hj. destruct (in_dec Z.eq_dec (j / nb) []) as [[]|]. reflexivity.
    - inversion HN as [|? ? N1 N2]; subst x l. cbn [map]. unfold krun. cbn [fold_left].
      set (M1 := k_fun (ul_ trans o n) M).
      destruct (HR n (or_introl eq_refl)) as [Hn1 Hn2].
      assert (E1 : forall i j, 0 <= i < m -> 0 <= j < d_n B -> el M1 bB B i j
        = if j / nb =? n then step trans M tau o (colv N (el M bB B) j) i else el M bB B i j)
        by (intros; apply utask_l_eff; auto).
      assert (F1 : forall l, fst l <> bB -> M1 l = M l) by (intros; apply utask_l_block; assumption).
      assert (DA : forall i j, s_reads nb m K o i j -> el M bA A i j = el M1 bA A i j).
      { intros i j R. destruct (s_reads_tile o i j HO R) as (R1 & R2 & R3). destruct HX as [HX|(-> & EB & HX)].
        - unfold el. symmetry. apply F1. cbn. auto.
        - rewrite <- EB. rewrite E1 by lia. rewrite R1. destruct (Z.eqb_spec (fst o) n) as [D|D]; [|rewrite EB; reflexivity].
          exfalso. apply HX. left. auto. }
      assert (G1 : good M1 tau o).
      { eapply s_good_cong; [assumption|assumption|assumption|assumption|exact DA| | |exact HG]; auto.
        intros a c Hc Ha. unfold tel, rd. symmetry. apply F1. cbn. auto. }
      destruct (IH M1) as [I1 I2]; auto.
      { destruct HX as [HX|(HX1 & HX2 & HX3)]; [left; assumption|right]. split; [assumption|]. split; [assumption|].
        intros R. apply HX3. right. assumption. }
      { intros; apply HR; right; assumption. }
      split.
      + intros i j Hi Hj. unfold krun in I1. rewrite I1 by assumption.
        destruct (in_dec Z.eq_dec (j / nb) ns) as [D|D]; destruct (in_dec Z.eq_dec (j / nb) (n :: ns)) as [D'|D'].
        * apply s_f_cong; auto.
          -- intros x y R. symmetry. apply DA. assumption.
          -- intros s Hs. unfold colv. rewrite E1 by assumption. destruct (Z.eqb_spec (j / nb) n); [|reflexivity].
             exfalso. apply N1. congruence.
        * exfalso. apply D'. right. assumption.
        * destruct D' as [D'|D']; [|contradiction]. rewrite E1 by assumption. rewrite <- D', Z.eqb_refl. reflexivity.
        * rewrite E1 by assumption. destruct (Z.eqb_spec (j / nb) n); [|reflexivity]. exfalso. apply D'. left. auto.
      + intros l Hl. unfold krun in I2. rewrite I2 by assumption. apply F1. assumption.
  Qed.

  Lemma updates_r : forall trans o tau ns M, s_ok nb m K o -> d_n B = m -> bB <> bA ->
    NoDup ns -> (forall n, In n ns -> 0 <= n /\ n * nb < d_m B) -> good M tau o ->
    (forall i j, 0 <= i < d_m B -> 0 <= j < m ->
       el (krun (map (ur_ trans o) ns) M) bB B i j
       = if in_dec Z.eq_dec (i / nb) ns then nconj (step (flip trans) M tau o (fun s => nconj (el M bB B i s)) j)
         else el M bB B i j) /\
    (forall l, fst l <> bB -> krun (map (ur_ trans o) ns) M l = M l).
  Proof.
    intros trans o tau ns M HO EnB HX. revert M. induction ns as [|n ns IH]; intros M HN HR HG.
    - split; [|reflexivity]. intros i j Hi Hj. destruct (in_dec Z.eq_dec (i / nb) []) as [[]|]. reflexivity.
    - inversion HN as [|? ? N1 N2]; subst x l. cbn [map]. unfold krun. cbn [fold_left].
      set (M1 := k_fun (ur_ trans o n) M).
      destruct (HR n (or_introl eq_refl)) as [Hn1 Hn2].
      assert (E1 : forall i j, 0 <= i < d_m B -> 0 <= j < m -> el M1 bB B i j
        = if i / nb =? n then nconj (step (flip trans) M tau o (fun s => nconj (el M bB B i s)) j) else el M bB B i j)
        by (intros; apply utask_r_eff; auto).
      assert (F1 : forall l, fst l <> bB -> M1 l = M l) by (intros; apply utask_r_block; assumption).
      assert (DA : forall i j, s_reads nb m K o i j -> el M bA A i j = el M1 bA A i j).
      { intros i j R. unfold el. symmetry. apply F1. cbn. auto. }
      assert (G1 : good M1 tau o).
      { eapply s_good_cong; [assumption|assumption|assumption|assumption|exact DA| | |exact HG]; auto.
        intros a c Hc Ha. unfold tel, rd. symmetry. apply F1. cbn. auto. }
      destruct (IH M1) as [I1 I2]; auto.
      { intros; apply HR; right; assumption. }
      split.
      + intros i j Hi Hj. unfold krun in I1. rewrite I1 by assumption.
        destruct (in_dec Z.eq_dec (i / nb) ns) as [D|D]; destruct (in_dec Z.eq_dec (i / nb) (n :: ns)) as [D'|D'].
        * f_equal. apply s_f_cong; auto.
          -- intros x y R. symmetry. apply DA. assumption.
          -- intros s Hs. rewrite E1 by assumption. destruct (Z.eqb_spec (i / nb) n); [|reflexivity].
             exfalso. apply N1. congruence.
        * exfalso. apply D'. right. assumption.
        * destruct D' as [D'|D']; [|contradiction]. rewrite E1 by assumption. rewrite <- D', Z.eqb_refl. reflexivity.
        * rewrite E1 by assumption. destruct (Z.eqb_spec (i / nb) n); [|reflexivity]. exfalso. apply D'. left. auto.
      + intros l Hl. unfold krun in I2. rewrite I2 by assumption. apply F1. assumption.
  Qed.

  (* ------------------------------------------------------------------ all steps *)

  Local Notation all trans M taus os := (s_all N nb m K trans (el M bA A) taus os).

  Lemma steps_l : forall trans taus os M, d_m B = m -> bB <> bA -> (forall o, In o os -> s_ok nb m K o) ->
    (forall o, In o os -> good M (taus o) o) ->
    (forall i j, 0 <= i < m -> 0 <= j < d_n B ->
       el (krun (flat_map (fun o => map (ul_ trans o) (zrange 0 (d_nt B))) os) M) bB B i j
       = all trans M taus os (colv N (el M bB B) j) i) /\
    (forall l, fst l <> bB -> krun (flat_map (fun o => map (ul_ trans o) (zrange 0 (d_nt B))) os) M l = M l).
  Proof.
    intros trans taus os M EmB BA. revert M. induction os as [|o os IH]; intros M HO HG.
    - split; reflexivity.
    - cbn [flat_map]. rewrite krun_app. set (M1 := krun (map (ul_ trans o) (zrange 0 (d_nt B))) M).
      pose proof (HO o (or_introl eq_refl)) as HO1. assert (OK : s_ok nb m K o) by assumption.
      destruct OK as (O1 & O2 & O3 & O4).
      assert (NR : forall n, In n (zrange 0 (d_nt B)) -> 0 <= n /\ n * nb < d_n B).
      { intros n Hn. apply in_zrange in Hn.
        assert (IN : in_tiles B (fst o) n).
        { split; [|lia]. assert (Z0 : in_tiles B (fst o * nb / nb) (0 / nb) \/ d_n B <= 0).
          { destruct (Z_lt_dec 0 (d_n B)); [left; apply tile_of; auto; nia|right; lia]. }
          destruct Z0 as [[Z0 _]|Z0]; [rewrite Z.div_mul in Z0 by lia; assumption|].
          exfalso. pose proof (td_shape _ _ (sq_t _ _ _ HB)) as SH. destruct (nview_spec B n SH ltac:(lia)) as [X1 X2].
          rewrite (sq_nb _ _ _ HB) in X1. nia. }
        destruct (sq_in_n nb B (in_tiles B) HB (fst o) n IN) as [Q1 Q2]. unfold tsz in Q2. lia. }
      destruct (updates_l trans o (taus o) (zrange 0 (d_nt B)) M HO1 EmB (or_introl BA)) as [U1 U2]; auto.
      { apply NoDup_zrange. }
      { apply HG. left. reflexivity. }
      fold M1 in U1, U2.
      assert (EA : forall i j, el M1 bA A i j = el M bA A i j) by (intros; unfold el; apply U2; cbn; auto).
      assert (ET : forall q k a c, tel T bT M1 q k a c = tel T bT M q k a c) by (intros; unfold tel, rd; apply U2; cbn; auto).
      destruct (IH M1) as [I1 I2].
      { intros; apply HO; right; assumption. }
      { intros o' Ho'. eapply s_good_cong; [assumption|assumption|assumption|apply HO; right; assumption| | | |apply HG; right; exact Ho'].
        - intros. symmetry. apply EA.
        - intros. symmetry. apply ET.
        - auto. }
      split.
      + intros i j Hi Hj. rewrite I1 by assumption. unfold s_all at 2. cbn [fold_left].
        apply s_all_cong; auto.
        * intros; apply HO; right; assumption.
        * intros s Hs. unfold colv at 1. rewrite U1 by assumption.
          destruct (in_dec Z.eq_dec (j / nb) (zrange 0 (d_nt B))) as [D|D]; [reflexivity|].
          exfalso. apply D. apply in_zrange. apply (tile_of nb B s j HB); lia.
      + intros l Hl. rewrite I2 by assumption. apply U2. assumption.
  Qed.

  Lemma steps_r : forall trans taus os M, d_n B = m -> bB <> bA -> (forall o, In o os -> s_ok nb m K o) ->
    (forall o, In o os -> good M (taus o) o) ->
    (forall i j, 0 <= i < d_m B -> 0 <= j < m ->
       el (krun (flat_map (fun o => map (ur_ trans o) (zrange 0 (d_mt B))) os) M) bB B i j
       = nconj (all (flip trans) M taus os (fun s => nconj (el M bB B i s)) j)) /\
    (forall l, fst l <> bB -> krun (flat_map (fun o => map (ur_ trans o) (zrange 0 (d_mt B))) os) M l = M l).
  Proof.
    intros trans taus os M EnB BA. revert M. induction os as [|o os IH]; intros M HO HG.
    - split; [|reflexivity]. intros i j Hi Hj. unfold s_all. cbn [flat_map fold_left]. rewrite nconj_conj. reflexivity.
    - cbn [flat_map]. rewrite krun_app. set (M1 := krun (map (ur_ trans o) (zrange 0 (d_mt B))) M).
      pose proof (HO o (or_introl eq_refl)) as HO1. assert (OK : s_ok nb m K o) by assumption.
      destruct OK as (O1 & O2 & O3 & O4).
      assert (NR : forall n, In n (zrange 0 (d_mt B)) -> 0 <= n /\ n * nb < d_m B).
      { intros n Hn. apply in_zrange in Hn.
        assert (IN : in_tiles B n (fst o)).
        { split; [lia|]. assert (Z0 : in_tiles B (0 / nb) (fst o * nb / nb) \/ d_m B <= 0).
          { destruct (Z_lt_dec 0 (d_m B)); [left; apply tile_of; auto; nia|right; lia]. }
          destruct Z0 as [[_ Z0]|Z0]; [rewrite Z.div_mul in Z0 by lia; assumption|].
          exfalso. pose proof (td_shape _ _ (sq_t _ _ _ HB)) as SH. destruct (mview_spec B n SH ltac:(lia)) as [X1 X2].
          rewrite (sq_mb _ _ _ HB) in X1. nia. }
        destruct (sq_in_m nb B (in_tiles B) HB n (fst o) IN) as [Q1 Q2]. unfold tsz in Q2. lia. }
      destruct (updates_r trans o (taus o) (zrange 0 (d_mt B)) M HO1 EnB BA) as [U1 U2]; auto.
      { apply NoDup_zrange. }
      { apply HG. left. reflexivity. }
      fold M1 in U1, U2.
      assert (EA : forall i j, el M1 bA A i j = el M bA A i j) by (intros; unfold el; apply U2; cbn; auto).
      assert (ET : forall q k a c, tel T bT M1 q k a c = tel T bT M q k a c) by (intros; unfold tel, rd; apply U2; cbn; auto).
      destruct (IH M1) as [I1 I2].
      { intros; apply HO; right; assumption. }
      { intros o' Ho'. eapply s_good_cong; [assumption|assumption|assumption|apply HO; right; assumption| | | |apply HG; right; exact Ho'].
        - intros. symmetry. apply EA.
        - intros. symmetry. apply ET.
        - auto. }
      split.
      + intros i j Hi Hj. rewrite I1 by assumption. f_equal. unfold s_all at 2. cbn [fold_left].
        apply s_all_cong; auto.
        * intros; apply HO; right; assumption.
        * intros s Hs. rewrite U1 by assumption.
          destruct (in_dec Z.eq_dec (i / nb) (zrange 0 (d_mt B))) as [D|D]; [apply nconj_conj|].
          exfalso. apply D. apply in_zrange. apply (tile_of nb B i s HB); lia.
      + intros l Hl. rewrite I2 by assumption. apply U2. assumption.
  Qed.
End Unm.
