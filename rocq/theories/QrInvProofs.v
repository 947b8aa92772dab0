(* All steps of the tile QR factorization. *)
From Coq Require Import ZArith List Bool Lia.
From Verif Require Import Base NumModel NumProofs TaskModel TaskSpec TaskProofs DescModel DescSpec DescProofs MatModel MatSpec MatProofs RegionProofs
  LayoutModel LayoutProofs LayoutProofs2 DriverModel OpProofs QrModel QrSpec QrAlgProofs QrStepProofs QrKerProofs QrKerProofs2 QrMulProofs QrLiftProofs QrTaskProofs QrEffProofs
  QrUnmProofs QrFacProofs.
Import ListNotations.
Open Scope Z_scope.

Section Inv.
  Context {N : numbers}.
  Local Notation vec := (Z -> N).
  Variable lg : N -> list N -> N * N * list N.
  Hypothesis LG : larfg_ok lg.
  Variables nb ib m n : Z.
  Local Notation K := (Z.min m n).
  Hypothesis Hnb : 0 < nb.
  Hypothesis Hib : 0 < ib.
  Variables (T : desc) (bT : Z).
  Hypothesis HT : tok nb ib m K T.
  Variables (A : desc) (bA : Z).
  Hypothesis HA : sq nb A (in_tiles A).
  Hypothesis EmA : d_m A = m.
  Hypothesis EnA : d_n A = n.
  Hypothesis BT : bA <> bT.
  Variable A0 : Z -> Z -> N.

  Local Notation good M tau o := (s_good N nb m K ib (el M bA A) (tel T bT M) tau o).
  Local Notation Ok o := (s_ok nb m K o).
  Local Notation Cj := PlasmaConjTrans.

  Definition stepts (o : Z * Z) : list (ktask N) :=
    ftask lg nb ib m n T bT A bA o :: map (utask_l nb ib m K T bT A bA A bA Cj o) (zrange (fst o + 1) (d_nt A)).

  Definition Inv (os : list (Z * Z)) (k q : Z) (M : mem N) (taus : Z * Z -> vec) : Prop :=
    (forall o, In o os -> Ok o /\ (fst o < k \/ (fst o = k /\ snd o < q)) /\ good M (taus o) o) /\
    (forall i j, 0 <= i < m -> 0 <= j < n ->
       Rv nb k q (el M bA A) i j = s_all N nb m K Cj (el M bA A) taus os (colv N A0 j) i).

  Lemma s_f_zero : forall El tau o x, Ok o ->
    (forall c, 0 <= c < s_k nb K o -> unit_cond N (s_p1 nb m K o + s_p2 nb m o) (tau c) (colv N (s_V N nb K El o) c)) ->
    (forall i, fst o * nb <= i < m -> x i = n0) ->
    same N m (s_f N nb m K Cj El tau o x) x.
  Proof.
    intros El tau o x HO HU HX i Hi.
    pose proof (s_bounds nb m K Hnb ltac:(lia) o HO) as (B1 & B2 & B3 & B4 & B5 & B6).
    assert (SA : s_a nb o = fst o * nb) by reflexivity.
    assert (Z0 : same N (s_p1 nb m K o + s_p2 nb m o)
       (hF N Cj (s_p1 nb m K o + s_p2 nb m o) (s_V N nb K El o) tau 0 (s_k nb K o) (gath N (s_a nb o) (s_p1 nb m K o) (s_b nb m o) x))
       (fun _ => NumModel.n0 : N)).
    { unfold hF. change (Cj =? PlasmaNoTrans) with false. cbv iota.
      eapply uop_zero; [apply uop_sym, h_uop; intros c Hc; apply HU; lia|].
      intros r Hr. unfold gath. destruct (Z.ltb_spec r (s_p1 nb m K o)); apply HX; lia. }
    unfold s_f, lift.
    destruct (Z_le_dec (s_a nb o) i), (Z_lt_dec i (s_a nb o + s_p1 nb m K o)).
    - replace i with (s_a nb o + (i - s_a nb o)) at 1 by lia. rewrite put_1 by lia. rewrite Z0 by lia. symmetry. apply HX. lia.
    - destruct (Z_le_dec (s_b nb m o) i), (Z_lt_dec i (s_b nb m o + s_p2 nb m o)); try (rewrite put_0 by lia; reflexivity).
      replace i with (s_b nb m o + (i - s_b nb m o)) at 1 by lia. rewrite put_2 by lia. rewrite Z0 by lia. symmetry. apply HX. lia.
    - rewrite put_0 by lia. reflexivity.
    - rewrite put_0 by lia. reflexivity.
  Qed.

  Lemma step_inv : forall os k q M taus, Ok (k, q) -> Inv os k q M taus ->
    exists taus', Inv (os ++ [(k, q)]) k (q + 1) (krun (stepts (k, q)) M) taus' /\
      forall l, fst l <> bA -> fst l <> bT -> krun (stepts (k, q)) M l = M l.
  Proof.
    intros os k q M taus HO (V1 & V2).
    assert (HO' := HO). destruct HO' as (O1 & O2 & O3 & O4). cbn [fst snd] in O1, O2, O3, O4.
    unfold stepts, krun. cbn [fold_left fst]. fold (krun (map (utask_l nb ib m K T bT A bA A bA Cj (k, q)) (zrange (k + 1) (d_nt A)))
      (k_fun (ftask lg nb ib m n T bT A bA (k, q)) M)).
    destruct (ftask_eff lg LG nb ib m n Hnb Hib T bT HT A bA HA EmA EnA BT k q M HO) as (tau & F1 & F2 & F3 & F4 & F5).
    set (M1 := k_fun (ftask lg nb ib m n T bT A bA (k, q)) M) in *.
    assert (NR : forall n', In n' (zrange (k + 1) (d_nt A)) -> 0 <= n' /\ n' * nb < d_n A).
    { intros n' Hn'. apply in_zrange in Hn'.
      assert (IN : in_tiles A k n').
      { assert (X : in_tiles A (k * nb / nb) (0 / nb)) by (apply tile_of; auto; nia).
        rewrite Z.div_mul in X by lia. destruct X as [X _]. split; [assumption|lia]. }
      destruct (sq_in_n nb A (in_tiles A) HA k n' IN) as [Q1 Q2]. unfold tsz in Q2. lia. }
    destruct (updates_l nb ib m K Hnb Hib ltac:(lia) T bT HT A bA HA EmA ltac:(lia) A bA HA BT Cj (k, q) tau (zrange (k + 1) (d_nt A)) M1 HO EmA)
      as [U1 U2].
    { right. split; [reflexivity|]. split; [reflexivity|]. cbn [fst]. rewrite in_zrange. lia. }
    { apply NoDup_zrange. } { exact NR. } { exact F1. }
    set (M2 := krun (map (utask_l nb ib m K T bT A bA A bA Cj (k, q)) (zrange (k + 1) (d_nt A))) M1) in *.
    assert (U1' : forall i j, 0 <= i < m -> 0 <= j < n -> j / nb <= k -> el M2 bA A i j = el M1 bA A i j).
    { intros i j Hi Hj L. rewrite U1 by lia. destruct (in_dec Z.eq_dec (j / nb) (zrange (k + 1) (d_nt A))) as [D|D]; [|reflexivity].
      apply in_zrange in D. lia. }
    assert (U1'' : forall i j, 0 <= i < m -> 0 <= j < n -> k < j / nb -> el M2 bA A i j
      = s_f N nb m K Cj (el M1 bA A) tau (k, q) (colv N (el M1 bA A) j) i).
    { intros i j Hi Hj L. rewrite U1 by lia. destruct (in_dec Z.eq_dec (j / nb) (zrange (k + 1) (d_nt A))) as [D|D]; [reflexivity|].
      exfalso. apply D. apply in_zrange. assert (X : in_tiles A (i / nb) (j / nb)) by (apply tile_of; auto; lia). destruct X. lia. }
    assert (ET : forall q' k' a c, tel T bT M2 q' k' a c = tel T bT M1 q' k' a c).
    { intros. unfold tel, rd. apply U2. cbn. auto. }
    assert (RO : forall i j, s_reads nb m K (k, q) i j -> el M1 bA A i j = el M2 bA A i j).
    { intros i j R. destruct (s_reads_tile nb m K Hnb ltac:(lia) (k, q) i j HO R) as (R1 & R2 & R3). cbn [fst] in R1. symmetry. apply U1'; lia. }
    assert (RP : forall o, In o os -> forall i j, s_reads nb m K o i j -> el M bA A i j = el M2 bA A i j).
    { intros o Ho i j R. destruct (V1 o Ho) as (HOo & LT & _). destruct (s_reads_tile nb m K Hnb ltac:(lia) o i j HOo R) as (R1 & R2 & R3).
      rewrite U1' by lia. symmetry. apply F3; try lia.
      destruct R as (_ & R4 & R5). destruct LT as [LT|[LT1 LT2]]; [left; lia|right].
      assert (EI : i / nb = snd o) by (apply (dm_eq nb Hnb i (snd o) (i - snd o * nb)); unfold tsz in R4; lia).
      split; [lia|]. intros [X1 X2]. specialize (R5 ltac:(lia)). lia. }
    set (taus' := fun o => if (fst o =? k) && (snd o =? q) then tau else taus o).
    assert (T1 : taus' (k, q) = tau) by (unfold taus'; cbn [fst snd]; rewrite !Z.eqb_refl; reflexivity).
    assert (T2 : forall o, In o os -> taus' o = taus o).
    { intros o Ho. destruct (V1 o Ho) as (_ & LT & _). unfold taus'.
      destruct (Z.eqb_spec (fst o) k), (Z.eqb_spec (snd o) q); cbn [andb]; try reflexivity. lia. }
    exists taus'. split; [split|].
    - intros o Ho. apply in_app_or in Ho. destruct Ho as [Ho|[<-|[]]].
      + destruct (V1 o Ho) as (HOo & LT & G). split; [assumption|]. split; [lia|].
        assert (HIn : in_tiles T (snd o) (fst o)).
        { destruct o as [k' q']. apply (tk_in _ _ _ _ _ HT). assumption. }
        assert (K1 : s_k nb K o <= nb) by (unfold s_k; unfold tsz; lia).
        eapply (s_good_cong N nb m K Hnb ltac:(lia)); [assumption|assumption|apply RP; assumption| | |exact G].
        * intros a c Hc Ha. rewrite ET. symmetry. pose proof (Z.mod_pos_bound c ib Hib). apply F4; try lia.
          -- assumption.
          -- intros X. inversion X. lia.
        * intros c Hc. rewrite T2 by assumption. reflexivity.
      + split; [assumption|]. split; [cbn [fst snd]; lia|]. rewrite T1.
        eapply (s_good_cong N nb m K Hnb ltac:(lia)); [assumption|assumption|exact RO| | |exact F1]; auto.
    - intros i j Hi Hj. unfold s_all. rewrite fold_left_app. cbn [fold_left]. rewrite T1.
      assert (S1 : same N m (fold_left (fun x o => s_f N nb m K Cj (el M2 bA A) (taus' o) o x) os (colv N A0 j))
        (colv N (Rv nb k q (el M bA A)) j)).
      { intros s Hs. transitivity (s_all N nb m K Cj (el M bA A) taus os (colv N A0 j) s); [|symmetry; apply V2; assumption].
        symmetry. apply (s_all_cong N nb m K Hnb ltac:(lia)); try assumption.
        - intros o Ho. apply (V1 o Ho).
        - intros o Ho c Hc. rewrite T2 by assumption. reflexivity.
        - intros r Hr. reflexivity. }
      transitivity (s_f N nb m K Cj (el M1 bA A) tau (k, q) (colv N (Rv nb k q (el M bA A)) j) i).
      2:{ symmetry. apply (s_f_cong N nb m K Hnb ltac:(lia)); try assumption; auto. intros x y R. symmetry. apply RO. assumption. }
      destruct (Z.lt_trichotomy (j / nb) k) as [L|[L|L]].
      + rewrite (s_f_zero (el M1 bA A) tau (k, q)); [|assumption|apply (proj1 F1)| |assumption].
        * unfold colv, Rv. destruct (Z.ltb_spec (j / nb) k); [|lia]. cbn [orb]. rewrite !andb_true_r.
          destruct (Z.ltb_spec j i); [reflexivity|]. rewrite U1' by lia. apply F3; lia.
        * cbn [fst]. intros i' Hi'. unfold colv, Rv. destruct (Z.ltb_spec (j / nb) k); [|lia]. cbn [orb]. rewrite !andb_true_r.
          destruct (Z.ltb_spec j i'); [reflexivity|]. destruct (dm nb Hnb j ltac:(lia)) as (J1 & J2 & J3). nia.
      + rewrite <- F2 by assumption. unfold Rv. rewrite U1' by lia. reflexivity.
      + unfold Rv at 1. destruct (Z.ltb_spec (j / nb) k); [lia|]. destruct (Z.eqb_spec (j / nb) k); [lia|]. cbn [orb andb]. rewrite andb_false_r.
        rewrite U1'' by assumption. apply (s_f_cong N nb m K Hnb ltac:(lia)); try assumption; auto.
        intros s Hs. unfold colv, Rv. destruct (Z.ltb_spec (j / nb) k); [lia|]. destruct (Z.eqb_spec (j / nb) k); [lia|]. cbn [orb andb]. rewrite andb_false_r.
        apply F3; try assumption. left. lia.
    - intros l H1 H2. rewrite U2 by assumption. apply F5; assumption.
  Qed.

  Lemma col_inv : forall c os k q M taus, (forall q', q <= q' < q + Z.of_nat c -> Ok (k, q')) -> Inv os k q M taus ->
    let ts := flat_map stepts (map (pair k) (zrange q (q + Z.of_nat c))) in
    exists taus', Inv (os ++ map (pair k) (zrange q (q + Z.of_nat c))) k (q + Z.of_nat c) (krun ts M) taus' /\
      forall l, fst l <> bA -> fst l <> bT -> krun ts M l = M l.
  Proof.
    induction c as [|c IH]; intros os k q M taus HO HI; cbv zeta.
    - rewrite Z.add_0_r, zrange_nil by lia. cbn [map flat_map]. rewrite app_nil_r. exists taus. split; [assumption|reflexivity].
    - rewrite (zrange_cons q) by lia. cbn [map flat_map]. rewrite krun_app.
      destruct (step_inv os k q M taus (HO q ltac:(lia)) HI) as (taus1 & S1 & S2).
      destruct (IH _ k (q + 1) _ taus1 ltac:(intros; apply HO; lia) S1) as (taus2 & S3 & S4). cbv zeta in S3, S4.
      replace (q + 1 + Z.of_nat c) with (q + Z.of_nat (S c)) in * by lia.
      exists taus2. split.
      + rewrite <- app_assoc in S3. exact S3.
      + intros l H1 H2. rewrite S4 by assumption. apply S2; assumption.
  Qed.

  Definition olist (mt k0 k1 : Z) : list (Z * Z) := flat_map (fun k => map (pair k) (zrange k mt)) (zrange k0 k1).

  Lemma flat_map_flat_map : forall (X Y W : Type) (f : Y -> list W) (g : X -> list Y) l,
    flat_map f (flat_map g l) = flat_map (fun x => flat_map f (g x)) l.
  Proof. intros X Y W f g l. induction l; cbn [flat_map]; [reflexivity|]. rewrite flat_map_app, IHl. reflexivity. Qed.

  Lemma Inv_next : forall os k M taus, 0 <= k < d_mt A -> Inv os k (d_mt A) M taus -> Inv os (k + 1) (k + 1) M taus.
  Proof.
    intros os k M taus Hk (V1 & V2). split.
    - intros o Ho. destruct (V1 o Ho) as (H1 & H2 & H3). split; [assumption|]. split; [lia|assumption].
    - intros i j Hi Hj. rewrite <- V2 by assumption. unfold Rv.
      assert (X : in_tiles A (i / nb) (j / nb)) by (apply tile_of; auto; lia). destruct X as [X _].
      destruct (Z.ltb_spec j i); cbn [andb]; [|reflexivity].
      assert (j / nb <= i / nb) by (apply Z.div_le_mono; lia).
      destruct (Z.ltb_spec (j / nb) k), (Z.ltb_spec (j / nb) (k + 1)), (Z.eqb_spec (j / nb) k), (Z.eqb_spec (j / nb) (k + 1)), (Z.ltb_spec (i / nb) (k + 1)), (Z.ltb_spec (i / nb) (d_mt A)); cbn [orb andb]; try reflexivity; lia.
  Qed.

  Lemma all_inv : forall c os k M taus, 0 <= k -> (forall k' q', k <= k' < k + Z.of_nat c -> k' <= q' < d_mt A -> Ok (k', q')) ->
    k + Z.of_nat c <= d_mt A -> Inv os k k M taus ->
    let ts := flat_map stepts (olist (d_mt A) k (k + Z.of_nat c)) in
    exists taus', Inv (os ++ olist (d_mt A) k (k + Z.of_nat c)) (k + Z.of_nat c) (k + Z.of_nat c) (krun ts M) taus' /\
      forall l, fst l <> bA -> fst l <> bT -> krun ts M l = M l.
  Proof.
    unfold olist. induction c as [|c IH]; intros os k M taus Hk HO HM HI; cbv zeta.
    - rewrite Z.add_0_r, zrange_nil by lia. cbn [flat_map]. rewrite app_nil_r. exists taus. split; [assumption|reflexivity].
    - rewrite (zrange_cons k (k + Z.of_nat (S c))) by lia. cbn [flat_map]. rewrite flat_map_app, krun_app.
      pose proof (col_inv (Z.to_nat (d_mt A - k)) os k k M taus) as S1. cbv zeta in S1.
      replace (k + Z.of_nat (Z.to_nat (d_mt A - k))) with (d_mt A) in S1 by lia.
      destruct (S1 ltac:(intros; apply HO; lia) HI) as (taus1 & S2 & S3).
      apply Inv_next in S2; [|lia].
      destruct (IH _ (k + 1) _ taus1 ltac:(lia) ltac:(intros; apply HO; lia) ltac:(lia) S2) as (taus2 & S4 & S5). cbv zeta in S4, S5.
      replace (k + 1 + Z.of_nat c) with (k + Z.of_nat (S c)) in * by lia.
      exists taus2. split.
      + rewrite <- app_assoc in S4. exact S4.
      + intros l H1 H2. rewrite S5 by assumption. apply S3; assumption.
  Qed.

  Lemma A_ok : 0 < m -> 0 < n -> forall k q, 0 <= k < d_nt A -> k <= q < d_mt A -> Ok (k, q).
  Proof.
    intros Hm Hn k q Hk Hq.
    assert (IN : in_tiles A q k) by (split; lia).
    destruct (sq_in_n nb A (in_tiles A) HA q k IN) as [Q1 Q2]. destruct (sq_in_m nb A (in_tiles A) HA q k IN) as [Q3 Q4].
    unfold tsz in Q2, Q4. repeat split; cbn [fst snd]; nia.
  Qed.

  (* the whole factorization in submission order *)
  Lemma steps_geqrf : forall M, 0 < m -> 0 < n -> (forall i j, 0 <= i < m -> 0 <= j < n -> el M bA A i j = A0 i j) ->
    let os := olist (d_mt A) 0 (Z.min (d_mt A) (d_nt A)) in
    let M' := krun (flat_map stepts os) M in
    (exists taus, (forall o, In o os -> Ok o /\ good M' (taus o) o) /\
      (forall i j, 0 <= i < m -> 0 <= j < n ->
        (if j <? i then n0 else el M' bA A i j) = s_all N nb m K Cj (el M' bA A) taus os (colv N A0 j) i)) /\
    forall l, fst l <> bA -> fst l <> bT -> M' l = M l.
  Proof.
    intros M Hm Hn HE os M'.
    pose proof (all_inv (Z.to_nat (Z.min (d_mt A) (d_nt A))) [] 0 M (fun _ _ => n0) ltac:(lia)) as S. cbv zeta in S.
    assert (PM : in_tiles A (0 / nb) (0 / nb)) by (apply tile_of; auto; lia). rewrite Z.div_0_l in PM by lia. destruct PM as [PM PN].
    replace (0 + Z.of_nat (Z.to_nat (Z.min (d_mt A) (d_nt A)))) with (Z.min (d_mt A) (d_nt A)) in S by lia.
    fold os in S. fold M' in S. destruct S as (taus & (S1 & S2) & S3).
    - intros k' q' H1 H2. apply A_ok; lia.
    - lia.
    - split; [intros o []|]. intros i j Hi Hj. cbn [s_all]. unfold s_all. cbn [fold_left]. unfold colv, Rv. rewrite HE by assumption.
      destruct (Z.ltb_spec j i); cbn [andb]; [|reflexivity].
      assert (0 <= j / nb) by (apply Z.div_pos; lia). assert (0 <= i / nb) by (apply Z.div_pos; lia).
      destruct (Z.ltb_spec (j / nb) 0); [lia|]. destruct (Z.ltb_spec (i / nb) 0); [lia|]. cbn [orb]. rewrite andb_false_r. reflexivity.
    - split; [|exact S3]. exists taus. cbn [app] in S1, S2. split.
      + intros o Ho. destruct (S1 o Ho) as (H1 & _ & H2). split; assumption.
      + intros i j Hi Hj. rewrite <- S2 by assumption. unfold Rv.
        assert (X : in_tiles A (i / nb) (j / nb)) by (apply tile_of; auto; lia). destruct X as [X1 X2].
        destruct (Z.ltb_spec j i); cbn [andb]; [|reflexivity].
        assert (j / nb <= i / nb) by (apply Z.div_le_mono; lia).
        destruct (Z.ltb_spec (j / nb) (Z.min (d_mt A) (d_nt A))); [reflexivity|lia].
  Qed.
End Inv.
