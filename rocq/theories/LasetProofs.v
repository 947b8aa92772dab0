(* plasma_pzlaset sets exactly the selected elements. *)
From Coq Require Import ZArith List Bool Lia.
From Verif Require Import Base NumModel NumProofs TaskModel TaskSpec TaskProofs DescModel DescSpec
  DescDriverModel DescProofs DescProofs3 DescProofs4 MatModel MatSpec MatProofs RegionProofs
  LayoutModel LayoutProofs LayoutProofs2 DriverModel DriverSpec OpProofs SimProofs OperandProofs
  GemmProofs RankProofs LasetModel.
Import ListNotations.
Open Scope Z_scope.

Lemma las_dim : forall b di m t k, 0 < b -> 0 <= di -> 0 <= m -> di mod b = 0 ->
  t = (if m =? 0 then 0 else (m - 1) / b + 1) -> 0 <= k < t ->
  (if (k =? 0) && (k =? t - 1) then m
   else if k =? 0 then b - di mod b
   else if k =? t - 1 then (di + m + b - 1) mod b + 1 else b) = Z.min b (m - k * b).
Proof.
  intros b di m t k Hb Hd Hm Ha Ht Hk.
  destruct (tiles_bracket b m t Hb Hm Ht) as (T1 & T2 & T3).
  assert (Hm' : 0 < m) by lia. destruct (T3 Hm') as [T4 T5]. rewrite Ha. clear T1 T2 T3.
  destruct (div_mod_pos di b Hb) as [Ei _]. rewrite Ha in Ei.
  destruct (Z.eqb_spec k 0) as [E0|E0]; destruct (Z.eqb_spec k (t - 1)) as [E1|E1]; cbn [andb].
  - subst k. assert (t = 1) by lia. subst t. lia.
  - subst k. nia.
  - subst k. replace (Z.min b (m - (t - 1) * b)) with (m - (t - 1) * b) by lia.
    cut ((di + m + b - 1) mod b = m - (t - 1) * b - 1); [lia|].
    symmetry. apply Z.mod_unique with (q := di / b + t); [left; lia|]. lia.
  - assert ((k + 1) * b <= (t - 1) * b) by nia. lia.
Qed.

Section Laset.
  Context {V : Type}.
  Variables (nb : Z) (A : desc) (b uplo : Z) (alpha beta : V).
  Hypothesis HA : dn nb A.
  Hypothesis HT : d_type A <> PlasmaGeneralBand.
  Hypothesis Hu : uplo = PlasmaGeneral \/ uplo = PlasmaUpper \/ uplo = PlasmaLower.
  Let SH : shape_ok A := td_shape _ _ (sq_t nb A _ HA).

  (* is tile (i,j) touched *)
  Definition lsel (i j : Z) : bool :=
    (uplo =? PlasmaGeneral) || ((uplo =? PlasmaLower) && (j <=? i)) || ((uplo =? PlasmaUpper) && (i <=? j)).
  Definition lu (i j : Z) : Z := if i =? j then uplo else PlasmaGeneral.
  Definition ltask (i j : Z) : ktask V :=
    {| k_deps := [dep_out (tptr b A i j)];
       k_fun := mset (tptr b A i j) (tile_mmain A i) (tile_mview A i) (tile_nview A j) (uplo_sel (lu i j))
                  (fun r c => if r =? c then (if i =? j then beta else alpha) else alpha);
       k_reads := fun _ => False;
       k_writes := reg (tptr b A i j) (tile_mmain A i) (tile_mview A i) (tile_nview A j) (uplo_sel (lu i j)) |}.


  Lemma las_m_eq : forall i, 0 <= i < d_mt A -> las_m A i = tile_mview A i.
  Proof.
    intros i Hi. destruct (mview_spec A i SH Hi) as [E R]. rewrite E. clear E R.
    apply (las_dim (d_mb A) (d_i A) (d_m A) (d_mt A) i); auto; try apply SH.
    apply mt_aligned. assumption.
  Qed.
  Lemma las_n_eq : forall j, 0 <= j < d_nt A -> las_n A j = tile_nview A j.
  Proof.
    intros j Hj. destruct (nview_spec A j SH Hj) as [E R]. rewrite E. clear E R.
    apply (las_dim (d_nb A) (d_j A) (d_n A) (d_nt A) j); auto; try apply SH.
    apply nt_aligned. assumption.
  Qed.

  Lemma las_ld_eq : forall i, 0 <= i < d_mt A ->
    (if d_i A / d_mb A + i =? d_gm A / d_mb A then d_gm A - d_gm A / d_mb A * d_mb A else d_mb A) = tile_mmain A i.
  Proof.
    intros i Hi. unfold tile_mmain. assert (E := HT). apply Z.eqb_neq in E. rewrite E.
    pose proof (mt_aligned A SH) as Hmt.
    destruct (tiles_bracket (d_mb A) (d_m A) (d_mt A)) as (T1 & T2 & T3); auto; try apply SH.
    assert (Hm : 0 < d_m A) by (pose proof (go_m A SH); lia). destruct (T3 Hm) as [T4 T5].
    pose proof (go_mb A SH) as Hb. pose proof (go_imb A SH HT) as Him. pose proof (go_ia A SH) as Hia.
    destruct (div_mod_pos (d_gm A) (d_mb A) Hb) as [Eg Rg].
    destruct (div_mod_pos (d_i A) (d_mb A) Hb) as [Ei Ri]. rewrite Hia in Ei.
    assert (d_i A / d_mb A + i <= d_gm A / d_mb A) by nia.
    destruct (Z.eqb_spec (d_i A / d_mb A + i) (d_gm A / d_mb A)) as [E1|E1];
      destruct (Z.ltb_spec (d_i A / d_mb A + i) (d_gm A / d_mb A)) as [E2|E2]; lia.
  Qed.

  Lemma las_tile_eq : forall i j, in_tiles A i j ->
    las_tile uplo alpha beta b A i j = if lsel i j then [ltask i j] else [].
  Proof.
    intros i j [Hi Hj]. unfold las_tile. cbv zeta. fold (lsel i j). destruct (lsel i j); [|reflexivity].
    rewrite (las_ld_eq i Hi), (las_m_eq i Hi), (las_n_eq j Hj).
    rewrite (go_ia A SH), (go_ja A SH).
    replace (if i =? 0 then 0 else 0) with 0 by (destruct (i =? 0); reflexivity).
    replace (if j =? 0 then 0 else 0) with 0 by (destruct (j =? 0); reflexivity).
    unfold omp_zlaset, ltask, core_zlaset, tptr. cbn [fst snd].
    replace (tile_addr A i j + 0 + 0 * tile_mmain A i) with (tile_addr A i j) by lia. reflexivity.
  Qed.

  Lemma pzlaset_eq : pzlaset uplo alpha beta b A
    = flat_map (fun i => flat_map (fun j => if lsel i j then [ltask i j] else []) (zrange 0 (d_nt A))) (zrange 0 (d_mt A)).
  Proof.
    unfold pzlaset. apply flat_map_ext_in. intros i Hi. apply in_zrange in Hi.
    apply flat_map_ext_in. intros j Hj. apply in_zrange in Hj. apply las_tile_eq. split; assumption.
  Qed.

  Lemma las_forall : forall (P : ktask V -> Prop), (forall i j, in_tiles A i j -> P (ltask i j)) ->
    Forall P (pzlaset uplo alpha beta b A).
  Proof.
    intros P H. rewrite pzlaset_eq. apply Forall_flat_map_intro. intros i Hi. apply in_zrange in Hi.
    apply Forall_flat_map_intro. intros j Hj. apply in_zrange in Hj.
    destruct (lsel i j); [|constructor]. constructor; [|constructor]. apply H. split; assumption.
  Qed.

  Lemma pzlaset_kgood : Forall kgood (pzlaset uplo alpha beta b A).
  Proof.
    apply las_forall. intros i j HI. apply (mset_kgood V _ _ _ _ _ _ (fun _ r c => _)).
    - apply (td_ld A _ (sq_t nb A _ HA) i j HI).
    - apply finite_none.
    - reflexivity.
  Qed.

  Lemma pzlaset_kdecl : forall env, In (b, homeD A (in_tiles A)) env ->
    Forall (kdecl (home_env env)) (pzlaset uplo alpha beta b A).
  Proof.
    intros env HE. apply las_forall. intros i j HI. apply kdecl_intro; cbn; intros l HR; [destruct HR|].
    eexists. split; [left; reflexivity|]. split; [|discriminate]. cbn. eapply home_tile; eauto.
  Qed.

  Lemma sel_tiles : forall i j, uplo_sel uplo i j = lsel (i / nb) (j / nb) && uplo_sel (lu (i / nb) (j / nb)) (i mod nb) (j mod nb).
  Proof.
    intros i j. pose proof (sq_pos nb A _ HA) as Hb.
    destruct (div_mod_pos i nb Hb) as [Ei Ri]. destruct (div_mod_pos j nb Hb) as [Ej Rj].
    unfold lsel, lu. destruct (Z.eqb_spec (i / nb) (j / nb)) as [E|E];
      destruct Hu as [->|[->| ->]]; unfold uplo_sel; cbn; try reflexivity;
      apply eq_true_iff_eq; rewrite ?andb_true_iff, ?andb_true_r, ?Z.leb_le; nia.
  Qed.

  Definition las_val (i j : Z) (c : V) : V :=
    if uplo_sel uplo i j then (if i =? j then beta else alpha) else c.

  Lemma ltask_step : forall M0 i j ti tj M c, in_tiles A ti tj -> 0 <= i < d_m A -> 0 <= j < d_n A ->
    lsel ti tj = true ->
    at_elem M0 b A i j M c ->
    at_elem M0 b A i j (k_fun (ltask ti tj) M) (if (i / nb =? ti) && (j / nb =? tj) then las_val i j c else c).
  Proof.
    intros M0 i j ti tj M c HI Hi Hj HL [HF HE]. pose proof (sq_pos nb A _ HA) as Hb. split; cbn [k_fun ltask].
    - intros l Hl. rewrite mset_out; [auto|]. intros R. apply reg_block in R. cbn in R. congruence.
    - assert (HS : in_tiles A (i / nb) (j / nb)).
      { pose proof (in_tiles_pos A i j SH) as Q. rewrite (sq_mb nb A _ HA), (sq_nb nb A _ HA) in Q. apply Q; lia. }
      rewrite (sq_set nb A _ HA); auto. unfold las_val. rewrite sel_tiles.
      destruct (Z.eqb_spec (i / nb) ti) as [<-|]; cbn [andb]; [|assumption].
      destruct (Z.eqb_spec (j / nb) tj) as [<-|]; cbn [andb]; [|assumption].
      rewrite HL. cbn [andb]. destruct (uplo_sel _ _ _); [|assumption].
      destruct (div_mod_pos i nb Hb) as [Ei Ri]. destruct (div_mod_pos j nb Hb) as [Ej Rj].
      destruct (Z.eqb_spec i j) as [->|Hne].
      + rewrite !Z.eqb_refl. reflexivity.
      + destruct (Z.eqb_spec (i mod nb) (j mod nb)); destruct (Z.eqb_spec (i / nb) (j / nb)); try reflexivity. exfalso. lia.
  Qed.

  Lemma pzlaset_at : forall M0 i j, 0 <= i < d_m A -> 0 <= j < d_n A ->
    at_elem M0 b A i j (krun (pzlaset uplo alpha beta b A) M0) (las_val i j (el M0 b A i j)).
  Proof.
    intros M0 i j Hi Hj. rewrite pzlaset_eq.
    pose proof (in_tiles_pos A i j SH) as HS. rewrite (sq_mb nb A _ HA), (sq_nb nb A _ HA) in HS.
    specialize (HS Hi Hj). destruct HS as [Ti Tj].
    pose (f := fun ti tj (c : V) => if lsel ti tj then (if (i / nb =? ti) && (j / nb =? tj) then las_val i j c else c) else c).
    assert (S : sims (at_elem M0 b A i j)
      (flat_map (fun i => flat_map (fun j => if lsel i j then [ltask i j] else []) (zrange 0 (d_nt A))) (zrange 0 (d_mt A)))
      (fun c => fold_left (fun c ti => fold_left (fun c tj => f ti tj c) (zrange 0 (d_nt A)) c) (zrange 0 (d_mt A)) c)).
    { apply (sims_flat_map _ _ _ _ (fun ti c => fold_left (fun c tj => f ti tj c) (zrange 0 (d_nt A)) c)).
      intros ti Hti. apply in_zrange in Hti. apply (sims_flat_map _ _ _ _ (fun tj c => f ti tj c)).
      intros tj Htj. apply in_zrange in Htj. unfold f. destruct (lsel ti tj) eqn:EL; [|apply sims_nil].
      apply sims_one. intros M c HR. apply ltask_step; auto. split; assumption. }
    specialize (S M0 (el M0 b A i j)). cbv beta in S.
    rewrite (fold_left_only _ _ _ _ (i / nb)) in S; [|apply NoDup_zrange|apply in_zrange; assumption|].
    2:{ intros ti c Hti Hne. apply fold_left_id. intros tj c' Htj. unfold f.
        replace (i / nb =? ti) with false by (symmetry; apply Z.eqb_neq; congruence). destruct (lsel ti tj); reflexivity. }
    rewrite (fold_left_only _ _ _ _ (j / nb)) in S; [|apply NoDup_zrange|apply in_zrange; assumption|].
    2:{ intros tj c Htj Hne. unfold f.
        replace (j / nb =? tj) with false by (symmetry; apply Z.eqb_neq; congruence).
        rewrite andb_false_r. destruct (lsel (i / nb) tj); reflexivity. }
    unfold f in S. rewrite !Z.eqb_refl in S. cbn [andb] in S.
    replace (las_val i j (el M0 b A i j)) with (if lsel (i / nb) (j / nb) then las_val i j (el M0 b A i j) else el M0 b A i j).
    - apply S. split; reflexivity.
    - destruct (lsel (i / nb) (j / nb)) eqn:EL; [reflexivity|]. unfold las_val. rewrite sel_tiles, EL. reflexivity.
  Qed.
End Laset.
