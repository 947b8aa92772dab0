(* Views of a created matrix: the leading rows and columns, and the trailing rows. *)
From Coq Require Import ZArith List Bool Lia.
From Verif Require Import Base NumModel NumProofs TaskModel TaskSpec TaskProofs DescModel DescSpec
  DescDriverModel DescProofs DescProofs3 DescProofs4 MatModel MatSpec MatProofs RegionProofs
  LayoutModel LayoutProofs LayoutProofs2 DriverModel DriverSpec OpProofs SimProofs OperandProofs
  GemmProofs RankProofs LasetModel LasetProofs LsModel.
Import ListNotations.
Open Scope Z_scope.

Lemma ge_create_gen : forall nb m n A size, ge_create nb m n = CrOk A size -> gen_ok A /\ d_gm A = m /\ d_gn A = n.
Proof.
  intros nb m n A size H. unfold ge_create in H.
  destruct (general_create_ok _ _ _ _ _ _ _ _ _ _ _ (Z.le_refl 0) (Z.le_refl 0) H) as (G & -> & _).
  split; [assumption|]. split; reflexivity.
Qed.

Lemma flat_map_one : forall X Y (f : X -> Y) l, flat_map (fun x => [f x]) l = map f l.
Proof. intros X Y f l. induction l as [|x l IH]; [reflexivity|]. cbn. rewrite <- IH. reflexivity. Qed.

(* a home that is part of another one can be dropped *)
Lemma home_env_sub : forall b (h hV : Z -> Z -> Prop) env l a, In (b, h) env -> (forall o a, hV o a -> h o a) ->
  home_env ((b, hV) :: env) l a <-> home_env env l a.
Proof.
  intros b h hV env l a HI HS. split.
  - intros (E & h' & [H|H] & X); (split; [assumption|]).
    + exists h. assert (E1 : fst l = b) by congruence. assert (E2 : h' = hV) by congruence. rewrite E1. rewrite E2 in X. auto.
    + exists h'. auto.
  - intros (E & h' & H & X). split; [assumption|]. exists h'. split; [right; assumption|assumption].
Qed.

Lemma kdecl_sub : forall V b (h hV : Z -> Z -> Prop) env (k : ktask V), In (b, h) env -> (forall o a, hV o a -> h o a) ->
  kdecl (home_env ((b, hV) :: env)) k -> kdecl (home_env env) k.
Proof.
  intros V b h hV env k HI HS [H1 H2]. split.
  - intros l HR (a & Ha). destruct (H1 l HR) as (d & D1 & D2).
    + exists a. apply (proj2 (home_env_sub b h hV env l a HI HS)). assumption.
    + exists d. split; [assumption|]. apply (proj1 (home_env_sub b h hV env l _ HI HS)). assumption.
  - intros l HW. destruct (H2 l HW) as (d & D1 & D2 & D3). exists d. split; [assumption|]. split; [|assumption].
    apply (proj1 (home_env_sub b h hV env l _ HI HS)). assumption.
Qed.

Lemma top_view : forall nb A r c, gen_ok A -> d_mb A = nb -> d_nb A = nb -> 0 <= r <= d_m A -> 0 <= c <= d_n A ->
  exists V, desc_view_opt A 0 0 r c = Some V /\ dn nb V /\ d_m V = r /\ d_n V = c /\
    (forall T (M : mem T) b i j, el M b V i j = el M b A i j) /\
    (forall o a, homeD V (in_tiles V) o a -> homeD A (in_tiles A) o a).
Proof.
  intros nb A r c G Emb Enb Hr Hc. pose proof (gk_shape A G) as SA. pose proof (go_im A G) as SIM.
  destruct (desc_view_opt A 0 0 r c) as [V|] eqn:E.
  2:{ exfalso. unfold desc_view_opt in E. destruct (Z.ltb_spec (d_gm A) (d_i A + 0 + r)); [destruct SA; lia|].
      destruct (Z.ltb_spec (d_gn A) (d_j A + 0 + c)); [destruct SA; lia|]. discriminate. }
  exists V. split; [reflexivity|].
  destruct (view_ok A 0 0 r c V G) as (GV & V1 & V2 & V3 & V4 & V5 & V6 & V7 & V8); try lia; try assumption; try apply Z.mod_0_l; try (destruct SA; lia).
  pose proof (gk_shape V GV) as SV.
  assert (DV : dn nb V) by (constructor; [apply dense_tiled; assumption|congruence|congruence]).
  assert (EV : tile_addr V = tile_addr A /\ tile_mmain V = tile_mmain A).
  { unfold desc_view_opt in E. destruct (d_gm A <? d_i A + 0 + r); [discriminate|]. destruct (d_gn A <? d_j A + 0 + c); [discriminate|].
    rewrite !Z.add_0_r in E. apply (f_equal (fun x => match x with Some y => y | None => A end)) in E. cbv beta iota in E. rewrite <- E.
    split; reflexivity. }
  destruct EV as [EV1 EV2].
  split; [assumption|]. split; [assumption|]. split; [assumption|]. split.
  - intros T M b i j. unfold el. rewrite V8, !Z.add_0_l. reflexivity.
  - intros o a (m & n & x & y & [HM HN] & Hx & Hy & Eo & Ea). rewrite EV1, EV2 in Eo. rewrite EV1 in Ea.
    destruct (mview_spec V m SV HM) as [MV MV']. destruct (nview_spec V n SV HN) as [NV NV'].
    assert (P0 : 0 < nb) by (rewrite <- Emb; apply SA).
    assert (IT : in_tiles A m n).
    { pose proof (in_tiles_pos A (m * nb) (n * nb) SA) as X. rewrite Emb, Enb, !Z.div_mul in X by lia.
      rewrite V3, V1, Emb in MV. rewrite V4, V2, Enb in NV. apply X; nia. }
    exists m, n, x, y. split; [assumption|]. destruct IT as [I1 I2].
    destruct (mview_spec A m SA I1) as [MA _]. destruct (nview_spec A n SA I2) as [NA _].
    split; [|split; [|split; assumption]].
    + rewrite MA. rewrite MV, V1, V3 in Hx. lia.
    + rewrite NA. rewrite NV, V2, V4 in Hy. lia.
Qed.

(* ------------------------------------------------------------------ setting the trailing rows *)

Lemma mset_down : forall V b o off ld m n P (f : Z -> Z -> V) v M l, 0 <= off -> 0 <= m -> off + m <= ld ->
  (forall i j, P i j = true) -> (forall i j, f i j = v) ->
  mset (b, o + off) ld m n P f M l = mset (b, o) ld (off + m) n (fun r _ => off <=? r) (fun _ _ => v) M l.
Proof.
  intros V b o off ld m n P f v M l Ho Hm Hl HP Hf. unfold mset. cbv zeta. cbn [fst snd]. rewrite HP, Hf, andb_true_r.
  destruct (fst l =? b); cbn [andb]; [|reflexivity]. destruct (Z.ltb_spec 0 ld) as [L|]; cbn [andb]; [|reflexivity].
  remember (snd l - o) as x eqn:Ex. replace (snd l - (o + off)) with (x - off) by lia. clear Ex.
  pose proof (Z.div_mod x ld ltac:(lia)) as DM. pose proof (Z.mod_pos_bound x ld L) as MB.
  destruct (Z.leb_spec off (x mod ld)) as [C|C].
  - assert (E1 : (x - off) / ld = x / ld) by (symmetry; apply Z.div_unique with (r := x mod ld - off); [left|]; lia).
    assert (E2 : (x - off) mod ld = x mod ld - off) by (symmetry; apply Z.mod_unique with (q := x / ld); [left|]; lia).
    rewrite E1, E2, andb_true_r. replace (x mod ld - off <? m) with (x mod ld <? off + m); [reflexivity|].
    destruct (Z.ltb_spec (x mod ld) (off + m)), (Z.ltb_spec (x mod ld - off) m); lia.
  - rewrite andb_false_r.
    assert (E2 : (x - off) mod ld = x mod ld - off + ld) by (symmetry; apply Z.mod_unique with (q := x / ld - 1); [left|]; lia).
    rewrite E2. destruct (Z.ltb_spec (x mod ld - off + ld) m); [lia|]. reflexivity.
Qed.

Section Down.
  Context {V : Type}.
  Variables (nb : Z) (B : desc) (bB : Z) (v : V) (r0 : Z).
  Hypothesis HB : dn nb B.
  Hypothesis G : gen_ok B.
  Hypothesis Ei : d_i B = 0.
  Hypothesis Ej : d_j B = 0.
  Hypothesis Hr : 0 <= r0 <= d_m B.
  Variable W : desc.
  Hypothesis HW : desc_view_opt B r0 0 (d_m B - r0) (d_n B) = Some W.

  Let SH : shape_ok B := gk_shape B G.
  Let Hb : 0 < nb.
  Proof. pose proof (sq_pos nb B _ HB). assumption. Qed.

  Definition dtask (i j : Z) : ktask V :=
    {| k_deps := [dep_out (tptr bB B (i + r0 / nb) j)];
       k_fun := mset (bB, tile_addr B (i + r0 / nb) j + (if i =? 0 then r0 mod nb else 0)) (tile_mmain B (i + r0 / nb)) (las_m W i) (tile_nview B j)
                  (uplo_sel (if i =? j then PlasmaGeneral else PlasmaGeneral))
                  (fun r c => if r =? c then (if i =? j then v else v) else v);
       k_reads := fun _ => False;
       k_writes := reg (bB, tile_addr B (i + r0 / nb) j + (if i =? 0 then r0 mod nb else 0)) (tile_mmain B (i + r0 / nb)) (las_m W i) (tile_nview B j)
                  (uplo_sel (if i =? j then PlasmaGeneral else PlasmaGeneral)) |}.

  Lemma W_fields : d_i W = r0 /\ d_j W = 0 /\ d_m W = d_m B - r0 /\ d_n W = d_n B /\ d_mb W = nb /\ d_nb W = nb /\
    d_gm W = d_gm B /\ d_gn W = d_gn B /\ d_nt W = d_nt B /\
    d_mt W = (if d_m B - r0 =? 0 then 0 else (d_m B - 1) / nb - r0 / nb + 1) /\
    forall i j, tile_addr W i j = tile_addr B (i + r0 / nb) j.
  Proof.
    unfold desc_view_opt in HW. destruct (d_gm B <? _); [discriminate|]. destruct (d_gn B <? _); [discriminate|].
    apply (f_equal (fun x => match x with Some y => y | None => B end)) in HW. cbv beta iota zeta in HW. rewrite <- HW.
    cbn [d_i d_j d_m d_n d_mb d_nb d_gm d_gn d_nt d_mt]. rewrite !Ei, !Ej, !Z.add_0_l.
    rewrite (sq_mb _ _ _ HB), (sq_nb _ _ _ HB). replace (r0 + (d_m B - r0) - 1) with (d_m B - 1) by lia.
    repeat match goal with |- _ /\ _ => split; [reflexivity|] end. split; [|split; [reflexivity|]].
    - rewrite (go_nt B SH), Ej, (sq_nb _ _ _ HB), !Z.add_0_l. reflexivity.
    - intros i j. unfold tile_addr, tile_addr_opt, tile_addr_general. cbn [d_type d_i d_j d_mb d_nb d_gm d_gn d_A21 d_A12 d_A22].
      rewrite (gk_type B G). cbv beta iota. change (PlasmaGeneral =? PlasmaGeneral) with true. cbv iota.
      rewrite Ei, Ej, !(sq_mb _ _ _ HB), !(sq_nb _ _ _ HB), !Z.div_0_l, !Z.add_0_r, ?Z.add_0_l by lia. reflexivity.
  Qed.

  Lemma W_mt : forall i, 0 <= i < d_mt W -> 0 <= i + r0 / nb < d_mt B /\
    (if i =? 0 then r0 mod nb else 0) + las_m W i = tile_mview B (i + r0 / nb) /\ 0 <= las_m W i.
  Proof.
    intros i Hi. destruct W_fields as (W1 & W2 & W3 & W4 & W5 & W6 & W7 & W8 & W9 & W10 & W11). rewrite W10 in Hi.
    destruct (Z.eqb_spec (d_m B - r0) 0) as [|NZ]; [lia|].
    pose proof (mt_aligned B SH) as Hmt. rewrite (sq_mb _ _ _ HB) in Hmt. destruct (Z.eqb_spec (d_m B) 0); [lia|].
    assert (R0 : 0 <= r0 / nb) by (apply Z.div_pos; lia).
    assert (IB : 0 <= i + r0 / nb < d_mt B) by lia. split; [assumption|].
    destruct (mview_spec B (i + r0 / nb) SH IB) as [EV _]. rewrite EV. clear EV. rewrite (sq_mb _ _ _ HB).
    unfold las_m. rewrite W10, W3, W1, W5. destruct (Z.eqb_spec (d_m B - r0) 0) as [|_]; [lia|].
    replace ((d_m B - 1) / nb - r0 / nb + 1 - 1) with ((d_m B - 1) / nb - r0 / nb) by lia.
    destruct (div_mod_pos r0 nb Hb) as [E0 M0]. destruct (div_mod_pos (d_m B - 1) nb Hb) as [E1 M1].
    assert (E2 : (r0 + (d_m B - r0) + nb - 1) mod nb = (d_m B - 1) mod nb).
    { replace (r0 + (d_m B - r0) + nb - 1) with (d_m B - 1 + 1 * nb) by lia. apply Z.mod_add. lia. }
    rewrite E2. clear E2.
    destruct (Z.eqb_spec i 0) as [->|NI]; cbn [andb].
    - destruct (Z.eqb_spec 0 ((d_m B - 1) / nb - r0 / nb)) as [L|L].
      + assert ((d_m B - 1) / nb = r0 / nb) by lia. rewrite Z.add_0_l. split; nia.
      + assert (r0 / nb + 1 <= (d_m B - 1) / nb) by lia. rewrite Z.add_0_l. split; nia.
    - destruct (Z.eqb_spec i ((d_m B - 1) / nb - r0 / nb)) as [L|L].
      + replace (i + r0 / nb) with ((d_m B - 1) / nb) by lia. split; nia.
      + assert (i + r0 / nb + 1 <= (d_m B - 1) / nb) by lia. split; nia.
  Qed.

  Lemma down_eq : pzlaset PlasmaGeneral v v bB W
    = flat_map (fun i => map (dtask i) (zrange 0 (d_nt B))) (zrange 0 (d_mt W)).
  Proof.
    destruct W_fields as (W1 & W2 & W3 & W4 & W5 & W6 & W7 & W8 & W9 & W10 & W11).
    unfold pzlaset. rewrite W9. apply flat_map_ext_in. intros i Hi. apply in_zrange in Hi.
    destruct (W_mt i Hi) as (I1 & I2 & I3).
    rewrite <- flat_map_one. apply flat_map_ext_in. intros j Hj. apply in_zrange in Hj.
    unfold las_tile. cbv zeta. change (PlasmaGeneral =? PlasmaGeneral) with true. cbn [orb]. cbv iota. f_equal.
    assert (E1 : las_n W j = tile_nview B j).
    { rewrite <- (las_n_eq nb B HB j Hj). unfold las_n. rewrite W9, W4, W6, W2, (sq_nb _ _ _ HB), Ej. reflexivity. }
    pose proof (las_ld_eq nb B HB ltac:(rewrite (gk_type B G); discriminate) (i + r0 / nb) I1) as E2.
    rewrite Ei, (sq_mb _ _ _ HB), Z.div_0_l, Z.add_0_l in E2 by lia.
    rewrite W1, W5, W7, (Z.add_comm (r0 / nb) i), E2, E1, W2, Z.mod_0_l by lia.
    unfold omp_zlaset, dtask, core_zlaset, tptr. cbn [fst snd]. rewrite W11.
    replace (if j =? 0 then 0 else 0) with 0 by (destruct (j =? 0); reflexivity). rewrite Z.mul_0_l, Z.add_0_r. reflexivity.
  Qed.

  Lemma down_forall : forall (P : ktask V -> Prop),
    (forall i j, 0 <= i < d_mt W -> in_tiles B (i + r0 / nb) j -> P (dtask i j)) ->
    Forall P (pzlaset PlasmaGeneral v v bB W).
  Proof.
    intros P H. rewrite down_eq. apply Forall_flat_map_intro. intros i Hi. apply in_zrange in Hi.
    destruct (W_mt i Hi) as (I1 & I2 & I3).
    apply Forall_forall. intros t Ht. apply in_map_iff in Ht. destruct Ht as (j & <- & Hj). apply in_zrange in Hj. apply H; [assumption|]. split; assumption.
  Qed.

  Lemma dtask_ld : forall i, 0 <= i < d_mt W -> tile_mview B (i + r0 / nb) <= tile_mmain B (i + r0 / nb).
  Proof. intros i Hi. destruct (W_mt i Hi) as (I1 & _). apply mmain_ge_mview; auto. rewrite (gk_type B G). discriminate. Qed.

  Lemma down_ok : forall env, In (bB, homeD B (in_tiles B)) env ->
    Forall (fun k => kgood k /\ kdecl (home_env env) k) (pzlaset PlasmaGeneral v v bB W).
  Proof.
    intros env HE. apply down_forall. intros i j Hi HI. destruct (W_mt i Hi) as (I1 & I2 & I3).
    assert (Ho : 0 <= (if i =? 0 then r0 mod nb else 0)) by (destruct (i =? 0); [apply Z.mod_pos_bound; apply Hb|lia]).
    pose proof (dtask_ld i Hi) as LD. split.
    - apply (mset_kgood V _ _ _ _ _ _ (fun _ r c => _)); [lia|apply finite_none|reflexivity].
    - apply kdecl_intro; cbn; intros l HR; [destruct HR|].
      eexists. split; [left; reflexivity|]. split; [|discriminate]. cbn [dep_addr dep_out].
      destruct HR as (r & c & Hr1 & Hc & _ & ->).
      split; [reflexivity|]. exists (homeD B (in_tiles B)). cbn [fst snd at_ tptr]. split; [assumption|].
      exists (i + r0 / nb), j, ((if i =? 0 then r0 mod nb else 0) + r), c. split; [assumption|]. repeat split; try lia.
  Qed.

  Lemma down_at : forall M,
    (forall i j, 0 <= i < d_m B -> 0 <= j < d_n B ->
      el (krun (pzlaset PlasmaGeneral v v bB W) M) bB B i j = if r0 <=? i then v else el M bB B i j) /\
    (forall l, fst l <> bB -> krun (pzlaset PlasmaGeneral v v bB W) M l = M l).
  Proof.
    intros M0.
    assert (ST : forall i j ti tj M c, 0 <= ti < d_mt W -> in_tiles B (ti + r0 / nb) tj -> 0 <= i < d_m B -> 0 <= j < d_n B ->
      at_elem M0 bB B i j M c ->
      at_elem M0 bB B i j (k_fun (dtask ti tj) M) (if (i / nb =? ti + r0 / nb) && (j / nb =? tj) then (if r0 <=? i then v else c) else c)).
    { intros i j ti tj M c Hti HI Hi Hj [HF HE]. destruct (W_mt ti Hti) as (I1 & I2 & I3). split; cbn [k_fun dtask].
      - intros l Hl. rewrite mset_out; [auto|]. intros R. apply reg_block in R. cbn in R. congruence.
      - assert (HS : in_tiles B (i / nb) (j / nb)).
        { pose proof (in_tiles_pos B i j SH) as X. rewrite (sq_mb nb B _ HB), (sq_nb nb B _ HB) in X. apply X; lia. }
        assert (Ho : 0 <= (if ti =? 0 then r0 mod nb else 0)) by (destruct (ti =? 0); [apply Z.mod_pos_bound; apply Hb|lia]).
        pose proof (dtask_ld ti Hti) as LD.
        unfold el. rewrite (mset_down V bB (tile_addr B (ti + r0 / nb) tj) (if ti =? 0 then r0 mod nb else 0) (tile_mmain B (ti + r0 / nb)) (las_m W ti) (tile_nview B tj)
          (uplo_sel (if ti =? tj then PlasmaGeneral else PlasmaGeneral)) _ v M (bB, elem_off B i j)); [|lia|lia|lia| |].
        2:{ intros x y. destruct (ti =? tj); reflexivity. }
        2:{ intros x y. destruct (x =? y); [destruct (ti =? tj)|]; reflexivity. }
        rewrite I2. pose proof (sq_set nb B _ HB bB M (ti + r0 / nb) tj (fun r _ => (if ti =? 0 then r0 mod nb else 0) <=? r) (fun _ _ => v) i j HI HS Hi Hj) as E.
        unfold el, tptr in E. rewrite E. clear E. unfold el in HE. rewrite HE.
        destruct (Z.eqb_spec (i / nb) (ti + r0 / nb)) as [E1|E1]; cbn [andb]; [|reflexivity].
        destruct (Z.eqb_spec (j / nb) tj) as [E2|E2]; cbn [andb]; [|reflexivity].
        replace ((if ti =? 0 then r0 mod nb else 0) <=? i mod nb) with (r0 <=? i); [reflexivity|].
        destruct (div_mod_pos r0 nb Hb) as [E0 M1]. destruct (div_mod_pos i nb Hb) as [E3 M3].
        destruct (Z.eqb_spec ti 0).
        + destruct (Z.leb_spec r0 i), (Z.leb_spec (r0 mod nb) (i mod nb)); try reflexivity; exfalso; nia.
        + destruct (Z.leb_spec r0 i), (Z.leb_spec 0 (i mod nb)); try reflexivity; exfalso; nia. }
    split.
    - intros i j Hi Hj. rewrite down_eq. destruct (div_mod_pos r0 nb Hb) as [E0 R0M]. destruct (div_mod_pos i nb Hb) as [E3 M3].
      pose proof (in_tiles_pos B i j SH) as HS. rewrite (sq_mb nb B _ HB), (sq_nb nb B _ HB) in HS.
      specialize (HS Hi Hj). destruct HS as [Ti Tj].
      pose (f := fun ti tj (c : V) => if (i / nb =? ti + r0 / nb) && (j / nb =? tj) then (if r0 <=? i then v else c) else c).
      assert (S : sims (at_elem M0 bB B i j)
        (flat_map (fun ti => map (dtask ti) (zrange 0 (d_nt B))) (zrange 0 (d_mt W)))
        (fun c => fold_left (fun c ti => fold_left (fun c tj => f ti tj c) (zrange 0 (d_nt B)) c) (zrange 0 (d_mt W)) c)).
      { apply (sims_flat_map _ _ _ _ (fun ti c => fold_left (fun c tj => f ti tj c) (zrange 0 (d_nt B)) c)).
        intros ti Hti. apply in_zrange in Hti. destruct (W_mt ti Hti) as (I1 & _). rewrite <- flat_map_one. apply (sims_flat_map _ _ _ _ (fun tj c => f ti tj c)).
        intros tj Htj. apply in_zrange in Htj. unfold f. 
        apply sims_one. intros M c HR. apply ST; auto. split; assumption. }
      specialize (S M0 (el M0 bB B i j) (conj (fun l _ => eq_refl) eq_refl)). cbv beta in S. destruct S as [_ S]. rewrite S. clear S.
      destruct W_fields as (_ & _ & _ & _ & _ & _ & _ & _ & _ & W10 & _).
      destruct (Z.leb_spec r0 i) as [C|C].
      + rewrite (fold_left_only _ _ _ _ (i / nb - r0 / nb)); [|apply NoDup_zrange| |].
        * rewrite (fold_left_only _ _ _ _ (j / nb)); [|apply NoDup_zrange|apply in_zrange; assumption|].
          -- unfold f. replace (i / nb - r0 / nb + r0 / nb) with (i / nb) by lia. rewrite !Z.eqb_refl. cbn [andb].
             destruct (Z.leb_spec r0 i); [reflexivity|lia].
          -- intros tj c Htj Hne. unfold f. replace (j / nb =? tj) with false by (symmetry; apply Z.eqb_neq; congruence). rewrite andb_false_r. reflexivity.
        * apply in_zrange. rewrite W10. destruct (Z.eqb_spec (d_m B - r0) 0); [lia|].
          assert (r0 / nb <= i / nb) by (apply Z.div_le_mono; lia). assert (i / nb <= (d_m B - 1) / nb) by (apply Z.div_le_mono; lia). lia.
        * intros ti c Hti Hne. apply fold_left_id. intros tj c' Htj. unfold f.
          replace (i / nb =? ti + r0 / nb) with false by (symmetry; apply Z.eqb_neq; lia). reflexivity.
      + apply fold_left_id. intros ti c Hti. apply fold_left_id. intros tj c' Htj. unfold f. destruct (_ && _); [|reflexivity].
        destruct (Z.leb_spec r0 i); [lia|reflexivity].
    - assert (FR : Forall (fun k : ktask V => forall M l, fst l <> bB -> k_fun k M l = M l) (pzlaset PlasmaGeneral v v bB W)).
      { apply down_forall. intros i j Hi HI M l Hl. cbn [k_fun dtask]. apply mset_out. intros R. apply reg_block in R. cbn in R. congruence. }
      revert FR. generalize (pzlaset PlasmaGeneral v v bB W) M0. induction l as [|k ks IH]; intros M FR l Hl; [reflexivity|].
      inversion_clear FR as [|? ? F1 F2]. unfold krun. cbn [fold_left]. unfold krun in IH. rewrite IH by assumption. apply F1. assumption.
  Qed.
End Down.
