(* The solves of plasma_omp_zgbtrs, one column of B at a time. *)
From Coq Require Import ZArith List Bool Lia Ring.
From Verif Require Import Base NumModel NumProofs FieldModel TaskModel TaskSpec TaskProofs DescModel DescSpec
  DescDriverModel DescProofs DescPackProofs DescProofs3 DescProofs4 MatModel MatSpec MatProofs RegionProofs
  LayoutModel LayoutProofs LayoutProofs2 DriverModel DriverSpec OpProofs SimProofs OperandProofs
  GemmModel GemmProofs GemmDriverProofs RankProofs RankDriverProofs LasetModel LasetProofs TriModel TriSpec
  TriVecProofs TriProofs TrmmProofs TrsmProofs BandModel BandSpec BandProofs BandLayoutProofs BandRegionProofs
  PbtrsModel PbtrsVecProofs SwpModel SwpSpec SwpProofs SwpDriverProofs TrsmDriverProofs NormSpec NormGbLayoutProofs
  TbsmProofs GbtrsModel GbtrsSpec GbtrsVecProofs GbtrsStepProofs GbtrsSwapProofs.
Import ListNotations.
Open Scope Z_scope.

Lemma map_flat_map' : forall X Y Z (f : Y -> Z) (g : X -> list Y) l,
  map f (flat_map g l) = flat_map (fun x => map f (g x)) l.
Proof. intros X Y Z f g l. induction l as [|x l IH]; cbn; [reflexivity|]. rewrite map_app, IH. reflexivity. Qed.

Section Solve.
  Context {F : fields}.
  Variables (nb n kl ku : Z) (A B : desc) (bA bB : Z) (ipiv : Z -> Z).
  Hypothesis HA : gd_ok A nb n n kl ku.
  Hypothesis G : gen_ok B.
  Hypothesis Bmb : d_mb B = nb.
  Hypothesis Bnb : d_nb B = nb.
  Hypothesis Bm : d_m B = n.
  Hypothesis HP : legal_pivots ipiv n.
  Let Hb : 0 < nb := gd_pos _ _ _ _ _ _ HA.
  Let Hkl := gd_kl0 _ _ _ _ _ _ HA.
  Let Hku := gd_ku0 _ _ _ _ _ _ HA.
  Let Hn : 0 <= n.
  Proof. lia. Qed.
  Let HB : dn nb B := mat_dn nb B G Bmb Bnb.
  Let kL := ntl nb kl.
  Let kU := ntl nb (ku + kl).
  Let nt := ntl nb n.
  Let nq := ntl nb (d_n B).

  Lemma ntl_pos : forall K, 0 <= K -> 0 <= ntl nb K /\ K <= ntl nb K * nb.
  Proof.
    intros K HK. unfold ntl. pose proof (Z.div_mod (K + nb - 1) nb ltac:(lia)) as E.
    pose proof (Z.mod_pos_bound (K + nb - 1) nb ltac:(lia)). split; [apply Z.div_pos; lia|nia].
  Qed.

  Lemma tbs_lower : tbs_ok A PlasmaLower nb n kL.
  Proof.
    constructor; try (apply HA); try assumption.
    - right. reflexivity.
    - apply ntl_pos. lia.
    - intros _. apply (gd_klt _ _ _ _ _ _ HA).
    - discriminate.
    - intros p k Hp Hk HK HS. apply (gd_in_tb A nb n n kl ku HA). cbn in HS.
      pose proof (ntl_pos (ku + kl) ltac:(lia)). fold kL. lia.
  Qed.
  Lemma tbs_upper : tbs_ok A PlasmaUpper nb n kU.
  Proof.
    constructor; try (apply HA); try assumption.
    - left. reflexivity.
    - apply ntl_pos. lia.
    - discriminate.
    - intros _. apply (gd_kut _ _ _ _ _ _ HA).
    - intros p k Hp Hk HK HS. apply (gd_in_tb A nb n n kl ku HA). cbn in HS.
      pose proof (ntl_pos kl ltac:(lia)). fold kU. lia.
  Qed.

  Definition lst (t p q : Z) : ktask F := bst A B bA bB PlasmaLower t PlasmaUnit p q.
  Definition lgt (t p k q : Z) : ktask F := bgt nb A B bA bB t p k q.
  Definition lsw (incx k q : Z) : ktask F := swt nb n A B bB ipiv incx k q.
  Definition lhi (p : Z) : Z := Z.min nt (p + kL + 1).

  Definition low_items : list (item F) :=
    flat_map (fun k => flat_map (fun q => [Alone (lsw 1 k q); Task (lst PlasmaNoTrans k q)]) (zrange 0 nq)
      ++ flat_map (fun m => map (fun q => Task (lgt PlasmaNoTrans m k q)) (zrange 0 nq)) (zrange (k + 1) (lhi k))) (zrange 0 nt).
  Definition lowt_items (t : Z) : list (item F) :=
    flat_map (fun s => flat_map (fun m => map (fun q => Task (lgt t (nt - 1 - s) m q)) (zrange 0 nq)) (zrange (nt - 1 - s + 1) (lhi (nt - 1 - s)))
      ++ flat_map (fun q => [Task (lst t (nt - 1 - s) q); Alone (lsw (-1) (nt - 1 - s) q)]) (zrange 0 nq)) (zrange 0 nt).

  Lemma gfull : forall k p, 0 <= k < p -> p < nt -> tsz nb n k = nb.
  Proof. intros k p Hk Hp. apply ntl_spec in Hp; auto; [|lia]. unfold tsz. nia. Qed.
  Lemma gmv : forall p, 0 <= p < nt -> tile_mview B p = tsz nb n p.
  Proof.
    intros p Hp. pose proof (gk_shape B G) as SH. assert (Hq : 0 <= p < d_mt B) by (rewrite (dn_mt nb B HB), Bm; assumption).
    destruct (mview_spec B p SH Hq) as [E1 E2]. rewrite E1, Bmb, Bm. reflexivity.
  Qed.
  Lemma gmin : forall k, 0 <= k < nt -> k * nb + tsz nb n k = Z.min ((k + 1) * nb) n.
  Proof. intros k Hk. unfold tsz. nia. Qed.

  Lemma low_eq : tbsm_lower PlasmaNoTrans PlasmaUnit n1 bA A bB B ipiv = low_items.
  Proof.
    assert (TF := gfull). assert (MV := gmv).
    assert (EB : d_mb B = nb) by assumption.
    assert (EM : d_mt B = nt) by (rewrite (dn_mt nb B HB), Bm; reflexivity).
    assert (EN : d_nt B = nq) by (apply (dn_nt nb B HB)).
    assert (EA : d_mt A = nt) by (apply (gd_mt _ _ _ _ _ _ HA)).
    assert (EL := gd_klt _ _ _ _ _ _ HA). fold kL in EL.
    assert (ENB : d_nb A = nb) by (apply (sq_nb nb A _ (gd_sq _ _ _ _ _ _ HA))).
    assert (An : d_n A = n) by (apply (gd_n _ _ _ _ _ _ HA)).
    unfold tbsm_lower, low_items. cbv zeta. rewrite EM, EN, EA, EB, EL, ENB.
    apply flat_map_ext_in. intros t Ht. apply in_zrange in Ht.
    assert (EIF : (if t =? 0 then n1 else n1) = (n1 : F)) by (destruct (t =? 0); reflexivity). rewrite EIF.
    apply f_equal2.
    - apply flat_map_ext_in. intros q Hq. unfold lsw, swt, lst, bst, stask. rewrite (MV t) by lia. rewrite gmin by lia.
      rewrite <- (MV t) by lia. reflexivity.
    - replace (Z.min (t + (1 + kL)) nt) with (lhi t) by (unfold lhi; lia).
      apply flat_map_ext_in. intros m Hm. apply in_zrange in Hm. apply map_ext_in. intros q Hq.
      unfold lgt, bgt, gtask, op_tile, op_ld. change (PlasmaNoTrans =? PlasmaNoTrans) with true. cbn. rewrite An.
      rewrite (TF t m) by (unfold lhi in Hm; lia). reflexivity.
  Qed.

  Lemma lowt_eq : forall t, (t =? PlasmaNoTrans) = false -> tbsm_lower_trans t PlasmaUnit n1 bA A bB B ipiv = lowt_items t.
  Proof.
    intros tr ET. assert (MV := gmv).
    assert (EM : d_mt B = nt) by (rewrite (dn_mt nb B HB), Bm; reflexivity).
    assert (EN : d_nt B = nq) by (apply (dn_nt nb B HB)).
    assert (EA : d_mt A = nt) by (apply (gd_mt _ _ _ _ _ _ HA)).
    assert (EL := gd_klt _ _ _ _ _ _ HA). fold kL in EL.
    assert (ENB : d_nb A = nb) by (apply (sq_nb nb A _ (gd_sq _ _ _ _ _ _ HA))).
    assert (An : d_n A = n) by (apply (gd_n _ _ _ _ _ _ HA)).
    unfold tbsm_lower_trans, lowt_items. cbv zeta. rewrite EM, EN, EA, EL, ENB.
    apply flat_map_ext_in. intros t Ht. apply in_zrange in Ht.
    assert (EIF : (if t =? 0 then n1 else n1) = (n1 : F)) by (destruct (t =? 0); reflexivity). rewrite EIF.
    replace (nt - t - 1) with (nt - 1 - t) by lia.
    apply f_equal2.
    - replace (Z.min (nt - 1 - t + (1 + kL)) nt) with (lhi (nt - 1 - t)) by (unfold lhi; lia).
      apply flat_map_ext_in. intros m Hm. apply in_zrange in Hm. apply map_ext_in. intros q Hq.
      unfold lgt, bgt, gtask, op_tile, op_ld. rewrite ET. cbn. rewrite An. rewrite (MV m) by (unfold lhi in Hm; lia). reflexivity.
    - apply flat_map_ext_in. intros q Hq. unfold lsw, swt, lst, bst, stask.
      replace (1 + (nt - 1 - t) * nb + tile_mview B (nt - 1 - t) - 1) with (Z.min ((nt - 1 - t + 1) * nb) n).
      2:{ rewrite (MV (nt - 1 - t)) by lia. rewrite <- gmin by lia. lia. }
      replace (1 + (nt - 1 - t) * nb) with ((nt - 1 - t) * nb + 1) by lia. reflexivity.
  Qed.

  Let side := bside nb n kL PlasmaLower.
  Lemma low_forall : forall P : item F -> Prop,
    (forall k q, 0 <= k < nt -> 0 <= q < nq -> P (Alone (lsw 1 k q))) ->
    (forall k q, 0 <= k < nt -> 0 <= q < nq -> P (Task (lst PlasmaNoTrans k q))) ->
    (forall m k q, side PlasmaNoTrans m k -> 0 <= q < nq -> P (Task (lgt PlasmaNoTrans m k q))) ->
    Forall P low_items.
  Proof.
    intros P H1 H2 H3. unfold low_items. apply Forall_flat_map_intro. intros k Hk. apply in_zrange in Hk.
    apply Forall_app. split; apply Forall_flat_map_intro.
    - intros q Hq. apply in_zrange in Hq. constructor; [auto|]. constructor; [auto|constructor].
    - intros m Hm. apply in_zrange in Hm. apply Forall_map, Forall_forall. intros q Hq. apply in_zrange in Hq.
      apply H3; [|assumption]. unfold lhi in Hm. pose proof (ntl_pos kl ltac:(lia)) as KP. fold kL in KP.
      unfold side, bside, gside. cbn. fold nt. lia.
  Qed.
  Lemma lowt_forall : forall t, (t =? PlasmaNoTrans) = false -> forall P : item F -> Prop,
    (forall k q, 0 <= k < nt -> 0 <= q < nq -> P (Alone (lsw (-1) k q))) ->
    (forall k q, 0 <= k < nt -> 0 <= q < nq -> P (Task (lst t k q))) ->
    (forall m k q, side t m k -> 0 <= q < nq -> P (Task (lgt t m k q))) ->
    Forall P (lowt_items t).
  Proof.
    intros t ET P H1 H2 H3. unfold lowt_items. apply Forall_flat_map_intro. intros k Hk. apply in_zrange in Hk.
    apply Forall_app. split; apply Forall_flat_map_intro.
    - intros m Hm. apply in_zrange in Hm. apply Forall_map, Forall_forall. intros q Hq. apply in_zrange in Hq.
      apply H3; [|assumption]. unfold lhi in Hm. pose proof (ntl_pos kl ltac:(lia)) as KP. fold kL in KP.
      unfold side, bside, gside, tup, op_up. rewrite ET. cbn. fold nt. lia.
    - intros q Hq. apply in_zrange in Hq. constructor; [apply H2; lia|]. constructor; [apply H1; lia|constructor].
  Qed.

  Let ANB : d_nb A = nb := sq_nb nb A _ (gd_sq _ _ _ _ _ _ HA).
  Let AM : d_m A = n := gd_m _ _ _ _ _ _ HA.
  Let AN : d_n A = n := gd_n _ _ _ _ _ _ HA.
  Let BNT : d_nt B = nq := dn_nt nb B HB.

  Lemma lsw_good : forall incx k q, incx = 1 \/ incx = -1 -> 0 <= k < nt -> 0 <= q < nq -> kgood (lsw incx k q).
  Proof.
    intros incx k q HX Hk Hq. apply swt_kgood; try assumption; try lia.
    assert (k * nb < n) by (apply ntl_spec; lia). lia.
  Qed.

  Definition solves (trans : Z) : list (item F) :=
    if trans =? PlasmaNoTrans then low_items ++ map Task (pztbsm PlasmaLeft PlasmaUpper PlasmaNoTrans PlasmaNonUnit n1 bA A bB B)
    else map Task (pztbsm PlasmaLeft PlasmaUpper trans PlasmaNonUnit n1 bA A bB B) ++ lowt_items trans.

  Lemma omp_zgbtrs_eq : forall trans, 0 < n -> 0 < d_n B -> omp_zgbtrs trans bA A ipiv bB B = solves trans.
  Proof.
    intros trans H1 H2. unfold omp_zgbtrs, solves. rewrite AN.
    replace (n =? 0) with false by (symmetry; apply Z.eqb_neq; lia).
    replace (d_n B =? 0) with false by (symmetry; apply Z.eqb_neq; lia). cbn [orb].
    destruct (trans =? PlasmaNoTrans) eqn:ET; [rewrite low_eq|rewrite lowt_eq by assumption]; reflexivity.
  Qed.

  Lemma solves_good : forall trans, Forall kgood (map it_task (solves trans)).
  Proof.
    intros trans. apply Forall_map. unfold solves. destruct (trans =? PlasmaNoTrans) eqn:ET; apply Forall_app; split.
    - apply low_forall; intros; cbn [it_task].
      + apply lsw_good; auto.
      + apply (bst_kgood nb n kL); auto using tbs_lower.
      + apply (bgt_kgood nb n kL A B bA bB PlasmaLower); auto using tbs_lower.
    - apply Forall_map. cbn [it_task]. apply (pztbsm_kgood nb n kU); auto using tbs_upper.
    - apply Forall_map. cbn [it_task]. apply (pztbsm_kgood nb n kU); auto using tbs_upper.
    - apply lowt_forall; [assumption|intros; cbn [it_task]..].
      + apply lsw_good; auto.
      + apply (bst_kgood nb n kL); auto using tbs_lower.
      + apply (bgt_kgood nb n kL A B bA bB PlasmaLower); auto using tbs_lower.
  Qed.

  Lemma solves_decl : forall env trans, In (bA, homeD A (in_tb A)) env -> In (bB, homeD B (in_tiles B)) env ->
    Forall (it_decl (home_env env)) (solves trans).
  Proof.
    intros env trans EA EB. unfold solves. destruct (trans =? PlasmaNoTrans) eqn:ET; apply Forall_app; split.
    - apply low_forall; intros; cbn [it_decl].
      + exact I.
      + apply (bst_kdecl nb n kL); auto using tbs_lower.
      + apply (bgt_kdecl nb n kL A B bA bB PlasmaLower); auto using tbs_lower.
    - apply Forall_map. cbn [it_decl]. apply (pztbsm_kdecl nb n kU); auto using tbs_upper.
    - apply Forall_map. cbn [it_decl]. apply (pztbsm_kdecl nb n kU); auto using tbs_upper.
    - apply lowt_forall; [assumption|intros; cbn [it_decl]..].
      + exact I.
      + apply (bst_kdecl nb n kL); auto using tbs_lower.
      + apply (bgt_kdecl nb n kL A B bA bB PlasmaLower); auto using tbs_lower.
  Qed.

  (* values *)
  Add Ring num_ring_gbtrs : (nring F).
  Hypothesis NA : bA <> bB.
  Variable a : Z -> Z -> F.
  Hypothesis AZ : forall i j, in_matrix n n i j -> kl + ku < j - i \/ (j / nb + 1) * nb + kl <= i -> a i j = n0.
  Hypothesis AD : forall i, 0 <= i < n -> a i i <> n0.

  Definition aholds (M : mem F) : Prop :=
    forall i j, in_matrix n n i j -> in_tb A (i / nb) (j / nb) -> el M bA A i j = a i j.
  Definition oc (t : Z) (v : F) : F := if t =? PlasmaTrans then v else nconj v.

  Lemma one_nz : (n1 : F) <> n0.
  Proof.
    intros E. apply (AD 0); [lia|]. transitivity (nmul (a 0 0) n1); [ring|]. rewrite E. ring.
  Qed.
  Lemma az_low : forall i j, 0 <= i < n -> 0 <= j < n -> kL < i / nb - j / nb -> a i j = n0.
  Proof.
    intros i j Hi Hj H. apply AZ; [split; assumption|]. right. destruct (ntl_pos kl ltac:(lia)) as [_ K]. fold kL in K.
    destruct (div_mod_pos i nb Hb) as [E R]. nia.
  Qed.
  Lemma az_up : forall i j, 0 <= i < n -> 0 <= j < n -> kU < j / nb - i / nb -> a i j = n0.
  Proof.
    intros i j Hi Hj H. apply AZ; [split; assumption|]. left. destruct (ntl_pos (ku + kl) ltac:(lia)) as [_ K]. fold kU in K.
    destruct (div_mod_pos i nb Hb) as [E R]. destruct (div_mod_pos j nb Hb) as [E' R']. nia.
  Qed.

  Section At.
    Variable M0 : mem F.
    Hypothesis H0 : aholds M0.
    Let Tl t := BT nb kL A bA PlasmaLower t PlasmaUnit M0.
    Let Sl t := Sv nb A bA PlasmaLeft PlasmaLower t PlasmaUnit M0.
    Let vst := vstate A B bB PlasmaLeft M0.

    Lemma low_el : forall i j, 0 <= i < n -> 0 <= j < n -> -kL <= i / nb - j / nb <= kL ->
      tri_el A bA PlasmaLower PlasmaUnit M0 i j = if j <? i then a i j else if j =? i then n1 else n0.
    Proof.
      intros i j Hi Hj HK. unfold tri_el. change (PlasmaUnit =? PlasmaUnit) with true. cbn [andb]. rewrite Z.eqb_sym.
      change (uplo_sel PlasmaLower i j) with (j <=? i).
      destruct (Z.eqb_spec j i) as [->|E]; [rewrite Z.ltb_irrefl; reflexivity|].
      destruct (Z.leb_spec j i) as [L|L], (Z.ltb_spec j i) as [L'|L']; try lia; [|reflexivity].
      apply H0; [split; assumption|]. apply (gd_in_tb A nb n n kl ku HA). fold kL kU nt.
      destruct (tile_in nb n Hb Hn i Hi) as [I1 I2]. destruct (tile_in nb n Hb Hn j Hj) as [J1 J2]. fold nt in I2, J2.
      pose proof (Z.div_le_mono j i nb Hb ltac:(lia)). pose proof (ntl_pos (ku + kl) ltac:(lia)) as KP. fold kU in KP. lia.
    Qed.
    Lemma Tl_no : forall r l, 0 <= r < n -> 0 <= l < n -> -kL <= r / nb - l / nb <= kL ->
      Tl PlasmaNoTrans r l = if l <? r then a r l else if l =? r then n1 else n0.
    Proof.
      intros r l Hr Hl HK. unfold Tl. rewrite (BT_in nb n kL A B) by assumption. rewrite <- low_el by assumption. reflexivity.
    Qed.
    Lemma Tl_tr : forall t r l, (t =? PlasmaNoTrans) = false -> 0 <= r < n -> 0 <= l < n -> -kL <= r / nb - l / nb <= kL ->
      Tl t r l = if r <? l then oc t (a l r) else if r =? l then n1 else n0.
    Proof.
      intros t r l ET Hr Hl HK. unfold Tl. rewrite (BT_in nb n kL A B) by assumption.
      unfold TT, op_tel. change (lft PlasmaLeft) with true. cbv iota. rewrite ET. rewrite low_el by lia. unfold oc.
      destruct (t =? PlasmaTrans), (r <? l), (r =? l); try reflexivity; [apply nconj_1|apply nconj_0].
    Qed.
    Lemma Tl_diag : forall t r, 0 <= r < n -> TT A bA PlasmaLeft PlasmaLower t PlasmaUnit M0 r r <> n0.
    Proof.
      intros t r Hr. unfold TT, op_tel, tri_el. change (lft PlasmaLeft) with true. rewrite !Z.eqb_refl.
      cbn [andb]. pose proof one_nz as Z1. cbv iota.
      destruct (t =? PlasmaNoTrans); [exact Z1|]. destruct (t =? PlasmaTrans); [exact Z1|]. rewrite nconj_1. exact Z1.
    Qed.
    Lemma Sl_ok : forall t p b r, 0 <= r < n -> r / nb = p -> blk nb n (fun l => nmul (Tl t r l) (Sl t p b l)) p = b r.
    Proof. intros t. apply (SV_ok nb n kL A B bA PlasmaLower t PlasmaUnit tbs_lower HB Bm M0 (Tl_diag t)). Qed.

    (* what happens to one column *)
    Definition Lstep (k : Z) (x : Z -> F) : Z -> F :=
      fold_left (fun x m => vge nb n (Tl PlasmaNoTrans) m k (nopp n1) n1 x) (zrange (k + 1) (lhi k))
        (vts nb (Sl PlasmaNoTrans) k n1 (fun r => x (source (sw nb n ipiv k) r))).
    Definition Tstep (t k : Z) (x : Z -> F) : Z -> F := fun r =>
      vts nb (Sl t) k n1 (fold_left (fun x m => vge nb n (Tl t) k m (nopp n1) n1 x) (zrange (k + 1) (lhi k)) x)
        (source (rev (sw nb n ipiv k)) r).

    Lemma kn : forall k, 0 <= k < nt -> k * nb <= n.
    Proof. intros k Hk. assert (k * nb < n) by (apply ntl_spec; lia). lia. Qed.

    Lemma lsw_step : forall incx k q c M x, incx = 1 \/ incx = -1 -> 0 <= k < nt -> 0 <= q < nq -> 0 <= c < d_n B -> vst c M x ->
      vst c (k_fun (lsw incx k q) M) (if c / nb =? q then (fun r => x (source (sws nb n ipiv incx k) r)) else x).
    Proof.
      intros incx k q c M x HX Hk Hq Hc HV. apply swt_step; try assumption; try lia. apply kn. assumption.
    Qed.
    Lemma lst_step : forall t k q c M x, 0 <= k < nt -> 0 <= q < nq -> 0 <= c < d_n B -> vst c M x ->
      vst c (k_fun (lst t k q) M) (if c / nb =? q then vts nb (Sl t) k n1 x else x).
    Proof. intros t k q c M x Hk Hq Hc HV. apply (bst_step nb n kL); auto using tbs_lower. Qed.
    Lemma lgt_step : forall t p k q c M x, side t p k -> 0 <= q < nq -> 0 <= c < d_n B -> vst c M x ->
      vst c (k_fun (lgt t p k q) M) (if c / nb =? q then vge nb n (Tl t) p k (nopp n1) n1 x else x).
    Proof. intros t p k q c M x Hs Hq Hc HV. apply (bgt_step nb n kL); auto using tbs_lower. Qed.

    Lemma col_tile : forall c, 0 <= c < d_n B -> 0 <= c / nb < nq.
    Proof.
      intros c Hc. split; [apply Z.div_pos; lia|]. apply ntl_spec; auto; [lia|apply Z.div_pos; lia|].
      destruct (div_mod_pos c nb Hb). lia.
    Qed.

    Lemma low_sims : forall c, 0 <= c < d_n B ->
      sims (vst c) (map it_task low_items) (fun x => fold_left (fun x k => Lstep k x) (zrange 0 nt) x).
    Proof.
      intros c Hc. pose proof (col_tile c Hc) as Tq. unfold low_items. rewrite map_flat_map'.
      apply (sims_flat_map _ _ _ _ (fun k x => Lstep k x)). intros k Hk. apply in_zrange in Hk.
      rewrite map_app, !map_flat_map'.
      eapply sims_ext; [|apply sims_app;
        [apply (sims_flat_map _ _ _ _ (fun q x => if c / nb =? q then vts nb (Sl PlasmaNoTrans) k n1 (fun r => x (source (sw nb n ipiv k) r)) else x))
        |apply (sims_flat_map _ _ _ _ (fun m x => fold_left
            (fun x q => if c / nb =? q then vge nb n (Tl PlasmaNoTrans) m k (nopp n1) n1 x else x) (zrange 0 nq) x))]].
      - intros x. cbv beta. unfold Lstep.
        rewrite (bonly nb B c (fun x => vts nb (Sl PlasmaNoTrans) k n1 (fun r => x (source (sw nb n ipiv k) r)))) by assumption.
        apply fold_left_ext_in. intros m x' _. apply (bonly nb B c (vge nb n (Tl PlasmaNoTrans) m k (nopp n1) n1)). assumption.
      - intros q Hq. apply in_zrange in Hq. cbn [map it_task].
        eapply sims_ext; [|apply sims_cons;
          [intros M x HV; exact (lsw_step 1 k q c M x (or_introl eq_refl) Hk Hq Hc HV)
          |apply sims_one; intros M x HV; exact (lst_step PlasmaNoTrans k q c M x Hk Hq Hc HV)]].
        intros x. cbv beta. destruct (c / nb =? q); reflexivity.
      - intros m Hm. apply in_zrange in Hm. rewrite map_map. cbn [it_task]. apply sims_map. intros q Hq M x HV. apply in_zrange in Hq.
        apply lgt_step; auto. unfold lhi in Hm. pose proof (ntl_pos kl ltac:(lia)) as KP. fold kL in KP.
        unfold side, bside, gside. cbn. fold nt. lia.
    Qed.

    Lemma lowt_sims : forall t c, (t =? PlasmaNoTrans) = false -> 0 <= c < d_n B ->
      sims (vst c) (map it_task (lowt_items t)) (fun x => fold_left (fun x s => Tstep t (nt - 1 - s) x) (zrange 0 nt) x).
    Proof.
      intros t c ET Hc. pose proof (col_tile c Hc) as Tq. unfold lowt_items. rewrite map_flat_map'.
      apply (sims_flat_map _ _ _ _ (fun s x => Tstep t (nt - 1 - s) x)). intros s Hs. apply in_zrange in Hs.
      assert (Hk : 0 <= nt - 1 - s < nt) by lia. remember (nt - 1 - s) as k eqn:Ek. clear Ek Hs.
      rewrite map_app, !map_flat_map'.
      eapply sims_ext; [|apply sims_app;
        [apply (sims_flat_map _ _ _ _ (fun m x => fold_left
            (fun x q => if c / nb =? q then vge nb n (Tl t) k m (nopp n1) n1 x else x) (zrange 0 nq) x))
        |apply (sims_flat_map _ _ _ _ (fun q x => if c / nb =? q then (fun r => vts nb (Sl t) k n1 x (source (rev (sw nb n ipiv k)) r)) else x))]].
      - intros x. cbv beta. unfold Tstep.
        rewrite (bonly nb B c (fun x r => vts nb (Sl t) k n1 x (source (rev (sw nb n ipiv k)) r))) by assumption.
        rewrite (fold_left_ext_in _ _ _ (fun x m => vge nb n (Tl t) k m (nopp n1) n1 x)); [reflexivity|].
        intros m x' _. apply (bonly nb B c (vge nb n (Tl t) k m (nopp n1) n1)). assumption.
      - intros m Hm. apply in_zrange in Hm. rewrite map_map. cbn [it_task]. apply sims_map. intros q Hq M x HV. apply in_zrange in Hq.
        apply lgt_step; auto. unfold lhi in Hm. pose proof (ntl_pos kl ltac:(lia)) as KP. fold kL in KP.
        unfold side, bside, gside, tup, op_up. rewrite ET. cbn. fold nt. lia.
      - intros q Hq. apply in_zrange in Hq. cbn [map it_task].
        eapply sims_ext; [|apply sims_cons;
          [intros M x HV; exact (lst_step t k q c M x Hk Hq Hc HV)
          |apply sims_one; intros M x HV; exact (lsw_step (-1) k q c M x (or_intror eq_refl) Hk Hq Hc HV)]].
        intros x. cbv beta. destruct (c / nb =? q); reflexivity.
    Qed.

    Lemma Lstep_ok : forall k x i, 0 <= k < nt -> 0 <= i < n ->
      lower_times nb n a k (Lstep k x) i = x (source (sw nb n ipiv k) i).
    Proof.
      intros k x i Hk Hi. unfold Lstep.
      refine (lower_step nb n a (Tl PlasmaNoTrans) Hb Hn (Sl PlasmaNoTrans) k (zrange (k + 1) (lhi k)) _ _ _ _ _ _
        (fun r => x (source (sw nb n ipiv k) r)) i Hi);
        [lia|intros b r; apply Sl_ok|apply NoDup_zrange| | |].
      - intros m Hm. apply in_zrange in Hm. lia.
      - intros r l Hr Hl El HR. apply Tl_no; try assumption. rewrite in_zrange in HR. unfold lhi in HR.
        pose proof (ntl_pos kl ltac:(lia)) as KP. fold kL in KP. lia.
      - intros r l Hr Hl El HR HI. apply az_low; try assumption. rewrite in_zrange in HI. unfold lhi in HI.
        destruct (tile_in nb n Hb Hn r Hr) as [I1 I2]. fold nt in I2. lia.
    Qed.

    Lemma low_chain : forall x l y, (forall k, In k l -> 0 <= k < nt) ->
      (forall i, 0 <= i < n -> nsum (fun j => nmul (um a i j) (x j)) 0 n = fold_left (fun x k => Lstep k x) l y i) ->
      chain nb n a ipiv l y x.
    Proof.
      intros x l. induction l as [|k l IH]; intros y HK HS; cbn [chain].
      - exact HS.
      - exists (Lstep k y). split.
        + intros i Hi. apply Lstep_ok; [apply HK; left; reflexivity|assumption].
        + apply IH; [intros; apply HK; right; assumption|]. exact HS.
    Qed.

    Lemma lower_trans_ext : forall o k y y' i, (forall r, y r = y' r) -> lower_trans nb n a o k y i = lower_trans nb n a o k y' i.
    Proof.
      intros o k y y' i E. unfold lower_trans. destruct (i / nb =? k); [|apply E]. rewrite E. apply f_equal.
      apply nsum_ext. intros j _. rewrite E. reflexivity.
    Qed.

    Lemma oc_zero : forall t, oc t n0 = n0.
    Proof. intros t. unfold oc. destruct (t =? PlasmaTrans); [reflexivity|apply nconj_0]. Qed.

    Lemma Tstep_ok : forall t k x i, (t =? PlasmaNoTrans) = false -> 0 <= k < nt -> 0 <= i < n ->
      lower_trans nb n a (oc t) k (fun r => Tstep t k x (source (sw nb n ipiv k) r)) i = x i.
    Proof.
      intros t k x i ET Hk Hi. unfold Tstep.
      rewrite (lower_trans_ext _ _ _ (vts nb (Sl t) k n1 (fold_left (fun x m => vge nb n (Tl t) k m (nopp n1) n1 x) (zrange (k + 1) (lhi k)) x)))
        by (intros r; rewrite source_rev2; reflexivity).
      pose proof (ntl_pos kl ltac:(lia)) as KP. fold kL in KP.
      apply (trans_step nb n a (Tl t) Hb Hn (Sl t) (oc t) (oc_zero t) k (lhi k));
        [assumption|unfold lhi; fold nt; lia|intros b r; apply Sl_ok| | |assumption].
      - intros r l Hr Hl Er HL. apply Tl_tr; try assumption. unfold lhi in HL. lia.
      - intros r l Hr Hl Er HL. apply az_low; try assumption. unfold lhi in HL.
        destruct (tile_in nb n Hb Hn l Hl) as [I1 I2]. fold nt in I2. lia.
    Qed.

    Lemma lowt_chain : forall t b z l, (t =? PlasmaNoTrans) = false -> (forall k, In k l -> 0 <= k < nt) ->
      (forall j, 0 <= j < n -> nsum (fun i => nmul (oc t (um a i j)) (z i)) 0 n = b j) ->
      tchain nb n a ipiv (oc t) l b (fold_right (Tstep t) z l).
    Proof.
      intros t b z l ET HK HS. induction l as [|k l IH]; cbn [tchain fold_right].
      - exact HS.
      - exists (fold_right (Tstep t) z l). split.
        + intros i Hi. apply Tstep_ok; [assumption|apply HK; left; reflexivity|assumption].
        + apply IH. intros; apply HK; right; assumption.
    Qed.

    (* the upper triangle *)
    Lemma up_el : forall i j, 0 <= i < n -> 0 <= j < n ->
      (if (- kU <=? i / nb - j / nb) && (i / nb - j / nb <=? kU) then tri_el A bA PlasmaUpper PlasmaNonUnit M0 i j else n0) = um a i j.
    Proof.
      intros i j Hi Hj. unfold um. destruct (tile_in nb n Hb Hn i Hi) as [I1 I2]. destruct (tile_in nb n Hb Hn j Hj) as [J1 J2]. fold nt in I2, J2.
      unfold tri_el. change (PlasmaNonUnit =? PlasmaUnit) with false. cbn [andb]. change (uplo_sel PlasmaUpper i j) with (i <=? j).
      pose proof (ntl_pos kl ltac:(lia)) as KP. fold kL in KP.
      pose proof (ntl_pos (ku + kl) ltac:(lia)) as KQ. fold kU in KQ.
      destruct (Z.leb_spec i j) as [L|L].
      - pose proof (Z.div_le_mono i j nb Hb L) as D.
        destruct (Z.leb_spec (- kU) (i / nb - j / nb)) as [D1|D1], (Z.leb_spec (i / nb - j / nb) kU) as [D2|D2]; cbn [andb].
        + apply H0; [split; assumption|]. apply (gd_in_tb A nb n n kl ku HA). fold kL kU nt. lia.
        + exfalso. lia.
        + symmetry. apply az_up; try assumption. lia.
        + lia.
      - destruct (_ && _); reflexivity.
    Qed.
    Lemma up_BT : forall t r l, 0 <= r < n -> 0 <= l < n ->
      BT nb kU A bA PlasmaUpper t PlasmaNonUnit M0 r l = op_of t (um a) r l.
    Proof.
      intros t r l Hr Hl. pose proof (up_el r l Hr Hl) as G1. pose proof (up_el l r Hl Hr) as G2.
      unfold BT, TT, op_tel, op_of. change (lft PlasmaLeft) with true. cbv iota.
      destruct (t =? PlasmaNoTrans); [exact G1|].
      assert (EQ : (- kU <=? r / nb - l / nb) && (r / nb - l / nb <=? kU)
                 = (- kU <=? l / nb - r / nb) && (l / nb - r / nb <=? kU)).
      { apply eq_true_iff_eq. rewrite !andb_true_iff, !Z.leb_le. lia. }
      rewrite EQ. rewrite <- G2. clear EQ G1 G2.
      destruct ((- kU <=? l / nb - r / nb) && (l / nb - r / nb <=? kU)), (t =? PlasmaTrans); try reflexivity.
      symmetry. apply nconj_0.
    Qed.
    Lemma up_diag : forall t r, 0 <= r < n -> TT A bA PlasmaLeft PlasmaUpper t PlasmaNonUnit M0 r r <> n0.
    Proof.
      intros t r Hr. pose proof (up_BT t r r Hr Hr) as E. unfold BT in E. rewrite Z.sub_diag in E.
      pose proof (ntl_pos (ku + kl) ltac:(lia)) as KQ. fold kU in KQ.
      replace (- kU <=? 0) with true in E by (symmetry; apply Z.leb_le; lia).
      replace (0 <=? kU) with true in E by (symmetry; apply Z.leb_le; lia). cbn [andb] in E. rewrite E.
      unfold op_of, um. rewrite Z.leb_refl. pose proof (AD r Hr).
      destruct (t =? PlasmaNoTrans); auto. destruct (t =? PlasmaTrans); auto using nconj_nz.
    Qed.
    Lemma up_at : forall t c, 0 <= c < d_n B ->
      let M' := krun (pztbsm PlasmaLeft PlasmaUpper t PlasmaNonUnit n1 bA A bB B) M0 in
      (forall l, fst l <> bB -> M' l = M0 l) /\
      (forall r, 0 <= r < n -> nsum (fun l => nmul (op_of t (um a) r l) (el M' bB B l c)) 0 n = el M0 bB B r c).
    Proof.
      intros t c Hc. pose proof (pztbsm_at nb n kU A B bA bB PlasmaUpper t PlasmaNonUnit tbs_upper HB Bm NA M0 (up_diag t) c Hc) as [X V].
      cbv zeta. split; [exact X|]. intros r Hr. rewrite <- V by assumption. apply nsum_ext. intros l Hl.
      rewrite up_BT by assumption. reflexivity.
    Qed.
  End At.

  Lemma aholds_off : forall M M', (forall l, fst l <> bB -> M' l = M l) -> aholds M -> aholds M'.
  Proof. intros M M' HF HM i j Hi Hj. unfold el. rewrite HF by exact NA. apply HM; assumption. Qed.

  Lemma run_back : forall t (f : Z -> (Z -> F) -> (Z -> F)) z, t = nt ->
    fold_left (fun x s => f (t - 1 - s) x) (zrange 0 t) z = fold_right f z (zrange 0 t).
  Proof.
    intros t f z ->. assert (N0 : 0 <= nt) by (apply ntl_pos; assumption).
    transitivity (fold_left (fun x k => f k x) (map (fun s => nt - 1 - s) (zrange 0 nt)) z).
    - generalize (zrange 0 nt) as l. intros l. revert z. induction l as [|s l IH]; intros z; cbn [map fold_left]; [reflexivity|apply IH].
    - rewrite (rev_zrange nt N0). rewrite <- fold_left_rev_right, rev_involutive. reflexivity.
  Qed.

  Lemma solves_at : forall trans M, valid_trans trans -> aholds M -> 0 < d_n B ->
    let M' := krun (map it_task (solves trans)) M in
    (forall l, fst l <> bB -> M' l = M l) /\
    (forall i c, 0 <= i < n -> 0 <= c < d_n B ->
       nsum (fun l => nmul (op_of trans (factored nb n a ipiv (zrange 0 nt)) i l) (el M' bB B l c)) 0 n = el M bB B i c).
  Proof.
    intros trans M HV HM HD. cbv zeta. unfold solves.
    assert (KR : forall k, In k (zrange 0 nt) -> 0 <= k < nt) by (intros k Hk; apply in_zrange in Hk; assumption).
    assert (KN : forall k, In k (zrange 0 nt) -> 0 <= k) by (intros k Hk; apply KR in Hk; lia).
    destruct (trans =? PlasmaNoTrans) eqn:ET; rewrite map_app, map_it_task, krun_app.
    - remember (krun (map it_task low_items) M) as M1 eqn:EM1.
      assert (S1 : forall c, 0 <= c < d_n B -> vstate A B bB PlasmaLeft M c M1
         (fold_left (fun x k => Lstep M k x) (zrange 0 nt) (fun r => el M bB B r c))).
      { intros c Hc. rewrite EM1. apply (low_sims M c Hc M (fun r => el M bB B r c)). split; reflexivity. }
      clear EM1. assert (X1 : forall l, fst l <> bB -> M1 l = M l) by (apply (S1 0); lia).
      pose proof (aholds_off _ _ X1 HM) as HM1. pose proof (up_at M1 HM1 PlasmaNoTrans) as UA. cbv zeta in UA.
      remember (krun (pztbsm PlasmaLeft PlasmaUpper PlasmaNoTrans PlasmaNonUnit n1 bA A bB B) M1) as M2 eqn:EM2. clear EM2.
      split.
      + intros l Hl. destruct (UA 0 ltac:(lia)) as [X2 _]. rewrite X2, X1 by assumption. reflexivity.
      + intros i c Hi Hc. destruct (UA c Hc) as [_ V]. destruct (S1 c Hc) as [_ S]. rewrite AN in S. clear UA S1.
        unfold op_of. rewrite ET.
        refine (chain_ok nb n a ipiv Hb Hn HP (zrange 0 nt) (fun r => el M bB B r c) (fun l => el M2 bB B l c) KN _ i Hi).
        apply (low_chain M HM); [assumption|]. intros r Hr. rewrite <- (S r Hr). exact (V r Hr).
    - pose proof (up_at M HM trans) as UA. cbv zeta in UA.
      remember (krun (pztbsm PlasmaLeft PlasmaUpper trans PlasmaNonUnit n1 bA A bB B) M) as M1 eqn:EM1. clear EM1.
      assert (X1 : forall l, fst l <> bB -> M1 l = M l) by (apply (UA 0); lia).
      pose proof (aholds_off _ _ X1 HM) as HM1.
      remember (krun (map it_task (lowt_items trans)) M1) as M2 eqn:EM2.
      assert (S1 : forall c, 0 <= c < d_n B -> vstate A B bB PlasmaLeft M1 c M2
         (fold_left (fun x s => Tstep M1 trans (nt - 1 - s) x) (zrange 0 nt) (fun r => el M1 bB B r c))).
      { intros c Hc. rewrite EM2. apply (lowt_sims M1 trans c ET Hc M1 (fun r => el M1 bB B r c)). split; reflexivity. }
      clear EM2. split.
      + intros l Hl. destruct (S1 0 ltac:(lia)) as [X2 _]. rewrite X2, X1 by assumption. reflexivity.
      + intros i c Hi Hc. destruct (UA c Hc) as [_ V]. destruct (S1 c Hc) as [_ S]. rewrite AN in S. clear UA S1.
        assert (OA : forall x y, oc trans (nadd x y) = nadd (oc trans x) (oc trans y)).
        { intros x y. unfold oc. destruct (trans =? PlasmaTrans); [reflexivity|apply nconj_add]. }
        assert (OM : forall x y, oc trans (nmul x y) = nmul (oc trans x) (oc trans y)).
        { intros x y. unfold oc. destruct (trans =? PlasmaTrans); [reflexivity|apply nconj_mul]. }
        pose proof (tchain_ok nb n a ipiv Hb Hn HP (oc trans) (oc_zero trans) OA OM (zrange 0 nt) (fun r => el M bB B r c)
          (fold_right (Tstep M1 trans) (fun r => el M1 bB B r c) (zrange 0 nt)) KN) as TC.
        rewrite (nsum_ext _ _ (fun l => nmul (oc trans (factored nb n a ipiv (zrange 0 nt) l i))
          (fold_right (Tstep M1 trans) (fun r => el M1 bB B r c) (zrange 0 nt) l))).
        * apply TC; [|assumption]. apply (lowt_chain M1 HM1); try assumption.
          intros j Hj. rewrite <- (V j Hj). apply nsum_ext. intros l Hl. unfold op_of, oc. rewrite ET.
          destruct (trans =? PlasmaTrans); reflexivity.
        * intros l Hl. unfold op_of, oc. rewrite ET. rewrite <- (run_back nt (Tstep M1 trans)) by reflexivity.
          rewrite <- (S l Hl). destruct (trans =? PlasmaTrans); reflexivity.
  Qed.
End Solve.
