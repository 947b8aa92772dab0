(* plasma_ztrmm *)
From Coq Require Import ZArith List Bool Lia Ring.
From Verif Require Import Base NumModel NumProofs FieldModel TaskModel TaskSpec TaskProofs DescModel DescSpec
  DescDriverModel DescProofs DescPackProofs DescProofs3 DescProofs4 MatModel MatSpec MatProofs RegionProofs
  LayoutModel LayoutProofs LayoutProofs2 DriverModel DriverSpec OpProofs SimProofs OperandProofs
  GemmModel GemmProofs GemmDriverProofs RankProofs RankDriverProofs LasetModel LasetProofs TriModel TriSpec
  TriVecProofs TriProofs.
Import ListNotations.
Open Scope Z_scope.

(* ---- packed triangular operands ---- *)
Lemma tr_create_tri : forall uplo nb n A size, valid_uplo uplo -> tr_create uplo nb n = CrOk A size ->
  tri_ok A (uplo =? PlasmaUpper) nb n.
Proof.
  intros uplo nb n A size Hu H. unfold tr_create in H.
  replace uplo with (if uplo =? PlasmaUpper then PlasmaUpper else PlasmaLower) in H
    by (destruct Hu as [->| ->]; reflexivity).
  apply triangular_create_ok in H. apply H.
Qed.

Lemma tri_sq : forall A upper nb n, tri_ok A upper nb n -> sq nb A (in_tri A).
Proof.
  intros A upper nb n H. constructor; [eapply tri_tiled; eauto|apply (tk_mb _ _ _ _ H)|apply (tk_nb _ _ _ _ H)].
Qed.

Lemma tr_opnd_ok : forall A upper nb n b p ld, tri_ok A upper nb n -> n <= ld -> ook nb (tr_opnd b A p ld).
Proof.
  intros A upper nb n b p ld H HL. constructor; cbn.
  - eapply tri_sq; eauto.
  - intros. apply idx_tri_in. eapply tri_square; eauto.
  - apply idx_tri_NoDup.
  - rewrite (tk_m _ _ _ _ H). assumption.
Qed.

Lemma tr_opnd_el : forall A upper nb n b p ld i j, tri_ok A upper nb n ->
  in_stored_tile upper nb n i j -> o_el (tr_opnd b A p ld) i j.
Proof.
  intros A upper nb n b p ld i j H HS. pose proof HS as (Hi & Hj & _).
  split; [cbn; rewrite (tk_m _ _ _ _ H); assumption|].
  split; [cbn; rewrite (tk_n _ _ _ _ H); assumption|]. cbn. eapply tri_stored; eauto.
Qed.

Lemma sel_stored : forall uplo nb n i j, valid_uplo uplo -> 0 < nb -> 0 <= i < n -> 0 <= j < n ->
  uplo_sel uplo i j = true -> in_stored_tile (uplo =? PlasmaUpper) nb n i j.
Proof.
  intros uplo nb n i j Hu Hb Hi Hj H. split; [assumption|]. split; [assumption|].
  unfold uplo_sel in H. destruct Hu as [->| ->]; cbn in *; apply Z.leb_le in H; apply Z.div_le_mono; lia.
Qed.

Lemma tri_tiles : forall uplo nb n A, valid_uplo uplo -> tri_ok A (uplo =? PlasmaUpper) nb n ->
  forall i j, 0 <= i < ntl nb (d_n A) -> 0 <= j < ntl nb (d_n A) -> uplo_sel uplo i j = true -> in_tri A i j.
Proof.
  intros uplo nb n A Hu H i j Hi Hj HS. pose proof (tk_shape _ _ _ _ H) as SH. split.
  - split; [rewrite (mt_aligned_ntl nb A SH (tk_mb _ _ _ _ H))|rewrite (nt_aligned_ntl nb A SH (tk_nb _ _ _ _ H)); assumption].
    rewrite (tk_m _ _ _ _ H), <- (tk_n _ _ _ _ H). assumption.
  - rewrite (tk_type _ _ _ _ H). unfold uplo_sel in HS.
    destruct Hu as [->| ->]; cbn in *; apply Z.leb_le in HS; assumption.
Qed.

(* one packed triangular operand read, one dense operand read and written *)
Lemma tr_region2 : forall V nb uplo k bA A pA lda bC C pC ldc (comp : list (ktask V)),
  valid_uplo uplo -> tri_ok A (uplo =? PlasmaUpper) nb k -> dn nb C -> k <= lda -> d_m C <= ldc ->
  NoDup [bA; bC] -> (forall b, In b [fst pA; fst pC] -> ~ In b [bA; bC]) ->
  apart pA lda k k pC ldc (d_m C) (d_n C) ->
  Forall kgood comp ->
  (forall env, In (bA, homeD A (in_tri A)) env -> In (bC, homeD C (in_tiles C)) env ->
     Forall (kdecl (home_env env)) comp) ->
  forall M, region_ensures (pztr2desc pA lda bA A ++ pzge2desc pC ldc bC C ++ comp ++ pzdesc2ge bC C pC ldc) M
    (fun M' => exists M3,
      (forall i j, 0 <= i < k -> 0 <= j < k -> uplo_sel uplo i j = true -> el M3 bA A i j = ul M pA lda i j) /\
      (forall i j, 0 <= i < d_m C -> 0 <= j < d_n C -> el M3 bC C i j = ul M pC ldc i j) /\
      (forall l, ~ In (fst l) [bA; bC] -> M3 l = M l) /\
      (forall i j, 0 <= i < d_m C -> 0 <= j < d_n C -> ul M' pC ldc i j = el (krun comp M3) bC C i j) /\
      (forall l, ~ in_user pC ldc (d_m C) (d_n C) l -> M' l = krun comp M3 l)).
Proof.
  intros V nb uplo k bA A pA lda bC C pC ldc comp Hu HA HC LA LC ND HF AP CG CD M.
  assert (Hb : 0 < nb) by apply (sq_pos nb C _ HC).
  pose proof (std_region V nb [tr_opnd bA A pA lda] (ge_opnd bC C pC ldc) comp) as R.
  cbn [flat_map] in R. rewrite tr_opnd_in, ge_opnd_in, ge_opnd_out, app_nil_r in R.
  eapply region_mono; [|apply R; clear R]; auto.
  - intros M' (M3 & H1 & H2 & H3 & H4). exists M3. split; [|split; [|split; [|split]]].
    + intros i j Hi Hj HS. apply (H1 (tr_opnd bA A pA lda)); [right; left; reflexivity|].
      eapply tr_opnd_el; eauto. apply sel_stored; assumption.
    + intros i j Hi Hj. apply (H1 (ge_opnd bC C pC ldc)); [left; reflexivity|].
      apply (ge_opnd_el nb); assumption.
    + intros l Hl. apply H2. cbn in *. tauto.
    + intros i j Hi Hj. apply H3. apply (ge_opnd_el nb); assumption.
    + intros l Hl. apply H4. apply ge_user_out. assumption.
  - intros o [<-|[<-|[]]]; [apply ge_opnd_ok; assumption|eapply tr_opnd_ok; eauto].
  - cbn. inversion_clear ND as [|? ? N1 N2]. cbn in N1. constructor; [|constructor; [|constructor]]; cbn; intuition.
  - assert (F1 := HF (fst pA)). assert (F2 := HF (fst pC)). cbn in F1, F2.
    intros o [<-|[<-|[]]]; cbn; tauto.
  - intros o [<-|[]] l Hl HU. cbn in Hl. rewrite (tk_m _ _ _ _ HA), (tk_n _ _ _ _ HA) in Hl.
    apply (AP l Hl). eapply ge_opnd_user; eauto.
  - intros env HE. apply CD.
    + apply (HE (tr_opnd bA A pA lda)). right; left; reflexivity.
    + apply (HE (ge_opnd bC C pC ldc)). left; reflexivity.
Qed.

Section Trmm.
  Context {N : numbers}.
  Add Ring num_ring_trmm : (nring N).
  Variables (nb : Z) (A B : desc) (SA : Z -> Z -> Prop) (bA bB side uplo trans diag : Z) (alpha : N).
  Hypotheses (HA : sq nb A SA) (HB : dn nb B).
  Hypothesis Hu : uplo = PlasmaUpper \/ uplo = PlasmaLower.
  Hypothesis AS : d_m A = d_n A.
  Hypothesis AM : d_n A = if lft side then d_m B else d_n B.
  Let K := d_n A.
  Let nt := ntl nb K.
  Let nq := ntl nb (oth B side).
  Hypothesis HSA : forall i j, 0 <= i < nt -> 0 <= j < nt -> uplo_sel uplo i j = true -> SA i j.
  Let Hb : 0 < nb := sq_pos nb B _ HB.
  Let HK : 0 <= K := go_n A (td_shape _ _ (sq_t nb A _ HA)).
  Let HmB : 0 <= d_m B := go_m B (td_shape _ _ (sq_t nb B _ HB)).
  Let HnB : 0 <= d_n B := go_n B (td_shape _ _ (sq_t nb B _ HB)).

  Definition mks (p : Z) : list Z := if tup side uplo trans then zrange (p + 1) nt else zrange 0 p.
  Definition mos : list Z := if tup side uplo trans then zrange 0 nt else zdown nt.

  Definition mtask (p q : Z) : list (ktask N) :=
    ttask A B bA bB side uplo trans diag alpha p q
    :: map (fun k => gtask nb A B bA bB side trans alpha n1 p k q) (mks p).

  Lemma tszA : forall k, 0 <= k < nt -> tile_nview A k = tsz nb K k /\ tile_mview A k = tsz nb K k.
  Proof.
    intros k Hk. assert (S : SA k k).
    { apply HSA; auto. destruct Hu as [->| ->]; unfold uplo_sel; cbn; apply Z.leb_refl. }
    rewrite (sq_mv nb A _ HA _ _ S), (sq_nv nb A _ HA _ _ S), AS. auto.
  Qed.
  Lemma tsz_full : forall k p, 0 <= k < p -> p < nt -> tsz nb K k = nb.
  Proof.
    intros k p Hk Hp. apply ntl_spec in Hp; auto; [|lia]. unfold tsz. nia.
  Qed.
  Lemma mtA : d_mt A = nt.
  Proof. unfold nt, K. rewrite <- AS. apply (mt_aligned_ntl nb A (td_shape _ _ (sq_t nb A _ HA)) (sq_mb nb A _ HA)). Qed.
  Lemma mbB : d_mb B = nb.
  Proof. apply (sq_mb nb B _ HB). Qed.

  Lemma pztrmm_eq : pztrmm side uplo trans diag alpha bA A bB B
    = flat_map (fun p => flat_map (fun q => mtask p q) (zrange 0 nq)) mos.
  Proof.
    assert (TA := tszA). assert (TF := tsz_full). assert (EA := mtA). assert (EB := mbB).
    assert (EM := dn_mt nb B HB). assert (EN := dn_nt nb B HB).
    unfold pztrmm, mtask, mks, mos, ttask, gtask, tup, op_up, vtp, vld, vm, vn, op_tile, op_ld, nq, oth in *.
    fold (lft side). rewrite EM, EN, EA, EB.
    assert (EK : nt = ntl nb (if lft side then d_m B else d_n B)) by (unfold nt, K; rewrite AM; reflexivity).
    change (PlasmaNoTrans =? PlasmaNoTrans) with true. cbv iota.
    assert (ED : (uplo =? PlasmaUpper) = true \/ (uplo =? PlasmaUpper) = false) by (destruct (uplo =? PlasmaUpper); auto).
    assert (ET : (trans =? PlasmaNoTrans) = true \/ (trans =? PlasmaNoTrans) = false) by (destruct (trans =? PlasmaNoTrans); auto).
    assert (EL : lft side = true \/ lft side = false) by (destruct (lft side); auto).
    destruct EL as [EL|EL]; rewrite EL in *; destruct ED as [ED|ED]; rewrite ED; destruct ET as [ET|ET]; rewrite ET;
      cbn [Bool.eqb negb]; rewrite <- EK;
      apply flat_map_ext_in; intros p Hp; (apply in_zrange in Hp || apply in_zdown in Hp);
      apply flat_map_ext_in; intros q Hq; apply in_zrange in Hq;
      apply f_equal; apply map_ext_in; intros k Hk; apply in_zrange in Hk;
      fold K;
      first [ rewrite (TF k p) by lia; reflexivity | destruct (TA k) as [X1 X2]; [lia|]; rewrite ?X1, ?X2; reflexivity ].
  Qed.

  Lemma trmm_forall : forall P : ktask N -> Prop,
    (forall p q, 0 <= p < nt -> 0 <= q < nq -> P (ttask A B bA bB side uplo trans diag alpha p q)) ->
    (forall p k q, 0 <= p < nt -> 0 <= k < nt -> 0 <= q < nq -> gside side uplo trans p k ->
       P (gtask nb A B bA bB side trans alpha n1 p k q)) ->
    Forall P (pztrmm side uplo trans diag alpha bA A bB B).
  Proof.
    intros P H1 H2. rewrite pztrmm_eq. apply Forall_flat_map_intro. intros p Hp.
    assert (Hp' : 0 <= p < nt) by (unfold mos in Hp; apply in_ord' in Hp; assumption).
    apply Forall_flat_map_intro. intros q Hq. apply in_zrange in Hq. constructor; [apply H1; assumption|].
    apply Forall_map, Forall_forall. intros k Hk. unfold mks in Hk.
    apply H2; auto; unfold gside; destruct (tup side uplo trans); apply in_zrange in Hk; lia.
  Qed.

  Lemma pztrmm_kgood : Forall kgood (pztrmm side uplo trans diag alpha bA A bB B).
  Proof.
    apply trmm_forall.
    - intros. apply (ttask_kgood nb A B); auto.
    - intros. apply (gtask_kgood nb A B); auto.
  Qed.

  Lemma pztrmm_kdecl : forall env, In (bA, homeD A SA) env -> In (bB, homeD B (in_tiles B)) env ->
    Forall (kdecl (home_env env)) (pztrmm side uplo trans diag alpha bA A bB B).
  Proof.
    intros env EA EB. apply trmm_forall.
    - intros. apply (ttask_kdecl nb A B SA); auto.
    - intros. apply (gtask_kdecl nb A B SA bA bB side uplo trans); auto.
  Qed.

  Hypothesis NA : bA <> bB.
  Variable M0 : mem N.
  Let T := TT A bA side uplo trans diag M0.

  Lemma pztrmm_at : forall c, 0 <= c < oth B side ->
    let M' := krun (pztrmm side uplo trans diag alpha bA A bB B) M0 in
    (forall l, fst l <> bB -> M' l = M0 l) /\
    (forall r, 0 <= r < K -> elV B bB side M' r c
       = nmul alpha (nsum (fun l => nmul (T r l) (elV B bB side M0 l c)) 0 K)).
  Proof.
    intros c Hc M'.
    assert (Tq : 0 <= c / nb < nq).
    { split; [apply Z.div_pos; lia|]. apply ntl_spec; auto; [unfold oth; destruct (lft side); assumption|apply Z.div_pos; lia|].
      destruct (div_mod_pos c nb Hb). lia. }
    pose (f := fun p q x => if c / nb =? q
      then fold_left (fun x k => vge nb K T p k alpha n1 x) (mks p) (vtr nb K T p alpha x) else x).
    assert (S : sims (vstate A B bB side M0 c)
      (flat_map (fun p => flat_map (fun q => mtask p q) (zrange 0 nq)) mos)
      (fun x => fold_left (fun x p => fold_left (fun x q => f p q x) (zrange 0 nq) x) mos x)).
    { apply (sims_flat_map _ _ _ _ (fun p x => fold_left (fun x q => f p q x) (zrange 0 nq) x)).
      intros p Hp. assert (Hp' : 0 <= p < nt) by (unfold mos in Hp; apply in_ord' in Hp; assumption).
      apply (sims_flat_map _ _ _ _ (fun q x => f p q x)). intros q Hq. apply in_zrange in Hq.
      eapply sims_ext; [|apply sims_cons with (f := fun x => if c / nb =? q then vtr nb K T p alpha x else x);
        [|apply sims_map with (f := fun k x => if c / nb =? q then vge nb K T p k alpha n1 x else x)]].
      - intros x. cbv beta. unfold f. destruct (c / nb =? q); [reflexivity|]. apply fold_left_id. reflexivity.
      - intros M x HV. apply (ttask_step nb A B SA); auto.
      - intros k Hk M x HV.
        assert (HG : 0 <= k < nt /\ gside side uplo trans p k).
        { unfold mks in Hk. unfold gside. destruct (tup side uplo trans); apply in_zrange in Hk; lia. }
        apply (gtask_step nb A B SA bA bB side uplo trans); auto; apply HG. }
    specialize (S M0 (fun r => elV B bB side M0 r c)). cbv beta in S. rewrite <- pztrmm_eq in S.
    destruct S as [S1 S2]; [split; reflexivity|]. fold M' in S1, S2. split; [assumption|].
    intros r Hr. rewrite S2 by assumption.
    assert (E : forall os x, fold_left (fun x p => fold_left (fun x q => f p q x) (zrange 0 nq) x) os x
                = fold_left (fun x p => fold_left (fun x k => vge nb K T p k alpha n1 x) (mks p) (vtr nb K T p alpha x)) os x).
    { intros os x. apply fold_left_ext_in. intros p x' _.
      rewrite (fold_left_only _ _ _ _ (c / nb)); [unfold f; rewrite Z.eqb_refl; reflexivity|apply NoDup_zrange|apply in_zrange; assumption|].
      intros q x'' _ Hne. unfold f. replace (c / nb =? q) with false; [reflexivity|]. symmetry. apply Z.eqb_neq. congruence. }
    rewrite E. unfold mos, mks. assert (TZ : forall l, (if tup side uplo trans then l < r else r < l) -> T r l = n0)
      by (intros; eapply TT_zero; eauto).
    destruct (tup side uplo trans).
    - apply (vmul_up nb K T Hb HK alpha (fun r => elV B bB side M0 r c)); auto.
    - apply (vmul_down nb K T Hb HK alpha (fun r => elV B bB side M0 r c)); auto.
  Qed.
End Trmm.
