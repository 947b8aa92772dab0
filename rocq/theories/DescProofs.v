From Coq Require Import ZArith Lia List Bool.
From Verif Require Import Base DescModel DescSpec.
Import ListNotations.
Open Scope Z_scope.

(* ------------------------------------------------------------------ *)
(* Global address of element (I,J) in an lm x ln general tile matrix   *)

Definition gaddr (mb nb lm ln I J : Z) : Z :=
  let mm := I / mb in
  let nn := J / nb in
  let lm1 := lm / mb in
  let ln1 := ln / nb in
  let A21 := (lm - lm mod mb) * (ln - ln mod nb) in
  let A12 := (lm mod mb) * (ln - ln mod nb) + A21 in
  let A22 := (lm - lm mod mb) * (ln mod nb) + A12 in
  (if mm <? lm1 then
     if nn <? ln1 then mb * nb * (mm + lm1 * nn)
     else A12 + mb * (ln mod nb) * mm
   else
     if nn <? ln1 then A21 + nb * (lm mod mb) * nn
     else A22)
  + I mod mb + (J mod nb) * (if mm <? lm1 then mb else lm mod mb).

(* Decomposition of an index into (tile, offset), relative to a length. *)
Lemma tile_split : forall b l x, 0 < b -> 0 <= x < l ->
  (0 <= x / b < l / b /\ 0 <= x mod b < b) \/
  (x / b = l / b /\ 0 <= x mod b < l mod b).
Proof.
  intros b l x Hb Hx.
  destruct (div_mod_pos x b Hb) as [E1 R1].
  destruct (div_mod_pos l b Hb) as [E2 R2].
  assert (0 <= x / b) by (apply div_range; lia).
  destruct (Z.lt_trichotomy (x / b) (l / b)) as [H1|[H1|H1]].
  - left. lia.
  - right. split; [assumption|]. rewrite H1 in E1. lia.
  - exfalso. nia.
Qed.

Lemma idx_ext : forall b x y, 0 < b -> x / b = y / b -> x mod b = y mod b -> x = y.
Proof.
  intros b x y Hb H1 H2.
  destruct (div_mod_pos x b Hb) as [E1 _].
  destruct (div_mod_pos y b Hb) as [E2 _]. rewrite E1, E2, H1, H2. reflexivity.
Qed.

Lemma sub_mod_mul : forall l b, 0 < b -> l - l mod b = b * (l / b).
Proof. intros l b Hb. destruct (div_mod_pos l b Hb). lia. Qed.

(* the four storage regions as numbers *)
Section Regions.
  Variables mb nb lm ln : Z.
  Hypothesis Hmb : 0 < mb.
  Hypothesis Hnb : 0 < nb.
  Hypothesis Hlm : 0 <= lm.
  Hypothesis Hln : 0 <= ln.
  Let lm1 := lm / mb.
  Let ln1 := ln / nb.
  Let rm := lm mod mb.
  Let rn := ln mod nb.

  Lemma reg_facts : lm = mb * lm1 + rm /\ ln = nb * ln1 + rn /\ 0 <= rm < mb /\ 0 <= rn < nb
    /\ 0 <= lm1 /\ 0 <= ln1.
  Proof.
    destruct (div_mod_pos lm mb Hmb). destruct (div_mod_pos ln nb Hnb).
    assert (0 <= lm1) by (apply div_range; lia).
    assert (0 <= ln1) by (apply div_range; lia).
    unfold lm1, ln1, rm, rn in *. intuition.
  Qed.

  Let S11 := (mb * lm1) * (nb * ln1).
  Let S21 := rm * (nb * ln1).
  Let S12 := (mb * lm1) * rn.
  Let S22 := rm * rn.

  Lemma reg_sizes : S11 + S21 + S12 + S22 = lm * ln.
  Proof.
    destruct reg_facts as (E1 & E2 & _). unfold S11, S21, S12, S22.
    rewrite E1 at 1. rewrite E2 at 1.
    transitivity ((mb * lm1 + rm) * (nb * ln1 + rn)); [ring|]. rewrite <- E1, <- E2. reflexivity.
  Qed.

  Lemma gaddr_11 : forall I J, 0 <= I < lm -> 0 <= J < ln -> I / mb < lm1 -> J / nb < ln1 ->
    gaddr mb nb lm ln I J = I mod mb + mb * (J mod nb + nb * (I / mb + lm1 * (J / nb))).
  Proof.
    intros I J HI HJ H1 H2. unfold gaddr. cbv zeta. fold lm1 ln1.
    apply Z.ltb_lt in H1. apply Z.ltb_lt in H2. rewrite H1, H2. ring.
  Qed.

  Lemma gaddr_21 : forall I J, 0 <= I < lm -> 0 <= J < ln -> I / mb = lm1 -> J / nb < ln1 ->
    gaddr mb nb lm ln I J = S11 + (I mod mb + rm * (J mod nb + nb * (J / nb))).
  Proof.
    intros I J HI HJ H1 H2. unfold gaddr. cbv zeta. fold lm1 ln1.
    rewrite H1, Z.ltb_irrefl. apply Z.ltb_lt in H2. rewrite H2.
    rewrite !sub_mod_mul by assumption. fold lm1 ln1 rm. unfold S11. ring.
  Qed.

  Lemma gaddr_12 : forall I J, 0 <= I < lm -> 0 <= J < ln -> I / mb < lm1 -> J / nb = ln1 ->
    gaddr mb nb lm ln I J = S11 + S21 + (I mod mb + mb * (J mod nb + rn * (I / mb))).
  Proof.
    intros I J HI HJ H1 H2. unfold gaddr. cbv zeta. fold lm1 ln1.
    rewrite H2, Z.ltb_irrefl. apply Z.ltb_lt in H1. rewrite H1.
    rewrite !sub_mod_mul by assumption. fold lm1 ln1 rm rn. unfold S11, S21. ring.
  Qed.

  Lemma gaddr_22 : forall I J, 0 <= I < lm -> 0 <= J < ln -> I / mb = lm1 -> J / nb = ln1 ->
    gaddr mb nb lm ln I J = S11 + S21 + S12 + (I mod mb + rm * (J mod nb)).
  Proof.
    intros I J HI HJ H1 H2. unfold gaddr. cbv zeta. fold lm1 ln1.
    rewrite H1, H2, !Z.ltb_irrefl.
    rewrite !sub_mod_mul by assumption. fold lm1 ln1 rm rn. unfold S11, S21, S12. ring.
  Qed.

  Lemma gaddr_region : forall I J, 0 <= I < lm -> 0 <= J < ln ->
    (I / mb < lm1 /\ J / nb < ln1 /\ 0 <= gaddr mb nb lm ln I J < S11) \/
    (I / mb = lm1 /\ J / nb < ln1 /\ S11 <= gaddr mb nb lm ln I J < S11 + S21) \/
    (I / mb < lm1 /\ J / nb = ln1 /\
       S11 + S21 <= gaddr mb nb lm ln I J < S11 + S21 + S12) \/
    (I / mb = lm1 /\ J / nb = ln1 /\
       S11 + S21 + S12 <= gaddr mb nb lm ln I J < S11 + S21 + S12 + S22).
  Proof.
    intros I J HI HJ.
    destruct reg_facts as (E1 & E2 & Rm & Rn & P1 & P2).
    destruct (tile_split mb lm I Hmb HI) as [[A1 A2]|[A1 A2]];
    destruct (tile_split nb ln J Hnb HJ) as [[B1 B2]|[B1 B2]];
    fold lm1 in A1; fold ln1 in B1.
    - left. rewrite gaddr_11 by (auto; lia). repeat split; try lia;
      assert (Q: 0 <= I / mb + lm1 * (J / nb) < lm1 * ln1) by (apply radix_bound; lia);
      assert (Q2 := radix_bound nb _ _ _ B2 Q);
      assert (Q3 := radix_bound mb _ _ _ A2 Q2); unfold S11; nia.
    - right. right. left. rewrite gaddr_12 by (auto; lia).
      assert (Q: 0 <= J mod nb + rn * (I / mb) < rn * lm1) by (apply radix_bound; auto).
      assert (Q3 := radix_bound mb _ _ _ A2 Q). repeat split; try lia; unfold S12; nia.
    - right. left. rewrite gaddr_21 by (auto; lia).
      assert (Q: 0 <= J mod nb + nb * (J / nb) < nb * ln1) by (apply radix_bound; auto).
      assert (Q3 := radix_bound rm _ _ _ A2 Q). repeat split; try lia; unfold S21; nia.
    - right. right. right. rewrite gaddr_22 by (auto; lia).
      assert (Q3 := radix_bound rm _ _ _ A2 B2). fold rn in Q3.
      repeat split; try lia; unfold S22; nia.
  Qed.

  Lemma gaddr_bound : forall I J, 0 <= I < lm -> 0 <= J < ln ->
    0 <= gaddr mb nb lm ln I J < lm * ln.
  Proof.
    intros I J HI HJ. rewrite <- reg_sizes.
    destruct reg_facts as (E1 & E2 & Rm & Rn & P1 & P2).
    assert (0 <= S11) by (unfold S11; nia). assert (0 <= S21) by (unfold S21; nia).
    assert (0 <= S12) by (unfold S12; nia). assert (0 <= S22) by (unfold S22; nia).
    destruct (gaddr_region I J HI HJ) as [HH|[HH|[HH|HH]]]; lia.
  Qed.

  Lemma gaddr_inj : forall I J I' J', 0 <= I < lm -> 0 <= J < ln -> 0 <= I' < lm -> 0 <= J' < ln ->
    gaddr mb nb lm ln I J = gaddr mb nb lm ln I' J' -> I = I' /\ J = J'.
  Proof.
    intros I J I' J' HI HJ HI' HJ' E.
    destruct reg_facts as (E1 & E2 & Rm & Rn & P1 & P2).
    assert (Z11 : 0 <= S11) by (unfold S11; nia). assert (0 <= S21) by (unfold S21; nia).
    assert (0 <= S12) by (unfold S12; nia). assert (0 <= S22) by (unfold S22; nia).
    pose proof (gaddr_region I J HI HJ) as G. pose proof (gaddr_region I' J' HI' HJ') as G'.
    pose proof (tile_split mb lm I Hmb HI) as T1. pose proof (tile_split nb ln J Hnb HJ) as T2.
    pose proof (tile_split mb lm I' Hmb HI') as T1'. pose proof (tile_split nb ln J' Hnb HJ') as T2'.
    fold lm1 rm in T1, T1'. fold ln1 rn in T2, T2'.
    destruct G as [(G1&G2&G3)|[(G1&G2&G3)|[(G1&G2&G3)|(G1&G2&G3)]]];
    destruct G' as [(F1&F2&F3)|[(F1&F2&F3)|[(F1&F2&F3)|(F1&F2&F3)]]]; try (exfalso; lia).
    - rewrite !gaddr_11 in E by auto.
      apply radix_inj in E; [|lia|lia]. destruct E as [Ea E].
      apply radix_inj in E; [|lia|lia]. destruct E as [Eb E].
      apply radix_inj in E; [|lia|lia]. destruct E as [Ec Ed].
      split; [eapply idx_ext with mb|eapply idx_ext with nb]; auto.
    - rewrite !gaddr_21 in E by auto. apply Z.add_reg_l in E.
      apply radix_inj in E; [|lia|lia]. destruct E as [Ea E].
      apply radix_inj in E; [|lia|lia]. destruct E as [Eb E].
      split; [eapply idx_ext with mb|eapply idx_ext with nb]; auto; lia.
    - rewrite !gaddr_12 in E by auto. apply Z.add_reg_l in E.
      apply radix_inj in E; [|lia|lia]. destruct E as [Ea E].
      apply radix_inj in E; [|lia|lia]. destruct E as [Eb E].
      split; [eapply idx_ext with mb|eapply idx_ext with nb]; auto; lia.
    - rewrite !gaddr_22 in E by auto. apply Z.add_reg_l in E.
      apply radix_inj in E; [|lia|lia]. destruct E as [Ea E].
      split; [eapply idx_ext with mb|eapply idx_ext with nb]; auto; lia.
  Qed.

  Lemma mk_index : forall b l q r, 0 < b -> 0 <= r < b -> 0 <= q ->
    (q < l / b \/ (q = l / b /\ r < l mod b)) -> 
    0 <= b * q + r < l /\ (b * q + r) / b = q /\ (b * q + r) mod b = r.
  Proof.
    intros b l q r Hb Hr Hq Hc.
    destruct (div_mod_pos l b Hb) as [El Rl].
    repeat split.
    - nia.
    - destruct Hc as [Hc|[Hc Hc2]]; nia.
    - apply div_eq with r; lia.
    - apply mod_eq with q; lia.
  Qed.

  Lemma radix_ex : forall p q a, 0 < p -> 0 <= a < p * q ->
    0 <= a mod p < p /\ 0 <= a / p < q /\ a = a mod p + p * (a / p).
  Proof.
    intros p q a Hp Ha. destruct (div_mod_pos a p Hp) as [E R].
    assert (0 <= a / p) by (apply div_range; lia).
    repeat split; try lia. nia.
  Qed.

  Lemma gaddr_surj : forall a, 0 <= a < lm * ln ->
    exists I J, 0 <= I < lm /\ 0 <= J < ln /\ gaddr mb nb lm ln I J = a.
  Proof.
    intros a Ha. rewrite <- reg_sizes in Ha.
    destruct reg_facts as (E1 & E2 & Rm & Rn & P1 & P2).
    destruct (Z_lt_ge_dec a S11) as [C|C].
    { destruct (radix_ex mb (lm1 * (nb * ln1)) a) as (A1 & A2 & A3); [lia|unfold S11 in C; nia|].
      set (a2 := a / mb) in *.
      destruct (radix_ex nb (lm1 * ln1) a2) as (B1 & B2 & B3); [lia|nia|].
      set (a3 := a2 / nb) in *.
      assert (0 < lm1) by nia.
      destruct (radix_ex lm1 ln1 a3) as (C1 & C2 & C3); [lia|nia|].
      exists (mb * (a3 mod lm1) + a mod mb), (nb * (a3 / lm1) + a2 mod nb).
      destruct (mk_index mb lm (a3 mod lm1) (a mod mb)) as (X1&X2&X3); try lia.
      destruct (mk_index nb ln (a3 / lm1) (a2 mod nb)) as (Y1&Y2&Y3); try lia.
      split; [exact X1|]. split; [exact Y1|].
      rewrite gaddr_11 by lia. rewrite X2, X3, Y2, Y3. rewrite <- C3, <- B3, <- A3. reflexivity. }
    destruct (Z_lt_ge_dec a (S11 + S21)) as [C2|C2].
    { set (b := a - S11). assert (Hb : 0 <= b < rm * (nb * ln1)) by (unfold b, S21 in *; lia).
      assert (0 < rm) by nia.
      destruct (radix_ex rm (nb * ln1) b) as (A1 & A2 & A3); [lia|lia|].
      destruct (radix_ex nb ln1 (b / rm)) as (B1 & B2 & B3); [lia|lia|].
      exists (mb * lm1 + b mod rm), (nb * (b / rm / nb) + (b / rm) mod nb).
      destruct (mk_index mb lm lm1 (b mod rm)) as (X1&X2&X3); try lia.
      destruct (mk_index nb ln (b / rm / nb) ((b / rm) mod nb)) as (Y1&Y2&Y3); try lia.
      split; [exact X1|]. split; [exact Y1|].
      rewrite gaddr_21 by lia. rewrite X3, Y2, Y3. rewrite <- B3, <- A3. unfold b. lia. }
    destruct (Z_lt_ge_dec a (S11 + S21 + S12)) as [C3|C3].
    { set (b := a - S11 - S21). assert (Hb : 0 <= b < mb * (rn * lm1)) by (unfold b, S12 in *; nia).
      destruct (radix_ex mb (rn * lm1) b) as (A1 & A2 & A3); [lia|lia|].
      assert (0 < rn) by nia.
      destruct (radix_ex rn lm1 (b / mb)) as (B1 & B2 & B3); [lia|lia|].
      exists (mb * (b / mb / rn) + b mod mb), (nb * ln1 + (b / mb) mod rn).
      destruct (mk_index mb lm (b / mb / rn) (b mod mb)) as (X1&X2&X3); try lia.
      destruct (mk_index nb ln ln1 ((b / mb) mod rn)) as (Y1&Y2&Y3); try lia.
      split; [exact X1|]. split; [exact Y1|].
      rewrite gaddr_12 by lia. rewrite X2, X3, Y3. rewrite <- B3, <- A3. unfold b. lia. }
    { set (b := a - S11 - S21 - S12). assert (Hb : 0 <= b < rm * rn) by (unfold b, S22 in *; lia).
      assert (0 < rm) by nia.
      destruct (radix_ex rm rn b) as (A1 & A2 & A3); [lia|lia|].
      exists (mb * lm1 + b mod rm), (nb * ln1 + b / rm).
      destruct (mk_index mb lm lm1 (b mod rm)) as (X1&X2&X3); try lia.
      destruct (mk_index nb ln ln1 (b / rm)) as (Y1&Y2&Y3); try lia.
      split; [exact X1|]. split; [exact Y1|].
      rewrite gaddr_22 by lia. rewrite X3, Y3. rewrite <- A3. unfold b. lia. }
  Qed.
End Regions.

(* ------------------------------------------------------------------ *)
(* General descriptors                                                  *)

(* The size fields of a descriptor are consistent and its submatrix is tile-aligned and
   inside the matrix: the invariant of every descriptor the library builds. In band storage
   gm is the number of stored rows. *)
Record shape_ok (A : desc) : Prop := {
  go_mb : 0 < d_mb A; go_nb : 0 < d_nb A;
  go_gm : 0 <= d_gm A; go_gn : 0 <= d_gn A;
  go_i : 0 <= d_i A; go_j : 0 <= d_j A; go_m : 0 <= d_m A; go_n : 0 <= d_n A;
  go_imb : d_type A <> PlasmaGeneralBand -> d_i A + d_m A <= d_gm A; go_jn : d_j A + d_n A <= d_gn A;
  go_ia : d_i A mod d_mb A = 0; go_ja : d_j A mod d_nb A = 0;
  go_mt : d_mt A = if d_m A =? 0 then 0 else (d_i A + d_m A - 1) / d_mb A - d_i A / d_mb A + 1;
  go_nt : d_nt A = if d_n A =? 0 then 0 else (d_j A + d_n A - 1) / d_nb A - d_j A / d_nb A + 1 }.

(* In addition the offsets are those of general_init. *)
Record gen_ok (A : desc) : Prop := {
  gk_shape : shape_ok A;
  gk_type : d_type A = PlasmaGeneral;
  gk_oBL : d_A21 A = (d_gm A - d_gm A mod d_mb A) * (d_gn A - d_gn A mod d_nb A);
  gk_oTR : d_A12 A = (d_gm A mod d_mb A) * (d_gn A - d_gn A mod d_nb A) + d_A21 A;
  gk_oBR : d_A22 A = (d_gm A - d_gm A mod d_mb A) * (d_gn A mod d_nb A) + d_A12 A }.

Lemma go_im : forall A, gen_ok A -> d_i A + d_m A <= d_gm A.
Proof. intros A G. apply (go_imb A (gk_shape A G)). rewrite (gk_type A G). discriminate. Qed.

Lemma elem_off_gaddr : forall A i j, gen_ok A ->
  elem_off A i j = gaddr (d_mb A) (d_nb A) (d_gm A) (d_gn A) (d_i A + i) (d_j A + j).
Proof.
  intros A i j H. destruct H. destruct gk_shape0.
  unfold elem_off, tile_addr, tile_addr_opt, tile_mmain. rewrite gk_type0.
  change (PlasmaGeneral =? PlasmaGeneral) with true.
  change (PlasmaGeneral =? PlasmaGeneralBand) with false. cbv iota.
  unfold tile_addr_general, gaddr. cbv zeta.
  rewrite !div_add_aligned, !mod_add_aligned by assumption.
  rewrite gk_oBR0, gk_oTR0, gk_oBL0.
  rewrite (Z.add_comm (i / d_mb A)), (Z.add_comm (j / d_nb A)). reflexivity.
Qed.

Lemma general_check_ok : forall A, d_type A = PlasmaGeneral -> desc_check A = PlasmaSuccess ->
  valid_precision (d_prec A) = true /\
  0 < d_mb A /\ 0 < d_nb A /\ 0 <= d_m A /\ 0 <= d_n A /\ d_m A <= d_gm A /\ d_n A <= d_gn A /\
  d_i A + d_m A <= d_gm A /\ d_j A + d_n A <= d_gn A /\
  d_i A mod d_mb A = 0 /\ d_j A mod d_nb A = 0 /\
  (0 < d_i A -> d_i A < d_gm A) /\ (0 < d_j A -> d_j A < d_gn A).
Proof.
  intros A Ht. unfold desc_check, general_check. rewrite Ht.
  change (PlasmaGeneral =? PlasmaGeneral) with true. cbn [orb].
  destruct (valid_precision (d_prec A)); cbn [negb]; [|discriminate].
  destruct ((d_mb A <=? 0) || (d_nb A <=? 0)) eqn:E1; [discriminate|].
  destruct ((d_m A <? 0) || (d_n A <? 0)) eqn:E2; [discriminate|].
  destruct ((d_gm A <? d_m A) || (d_gn A <? d_n A)) eqn:E3; [discriminate|].
  destruct (((0 <? d_i A) && (d_gm A <=? d_i A)) || ((0 <? d_j A) && (d_gn A <=? d_j A))) eqn:E4;
    [discriminate|].
  destruct ((d_gm A <? d_i A + d_m A) || (d_gn A <? d_j A + d_n A)) eqn:E5; [discriminate|].
  destruct (negb (d_i A mod d_mb A =? 0) || negb (d_j A mod d_nb A =? 0)) eqn:E6; [discriminate|].
  intros _. 
  rewrite !orb_false_iff, ?andb_false_iff, ?negb_false_iff, ?Z.eqb_eq, ?Z.leb_gt, ?Z.ltb_ge in *.
  intuition lia.
Qed.

Lemma general_create_ok : forall prec mb nb lm ln i j m n A size,
  0 <= i -> 0 <= j ->
  general_create prec mb nb lm ln i j m n = CrOk A size ->
  gen_ok A /\ A = general_init prec mb nb lm ln i j m n /\ size = lm * ln.
Proof.
  intros prec mb nb lm ln i j m n A size Hi Hj. unfold general_create. cbv zeta.
  destruct (desc_check _ =? PlasmaSuccess) eqn:E; [|discriminate].
  intros H. injection H as HA Hs. apply Z.eqb_eq in E.
  apply general_check_ok in E; [|reflexivity].
  rewrite HA in E. 
  destruct E as (E0&E1&E2&E3&E4&E5&E6&E7&E8&E9&E10&E11&E12).
  assert (size = lm * ln) by (rewrite <- Hs; reflexivity).
  subst A. cbn in E0,E1,E2,E3,E4,E5,E6,E7,E8,E9,E10,E11,E12.
  split; [|auto].
  repeat (constructor; cbn; auto); lia.
Qed.

Lemma gen_ok_bound : forall A i j, gen_ok A -> 0 <= i < d_m A -> 0 <= j < d_n A ->
  0 <= elem_off A i j < d_gm A * d_gn A.
Proof.
  intros A i j H Hi Hj. rewrite elem_off_gaddr by assumption. pose proof (go_im A H). destruct H. destruct gk_shape0.
  apply gaddr_bound; lia.
Qed.

Lemma gen_ok_inj : forall A i j i' j', gen_ok A ->
  0 <= i < d_m A -> 0 <= j < d_n A -> 0 <= i' < d_m A -> 0 <= j' < d_n A ->
  elem_off A i j = elem_off A i' j' -> i = i' /\ j = j'.
Proof.
  intros A i j i' j' H Hi Hj Hi' Hj'. rewrite !elem_off_gaddr by assumption. pose proof (go_im A H). destruct H. destruct gk_shape0.
  intro E. apply gaddr_inj in E; try lia.
Qed.

(* ------------------------------------------------------------------ *)
(* tile counts and sizes                                                 *)

Lemma mt_aligned : forall A, shape_ok A ->
  d_mt A = if d_m A =? 0 then 0 else (d_m A - 1) / d_mb A + 1.
Proof.
  intros A H. destruct H. rewrite go_mt0. destruct (d_m A =? 0); [reflexivity|].
  replace (d_i A + d_m A - 1) with (d_i A + (d_m A - 1)) by lia.
  rewrite div_add_aligned by assumption. lia.
Qed.

Lemma nt_aligned : forall A, shape_ok A ->
  d_nt A = if d_n A =? 0 then 0 else (d_n A - 1) / d_nb A + 1.
Proof.
  intros A H. destruct H. rewrite go_nt0. destruct (d_n A =? 0); [reflexivity|].
  replace (d_j A + d_n A - 1) with (d_j A + (d_n A - 1)) by lia.
  rewrite div_add_aligned by assumption. lia.
Qed.

(* number of tiles and last tile, abstractly *)
Lemma tiles_bracket : forall b l t, 0 < b -> 0 <= l ->
  t = (if l =? 0 then 0 else (l - 1) / b + 1) ->
  0 <= t /\ (l = 0 -> t = 0) /\ (0 < l -> 0 < t /\ (t - 1) * b < l <= t * b).
Proof.
  intros b l t Hb Hl ->. destruct (Z.eqb_spec l 0).
  - lia.
  - destruct (div_mod_pos (l - 1) b Hb) as [E R].
    assert (0 <= (l - 1) / b) by (apply div_range; lia). 
    repeat split; try lia; nia.
Qed.

Lemma last_tile : forall b l t, 0 < b -> 0 < l -> (t - 1) * b < l <= t * b ->
  (if l mod b =? 0 then b else l mod b) = l - (t - 1) * b.
Proof.
  intros b l t Hb Hl Ht.
  destruct (div_mod_pos l b Hb) as [E R].
  destruct (Z.eqb_spec (l mod b) 0).
  - assert (l / b = t) by nia. nia.
  - assert (l / b = t - 1) by nia. nia.
Qed.

Lemma mview_spec : forall A k, shape_ok A -> 0 <= k < d_mt A ->
  tile_mview A k = Z.min (d_mb A) (d_m A - k * d_mb A) /\ 0 < tile_mview A k <= d_mb A.
Proof.
  intros A k H Hk. pose proof (mt_aligned A H) as Hmt. destruct H.
  destruct (tiles_bracket (d_mb A) (d_m A) (d_mt A)) as (T1&T2&T3); auto.
  assert (0 < d_m A) by lia. destruct (T3 H) as [T4 T5].
  unfold tile_mview. rewrite !mod_add_aligned by assumption.
  destruct (Z.ltb_spec k (d_mt A - 1)).
  - split; [|lia]. rewrite Z.min_l; [reflexivity|nia].
  - assert (k = d_mt A - 1) by lia. subst k.
    rewrite (last_tile (d_mb A) (d_m A) (d_mt A)) by auto.
    split; [|nia]. rewrite Z.min_r; nia.
Qed.

Lemma nview_spec : forall A k, shape_ok A -> 0 <= k < d_nt A ->
  tile_nview A k = Z.min (d_nb A) (d_n A - k * d_nb A) /\ 0 < tile_nview A k <= d_nb A.
Proof.
  intros A k H Hk. pose proof (nt_aligned A H) as Hnt. destruct H.
  destruct (tiles_bracket (d_nb A) (d_n A) (d_nt A)) as (T1&T2&T3); auto.
  assert (0 < d_n A) by lia. destruct (T3 H) as [T4 T5].
  unfold tile_nview. rewrite !mod_add_aligned by assumption.
  destruct (Z.ltb_spec k (d_nt A - 1)).
  - split; [|lia]. rewrite Z.min_l; [reflexivity|nia].
  - assert (k = d_nt A - 1) by lia. subst k.
    rewrite (last_tile (d_nb A) (d_n A) (d_nt A)) by auto.
    split; [|nia]. rewrite Z.min_r; nia.
Qed.

Lemma mmain_ge_mview : forall A k, shape_ok A -> d_type A <> PlasmaGeneralBand -> 0 <= k < d_mt A ->
  tile_mview A k <= tile_mmain A k <= d_mb A.
Proof.
  intros A k H Ht Hk. destruct (mview_spec A k H Hk) as [E R]. rewrite E in *. clear E.
  destruct H. unfold tile_mmain. apply Z.eqb_neq in Ht. rewrite Ht.
  destruct (div_mod_pos (d_gm A) (d_mb A) go_mb0) as [Eg Rg].
  destruct (div_mod_pos (d_i A) (d_mb A) go_mb0) as [Ei _]. rewrite go_ia0 in Ei.
  destruct (Z.ltb_spec (d_i A / d_mb A + k) (d_gm A / d_mb A)).
  - lia.
  - split; [|lia].
    assert (d_m A - k * d_mb A <= d_gm A mod d_mb A); [|lia].
    nia.
Qed.

Lemma nmain_ge_nview : forall A k, shape_ok A -> 0 <= k < d_nt A ->
  tile_nview A k <= tile_nmain A k <= d_nb A.
Proof.
  intros A k H Hk. destruct (nview_spec A k H Hk) as [E R]. rewrite E in *. clear E.
  destruct H. unfold tile_nmain.
  destruct (div_mod_pos (d_gn A) (d_nb A) go_nb0) as [Eg Rg].
  destruct (div_mod_pos (d_j A) (d_nb A) go_nb0) as [Ei _]. rewrite go_ja0 in Ei.
  destruct (Z.ltb_spec (d_j A / d_nb A + k) (d_gn A / d_nb A)).
  - lia.
  - split; [|lia].
    assert (d_n A - k * d_nb A <= d_gn A mod d_nb A); [|lia].
    nia.
Qed.

(* sums of tile sizes *)
Lemma fold_add_acc : forall l a, fold_left Z.add l a = a + fold_left Z.add l 0.
Proof.
  induction l as [|x l IH]; intros a; cbn [fold_left].
  - lia.
  - rewrite IH, (IH (0 + x)). lia.
Qed.

Lemma zsum_0 : forall f k, k <= 0 -> zsum f k = 0.
Proof. intros. unfold zsum. rewrite zrange_nil by lia. reflexivity. Qed.

Lemma zsum_succ : forall f k, 0 <= k -> zsum f (k + 1) = zsum f k + f k.
Proof.
  intros. unfold zsum. rewrite zrange_snoc by lia. rewrite map_app, fold_left_app.
  reflexivity.
Qed.

Lemma zsum_tiles : forall b l t f, 0 < b -> 0 <= l ->
  t = (if l =? 0 then 0 else (l - 1) / b + 1) ->
  (forall k, 0 <= k < t -> f k = Z.min b (l - k * b)) ->
  zsum f t = l.
Proof.
  intros b l t f Hb Hl Ht Hf.
  destruct (tiles_bracket b l t Hb Hl Ht) as (T1&T2&T3).
  assert (Aux : forall k, k <= t -> 0 <= k -> zsum f k = Z.min l (k * b)).
  { apply (zrange_ind_hi (fun k => k <= t -> 0 <= k -> zsum f k = Z.min l (k * b)) 0).
    - intros hi H1 H2 H3. rewrite zsum_0 by lia. assert (hi = 0) by lia. subst. lia.
    - intros hi H1 IH H2 H3. rewrite zsum_succ by lia. rewrite IH by lia.
      rewrite Hf by lia. assert (0 < l) by lia. specialize (T3 H). nia. }
  rewrite Aux by lia. destruct (Z.eq_dec l 0); [lia|]. assert (0 < l) by lia. specialize (T3 H). lia.
Qed.

Lemma mview_sum : forall A, shape_ok A -> zsum (tile_mview A) (d_mt A) = d_m A.
Proof.
  intros A H. apply (zsum_tiles (d_mb A)).
  - apply (go_mb A H).
  - apply (go_m A H).
  - apply mt_aligned; assumption.
  - intros. apply mview_spec; assumption.
Qed.

Lemma nview_sum : forall A, shape_ok A -> zsum (tile_nview A) (d_nt A) = d_n A.
Proof.
  intros A H. apply (zsum_tiles (d_nb A)).
  - apply (go_nb A H).
  - apply (go_n A H).
  - apply nt_aligned; assumption.
  - intros. apply nview_spec; assumption.
Qed.

(* each row lies in exactly one tile, at the position used by elem_off *)
Lemma row_tile : forall A r, shape_ok A -> 0 <= r < d_m A ->
  0 <= r / d_mb A < d_mt A /\ 0 <= r mod d_mb A < tile_mview A (r / d_mb A).
Proof.
  intros A r H Hr. pose proof (mt_aligned A H) as Hmt.
  assert (Hb := go_mb A H).
  destruct (tiles_bracket (d_mb A) (d_m A) (d_mt A)) as (T1&T2&T3); auto; [lia|].
  destruct (T3 ltac:(lia)) as [T4 T5].
  destruct (div_mod_pos r (d_mb A) Hb) as [E R].
  assert (0 <= r / d_mb A) by (apply div_range; lia).
  assert (r / d_mb A < d_mt A) by nia.
  split; [lia|]. destruct (mview_spec A (r / d_mb A) H) as [E2 _]; [lia|]. rewrite E2. lia.
Qed.

Lemma col_tile : forall A c, shape_ok A -> 0 <= c < d_n A ->
  0 <= c / d_nb A < d_nt A /\ 0 <= c mod d_nb A < tile_nview A (c / d_nb A).
Proof.
  intros A r H Hr. pose proof (nt_aligned A H) as Hmt.
  assert (Hb := go_nb A H).
  destruct (tiles_bracket (d_nb A) (d_n A) (d_nt A)) as (T1&T2&T3); auto; [lia|].
  destruct (T3 ltac:(lia)) as [T4 T5].
  destruct (div_mod_pos r (d_nb A) Hb) as [E R].
  assert (0 <= r / d_nb A) by (apply div_range; lia).
  assert (r / d_nb A < d_nt A) by nia.
  split; [lia|]. destruct (nview_spec A (r / d_nb A) H) as [E2 _]; [lia|]. rewrite E2. lia.
Qed.

Lemma tile_row : forall A k r, shape_ok A -> 0 <= k < d_mt A -> 0 <= r < tile_mview A k ->
  0 <= k * d_mb A + r < d_m A /\ (k * d_mb A + r) / d_mb A = k /\ (k * d_mb A + r) mod d_mb A = r.
Proof.
  intros A k r H Hk Hr. destruct (mview_spec A k H Hk) as [E R].
  assert (Hb := go_mb A H). rewrite E in *. repeat split; try nia.
  - apply div_eq with r; lia.
  - apply mod_eq with k; lia.
Qed.

Lemma tile_col : forall A k c, shape_ok A -> 0 <= k < d_nt A -> 0 <= c < tile_nview A k ->
  0 <= k * d_nb A + c < d_n A /\ (k * d_nb A + c) / d_nb A = k /\ (k * d_nb A + c) mod d_nb A = c.
Proof.
  intros A k r H Hk Hr. destruct (nview_spec A k H Hk) as [E R].
  assert (Hb := go_nb A H). rewrite E in *. repeat split; try nia.
  - apply div_eq with r; lia.
  - apply mod_eq with k; lia.
Qed.

(* element address from tile coordinates *)
Lemma elem_off_tile : forall A k l r c, shape_ok A ->
  0 <= k < d_mt A -> 0 <= l < d_nt A -> 0 <= r < tile_mview A k -> 0 <= c < tile_nview A l ->
  elem_off A (k * d_mb A + r) (l * d_nb A + c) = tile_addr A k l + r + c * tile_mmain A k.
Proof.
  intros A k l r c H Hk Hl Hr Hc.
  destruct (tile_row A k r H Hk Hr) as (_&E1&E2).
  destruct (tile_col A l c H Hl Hc) as (_&E3&E4).
  unfold elem_off. rewrite E1, E2, E3, E4. reflexivity.
Qed.

(* ------------------------------------------------------------------ *)
(* views                                                                 *)

Lemma view_ok : forall A i j m n B, gen_ok A -> 0 <= i -> 0 <= j -> 0 <= m -> 0 <= n ->
  i mod d_mb A = 0 -> j mod d_nb A = 0 ->
  desc_view_opt A i j m n = Some B ->
  gen_ok B /\ d_m B = m /\ d_n B = n /\ d_mb B = d_mb A /\ d_nb B = d_nb A /\
  d_gm B = d_gm A /\ d_gn B = d_gn A /\ d_prec B = d_prec A /\
  (forall r c, elem_off B r c = elem_off A (i + r) (j + c)).
Proof.
  intros A i j m n B H Hi Hj Hm Hn Ai Aj. unfold desc_view_opt.
  destruct (Z.ltb_spec (d_gm A) (d_i A + i + m)); [discriminate|].
  destruct (Z.ltb_spec (d_gn A) (d_j A + j + n)); [discriminate|].
  intro E. injection E as E.
  assert (GB : gen_ok B).
  { destruct H. destruct gk_shape0. rewrite <- E. repeat (constructor; cbn; auto); try lia.
    - rewrite mod_add_aligned; auto.
    - rewrite mod_add_aligned; auto. }
  split; [exact GB|]. 
  repeat split; try (rewrite <- E; reflexivity).
  intros r c. rewrite !elem_off_gaddr by assumption. rewrite <- E. cbn [d_mb d_nb d_gm d_gn d_i d_j].
  f_equal; lia.
Qed.
