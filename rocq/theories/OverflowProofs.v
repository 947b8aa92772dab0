(* Address arithmetic in 32-bit int and 64-bit size_t. *)
From Coq Require Import ZArith List Bool Lia.
From Verif Require Import Base DescModel DescSpec DescProofs DescPackProofs OverflowModel.
Open Scope Z_scope.

Lemma checked_in : forall z, - 2 ^ 31 <= z < 2 ^ 31 -> checked z = Some z.
Proof.
  intros z H. unfold checked. replace (- 2 ^ 31 <=? z) with true by (symmetry; apply Z.leb_le; lia).
  replace (z <? 2 ^ 31) with true by (symmetry; apply Z.ltb_lt; lia). reflexivity.
Qed.
Lemma checked_out : forall z, 2 ^ 31 <= z -> checked z = None.
Proof.
  intros z H. unfold checked. replace (z <? 2 ^ 31) with false by (symmetry; apply Z.ltb_ge; lia).
  rewrite andb_false_r. reflexivity.
Qed.
Lemma csize_id : forall z, 0 <= z < 2 ^ 64 -> csize z = z.
Proof. intros z H. unfold csize. apply Z.mod_small. exact H. Qed.
Lemma elt_pos : forall p, 4 <= element_size p <= 16.
Proof.
  intros p. unfold element_size. destruct (p =? PlasmaRealFloat); [lia|]. destruct (p =? PlasmaRealDouble); [lia|].
  destruct (p =? PlasmaComplexFloat); lia.
Qed.

Ltac ck := rewrite checked_in by lia; cbn [obind].
Ltac cs := rewrite csize_id by lia.

Lemma div_mod_facts : forall l b, 0 < b -> 0 <= l < 2 ^ 31 ->
  l = b * (l / b) + l mod b /\ 0 <= l mod b < b /\ 0 <= l / b <= l /\ 0 <= b * (l / b) <= l.
Proof.
  intros l b Hb Hl. pose proof (Z.div_mod l b ltac:(lia)). pose proof (Z.mod_pos_bound l b Hb).
  pose proof (Z.div_pos l b ltac:(lia) Hb). nia.
Qed.

Lemma tiles_int : forall i m b l, 0 < b -> 0 <= i -> 0 <= m -> i + m <= l -> l < 2 ^ 31 ->
  (if m =? 0 then Some 0 else im <- checked (i + m);; im1 <- checked (im - 1);; d <- checked (im1 / b - i / b);; checked (d + 1))
  = Some (if m =? 0 then 0 else (i + m - 1) / b - i / b + 1).
Proof.
  intros i m b l Hb Hi Hm Hl HL. destruct (Z.eqb_spec m 0) as [|N]; [reflexivity|].
  destruct (div_mod_facts (i + m - 1) b Hb ltac:(lia)) as (_ & _ & D1 & _).
  destruct (div_mod_facts i b Hb ltac:(lia)) as (_ & _ & D2 & _).
  ck. ck. pose proof (Z.div_le_mono i (i + m - 1) b Hb ltac:(lia)). ck. apply checked_in. lia.
Qed.

Lemma gt_int : forall l b, 0 < b -> 0 <= l < 2 ^ 31 ->
  (if l mod b =? 0 then Some (l / b) else checked (l / b + 1)) = Some (if l mod b =? 0 then l / b else l / b + 1).
Proof.
  intros l b Hb Hl. destruct (Z.eqb_spec (l mod b) 0) as [|N]; [reflexivity|]. apply checked_in.
  destruct (div_mod_facts l b Hb Hl) as (E & R & D & _). nia.
Qed.

Lemma addr_main : forall b mm l nn e S, 0 < b < 2 ^ 31 -> 0 <= mm < 2 ^ 31 -> 0 <= l < 2 ^ 31 -> 0 <= nn < 2 ^ 31 ->
  b * (mm + l * nn) < S -> S * e < 2 ^ 64 -> 4 <= e <= 16 ->
  csize (csize (csize b * csize (csize mm + csize (csize l * csize nn))) * e) = b * (mm + l * nn) * e.
Proof.
  intros b mm l nn e S Hb Hm Hl Hn H1 H2 He. assert (0 <= l * nn) by (apply Z.mul_nonneg_nonneg; lia).
  assert (L : l * nn < 2 ^ 31 * 2 ^ 31) by (apply Z.mul_lt_mono_nonneg; lia).
  rewrite (csize_id mm), (csize_id l), (csize_id nn), (csize_id b) by lia.
  rewrite (csize_id (l * nn)) by lia. rewrite (csize_id (mm + l * nn)) by lia.
  remember (mm + l * nn) as x. assert (0 <= b * x) by (apply Z.mul_nonneg_nonneg; lia).
  remember (b * x) as y. assert (y * e < S * e) by (apply Z.mul_lt_mono_pos_r; lia).
  assert (0 <= y * e) by (apply Z.mul_nonneg_nonneg; lia). assert (y * 1 <= y * e) by (apply Z.mul_le_mono_nonneg_l; lia).
  rewrite (csize_id y) by lia. apply csize_id. lia.
Qed.

Lemma addr_side : forall o b r k e S, 0 <= o -> 0 <= b < 2 ^ 31 -> 0 <= r < 2 ^ 31 -> 0 <= k < 2 ^ 31 ->
  o + b * r * k < S -> S * e < 2 ^ 64 -> 4 <= e <= 16 ->
  csize (csize (o + csize (csize (csize b * csize r) * csize k)) * e) = (o + b * r * k) * e.
Proof.
  intros o b r k e S Ho Hb Hr Hk H1 H2 He. assert (0 <= b * r) by (apply Z.mul_nonneg_nonneg; lia).
  assert (L : b * r < 2 ^ 31 * 2 ^ 31) by (apply Z.mul_lt_mono_nonneg; lia).
  rewrite (csize_id b), (csize_id r), (csize_id k) by lia. rewrite (csize_id (b * r)) by lia.
  remember (b * r) as x. assert (0 <= x * k) by (apply Z.mul_nonneg_nonneg; lia).
  remember (o + x * k) as y. assert (y * e < S * e) by (apply Z.mul_lt_mono_pos_r; lia).
  assert (0 <= y * e) by (apply Z.mul_nonneg_nonneg; lia). assert (y * 1 <= y * e) by (apply Z.mul_le_mono_nonneg_l; lia).
  rewrite (csize_id (x * k)) by lia. rewrite <- Heqy. rewrite (csize_id y) by lia. apply csize_id. lia.
Qed.

Lemma addr_one : forall o e S, 0 <= o < S -> S * e < 2 ^ 64 -> 4 <= e <= 16 -> csize (o * e) = o * e.
Proof.
  intros o e S H1 H2 He. assert (o * e < S * e) by (apply Z.mul_lt_mono_pos_r; lia).
  assert (0 <= o * e) by (apply Z.mul_nonneg_nonneg; lia). apply csize_id. lia.
Qed.

Lemma sides_int : forall l b b', 0 < b -> 0 < b' -> b * b' < 2 ^ 31 -> 0 <= l < 2 ^ 31 ->
  0 <= l mod b < 2 ^ 31 /\ 0 <= l / b < 2 ^ 31 /\ b < 2 ^ 31 /\ 0 <= l - l mod b < 2 ^ 31.
Proof.
  intros l b b' Hb Hb' H Hl. destruct (div_mod_facts l b Hb Hl) as (E & R & D & D').
  assert (b * 1 <= b * b') by (apply Z.mul_le_mono_nonneg_l; lia). lia.
Qed.

Lemma tile_origin : forall i m b t, 0 < b -> 0 <= i -> i mod b = 0 -> 0 <= t ->
  t < (if m =? 0 then 0 else (i + m - 1) / b - i / b + 1) -> 0 <= t * b < m /\ 0 <= t + i / b <= i + m.
Proof.
  intros i m b t Hb Hi Ha Ht H. destruct (Z.eqb_spec m 0); [lia|].
  pose proof (Z.div_mod i b ltac:(lia)). pose proof (Z.div_mod (i + m - 1) b ltac:(lia)).
  pose proof (Z.mod_pos_bound (i + m - 1) b Hb). pose proof (Z.div_pos i b Hi Hb).
  split; nia.
Qed.

Lemma general_fits : forall prec mb nb lm ln i j m n A size,
  0 <= i -> 0 <= j -> general_create prec mb nb lm ln i j m n = CrOk A size ->
  lm < 2 ^ 31 -> ln < 2 ^ 31 -> mb * nb < 2 ^ 31 -> size * element_size prec < 2 ^ 64 ->
  general_init32 checked prec mb nb lm ln i j m n = Some A /\
  general_size32 A = size * element_size prec /\
  forall tm tn, 0 <= tm < d_mt A -> 0 <= tn < d_nt A ->
    tile_addr_general32 checked A tm tn = Some (tile_addr A tm tn * element_size prec).
Proof.
  intros prec mb nb lm ln i j m n A size Hi Hj HC Hlm Hln Hb Hsz.
  destruct (general_create_ok prec mb nb lm ln i j m n A size Hi Hj HC) as (G & EA & ES).
  pose proof (go_im A G) as S9. pose proof G as [S GT O1 O2 O3]. destruct S as [S1 S2 S3 S4 S5 S6 S7 S8 _ S10 S11 S12 S13 S14].
  pose proof (elt_pos prec) as HE.
  assert (EP : d_prec A = prec) by (rewrite EA; reflexivity).
  assert (E1 : d_mb A = mb) by (rewrite EA; reflexivity). assert (E2 : d_nb A = nb) by (rewrite EA; reflexivity).
  assert (E3 : d_gm A = lm) by (rewrite EA; reflexivity). assert (E4 : d_gn A = ln) by (rewrite EA; reflexivity).
  assert (E5 : d_i A = i) by (rewrite EA; reflexivity). assert (E6 : d_j A = j) by (rewrite EA; reflexivity).
  assert (E7 : d_m A = m) by (rewrite EA; reflexivity). assert (E8 : d_n A = n) by (rewrite EA; reflexivity).
  rewrite E1, E2, E3, E4, E5, E6, E7, E8 in *.
  destruct (div_mod_facts lm mb S1 ltac:(lia)) as (M1 & M2 & M3 & M4).
  destruct (div_mod_facts ln nb S2 ltac:(lia)) as (N1 & N2 & N3 & N4).
  assert (L0 : 0 <= lm * ln) by (apply Z.mul_nonneg_nonneg; lia).
  assert (LL : lm * ln < 2 ^ 31 * 2 ^ 31) by (apply Z.mul_lt_mono_nonneg; lia).
  split; [|split].
  - unfold general_init32. ck. ck.
    rewrite (gt_int lm mb), (gt_int ln nb) by lia. cbn [obind].
    rewrite (tiles_int i m mb lm), (tiles_int j n nb ln) by lia. cbn [obind]. ck. ck.
    rewrite EA. unfold general_init. cbv zeta.
    set (rm := lm mod mb) in *. set (rn := ln mod nb) in *.
    assert (P1 : 0 <= (lm - rm) * (ln - rn)) by nia. assert (P2 : 0 <= rm * (ln - rn)) by nia.
    assert (P3 : 0 <= (lm - rm) * rn) by nia.
    assert (PS : (lm - rm) * (ln - rn) + rm * (ln - rn) + (lm - rm) * rn <= lm * ln) by nia.
    rewrite !(csize_id (lm - rm)), !(csize_id (ln - rn)), !(csize_id rm), !(csize_id rn) by lia.
    rewrite !(csize_id ((lm - rm) * (ln - rn))), !(csize_id (rm * (ln - rn))), !(csize_id ((lm - rm) * rn)) by lia.
    rewrite !(csize_id (rm * (ln - rn) + (lm - rm) * (ln - rn))) by lia.
    rewrite csize_id by lia. reflexivity.
  - unfold general_size32. rewrite E3, E4, EP. rewrite ES in *. rewrite (csize_id lm), (csize_id ln) by lia.
    rewrite (csize_id (lm * ln)) by lia. apply csize_id. split; [apply Z.mul_nonneg_nonneg; lia|exact Hsz].
  - intros tm tn Hm Hn. rewrite S13 in Hm. rewrite S14 in Hn.
    destruct (tile_origin i m mb tm S1 S5 S11 (proj1 Hm) (proj2 Hm)) as [Om Tm].
    destruct (tile_origin j n nb tn S2 S6 S12 (proj1 Hn) (proj2 Hn)) as [On Tn].
    assert (BD : 0 <= tile_addr A tm tn < lm * ln).
    { assert (X : tile_addr A tm tn = elem_off A (tm * mb) (tn * nb)).
      { unfold elem_off. rewrite E1, E2, !Z.div_mul, !Z.mod_mul by lia. ring. }
      rewrite X. rewrite <- E3, <- E4. apply gen_ok_bound; [exact G| |]; [rewrite E7|rewrite E8]; assumption. }
    assert (TA : tile_addr A tm tn = tile_addr_general A tm tn).
    { unfold tile_addr, tile_addr_opt. rewrite GT. reflexivity. }
    rewrite TA in *. clear TA. unfold tile_addr_general32. unfold tile_addr_general in *. cbv zeta in *.
    rewrite E1, E2, E3, E4, E5, E6, EP in *. rewrite ES in Hsz.
    destruct (sides_int lm mb nb S1 S2 Hb ltac:(lia)) as (Q1 & Q2 & Q3 & Q4).
    destruct (sides_int ln nb mb S2 S1 ltac:(lia) ltac:(lia)) as (Q5 & Q6 & Q7 & Q8).
    assert (O4 : 0 <= d_A21 A) by (rewrite O1; apply Z.mul_nonneg_nonneg; lia).
    assert (O5 : 0 <= d_A12 A) by (rewrite O2; apply Z.add_nonneg_nonneg; [apply Z.mul_nonneg_nonneg; lia|exact O4]).
    rewrite (checked_in (tm + i / mb)) by lia. cbn [obind]. rewrite (checked_in (tn + j / nb)) by lia. cbn [obind].
    assert (T1 : 0 <= tm + i / mb < 2 ^ 31) by lia. assert (T2 : 0 <= tn + j / nb < 2 ^ 31) by lia.
    destruct (tm + i / mb <? lm / mb).
    + destruct (tn + j / nb <? ln / nb).
      * assert (B0 : 0 < mb * nb) by (apply Z.mul_pos_pos; assumption).
        rewrite (checked_in (mb * nb)) by lia. cbn [obind]. f_equal.
        apply addr_main with (S := lm * ln); try assumption; try (split; assumption). exact (proj2 BD).
      * cbn [obind]. f_equal.
        apply addr_side with (S := lm * ln); try assumption; try lia.
    + destruct (tn + j / nb <? ln / nb); cbn [obind].
      * f_equal. apply addr_side with (S := lm * ln); try assumption; try lia.
      * f_equal. apply addr_one with (S := lm * ln); assumption.
Qed.

(* ------------------------------------------------------------------ *)
(* packed triangular storage                                             *)

Lemma le_mul_pos : forall a b, 0 <= a -> 0 < b -> a <= a * b.
Proof. intros. nia. Qed.
Lemma sq_small : forall x, 0 <= x -> x * (x + 1) < 2 ^ 31 -> x + 1 <= 2 ^ 31 - 1 /\ 2 * x < 2 ^ 31.
Proof. intros x H H1. assert (x < 2 ^ 16) by nia. lia. Qed.
Lemma low_small : forall t x, 0 <= t <= x -> 0 <= t * (2 * x - (t - 1)) <= x * (x + 1).
Proof. intros t x H. split; nia. Qed.
Lemma side_small : forall nb t n r, 0 <= t * nb < n -> 0 <= r -> nb * r * t <= n * r.
Proof. intros nb t n r H Hr. replace (nb * r * t) with (t * nb * r) by ring. apply Z.mul_le_mono_nonneg_r; lia. Qed.
Lemma cut_small : forall n r, 0 <= r <= n -> 0 <= (n - r) * r <= n * r.
Proof. intros n r H. split; [apply Z.mul_nonneg_nonneg; lia|apply Z.mul_le_mono_nonneg_r; lia]. Qed.

Lemma tri_size_split : forall nb n, 0 < nb -> 0 <= n ->
  0 <= tri (n / nb) /\ 0 <= tri (n / nb) * nb /\ 0 <= tri (n / nb) * nb * nb /\
  tri (n / nb) <= tri (n / nb) * nb /\ tri (n / nb) * nb <= tri (n / nb) * nb * nb /\
  0 <= n / nb <= n /\ 0 <= n mod nb < nb /\ 0 <= n * (n mod nb) /\ n / nb <= tri (n / nb) /\ n mod nb <= n.
Proof.
  intros nb n Hb Hn. pose proof (Z.div_pos n nb Hn Hb) as D. pose proof (Z.mod_pos_bound n nb Hb) as R.
  pose proof (Z.mod_le n nb Hn Hb) as RL.
  pose proof (Z.div_mod n nb ltac:(lia)) as E. pose proof (tri_double (n / nb)) as T.
  remember (n / nb) as x. remember (tri x) as t. remember (n mod nb) as r. clear Heqx Heqt Heqr.
  assert (X : x <= n) by (clear T; nia). assert (0 <= t /\ x <= t) as [T0 T1] by (clear - T D; nia).
  assert (T2 : 0 <= t * nb) by (apply Z.mul_nonneg_nonneg; lia).
  assert (T3 : 0 <= t * nb * nb) by (apply Z.mul_nonneg_nonneg; lia).
  assert (T4 : 0 <= n * r) by (apply Z.mul_nonneg_nonneg; lia).
  pose proof (le_mul_pos t nb T0 Hb). pose proof (le_mul_pos (t * nb) nb T2 Hb). repeat split; lia.
Qed.

Lemma tri_size_ge : forall nb n, 0 < nb -> 0 <= n ->
  n * n <= 2 * (tri (n / nb) * nb * nb + n * (n mod nb)).
Proof.
  intros nb n Hb Hn. pose proof (Z.div_pos n nb Hn Hb) as D. pose proof (Z.mod_pos_bound n nb Hb) as R.
  pose proof (Z.div_mod n nb ltac:(lia)) as E. pose proof (tri_double (n / nb)) as T.
  remember (n / nb) as x. remember (n mod nb) as r. remember (tri x) as t. clear Heqx Heqr Heqt.
  replace (2 * (t * nb * nb + n * r)) with (2 * t * (nb * nb) + 2 * n * r) by ring. rewrite T. subst n.
  assert (0 <= x * (nb * nb)) by (apply Z.mul_nonneg_nonneg; [lia|apply Z.mul_nonneg_nonneg; lia]).
  assert (0 <= r * r) by (apply Z.mul_nonneg_nonneg; lia).
  replace (x * (x + 1) * (nb * nb) + 2 * (nb * x + r) * r)
    with ((nb * x + r) * (nb * x + r) + (x * (nb * nb) + r * r)) by ring. lia.
Qed.

Lemma triangular_overflow : forall prec nb n, 0 < nb -> 0 <= n ->
  2 ^ 31 <= tri (n / nb) * nb * nb + n * (n mod nb) ->
  triangular_size32 checked prec nb nb n n = None.
Proof.
  intros prec nb n Hb Hn H. destruct (tri_size_split nb n Hb Hn) as (T1 & T2 & T3 & T4 & T5 & D & R & V & _).
  unfold triangular_size32. cbv zeta. unfold tri in *. rewrite (Z.add_comm 1 (n / nb)).
  unfold obind.
  destruct (checked (n / nb + 1)) as [p|] eqn:E1; [|reflexivity].
  assert (p = n / nb + 1) by (unfold checked in E1; destruct (_ && _); congruence). subst p.
  destruct (checked (n / nb * (n / nb + 1))) as [q|] eqn:E2; [|reflexivity].
  assert (q = n / nb * (n / nb + 1)) by (unfold checked in E2; destruct (_ && _); congruence). subst q.
  remember (n / nb * (n / nb + 1) / 2) as t.
  destruct (checked (t * nb)) as [u|] eqn:E3; [|reflexivity].
  assert (u = t * nb) by (unfold checked in E3; destruct (_ && _); congruence). subst u.
  destruct (checked (t * nb * nb)) as [v|] eqn:E4; [|reflexivity].
  assert (v = t * nb * nb) by (unfold checked in E4; destruct (_ && _); congruence). subst v.
  destruct (checked (n * (n mod nb))) as [w|] eqn:E5; [|reflexivity].
  assert (w = n * (n mod nb)) by (unfold checked in E5; destruct (_ && _); congruence). subst w.
  rewrite checked_out by exact H. reflexivity.
Qed.

Lemma triangular_overflow_large : forall prec nb n, 0 < nb -> 65536 <= n ->
  triangular_size32 checked prec nb nb n n = None.
Proof.
  intros prec nb n Hb Hn. apply triangular_overflow; [exact Hb|lia|].
  pose proof (tri_size_ge nb n Hb ltac:(lia)). assert (65536 * 65536 <= n * n) by (apply Z.mul_le_mono_nonneg; lia). lia.
Qed.

Lemma triangular_fits : forall prec (upper : bool) nb n A size,
  let uplo := if upper then PlasmaUpper else PlasmaLower in
  triangular_create prec uplo nb nb n n 0 0 n n = CrOk A size ->
  n < 2 ^ 31 -> nb * nb < 2 ^ 31 -> (n / nb) * (n / nb + 1) < 2 ^ 31 -> size < 2 ^ 31 ->
  triangular_init32 checked prec uplo nb nb n n 0 0 n n = Some A /\
  triangular_size32 checked prec nb nb n n = Some (size * element_size prec) /\
  forall tm tn, 0 <= tm < d_mt A -> 0 <= tn < d_nt A -> (if upper then tm <= tn else tn <= tm) ->
    tile_addr_triangle32 checked A tm tn = Some (tile_addr A tm tn * element_size prec).
Proof.
  intros prec upper nb n A size uplo HC Hn Hb HN Hsz.
  destruct (triangular_create_ok prec upper nb n A size HC) as (K & ES).
  pose proof K as [S Ht Hmb Hnb Hgm Hgn Hi Hj Hm Hn' O1 O2 O3].
  destruct S as [S1 S2 S3 S4 _ _ _ _ _ _ _ _ S13 S14].
  assert (EA : A = triangular_init prec uplo nb nb n n 0 0 n n).
  { unfold triangular_create in HC. cbv zeta in HC. destruct (desc_check _ =? PlasmaSuccess) in HC; [|discriminate]. congruence. }
  rewrite Hmb, Hnb, Hgm, Hgn, Hi, Hj, Hm, Hn' in *.
  destruct (tri_size_split nb n S1 S3) as (T1 & T2 & T3 & T4 & T5 & D & R & V & W & W').
  destruct (sides_int n nb nb S1 S1 Hb ltac:(lia)) as (Q1 & Q2 & Q3 & Q4).
  pose proof (elt_pos prec) as HE.
  assert (D0 : 0 <= (n / nb) * (n / nb + 1)) by (apply Z.mul_nonneg_nonneg; lia).
  assert (B0 : 0 < nb * nb) by (apply Z.mul_pos_pos; assumption).
  destruct (sq_small (n / nb) (proj1 D) HN) as [N1 X0].
  assert (Hsz' : size * element_size prec < 2 ^ 64).
  { assert (size * element_size prec <= 2 ^ 31 * 16) by (apply Z.mul_le_mono_nonneg; lia). lia. }
  split; [|split].
  - unfold triangular_init32. cbv zeta. rewrite (checked_in (1 + n / nb)) by lia. cbn [obind].
    rewrite (Z.add_comm 1 (n / nb)). rewrite (checked_in (n / nb * (n / nb + 1))) by lia. cbn [obind].
    rewrite (checked_in (nb * nb)) by lia. cbn [obind]. rewrite (checked_in (n - n mod nb)) by lia. cbn [obind].
    rewrite (gt_int n nb) by lia. cbn [obind]. rewrite !(tiles_int 0 n nb n) by lia. cbn [obind].
    rewrite (checked_in (n - 1)) by lia. cbn [obind]. rewrite EA. unfold triangular_init. cbv zeta.
    rewrite (Z.add_comm 1 (n / nb)). fold (tri (n / nb)).
    rewrite !(csize_id (nb * nb)), !(csize_id (tri (n / nb))) by lia.
    assert (P : 0 <= nb * nb * tri (n / nb) < 2 ^ 31) by (rewrite (Z.mul_comm (nb * nb)), Z.mul_assoc; lia).
    rewrite !(csize_id (nb * nb * tri (n / nb))) by lia.
    rewrite !(csize_id (n - n mod nb)), !(csize_id (n mod nb)) by lia.
    assert (P' : 0 <= (n - n mod nb) * (n mod nb) < 2 ^ 31 * 2 ^ 31)
      by (split; [apply Z.mul_nonneg_nonneg; lia|apply Z.mul_lt_mono_nonneg; lia]).
    rewrite !(csize_id ((n - n mod nb) * (n mod nb))) by lia. rewrite csize_id by lia. reflexivity.
  - unfold triangular_size32. cbv zeta. rewrite (checked_in (1 + n / nb)) by lia. cbn [obind].
    rewrite (Z.add_comm 1 (n / nb)). rewrite (checked_in (n / nb * (n / nb + 1))) by lia. cbn [obind].
    fold (tri (n / nb)). rewrite (checked_in (tri (n / nb) * nb)) by lia. cbn [obind].
    rewrite (checked_in (tri (n / nb) * nb * nb)) by lia. cbn [obind].
    rewrite (checked_in (n * (n mod nb))) by lia. cbn [obind]. rewrite <- ES.
    rewrite (checked_in size) by lia. cbn [obind]. f_equal. rewrite (csize_id size) by lia. apply csize_id.
    split; [apply Z.mul_nonneg_nonneg; lia|exact Hsz'].
  - intros tm tn Hm1 Hn1 Hst. rewrite S13 in Hm1. rewrite S14 in Hn1.
    destruct (tile_origin 0 n nb tm S1 ltac:(lia) ltac:(apply Z.mod_0_l; lia) (proj1 Hm1) (proj2 Hm1)) as [Om Tm].
    destruct (tile_origin 0 n nb tn S1 ltac:(lia) ltac:(apply Z.mod_0_l; lia) (proj1 Hn1) (proj2 Hn1)) as [On Tn].
    assert (EP : d_prec A = prec) by (rewrite EA; reflexivity).
    assert (TA : tile_addr A tm tn = tile_addr_triangle A tm tn).
    { unfold tile_addr, tile_addr_opt. rewrite Ht. destruct upper; reflexivity. }
    rewrite TA. clear TA. unfold tile_addr_triangle32, tile_addr_triangle. cbv zeta.
    rewrite Hmb, Hnb, Hgm, Hgn, Hi, Hj, EP, Ht. rewrite Z.div_0_l in * by lia. rewrite !Z.add_0_r in *.
    rewrite (checked_in tm) by lia. cbn [obind]. rewrite (checked_in tn) by lia. cbn [obind].
    assert (FIN : forall x, 0 <= x -> x < size -> csize (csize x * element_size prec) = x * element_size prec).
    { intros x X1 X2. rewrite (csize_id x) by lia. apply addr_one with (S := size); try assumption; lia. }
    assert (OP : nb * nb * tri (n / nb) = tri (n / nb) * nb * nb) by ring.
    destruct (Z.ltb_spec tm (n / nb)) as [Lm|Lm].
    + destruct (Z.ltb_spec tn (n / nb)) as [Ln|Ln].
      * destruct upper.
        -- change (PlasmaUpper =? PlasmaUpper) with true. cbv iota.
           destruct (tri_index_bound (n / nb) tm tn ltac:(lia) Ln) as [I0 I1].
           assert (X1 : 0 <= tn * (tn + 1) < 2 ^ 31).
           { split; [apply Z.mul_nonneg_nonneg; lia|]. apply Z.le_lt_trans with ((n / nb) * (n / nb + 1)); [|exact HN].
             apply Z.mul_le_mono_nonneg; lia. }
           rewrite (checked_in (nb * nb)) by lia. cbn [obind]. rewrite (checked_in (tn + 1)) by lia. cbn [obind].
           rewrite (checked_in (tn * (tn + 1))) by lia. cbn [obind]. fold (tri tn) in *.
           rewrite (checked_in (tm + tri tn)) by lia. cbn [obind].
           assert (Y : 0 <= nb * nb * (tm + tri tn) < tri (n / nb) * nb * nb).
           { split; [apply Z.mul_nonneg_nonneg; lia|]. rewrite <- (Z.mul_assoc (tri (n / nb))), (Z.mul_comm (tri (n / nb))).
             apply Z.mul_lt_mono_pos_l; assumption. }
           rewrite (checked_in (nb * nb * (tm + tri tn))) by lia. cbn [obind]. f_equal. apply FIN; lia.
        -- change (PlasmaLower =? PlasmaUpper) with false. cbv iota.
           destruct (tril_index_bound (n / nb) tm tn ltac:(lia) Lm) as [I0 I1].
           pose proof (low_small tn (n / nb) ltac:(lia)) as X1.
           rewrite (checked_in (nb * nb)) by lia. cbn [obind]. rewrite (checked_in (tm - tn)) by lia. cbn [obind].
           rewrite (checked_in (2 * (n / nb))) by lia. cbn [obind]. rewrite (checked_in (tn - 1)) by lia. cbn [obind].
           rewrite (checked_in (2 * (n / nb) - (tn - 1))) by lia. cbn [obind].
           rewrite (checked_in (tn * (2 * (n / nb) - (tn - 1)))) by lia. cbn [obind]. fold (tril (n / nb) tn) in *.
           rewrite (checked_in (tm - tn + tril (n / nb) tn)) by lia. cbn [obind].
           assert (Y : 0 <= nb * nb * (tm - tn + tril (n / nb) tn) < tri (n / nb) * nb * nb).
           { split; [apply Z.mul_nonneg_nonneg; lia|]. rewrite <- (Z.mul_assoc (tri (n / nb))), (Z.mul_comm (tri (n / nb))).
             apply Z.mul_lt_mono_pos_l; assumption. }
           rewrite (checked_in (nb * nb * (tm - tn + tril (n / nb) tn))) by lia. cbn [obind]. f_equal. apply FIN; lia.
      * cbn [obind]. f_equal. apply addr_side with (S := 2 ^ 40); try assumption; try lia.
        -- rewrite O2, OP.
           pose proof (side_small nb tm n (n mod nb) Om ltac:(lia)). lia.
    + destruct (Z.ltb_spec tn (n / nb)) as [Ln|Ln]; cbn [obind]; f_equal.
      * apply addr_side with (S := 2 ^ 40); try assumption; try lia.
        -- rewrite O1, OP.
           pose proof (side_small nb tn n (n mod nb) On ltac:(lia)). lia.
      * apply addr_one with (S := 2 ^ 40); try lia. rewrite O3, OP.
        pose proof (cut_small n (n mod nb) ltac:(lia)). lia.
Qed.

Lemma tri_size_le : forall nb n, 0 < nb -> 0 <= n ->
  tri (n / nb) * nb * nb + n * (n mod nb) <= n * n.
Proof.
  intros nb n Hb Hn. pose proof (Z.div_pos n nb Hn Hb) as D. pose proof (Z.mod_pos_bound n nb Hb) as R.
  pose proof (Z.div_mod n nb ltac:(lia)) as E. pose proof (tri_double (n / nb)) as T.
  remember (n / nb) as x. remember (n mod nb) as r. remember (tri x) as t. clear Heqx Heqr Heqt.
  assert (X : t <= x * x) by nia. subst n.
  assert (t * nb * nb <= x * x * nb * nb) by (apply Z.mul_le_mono_nonneg_r; [lia|]; apply Z.mul_le_mono_nonneg_r; lia).
  assert (0 <= nb * x * r) by (apply Z.mul_nonneg_nonneg; [apply Z.mul_nonneg_nonneg|]; lia).
  replace ((nb * x + r) * (nb * x + r)) with (x * x * nb * nb + (nb * x + r) * r + nb * x * r) by ring. lia.
Qed.

Lemma triangular_fits_small : forall prec (upper : bool) nb n A size,
  let uplo := if upper then PlasmaUpper else PlasmaLower in
  triangular_create prec uplo nb nb n n 0 0 n n = CrOk A size ->
  n <= 46340 -> nb * nb < 2 ^ 31 ->
  triangular_init32 checked prec uplo nb nb n n 0 0 n n = Some A /\
  triangular_size32 checked prec nb nb n n = Some (size * element_size prec) /\
  forall tm tn, 0 <= tm < d_mt A -> 0 <= tn < d_nt A -> (if upper then tm <= tn else tn <= tm) ->
    tile_addr_triangle32 checked A tm tn = Some (tile_addr A tm tn * element_size prec).
Proof.
  intros prec upper nb n A size uplo HC Hn Hb.
  destruct (triangular_create_ok prec upper nb n A size HC) as (K & ES).
  destruct K as [S Ht Hmb Hnb Hgm Hgn Hi Hj Hm Hn' O1 O2 O3]. destruct S as [S1 S2 S3 S4 _ _ _ _ _ _ _ _ _ _].
  rewrite Hmb in S1. rewrite Hgm in S3.
  destruct (tri_size_split nb n S1 S3) as (_ & _ & _ & _ & _ & D & _).
  assert (N1 : n / nb * (n / nb + 1) <= 46340 * 46341) by (apply Z.mul_le_mono_nonneg; lia).
  assert (N2 : n * n <= 46340 * 46340) by (apply Z.mul_le_mono_nonneg; lia).
  pose proof (tri_size_le nb n S1 S3).
  apply triangular_fits; [exact HC|lia|exact Hb|lia|lia].
Qed.

Lemma packed_undefined : exists n nb A size,
  triangular_create PlasmaComplexDouble PlasmaLower nb nb n n 0 0 n n = CrOk A size /\
  n < 2 ^ 31 /\ nb * nb < 2 ^ 31 /\ size * element_size PlasmaComplexDouble < 2 ^ 64 /\
  triangular_size32 checked PlasmaComplexDouble nb nb n n = None /\
  exists tm tn, 0 <= tn <= tm /\ tm < d_mt A /\ tile_addr_triangle32 checked A tm tn = None.
Proof.
  exists 65536, 256. eexists. eexists. split; [reflexivity|].
  split; [lia|]. split; [lia|]. split; [reflexivity|]. split; [apply triangular_overflow_large; lia|].
  exists 255, 255. split; [lia|]. split; reflexivity.
Qed.

Lemma packed_wrapped : exists n nb A size bytes tm tn offset,
  triangular_create PlasmaComplexDouble PlasmaLower nb nb n n 0 0 n n = CrOk A size /\
  n < 2 ^ 31 /\ size * element_size PlasmaComplexDouble < 2 ^ 64 /\
  triangular_init32 wrapped PlasmaComplexDouble PlasmaLower nb nb n n 0 0 n n = Some A /\
  triangular_size32 wrapped PlasmaComplexDouble nb nb n n = Some bytes /\
  0 <= tn <= tm /\ tm < d_mt A /\
  tile_addr_triangle32 wrapped A tm tn = Some offset /\ bytes <= offset.
Proof.
  exists 92928, 256. eexists. eexists. eexists. exists 168, 1. eexists. split; [reflexivity|].
  split; [lia|]. split; [reflexivity|]. split; [reflexivity|]. split; [reflexivity|]. split; [lia|].
  split; [reflexivity|]. split; [reflexivity|]. cbv. discriminate.
Qed.
