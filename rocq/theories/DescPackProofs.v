(* Packed triangular storage and band storage. *)
From Coq Require Import ZArith Lia List Bool.
From Verif Require Import Base DescModel DescSpec DescProofs.
Open Scope Z_scope.

Lemma consec_even : forall x, exists k, x * (x + 1) = 2 * k.
Proof.
  intros x. destruct (div_mod_pos x 2 ltac:(lia)) as [E R].
  set (q := x / 2) in *. assert (x mod 2 = 0 \/ x mod 2 = 1) as [H|H] by lia; rewrite H in E.
  - exists (q * (x + 1)). rewrite E at 1. ring.
  - exists (x * (q + 1)). rewrite E at 2. ring.
Qed.

Definition tri (x : Z) : Z := x * (x + 1) / 2.

Lemma tri_double : forall x, 2 * tri x = x * (x + 1).
Proof.
  intros x. destruct (consec_even x) as [k E]. unfold tri. rewrite E.
  rewrite (Z.mul_comm 2 k), Z.div_mul by lia. lia.
Qed.

Lemma tri_succ : forall x, tri (x + 1) = tri x + x + 1.
Proof. intros x. pose proof (tri_double x). pose proof (tri_double (x + 1)). nia. Qed.

(* offset of column nn in the lower packed layout *)
Definition tril (N x : Z) : Z := x * (2 * N - (x - 1)) / 2.

Lemma tril_double : forall N x, 2 * tril N x = x * (2 * N - (x - 1)).
Proof.
  intros N x. unfold tril. destruct (consec_even (x - 1)) as [k E].
  replace (x * (2 * N - (x - 1))) with (2 * (x * N - k)) by nia.
  rewrite (Z.mul_comm 2 (x * N - k)), Z.div_mul by lia. lia.
Qed.

Lemma tri_mono : forall x y, 0 <= x <= y -> tri x <= tri y.
Proof. intros. pose proof (tri_double x). pose proof (tri_double y). nia. Qed.

Lemma tri_index_inj : forall m n m' n', 0 <= m <= n -> 0 <= m' <= n' ->
  m + tri n = m' + tri n' -> m = m' /\ n = n'.
Proof.
  intros m n m' n' H H' E.
  pose proof (tri_double n). pose proof (tri_double n').
  assert (n = n'); [|subst; lia].
  assert (~ n < n') by nia. assert (~ n' < n) by nia. lia.
Qed.

Lemma tri_index_bound : forall N m n, 0 <= m <= n -> n < N -> 0 <= m + tri n < tri N.
Proof.
  intros N m n H HN. pose proof (tri_double n). pose proof (tri_double N). nia.
Qed.

Lemma tril_index_inj : forall N m n m' n', 0 <= n <= m -> m < N -> 0 <= n' <= m' -> m' < N ->
  (m - n) + tril N n = (m' - n') + tril N n' -> m = m' /\ n = n'.
Proof.
  intros N m n m' n' H HN H' HN' E.
  pose proof (tril_double N n). pose proof (tril_double N n').
  assert (n = n'); [|subst; lia].
  assert (~ n < n') by nia. assert (~ n' < n) by nia. lia.
Qed.

Lemma tril_index_bound : forall N m n, 0 <= n <= m -> m < N -> 0 <= (m - n) + tril N n < tri N.
Proof.
  intros N m n H HN. pose proof (tril_double N n). pose proof (tri_double N).
  assert (0 <= (N - m - 1) /\ 0 <= N - n - 1) by lia.
  split; nia.
Qed.

(* Global address in packed triangular storage with square tiles. *)
Definition taddr (upper : bool) (nb n I J : Z) : Z :=
  let mm := I / nb in
  let nn := J / nb in
  let N := n / nb in
  let r := n mod nb in
  (if mm <? N then
     if nn <? N then
       if upper then nb * nb * (mm + tri nn) else nb * nb * ((mm - nn) + tril N nn)
     else nb * nb * tri N + nb * r * mm
   else
     if nn <? N then nb * nb * tri N + nb * r * nn
     else (n - r) * r + nb * nb * tri N)
  + I mod nb + (J mod nb) * (if mm <? N then nb else r).

Section Tri.
  Variables (upper : bool) (nb n : Z).
  Hypothesis Hnb : 0 < nb.
  Hypothesis Hn : 0 <= n.
  Let N := n / nb.
  Let r := n mod nb.

  Let T := nb * nb * tri N.
  Let idx (m k : Z) := if upper then m + tri k else (m - k) + tril N k.

  Lemma idx_bound : forall m k, 0 <= m < N -> 0 <= k < N ->
    (if upper then m <= k else k <= m) -> 0 <= idx m k < tri N.
  Proof.
    intros m k Hm Hk H. unfold idx. destruct upper.
    - apply tri_index_bound; lia.
    - apply tril_index_bound; lia.
  Qed.

  Lemma idx_inj : forall m k m' k', 0 <= m < N -> 0 <= k < N -> 0 <= m' < N -> 0 <= k' < N ->
    (if upper then m <= k else k <= m) -> (if upper then m' <= k' else k' <= m') ->
    idx m k = idx m' k' -> m = m' /\ k = k'.
  Proof.
    intros m k m' k' Hm Hk Hm' Hk' H H'. unfold idx. destruct upper; intro E.
    - eapply tri_index_inj; eauto; lia.
    - eapply tril_index_inj; eauto; lia.
  Qed.

  Lemma tri_facts : n = nb * N + r /\ 0 <= r < nb /\ 0 <= N /\ 0 <= tri N.
  Proof.
    destruct (div_mod_pos n nb Hnb). assert (0 <= N) by (apply div_range; lia).
    pose proof (tri_double N). unfold N, r in *. repeat split; try lia; nia.
  Qed.

  Lemma taddr_region : forall I J, in_stored_tile upper nb n I J ->
    (0 <= I / nb < N /\ 0 <= J / nb < N /\ 0 <= I mod nb < nb /\ 0 <= J mod nb < nb /\
       taddr upper nb n I J = I mod nb + nb * (J mod nb + nb * idx (I / nb) (J / nb)) /\
       0 <= taddr upper nb n I J < T) \/
    (upper = true /\ 0 <= I / nb < N /\ J / nb = N /\ 0 <= I mod nb < nb /\ 0 <= J mod nb < r /\
       taddr upper nb n I J = T + (I mod nb + nb * (J mod nb + r * (I / nb))) /\
       T <= taddr upper nb n I J < T + nb * (r * N)) \/
    (upper = false /\ I / nb = N /\ 0 <= J / nb < N /\ 0 <= I mod nb < r /\ 0 <= J mod nb < nb /\
       taddr upper nb n I J = T + (I mod nb + r * (J mod nb + nb * (J / nb))) /\
       T <= taddr upper nb n I J < T + r * (nb * N)) \/
    (I / nb = N /\ J / nb = N /\ 0 <= I mod nb < r /\ 0 <= J mod nb < r /\
       taddr upper nb n I J = T + nb * N * r + (I mod nb + r * (J mod nb)) /\
       T + nb * N * r <= taddr upper nb n I J < T + nb * N * r + r * r).
  Proof.
    intros I J (HI & HJ & Hs).
    destruct tri_facts as (E & Rr & PN & PT).
    destruct (tile_split nb n I Hnb HI) as [[A1 A2]|[A1 A2]];
    destruct (tile_split nb n J Hnb HJ) as [[B1 B2]|[B1 B2]];
    fold N in A1, B1; try fold r in A2; try fold r in B2.
    - left. assert (Q := idx_bound _ _ A1 B1 Hs).
      assert (F : taddr upper nb n I J = I mod nb + nb * (J mod nb + nb * idx (I / nb) (J / nb))).
      { unfold taddr. cbv zeta. fold N. 
        destruct A1 as [_ A1]. destruct B1 as [_ B1].
        apply Z.ltb_lt in A1. apply Z.ltb_lt in B1. rewrite A1, B1. unfold idx.
        destruct upper; ring. }
      assert (Q2 := radix_bound nb _ _ _ B2 Q).
      assert (Q3 := radix_bound nb _ _ _ A2 Q2).
      repeat split; try lia.
    - right. left. destruct upper eqn:Eu; [|lia].
      assert (F : taddr true nb n I J = T + (I mod nb + nb * (J mod nb + r * (I / nb)))).
      { unfold taddr. cbv zeta. fold N r. destruct A1 as [_ A1]. apply Z.ltb_lt in A1. 
        rewrite A1, B1, Z.ltb_irrefl. unfold T. ring. }
      assert (Q2 := radix_bound r _ _ _ B2 A1).
      assert (Q3 := radix_bound nb _ _ _ A2 Q2).
      repeat split; try lia.
    - right. right. left. destruct upper eqn:Eu; [lia|].
      assert (F : taddr false nb n I J = T + (I mod nb + r * (J mod nb + nb * (J / nb)))).
      { unfold taddr. cbv zeta. fold N r. destruct B1 as [_ B1]. apply Z.ltb_lt in B1. 
        rewrite A1, B1, Z.ltb_irrefl. unfold T. ring. }
      assert (Q2 := radix_bound nb _ _ _ B2 B1).
      assert (Q3 := radix_bound r _ _ _ A2 Q2).
      repeat split; try lia.
    - right. right. right.
      assert (F : taddr upper nb n I J = T + nb * N * r + (I mod nb + r * (J mod nb))).
      { unfold taddr. cbv zeta. fold N r. rewrite A1, B1, Z.ltb_irrefl. unfold T.
        replace (n - r) with (nb * N) by lia. ring. }
      assert (Q3 := radix_bound r _ _ _ A2 B2).
      repeat split; try lia.
  Qed.

  Lemma taddr_bound : forall I J, in_stored_tile upper nb n I J ->
    0 <= taddr upper nb n I J < tri N * nb * nb + n * r.
  Proof.
    intros I J H. destruct tri_facts as (E & Rr & PN & PT).
    assert (ET : tri N * nb * nb + n * r = T + nb * N * r + r * r) by (unfold T; nia).
    rewrite ET. assert (0 <= T) by (unfold T; nia). assert (0 <= nb * N * r) by nia.
    assert (0 <= r * r) by nia.
    destruct (taddr_region I J H) as [HH|[HH|[HH|HH]]]; intuition nia.
  Qed.

  Lemma taddr_inj : forall I J I' J', in_stored_tile upper nb n I J ->
    in_stored_tile upper nb n I' J' ->
    taddr upper nb n I J = taddr upper nb n I' J' -> I = I' /\ J = J'.
  Proof.
    intros I J I' J' H H' E. destruct tri_facts as (EN & Rr & PN & PT).
    assert (0 <= T) by (unfold T; nia). assert (0 <= nb * N * r) by nia.
    pose proof (taddr_region I J H) as G. pose proof (taddr_region I' J' H') as G'.
    destruct H as (_&_&Hs). destruct H' as (_&_&Hs').
    destruct G as [(G1&G2&G3&G4&G5&G6)|[(Gu&G1&G2&G3&G4&G5&G6)|[(Gu&G1&G2&G3&G4&G5&G6)|(G1&G2&G3&G4&G5&G6)]]];
    destruct G' as [(F1&F2&F3&F4&F5&F6)|[(Fu&F1&F2&F3&F4&F5&F6)|[(Fu&F1&F2&F3&F4&F5&F6)|(F1&F2&F3&F4&F5&F6)]]];
    try (exfalso; lia); try (exfalso; congruence); try (exfalso; nia).
    - rewrite G5, F5 in E.
      apply radix_inj in E; [|lia|lia]. destruct E as [Ea E].
      apply radix_inj in E; [|lia|lia]. destruct E as [Eb E].
      apply idx_inj in E; auto. destruct E as [Ec Ed].
      split; [eapply idx_ext with nb|eapply idx_ext with nb]; auto.
    - rewrite G5, F5 in E. apply Z.add_reg_l in E.
      apply radix_inj in E; [|lia|lia]. destruct E as [Ea E].
      apply radix_inj in E; [|lia|lia]. destruct E as [Eb E].
      split; [eapply idx_ext with nb|eapply idx_ext with nb]; auto; lia.
    - rewrite G5, F5 in E. apply Z.add_reg_l in E.
      apply radix_inj in E; [|lia|lia]. destruct E as [Ea E].
      apply radix_inj in E; [|lia|lia]. destruct E as [Eb E].
      split; [eapply idx_ext with nb|eapply idx_ext with nb]; auto; lia.
    - rewrite G5, F5 in E. apply Z.add_reg_l in E.
      apply radix_inj in E; [|lia|lia]. destruct E as [Ea E].
      split; [eapply idx_ext with nb|eapply idx_ext with nb]; auto; lia.
  Qed.
End Tri.

(* A packed triangular descriptor of an n x n matrix as the drivers build it
   (square tiles, whole matrix). *)
Record tri_ok (A : desc) (upper : bool) (nb n : Z) : Prop := {
  tk_shape : shape_ok A;
  tk_type : d_type A = if upper then PlasmaUpper else PlasmaLower;
  tk_mb : d_mb A = nb; tk_nb : d_nb A = nb; tk_gm : d_gm A = n; tk_gn : d_gn A = n;
  tk_i : d_i A = 0; tk_j : d_j A = 0; tk_m : d_m A = n; tk_n : d_n A = n;
  tk_oBL : d_A21 A = nb * nb * tri (n / nb);
  tk_oTR : d_A12 A = nb * nb * tri (n / nb);
  tk_oBR : d_A22 A = (n - n mod nb) * (n mod nb) + nb * nb * tri (n / nb) }.

Lemma tri_elem_off : forall A upper nb n i j, tri_ok A upper nb n ->
  elem_off A i j = taddr upper nb n i j.
Proof.
  intros A upper nb n i j [S Ht Hmb Hnb Hgm Hgn Hi Hj _ _ H1 H2 H3].
  unfold elem_off, tile_addr, tile_addr_opt, tile_mmain, tile_addr_triangle.
  rewrite Ht, Hmb, Hnb, Hgm, Hgn, Hi, Hj, H1, H2, H3.
  rewrite !Z.div_0_l by (destruct S; lia). 
  unfold taddr. cbv zeta. rewrite !Z.add_0_r, !Z.add_0_l.
  destruct upper.
  - change (PlasmaUpper =? PlasmaGeneral) with false.
    change (PlasmaUpper =? PlasmaGeneralBand) with false.
    change (PlasmaUpper =? PlasmaUpper) with true. cbn [orb]. cbv iota. reflexivity.
  - change (PlasmaLower =? PlasmaGeneral) with false.
    change (PlasmaLower =? PlasmaGeneralBand) with false.
    change (PlasmaLower =? PlasmaUpper) with false.
    change (PlasmaLower =? PlasmaLower) with true. cbn [orb]. cbv iota. reflexivity.
Qed.

(* what a successful check says, for types other than band *)
Lemma nonband_check_ok : forall A,
  d_type A = PlasmaGeneral \/ d_type A = PlasmaUpper \/ d_type A = PlasmaLower ->
  desc_check A = PlasmaSuccess ->
  valid_precision (d_prec A) = true /\
  0 < d_mb A /\ 0 < d_nb A /\ 0 <= d_m A /\ 0 <= d_n A /\ d_m A <= d_gm A /\ d_n A <= d_gn A /\
  d_i A + d_m A <= d_gm A /\ d_j A + d_n A <= d_gn A /\
  d_i A mod d_mb A = 0 /\ d_j A mod d_nb A = 0 /\
  (0 < d_i A -> d_i A < d_gm A) /\ (0 < d_j A -> d_j A < d_gn A).
Proof.
  intros A Ht. unfold desc_check, general_check.
  replace ((d_type A =? PlasmaGeneral) || (d_type A =? PlasmaUpper) || (d_type A =? PlasmaLower))
    with true by (destruct Ht as [->|[->| ->]]; reflexivity).
  destruct (valid_precision (d_prec A)); cbn [negb]; [|discriminate].
  destruct ((d_mb A <=? 0) || (d_nb A <=? 0)) eqn:E1; [discriminate|].
  destruct ((d_m A <? 0) || (d_n A <? 0)) eqn:E2; [discriminate|].
  destruct ((d_gm A <? d_m A) || (d_gn A <? d_n A)) eqn:E3; [discriminate|].
  destruct (((0 <? d_i A) && (d_gm A <=? d_i A)) || ((0 <? d_j A) && (d_gn A <=? d_j A))) eqn:E4;
    [discriminate|].
  destruct ((d_gm A <? d_i A + d_m A) || (d_gn A <? d_j A + d_n A)) eqn:E5; [discriminate|].
  destruct (negb (d_i A mod d_mb A =? 0) || negb (d_j A mod d_nb A =? 0)) eqn:E6; [discriminate|].
  intros _.
  rewrite !orb_false_iff, ?andb_false_iff, ?negb_false_iff, ?Z.eqb_eq, ?Z.leb_gt, ?Z.ltb_ge in *.
  intuition lia.
Qed.

Lemma triangular_create_ok : forall prec upper nb n A size,
  triangular_create prec (if upper : bool then PlasmaUpper else PlasmaLower) nb nb n n 0 0 n n
    = CrOk A size ->
  tri_ok A upper nb n /\ size = tri (n / nb) * nb * nb + n * (n mod nb).
Proof.
  intros prec upper nb n A size. unfold triangular_create. cbv zeta.
  destruct (desc_check _ =? PlasmaSuccess) eqn:E; [|discriminate].
  intros H.
  assert (HA : A = triangular_init prec (if upper then PlasmaUpper else PlasmaLower)
                     nb nb n n 0 0 n n) by congruence.
  assert (Hs : size = n / nb * (1 + n / nb) / 2 * nb * nb + n * (n mod nb)) by congruence.
  clear H. apply Z.eqb_eq in E.
  apply nonband_check_ok in E; [|destruct upper; cbn; auto].
  destruct E as (E0&E1&E2&E3&E4&E5&E6&E7&E8&E9&E10&E11&E12).
  assert (EM : n / nb * (1 + n / nb) / 2 = tri (n / nb)) by (unfold tri; f_equal; ring).
  rewrite EM in Hs. split; [|auto].
  subst A. cbn in E1,E2,E3,E4,E5,E6,E7,E8,E9,E10.
  assert (SH : shape_ok (triangular_init prec (if upper then PlasmaUpper else PlasmaLower)
            nb nb n n 0 0 n n)).
  { constructor; cbn; auto; try lia. }
  constructor; cbn; auto; rewrite ?EM; auto.
Qed.

(* ------------------------------------------------------------------ *)
(* band storage                                                          *)

Record band_ok (A : desc) : Prop := {
  bk_type : d_type A = PlasmaGeneralBand;
  bk_mb : 0 < d_mb A; bk_sq : d_nb A = d_mb A;
  bk_i : d_i A = 0; bk_j : d_j A = 0; bk_m : 0 <= d_m A; bk_n : 0 <= d_n A;
  bk_gn : d_gn A = d_n A;
  bk_klt : 1 <= d_klt A; bk_kut : 1 <= d_kut A;
  bk_gm : d_gm A = (d_klt A + d_kut A - 1) * d_mb A;
  bk_oBL : d_A21 A = (d_gm A - d_gm A mod d_mb A) * (d_gn A - d_gn A mod d_nb A);
  bk_oTR : d_A12 A = (d_gm A mod d_mb A) * (d_gn A - d_gn A mod d_nb A) + d_A21 A;
  bk_oBR : d_A22 A = (d_gm A - d_gm A mod d_mb A) * (d_gn A mod d_nb A) + d_A12 A }.

Lemma band_elem_off_gaddr : forall A i j, band_ok A -> in_tile_band A i j ->
  0 <= (d_kut A - 1 - j / d_mb A) * d_mb A + i < d_gm A /\
  band_elem_off A i j =
  gaddr (d_mb A) (d_mb A) (d_gm A) (d_gn A) ((d_kut A - 1 - j / d_mb A) * d_mb A + i) j.
Proof.
  intros A i j [Ht Hmb Hsq Hi Hj Hm Hn Hgn Hkl Hku Hgm H1 H2 H3] (Bi & Bj & Bb).
  rewrite Hsq in *.
  set (b := d_mb A) in *.
  destruct (div_mod_pos i b Hmb) as [Ei Ri]. destruct (div_mod_pos j b Hmb) as [Ej Rj].
  set (I := (d_kut A - 1 - j / b) * b + i).
  assert (EI : I = b * (d_kut A - 1 + i / b - j / b) + i mod b) by (unfold I; lia).
  assert (DI : I / b = d_kut A - 1 + i / b - j / b) by (apply div_eq with (i mod b); lia).
  assert (MI : I mod b = i mod b) by (apply mod_eq with (d_kut A - 1 + i / b - j / b); lia).
  assert (DG : d_gm A / b = d_klt A + d_kut A - 1).
  { rewrite Hgm. apply Z.div_mul. lia. }
  split. { rewrite Hgm. rewrite EI. nia. }
  unfold band_elem_off, tile_addr, tile_addr_opt, tile_mmain_band, tile_mmain. rewrite Ht.
  change (PlasmaGeneralBand =? PlasmaGeneral) with false.
  change (PlasmaGeneralBand =? PlasmaGeneralBand) with true. cbv iota.
  unfold tile_addr_general_band, tile_addr_general, gaddr. cbv zeta.
  rewrite Hsq, Hi, Hj. fold b. rewrite Z.div_0_l by lia. rewrite !Z.add_0_r.
  rewrite DI, MI. rewrite DG. rewrite H3, H2, H1.
  assert (L : d_kut A - 1 + i / b - j / b <? d_klt A + d_kut A - 1 = true)
    by (apply Z.ltb_lt; lia). rewrite L. reflexivity.
Qed.

Lemma band_bound : forall A i j, band_ok A -> in_tile_band A i j ->
  0 <= band_elem_off A i j < d_gm A * d_gn A.
Proof.
  intros A i j H B. destruct (band_elem_off_gaddr A i j H B) as [R E]. rewrite E.
  destruct H. destruct B as (Bi & Bj & _).
  apply gaddr_bound; try lia.
Qed.

Lemma band_inj : forall A i j i' j', band_ok A -> in_tile_band A i j -> in_tile_band A i' j' ->
  band_elem_off A i j = band_elem_off A i' j' -> i = i' /\ j = j'.
Proof.
  intros A i j i' j' H B B'.
  destruct (band_elem_off_gaddr A i j H B) as [R E].
  destruct (band_elem_off_gaddr A i' j' H B') as [R' E']. rewrite E, E'.
  destruct H. destruct B as (Bi & Bj & _). destruct B' as (Bi' & Bj' & _).
  intro F. apply gaddr_inj in F; try lia.
  destruct F as [F1 F2]. subst j'. split; lia.
Qed.

Lemma band_check_ok : forall A, d_type A = PlasmaGeneralBand -> desc_check A = PlasmaSuccess ->
  valid_precision (d_prec A) = true /\ 0 < d_mb A /\ 0 < d_nb A /\ 0 <= d_m A /\ 0 <= d_n A /\
  d_n A <= d_gn A /\
  (d_uplo A = PlasmaGeneral -> d_mb A * ((2 * d_kl A + d_ku A + d_mb A) / d_mb A) <= d_gm A) /\
  (d_uplo A = PlasmaUpper -> d_mb A * ((d_ku A + d_mb A) / d_mb A) <= d_gm A) /\
  d_j A + d_n A <= d_gn A /\ d_i A mod d_mb A = 0 /\ d_j A mod d_nb A = 0 /\
  d_kl A + 1 <= d_m A /\ d_ku A + 1 <= d_n A.
Proof.
  intros A Ht. unfold desc_check, general_band_check. rewrite Ht.
  change (PlasmaGeneralBand =? PlasmaGeneral) with false.
  change (PlasmaGeneralBand =? PlasmaUpper) with false.
  change (PlasmaGeneralBand =? PlasmaLower) with false.
  change (PlasmaGeneralBand =? PlasmaGeneralBand) with true. cbn [orb]. cbv iota.
  destruct (valid_precision (d_prec A)); cbn [negb]; [|discriminate].
  destruct ((d_mb A <=? 0) || (d_nb A <=? 0)) eqn:E1; [discriminate|].
  destruct ((d_m A <? 0) || (d_n A <? 0)) eqn:E2; [discriminate|].
  destruct (d_gn A <? d_n A) eqn:E3; [discriminate|].
  match goal with |- context[if ?c then PlasmaErrorIllegalValue else _] => destruct c eqn:E4 end;
    [discriminate|].
  match goal with |- context[if ?c then PlasmaErrorIllegalValue else _] => destruct c eqn:E5 end;
    [discriminate|].
  destruct (d_gn A <? d_j A + d_n A) eqn:E6; [discriminate|].
  destruct (negb (d_i A mod d_mb A =? 0) || negb (d_j A mod d_nb A =? 0)) eqn:E7; [discriminate|].
  destruct ((d_m A <? d_kl A + 1) || (d_n A <? d_ku A + 1)) eqn:E8; [discriminate|].
  intros _.
  rewrite !orb_false_iff, ?andb_false_iff, ?negb_false_iff, ?Z.eqb_eq, ?Z.eqb_neq, ?Z.leb_gt, ?Z.ltb_ge in *.
  intuition lia.
Qed.

(* ceil-division of the band widths covers the band *)
Lemma ceil_tile_band : forall b k i j, 0 < b -> 0 <= k -> i - j <= k ->
  i / b - j / b <= (k + b - 1) / b.
Proof.
  intros b k i j Hb Hk H.
  destruct (div_mod_pos i b Hb). destruct (div_mod_pos j b Hb).
  destruct (div_mod_pos (k + b - 1) b Hb). nia.
Qed.
