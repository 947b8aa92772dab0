(* The middle of two binary64 numbers. *)
From Coq Require Import ZArith Reals Lia Lra Psatz ConstructiveEpsilon.
From Flocq Require Import Core Mult_error Plus_error.
From Verif Require Import StevxSpec StevxFloatSpec.
Open Scope R_scope.

Section Mid.
  Notation fexp := (FLT_exp (-1074) 53).
  Notation rnd := (round radix2 fexp ZnearestE).
  Notation fmt := (generic_format radix2 fexp).

  Local Instance prec53 : Prec_gt_0 53. Proof. reflexivity. Qed.

  Lemma fmt_double : forall x, fmt x -> fmt (2 * x).
  Proof.
    intros x H. rewrite Rmult_comm. change 2 with (bpow radix2 1).
    apply mult_bpow_pos_exact_FLT; [exact H | lia].
  Qed.

  Lemma nearest : forall v g, fmt g -> Rabs (rnd v - v) <= Rabs (g - v).
  Proof.
    intros v g Hg. destruct (round_N_pt radix2 fexp (fun z => negb (Z.even z)) v) as (_ & H). apply H. exact Hg.
  Qed.

  Lemma rnd_between : forall x y v, fmt x -> fmt y -> x <= v <= y -> x <= rnd v <= y.
  Proof.
    intros x y v Hx Hy H. split.
    - apply round_ge_generic; auto with typeclass_instances. apply H.
    - apply round_le_generic; auto with typeclass_instances. apply H.
  Qed.

  (* the nearest number to the middle of two numbers is none of them if there is another *)
  Lemma rnd_inside : forall x y z, fmt x -> fmt y -> fmt z -> x < z < y ->
    x < rnd ((x + y) * / 2) < y.
  Proof.
    intros x y z Hx Hy Hz H.
    destruct (rnd_between x y ((x + y) * / 2) Hx Hy ltac:(lra)) as (H1 & H2).
    pose proof (nearest ((x + y) * / 2) z Hz) as Hn.
    assert (Hz' : Rabs (z - (x + y) * / 2) < (y - x) * / 2).
    { apply Rabs_def1; lra. }
    split.
    - destruct H1 as [H1|H1]; [exact H1|]. exfalso. rewrite <- H1 in Hn.
      rewrite (Rabs_left1 (x - (x + y) * / 2)) in Hn by lra. lra.
    - destruct H2 as [H2|H2]; [exact H2|]. exfalso. rewrite H2 in Hn.
      rewrite (Rabs_pos_eq (y - (x + y) * / 2)) in Hn by lra. lra.
  Qed.

  Lemma average_between : forall x y, binary64 x -> binary64 y -> x <= y -> x <= average x y <= y.
  Proof.
    intros x y Hx Hy H. unfold average. apply rnd_between; try assumption.
    destruct (rnd_between (2 * x) (2 * y) (x + y) (fmt_double x Hx) (fmt_double y Hy)) as (H1 & H2); lra.
  Qed.

  Lemma half_fmt : forall s, fmt s -> bpow radix2 (-1022) <= Rabs (s * / 2) -> fmt (s * / 2).
  Proof.
    intros s Hs H. apply generic_format_FLT_FLX; [exact H|].
    change (/ 2) with (bpow radix2 (-1)). apply mult_bpow_exact_FLX.
    apply generic_format_FLX_FLT with (emin := (-1074)%Z). exact Hs.
  Qed.

  Lemma average_inside : forall x y z, binary64 x -> binary64 y -> binary64 z -> x < z < y ->
    x < average x y < y.
  Proof.
    intros x y z Hx Hy Hz H. unfold average.
    assert (Hs : 2 * x < rnd (x + y) < 2 * y).
    { pose proof (rnd_inside (2 * x) (2 * y) (2 * z) (fmt_double x Hx) (fmt_double y Hy) (fmt_double z Hz)) as Hi.
      replace ((2 * x + 2 * y) * / 2) with (x + y) in Hi by lra. apply Hi. lra. }
    destruct (Rle_lt_dec (bpow radix2 (-1022)) (Rabs (rnd (x + y) * / 2))) as [Hb|Hb].
    - rewrite (round_generic radix2 fexp ZnearestE (rnd (x + y) * / 2)); [lra|].
      apply half_fmt; [|exact Hb]. apply generic_format_round; auto with typeclass_instances.
    - assert (He : rnd (x + y) = x + y).
      { apply round_generic; auto with typeclass_instances.
        apply FLT_format_plus_small; auto with typeclass_instances.
        change (53 + -1074)%Z with (-1021)%Z.
        destruct (Rle_lt_dec (Rabs (x + y)) (bpow radix2 (-1021))) as [Hl|Hl]; [exact Hl|]. exfalso.
        assert (Hr : bpow radix2 (-1021) <= Rabs (rnd (x + y))).
        { rewrite <- round_NE_abs by auto with typeclass_instances.
          apply round_ge_generic; auto with typeclass_instances; [|lra].
          apply generic_format_bpow. unfold FLT_exp. lia. }
        rewrite Rabs_mult, (Rabs_pos_eq (/ 2)) in Hb by lra.
        change (-1021)%Z with (-1022 + 1)%Z in Hr. rewrite bpow_plus in Hr. change (bpow radix2 1) with 2 in Hr.
        lra. }
      rewrite He. apply rnd_inside with z; assumption.
  Qed.

  Lemma average_midpoint : forall num mid, numbering num ->
    (forall x y, num (mid x y) = average (num x) (num y)) -> midpoint mid.
  Proof.
    intros num mid (Hinc & Hall) Hmid x y Hxy.
    assert (Hf : forall i, binary64 (num i)) by (intros i; apply Hall; eauto).
    assert (Hle : forall i j, num i <= num j -> (i <= j)%Z).
    { intros i j H. destruct (Z.le_gt_cases i j) as [L|L]; [exact L|].
      specialize (Hinc j i L). lra. }
    assert (Hlt : forall i j, num i < num j -> (i < j)%Z).
    { intros i j H. destruct (Z.lt_trichotomy i j) as [L|[L|L]]; [exact L| |].
      - subst j. lra.
      - specialize (Hinc j i L). lra. }
    assert (Hxy' : num x <= num y).
    { destruct (Z.eq_dec x y) as [->|Hne]; [lra|]. apply Rlt_le. apply Hinc. lia. }
    split.
    - destruct (average_between (num x) (num y) (Hf x) (Hf y) Hxy') as (H1 & H2).
      rewrite <- Hmid in H1, H2. split; apply Hle; assumption.
    - intros Hz.
      destruct (average_inside (num x) (num y) (num (x + 1)%Z) (Hf x) (Hf y) (Hf _)) as (H1 & H2).
      + split; apply Hinc; lia.
      + rewrite <- Hmid in H1, H2. split; apply Hlt; assumption.
  Qed.

  (* There is a numbering. *)
  Fixpoint upto (k : nat) : R := match k with O => 0 | S k' => succ radix2 fexp (upto k') end.
  Definition the_num (i : Z) : R := if (i <? 0)%Z then - upto (Z.to_nat (- i)) else upto (Z.to_nat i).

  Lemma up_facts : forall k, fmt (upto k) /\ 0 <= upto k.
  Proof.
    induction k as [|k (H1 & H2)]; cbn [upto].
    - split; [apply generic_format_0 | lra].
    - split; [apply generic_format_succ; auto with typeclass_instances|].
      pose proof (succ_ge_id radix2 fexp (upto k)). lra.
  Qed.

  Lemma up_step : forall k, upto k + bpow radix2 (-1074) <= upto (S k).
  Proof.
    intros k. cbn [upto]. destruct (up_facts k) as (_ & H).
    rewrite succ_eq_pos by exact H. apply Rplus_le_compat_l.
    destruct (Req_dec (upto k) 0) as [E|E].
    - rewrite E, ulp_FLT_0; auto with typeclass_instances. apply Rle_refl.
    - rewrite ulp_neq_0 by exact E. apply bpow_le. unfold cexp, FLT_exp. lia.
  Qed.

  Lemma up_lt : forall k l, (k < l)%nat -> upto k < upto l.
  Proof.
    intros k l H. induction H as [|l H IH].
    - pose proof (up_step k). pose proof (bpow_gt_0 radix2 (-1074)). lra.
    - pose proof (up_step l). pose proof (bpow_gt_0 radix2 (-1074)). lra.
  Qed.

  Lemma up_large : forall k, INR k * bpow radix2 (-1074) <= upto k.
  Proof.
    induction k as [|k IH].
    - cbn [upto INR]. lra.
    - rewrite S_INR. pose proof (up_step k). lra.
  Qed.

  Lemma up_all : forall r, fmt r -> 0 <= r -> exists k, upto k = r.
  Proof.
    intros r Hr H0.
    assert (Hk : forall k, r < upto k -> exists j, upto j = r).
    { induction k as [|k IH]; intros Hk.
      - cbn [upto] in Hk. lra.
      - destruct (Rlt_le_dec r (upto k)) as [L|[L|L]]; [apply IH; exact L| |eauto].
        exfalso. cbn [upto] in Hk.
        pose proof (succ_le_lt radix2 fexp (upto k) r (proj1 (up_facts k)) Hr L). lra. }
    destruct (archimed (r / bpow radix2 (-1074))) as (Ha & _).
    pose proof (bpow_gt_0 radix2 (-1074)) as Hb.
    apply (Hk (Z.to_nat (Rdefinitions.up (r / bpow radix2 (-1074))))).
    eapply Rlt_le_trans; [|apply up_large].
    rewrite INR_IZR_INZ, Z2Nat.id.
    - apply Rmult_lt_reg_r with (/ bpow radix2 (-1074)); [apply Rinv_0_lt_compat; exact Hb|].
      rewrite Rmult_assoc, Rinv_r by lra. unfold Rdiv in Ha. lra.
    - apply le_IZR. apply Rlt_le. eapply Rle_lt_trans; [|exact Ha].
      apply Rmult_le_pos; [exact H0|]. apply Rlt_le. apply Rinv_0_lt_compat. exact Hb.
  Qed.

  Lemma the_num_numbering : numbering the_num.
  Proof.
    split.
    - intros i j H. unfold the_num.
      destruct (Z.ltb_spec i 0) as [Hi|Hi], (Z.ltb_spec j 0) as [Hj|Hj].
      + pose proof (up_lt (Z.to_nat (- j)) (Z.to_nat (- i)) ltac:(lia)). lra.
      + pose proof (up_lt 0 (Z.to_nat (- i)) ltac:(lia)). cbn [upto] in H0.
        pose proof (proj2 (up_facts (Z.to_nat j))). lra.
      + lia.
      + apply up_lt. lia.
    - intros r. split.
      + intros Hr. destruct (Rle_lt_dec 0 r) as [H0|H0].
        * destruct (up_all r Hr H0) as (k & E). exists (Z.of_nat k). unfold the_num.
          replace (Z.of_nat k <? 0)%Z with false by (symmetry; apply Z.ltb_ge; lia).
          rewrite Nat2Z.id. exact E.
        * destruct (up_all (- r)) as (k & E); [apply generic_format_opp; exact Hr|lra|].
          exists (- Z.of_nat k)%Z. unfold the_num.
          destruct (Z.ltb_spec (- Z.of_nat k) 0) as [L|L].
          -- rewrite Z.opp_involutive, Nat2Z.id. lra.
          -- assert (k = 0%nat) as -> by lia. cbn [upto] in E. lra.
      + intros (i & <-). unfold the_num. destruct (i <? 0)%Z.
        * apply generic_format_opp. apply up_facts.
        * apply up_facts.
  Qed.

  Definition znat (k : nat) : Z := if Nat.even k then Z.of_nat (Nat.div2 k) else (- Z.of_nat (Nat.div2 k))%Z.
  Lemma znat_onto : forall z, exists k, znat k = z.
  Proof.
    intros z. destruct (Z.le_gt_cases 0 z) as [H|H].
    - exists (2 * Z.to_nat z)%nat. unfold znat. rewrite Nat.even_mul. cbn [Nat.even orb].
      rewrite Nat.div2_double. lia.
    - exists (S (2 * Z.to_nat (- z)))%nat. unfold znat. rewrite Nat.even_succ, Nat.odd_mul. cbn [Nat.odd Nat.even negb andb].
      rewrite Nat.div2_succ_double. lia.
  Qed.

  Lemma numbering_exists : exists num mid, numbering num /\
    forall x y : Z, num (mid x y) = average (num x) (num y).
  Proof.
    exists the_num.
    assert (Hex : forall x y, {z | the_num z = average (the_num x) (the_num y)}).
    { intros x y.
      destruct (constructive_indefinite_ground_description_nat
                  (fun k => the_num (znat k) = average (the_num x) (the_num y))) as (k & Hk).
      - intros k. apply Req_EM_T.
      - destruct (proj1 (proj2 the_num_numbering (average (the_num x) (the_num y)))) as (z & Hz).
        + apply generic_format_round; auto with typeclass_instances.
        + destruct (znat_onto z) as (k & <-). exists k. exact Hz.
      - exists (znat k). exact Hk. }
    exists (fun x y => proj1_sig (Hex x y)). split; [exact the_num_numbering|].
    intros x y. exact (proj2_sig (Hex x y)).
  Qed.
End Mid.
