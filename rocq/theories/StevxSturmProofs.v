(* plasma_zlaneg2 counts the negative pivots of the shifted matrix. *)
From Coq Require Import ZArith QArith Qabs Qfield List Bool Lia Lqa.
From Verif Require Import Base StevxModel StevxSpec.
Import ListNotations.
Open Scope Q_scope.

Lemma qsum_zero : forall f n, (forall k, (k < n)%nat -> f k == 0) -> qsum f n == 0.
Proof.
  intros f n. induction n as [|n IH]; intros H; cbn; [reflexivity|]. rewrite IH, H by (auto; lia). reflexivity.
Qed.

Lemma qsum_split : forall f n m, qsum f (n + m) == qsum f n + qsum (fun k => f (n + k)%nat) m.
Proof.
  intros f n m. induction m as [|m IH]; cbn; [rewrite Nat.add_0_r; ring|].
  rewrite Nat.add_succ_r. cbn. rewrite IH. ring.
Qed.

Lemma qsum_only : forall f n k, (k < n)%nat -> (forall i, (i < n)%nat -> i <> k -> f i == 0) -> qsum f n == f k.
Proof.
  intros f n k Hk H. replace n with (k + (1 + (n - k - 1)))%nat by lia.
  rewrite (qsum_split f k), (qsum_split _ 1). cbn. rewrite Nat.add_0_r.
  rewrite (qsum_zero f k) by (intros; apply H; lia).
  rewrite (qsum_zero _ (n - k - 1)) by (intros; apply H; lia). ring.
Qed.

Lemma qsum_two : forall f n k, (S k < n)%nat -> (forall i, (i < n)%nat -> i <> k -> i <> S k -> f i == 0) ->
  qsum f n == f k + f (S k).
Proof.
  intros f n k Hk H. replace n with (k + (2 + (n - k - 2)))%nat by lia.
  rewrite (qsum_split f k), (qsum_split _ 2). cbn. rewrite Nat.add_0_r, Nat.add_1_r.
  rewrite (qsum_zero f k) by (intros; apply H; lia).
  rewrite (qsum_zero _ (n - k - 2)) by (intros; apply H; lia). ring.
Qed.

Section Ldl.
  Variables (d e : list Q) (u : Q) (n : nat) (L : nat -> nat -> Q) (D : nat -> Q).
  Hypothesis HL : is_ldl n (shifted d e u) L D.

  Lemma shifted_far : forall i j, (S j < i)%nat -> shifted d e u i j = 0.
  Proof.
    intros i j H. unfold shifted.
    replace (Nat.eqb i j) with false by (symmetry; apply Nat.eqb_neq; lia).
    replace (Nat.eqb j (S i)) with false by (symmetry; apply Nat.eqb_neq; lia).
    replace (Nat.eqb i (S j)) with false by (symmetry; apply Nat.eqb_neq; lia). reflexivity.
  Qed.
  Lemma shifted_sub : forall k, shifted d e u (S k) k = nth k e 0.
  Proof.
    intros k. unfold shifted.
    replace (Nat.eqb (S k) k) with false by (symmetry; apply Nat.eqb_neq; lia).
    replace (Nat.eqb k (S (S k))) with false by (symmetry; apply Nat.eqb_neq; lia).
    rewrite Nat.eqb_refl. reflexivity.
  Qed.
  Lemma shifted_diag : forall k, shifted d e u k k = nth k d 0 - u.
  Proof. intros k. unfold shifted. rewrite Nat.eqb_refl. reflexivity. Qed.

  (* L is bidiagonal and D satisfies the recurrence *)
  Lemma ldl_tri : forall k, (k < n)%nat ->
    (forall i, (S k < i < n)%nat -> L i k == 0) /\
    ((S k < n)%nat -> L (S k) k * D k == nth k e 0) /\
    match k with
    | O => D 0%nat == nth 0 d 0 - u
    | S k' => D k == nth k d 0 - u - nth k' e 0 * nth k' e 0 / D k'
    end.
  Proof.
    destruct HL as (L1 & L2 & L3 & L4).
    induction k as [k IH] using lt_wf_ind. intros Hk. destruct k as [|k].
    - assert (C : forall i, (i < n)%nat -> shifted d e u i 0 == L i 0%nat * D 0%nat).
      { intros i Hi. rewrite L4 by lia. rewrite (qsum_only _ n 0%nat); [rewrite L1 by lia; ring|lia|].
        intros l Hl Hne. rewrite (L2 0%nat l) by lia. ring. }
      split; [|split].
      + intros i Hi. specialize (C i ltac:(lia)). rewrite shifted_far in C by lia.
        destruct (Qmult_integral _ _ (Qeq_sym _ _ C)) as [E|E]; [assumption|].
        exfalso. apply (L3 0%nat); [lia|assumption].
      + intros H. rewrite <- C by lia. rewrite shifted_sub. reflexivity.
      + specialize (C 0%nat Hk). rewrite shifted_diag, L1 in C by lia. rewrite C. ring.
    - destruct (IH k ltac:(lia) ltac:(lia)) as (I1 & I2 & _). specialize (I2 Hk).
      assert (F : forall l, (S l < S k)%nat -> L (S k) l == 0).
      { intros l Hl. destruct (IH l ltac:(lia) ltac:(lia)) as (J & _). apply J. lia. }
      assert (C : forall i, (i < n)%nat -> shifted d e u i (S k) == L i (S k) * D (S k) + L i k * nth k e 0).
      { intros i Hi. rewrite L4 by lia. rewrite (qsum_two _ n k); [rewrite (L1 (S k)) by lia; rewrite <- I2; ring|lia|].
        intros l Hl N1 N2. destruct (Nat.lt_ge_cases l k).
        - rewrite (F l) by lia. ring.
        - rewrite (L2 (S k) l) by lia. ring. }
      split; [|split].
      + intros i Hi. specialize (C i ltac:(lia)). rewrite shifted_far in C by lia. rewrite (I1 i) in C by lia.
        assert (C' : L i (S k) * D (S k) == 0) by (rewrite C; ring).
        destruct (Qmult_integral _ _ C') as [E|E]; [assumption|]. exfalso. apply (L3 (S k)); [lia|assumption].
      + intros H. specialize (C (S (S k)) ltac:(lia)). rewrite shifted_sub in C. rewrite (I1 (S (S k))) in C by lia.
        rewrite C. ring.
      + specialize (C (S k) Hk). rewrite shifted_diag, L1 in C by lia. rewrite C, <- I2.
        field. apply L3. lia.
  Qed.
End Ldl.

Lemma qlt_lt : forall a b, qlt a b = true <-> a < b.
Proof.
  intros a b. unfold qlt. rewrite negb_true_iff. split.
  - intros H. apply Qnot_le_lt. intros HH. apply Qle_bool_iff in HH. congruence.
  - intros H. destruct (Qle_bool b a) eqn:E; [|reflexivity]. apply Qle_bool_iff in E. lra.
Qed.

(* the test for a sign change *)
Lemma sign_change : forall r0 r1 D, ~ r1 == 0 -> r0 == D * r1 -> ~ D == 0 ->
  ((qlt r0 0 && Qle_bool 0 r1) || (Qle_bool 0 r0 && qlt r1 0))%bool = if Qlt_le_dec D 0 then true else false.
Proof.
  intros r0 r1 D H1 H0 HD. destruct (Qlt_le_dec D 0) as [HN|HN].
  - destruct (Qlt_le_dec r1 0) as [HR|HR].
    + apply orb_true_iff. right. apply andb_true_iff. split; [apply Qle_bool_iff; rewrite H0; nra|apply qlt_lt; assumption].
    + apply orb_true_iff. left. apply andb_true_iff. split; [apply qlt_lt|apply Qle_bool_iff; assumption].
      assert (0 < r1) by (apply Qle_lteq in HR; destruct HR as [?|E]; [assumption|exfalso; apply H1; rewrite E; reflexivity]).
      rewrite H0. nra.
  - assert (HP : 0 < D) by (apply Qle_lteq in HN; destruct HN as [?|E]; [assumption|exfalso; apply HD; rewrite E; reflexivity]).
    apply orb_false_iff. split; apply andb_false_iff.
    + destruct (Qlt_le_dec r1 0) as [HR|HR].
      * right. destruct (Qle_bool 0 r1) eqn:E; [|reflexivity]. apply Qle_bool_iff in E. lra.
      * left. destruct (qlt r0 0) eqn:E; [|reflexivity]. apply qlt_lt in E. rewrite H0 in E. nra.
    + destruct (Qlt_le_dec r1 0) as [HR|HR].
      * left. destruct (Qle_bool 0 r0) eqn:E; [|reflexivity]. apply Qle_bool_iff in E. rewrite H0 in E. nra.
      * right. destruct (qlt r1 0) eqn:E; [|reflexivity]. apply qlt_lt in E. lra.
Qed.

Lemma skipn_nth : forall (l : list Q) k, (k < length l)%nat -> skipn k l = nth k l 0 :: skipn (S k) l.
Proof.
  induction l as [|x l IH]; intros k Hk; cbn in Hk; [lia|]. destruct k as [|k]; [reflexivity|].
  cbn [skipn nth]. rewrite IH by lia. reflexivity.
Qed.

Section Run.
  Variables (d e : list Q) (u : Q) (D : nat -> Q).
  Hypothesis HD : forall k, (k < length d)%nat -> ~ D k == 0.
  Hypothesis HS : forall k, (S k < length d)%nat ->
    D (S k) == nth (S k) d 0 - u - nth k e 0 * nth k e 0 / D k.
  Hypothesis He : (length d <= S (length e))%nat.

  Lemma sturm_run : forall m k p0 p1 c,
    (k < length d)%nat -> m = (length d - S k)%nat ->
    ~ p1 == 0 -> p0 == D k * p1 ->
    sturm (skipn (S k) d) (skipn k e) u p0 p1 c = (c + (negatives D (length d) - negatives D (S k)))%Z.
  Proof.
    induction m as [|m IH]; intros k p0 p1 c Hk Hm H1 H0.
    - assert (E : length d = S k) by lia. rewrite E. rewrite (skipn_all2 d) by lia. cbn [sturm]. lia.
    - rewrite (skipn_nth d (S k)), (skipn_nth e k) by lia. cbn [sturm].
      match goal with |- context [Qred (Qred (?a) * ?s)] => remember s as sc eqn:Es; remember a as q0 eqn:Eq0 end.
      assert (HP : 0 < sc).
      { rewrite Es. assert (A1 : 0 < Qabs p1).
        { destruct (Qlt_le_dec 0 (Qabs p1)) as [A|A]; [assumption|].
          exfalso. apply H1. pose proof (Qabs_nonneg p1) as A2. assert (A3 : Qabs p1 == 0) by lra.
          destruct (Qlt_le_dec p1 0) as [N|N].
          - rewrite Qabs_neg in A3 by lra. lra.
          - rewrite Qabs_pos in A3 by lra. assumption. }
        assert (PH : 0 < phi) by reflexivity.
        assert (W : 0 < (if qlt (Qabs p1) (Qabs p0) then Qabs p0 else Qabs p1)).
        { destruct (qlt (Qabs p1) (Qabs p0)) eqn:E; [apply qlt_lt in E; lra|assumption]. }
        remember (if qlt (Qabs p1) (Qabs p0) then Qabs p0 else Qabs p1) as w eqn:Ew.
        destruct (qlt phi w).
        - rewrite Qred_correct. apply Qlt_shift_div_l; [assumption|]. lra.
        - destruct (qlt w (/ phi)); [|reflexivity]. rewrite Qred_correct. apply Qlt_shift_div_l; [assumption|].
          pose proof (Qinv_lt_0_compat phi PH). lra. }
      assert (R1 : ~ Qred (p0 * sc) == 0).
      { rewrite Qred_correct, H0. intros E. apply Qmult_integral in E. destruct E as [E|E]; [|lra].
        apply Qmult_integral in E. destruct E as [E|E]; [apply (HD k Hk E)|contradiction]. }
      assert (R0 : Qred (Qred q0 * sc) == D (S k) * Qred (p0 * sc)).
      { rewrite !Qred_correct, Eq0, H0, HS by lia. field. apply HD. assumption. }
      rewrite (sign_change _ _ (D (S k)) R1 R0) by (apply HD; lia).
      rewrite (IH (S k)); [|lia|lia|assumption|assumption].
      cbn [negatives]. destruct (Qlt_le_dec (D (S k)) 0); lia.
  Qed.
End Run.

Lemma zlaneg2_counts : forall d e u L D, (length d <= S (length e))%nat ->
  is_ldl (length d) (shifted d e u) L D -> zlaneg2 d e u = negatives D (length d).
Proof.
  intros d e u L D He HL. unfold zlaneg2. destruct d as [|d0 d']; [reflexivity|].
  remember (d0 :: d') as d eqn:Ed.
  assert (LD : (0 < length d)%nat) by (rewrite Ed; cbn; lia).
  assert (D0 : D 0%nat == d0 - u).
  { destruct (ldl_tri d e u (length d) L D HL 0%nat LD) as (_ & _ & E). rewrite E, Ed. reflexivity. }
  pose proof (proj1 (proj2 (proj2 HL))) as HD.
  replace d' with (skipn 1 d) by (rewrite Ed; reflexivity). change e with (skipn 0 e) at 1.
  rewrite (sturm_run d e u D HD) with (k := 0%nat) (m := (length d - 1)%nat).
  - cbn [negatives]. destruct (Qlt_le_dec (D 0%nat) 0) as [N|N].
    + replace (qlt (d0 - u) 0) with true by (symmetry; apply qlt_lt; lra). lia.
    + replace (qlt (d0 - u) 0) with false; [lia|]. symmetry. destruct (qlt (d0 - u) 0) eqn:E; [|reflexivity].
      apply qlt_lt in E. lra.
  - intros k Hk. apply (ldl_tri d e u (length d) L D HL (S k) Hk).
  - assumption.
  - assumption.
  - lia.
  - discriminate.
  - rewrite D0. ring.
Qed.
