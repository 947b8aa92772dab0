(* The bisection finds every wanted location, whatever the order in which its calls go on. *)
From Coq Require Import ZArith List Bool Lia.
From Verif Require Import Base StevxModel StevxSpec.
Import ListNotations.
Open Scope Z_scope.

Section Bis.
  Variables (n : Z) (count : Z -> Z) (mid : Z -> Z -> Z).
  Hypothesis Hc : counts n count.
  Hypothesis Hm : midpoint mid.

  Variables (c : control) (k VL VU : Z) (val0 mul0 : Z -> Z).
  Let isI := c_range c = PlasmaRangeI.
  Hypothesis HI : isI -> count VL < c_iu c /\ c_il c <= count VU /\ c_iu c + 1 - c_il c <= k /\ c_il c <= c_iu c /\
                         exists a, count a = c_il c - 1.
  Hypothesis HV : ~ isI -> c_base c = count VL /\ count VU - count VL <= k.

  Definition wanted (x : Z) : Prop :=
    VL <= x < VU /\ count x < count (x + 1) /\ (isI -> c_il c - 1 <= count x < c_iu c).

  Definition idx (x : Z) : Z :=
    if c_range c =? PlasmaRangeI then count x - (c_il c - 1) else count x - c_base c.

  Lemma count_mono : forall x y, x <= y -> count x <= count y.
  Proof. apply Hc. Qed.

  Lemma wanted_inj : forall x y, wanted x -> wanted y -> idx x = idx y -> x = y.
  Proof.
    intros x y (H1 & H2 & _) (H3 & H4 & _) E.
    assert (count x = count y) by (unfold idx in E; destruct (c_range c =? PlasmaRangeI); lia).
    destruct (Z.lt_trichotomy x y) as [H5|[H5|H5]]; auto.
    - pose proof (count_mono (x + 1) y ltac:(lia)). lia.
    - pose proof (count_mono (y + 1) x ltac:(lia)). lia.
  Qed.

  Lemma wanted_inside : forall x, wanted x -> outside k (idx x) = false.
  Proof.
    intros x (H1 & H2 & H3). unfold outside, idx.
    destruct (Z.eqb_spec (c_range c) PlasmaRangeI) as [E|E].
    - specialize (H3 E). destruct (HI E) as (_ & _ & H4 & _).
      apply Bool.orb_false_iff. split; [apply Z.ltb_ge | apply Z.leb_gt]; lia.
    - destruct (HV E) as (H4 & H5).
      pose proof (count_mono VL x ltac:(lia)). pose proof (count_mono (x + 1) VU ltac:(lia)).
      apply Bool.orb_false_iff. split; [apply Z.ltb_ge | apply Z.leb_gt]; lia.
  Qed.

  Definition good (b : bracket) : Prop :=
    VL <= b_lo b < b_hi b /\ b_hi b <= VU /\ b_nlo b = count (b_lo b) /\ b_nhi b = count (b_hi b) /\
    b_nlo b < b_nhi b /\ b_nev b = b_nhi b - b_nlo b /\
    (isI -> b_nlo b < c_iu c /\ c_il c <= b_nhi b).

  Definition root (b : bracket) : Prop :=
    b_lo b = VL /\ b_hi b = VU /\ b_nlo b < 0 /\ b_nhi b < 0.

  Lemma good_wanted : forall b, good b -> b_hi b = b_lo b + 1 -> wanted (b_lo b).
  Proof.
    intros b (H1 & H2 & H3 & H4 & H5 & H6 & H7) E. unfold wanted.
    rewrite E in *. split; [lia|]. split; [lia|]. intros Hi.
    destruct (H7 Hi) as (H8 & H9). destruct (HI Hi) as (_ & _ & _ & _ & a & Ha).
    split; [|lia].
    destruct (Z_lt_le_dec (b_lo b) a) as [H10|H10].
    - pose proof (count_mono (b_lo b + 1) a ltac:(lia)). lia.
    - pose proof (count_mono a (b_lo b) H10). lia.
  Qed.

  Definition good_call (s : state) (t : bisection) : Prop :=
    match t with
    | Entering b => good b \/ root b
    | Looping b => good b
    | Closing b => good b /\ b_hi b = b_lo b + 1 /\ s_val s (idx (b_lo b)) = b_lo b
    end.

  Definition covers (t : bisection) (x : Z) : Prop :=
    match t with Entering b | Looping b | Closing b => b_lo b <= x < b_hi b end.

  Definition stored (s : state) (x : Z) : Prop :=
    s_val s (idx x) = x /\ s_mul s (idx x) = multiplicity count x.

  Definition inv (s : state) : Prop :=
    Forall (good_call s) (s_calls s) /\
    s_outside s = false /\
    (forall x, wanted x -> (exists t, In t (s_calls s) /\ covers t x) \/ stored s x) /\
    (forall i, s_mul s i = mul0 i \/ exists x, wanted x /\ i = idx x).

  Definition size (t : bisection) : Z :=
    match t with
    | Entering b => 4 * ((b_hi b - b_lo b) * (b_hi b - b_lo b)) + 3
    | Looping b => 4 * ((b_hi b - b_lo b) * (b_hi b - b_lo b)) + 2
    | Closing b => 1
    end.
  Fixpoint sizes (l : list bisection) : Z :=
    match l with [] => 0 | t :: l' => size t + sizes l' end.

  Lemma size_pos : forall t, 0 < size t.
  Proof. destruct t as [b|b|b]; cbn [size]; try lia; pose proof (Z.square_nonneg (b_hi b - b_lo b)); lia. Qed.
  Lemma sizes_nonneg : forall l, 0 <= sizes l.
  Proof. induction l as [|t l IH]; cbn [sizes]; [lia|]. pose proof (size_pos t). lia. Qed.
  Lemma sizes_app : forall l1 l2, sizes (l1 ++ l2) = sizes l1 + sizes l2.
  Proof. induction l1 as [|t l IH]; intros l2; cbn [sizes app]; [lia|]. rewrite IH. lia. Qed.

  Lemma enter_good : forall b, good b -> enter count c b = Some b.
  Proof.
    intros b (H1 & H2 & H3 & H4 & H5 & H6 & H7). unfold enter.
    assert (0 <= b_nlo b) by (rewrite H3; apply Hc).
    assert (0 <= b_nhi b) by lia.
    replace (b_nlo b <? 0) with false by (symmetry; apply Z.ltb_ge; lia).
    replace (b_nhi b <? 0) with false by (symmetry; apply Z.ltb_ge; lia). cbn [orb].
    replace (b_nev b <? 1) with false by (symmetry; apply Z.ltb_ge; lia).
    destruct (Z.eqb_spec (c_range c) PlasmaRangeI) as [E|E]; cbn [andb].
    - destruct (H7 E) as (H8 & H9).
      replace (b_nhi b <? c_il c) with false by (symmetry; apply Z.ltb_ge; lia).
      replace (c_iu c <? b_nlo b) with false by (symmetry; apply Z.ltb_ge; lia). cbn [orb].
      destruct b; reflexivity.
    - destruct b; reflexivity.
  Qed.

  Lemma enter_root : forall b, root b ->
    match enter count c b with
    | None => forall x, ~ wanted x
    | Some b' => good b' /\ b_lo b' = VL /\ b_hi b' = VU
    end.
  Proof.
    intros b (H1 & H2 & H3 & H4). unfold enter.
    rewrite (proj2 (Z.ltb_lt _ _) H3), (proj2 (Z.ltb_lt _ _) H4). cbn [orb].
    rewrite H1, H2.
    destruct (Z.ltb_spec (count VU - count VL) 1) as [H5|H5].
    - intros x (H6 & H7 & _).
      pose proof (count_mono VL x ltac:(lia)). pose proof (count_mono (x + 1) VU ltac:(lia)). lia.
    - assert (VL < VU).
      { destruct (Z_lt_le_dec VL VU) as [H6|H6]; [exact H6|]. pose proof (count_mono VU VL H6). lia. }
      destruct (Z.eqb_spec (c_range c) PlasmaRangeI) as [E|E]; cbn [andb].
      + destruct (HI E) as (H8 & H9 & _).
        replace (count VU <? c_il c) with false by (symmetry; apply Z.ltb_ge; lia).
        replace (c_iu c <? count VL) with false by (symmetry; apply Z.ltb_ge; lia). cbn [orb].
        split; [|split; reflexivity]. unfold good. cbn [b_lo b_hi b_nlo b_nhi b_nev].
        repeat split; lia.
      + split; [|split; reflexivity]. unfold good. cbn [b_lo b_hi b_nlo b_nhi b_nev].
        repeat split; try lia; try (intros E'; contradiction); contradiction.
  Qed.

  Lemma iterate_good : forall b, good b ->
    match iterate count mid c b with
    | ItDone => b_hi b = b_lo b + 1
    | ItNext b' => good b' /\ b_lo b <= b_lo b' /\ b_hi b' <= b_hi b /\
                   b_hi b' - b_lo b' < b_hi b - b_lo b /\
                   forall x, wanted x -> b_lo b <= x < b_hi b -> b_lo b' <= x < b_hi b'
    | ItSplit r l => good r /\ good l /\ b_lo r = b_hi l /\ b_lo l = b_lo b /\ b_hi r = b_hi b
    end.
  Proof.
    intros b (H1 & H2 & H3 & H4 & H5 & H6 & H7). unfold iterate.
    destruct (Hm (b_lo b) (b_hi b) ltac:(lia)) as (M1 & M2).
    destruct (Z.eqb_spec (mid (b_lo b) (b_hi b)) (b_lo b)) as [E1|E1]; cbn [orb].
    { destruct (Z_lt_le_dec (b_lo b + 1) (b_hi b)) as [H8|H8]; [specialize (M2 H8)|]; lia. }
    destruct (Z.eqb_spec (mid (b_lo b) (b_hi b)) (b_hi b)) as [E2|E2].
    { destruct (Z_lt_le_dec (b_lo b + 1) (b_hi b)) as [H8|H8]; [specialize (M2 H8)|]; lia. }
    remember (mid (b_lo b) (b_hi b)) as cp eqn:Ecp. clear Ecp M2.
    assert (C1 : b_lo b < cp < b_hi b) by lia.
    pose proof (count_mono (b_lo b) cp ltac:(lia)) as C2.
    pose proof (count_mono cp (b_hi b) ltac:(lia)) as C3.
    assert (C4 : 0 <= count cp) by apply Hc.
    replace (count cp <? 0) with false by (symmetry; apply Z.ltb_ge; lia).
    destruct (Z.eqb_spec (count cp) (b_nhi b)) as [E3|E3].
    { unfold good. cbn [b_lo b_hi b_nlo b_nhi b_nev].
      split; [|split; [|split; [|split]]]; try lia.
      - repeat split; try lia; apply H7; assumption.
      - intros x (W1 & W2 & _) X. split; [lia|].
        destruct (Z_lt_le_dec x cp) as [X1|X1]; [exact X1|].
        pose proof (count_mono cp x X1). pose proof (count_mono (x + 1) (b_hi b) ltac:(lia)). lia. }
    destruct (Z.eqb_spec (count cp) (b_nlo b)) as [E4|E4].
    { unfold good. cbn [b_lo b_hi b_nlo b_nhi b_nev].
      split; [|split; [|split; [|split]]]; try lia.
      - repeat split; try lia; apply H7; assumption.
      - intros x (W1 & W2 & _) X. split; [|lia].
        destruct (Z_lt_le_dec x cp) as [X1|X1]; [|exact X1].
        pose proof (count_mono (b_lo b) x ltac:(lia)). pose proof (count_mono (x + 1) cp ltac:(lia)). lia. }
    destruct (Z.eqb_spec (c_range c) PlasmaRangeI) as [E|E]; cbn [andb].
    - destruct (H7 E) as (H8 & H9). destruct (HI E) as (_ & _ & _ & Hil & a & Ha).
      destruct (Z.ltb_spec (count cp) (c_il c)) as [E5|E5].
      { unfold good. cbn [b_lo b_hi b_nlo b_nhi b_nev].
        split; [|split; [|split; [|split]]]; try lia.
        - intros x (W1 & W2 & W3) X. specialize (W3 E). split; [|lia].
          destruct (Z_lt_le_dec x cp) as [X1|X1]; [|exact X1].
          pose proof (count_mono (x + 1) cp ltac:(lia)). lia. }
      destruct (Z.leb_spec (c_iu c) (count cp)) as [E6|E6].
      { unfold good. cbn [b_lo b_hi b_nlo b_nhi b_nev].
        split; [|split; [|split; [|split]]]; try lia.
        - intros x (W1 & W2 & W3) X. specialize (W3 E). split; [lia|].
          destruct (Z_lt_le_dec x cp) as [X1|X1]; [exact X1|].
          pose proof (count_mono cp x X1). lia. }
      unfold good. cbn [b_lo b_hi b_nlo b_nhi b_nev]. repeat split; lia.
    - unfold good. cbn [b_lo b_hi b_nlo b_nhi b_nev].
      repeat split; try lia; try (intros E'; contradiction); contradiction.
  Qed.

  Lemma my_idx_good : forall b, good b -> my_idx c b = idx (b_lo b).
  Proof.
    intros b (_ & _ & H & _). unfold my_idx, idx. rewrite H. reflexivity.
  Qed.

  Lemma good_call_ext : forall s s' t,
    (forall x, wanted x -> s_val s (idx x) = x -> s_val s' (idx x) = x) ->
    good_call s t -> good_call s' t.
  Proof.
    intros s s' t H. destruct t as [b|b|b]; cbn [good_call]; auto.
    intros (H1 & H2 & H3). split; [exact H1|]. split; [exact H2|].
    apply H; auto. apply good_wanted; assumption.
  Qed.

  Lemma step_good : forall s s', inv s -> bstep count mid c k s s' ->
    inv s' /\ sizes (s_calls s') < sizes (s_calls s).
  Proof.
    intros s s' (I1 & I2 & I3 & I4) St. destruct St as [l1 t l2 s E].
    rewrite E in I1, I3. apply Forall_app in I1. destruct I1 as (F1 & F2).
    inversion F2 as [|t' l' Ft F3 Et]; subst t' l'. clear F2.
    assert (Hsz : forall l, sizes l < size t ->
      sizes (l1 ++ l ++ l2) < sizes (s_calls s)).
    { intros l Hl. rewrite E, !sizes_app. change (t :: l2) with ([t] ++ l2).
      rewrite sizes_app. cbn [sizes]. lia. }
    assert (Hcov : forall x l, (exists t0, In t0 (l1 ++ t :: l2) /\ covers t0 x) ->
      (covers t x -> exists t0, In t0 l /\ covers t0 x) ->
      exists t0, In t0 (l1 ++ l ++ l2) /\ covers t0 x).
    { intros x l (t0 & Ht0 & Hcv) Hl. rewrite in_app_iff in Ht0. cbn [In] in Ht0.
      destruct Ht0 as [Ht0|[->|Ht0]].
      - exists t0. rewrite !in_app_iff. auto.
      - destruct (Hl Hcv) as (t1 & Hi & Hv). exists t1. rewrite !in_app_iff. auto.
      - exists t0. rewrite !in_app_iff. auto. }
    destruct t as [b|b|b]; cbn [call_step good_call] in Ft |- *.
    - (* entering *)
      assert (Hin : match enter count c b with
                    | None => forall x, ~ wanted x
                    | Some b' => good b' /\ b_lo b' = b_lo b /\ b_hi b' = b_hi b
                    end).
      { destruct Ft as [Ft|Ft].
        - rewrite (enter_good b Ft). auto.
        - pose proof (enter_root b Ft) as He. destruct Ft as (R1 & R2 & _).
          destruct (enter count c b); [rewrite R1, R2|]; exact He. }
      destruct (enter count c b) as [b'|]; cbn [fst snd].
      + destruct Hin as (G & G1 & G2). split.
        * split; [|split; [exact I2|split; [|exact I4]]]; cbn [s_calls].
          -- apply Forall_app. split; [exact F1|]. apply Forall_app. split; [|exact F3].
             constructor; [exact G|constructor].
          -- intros x W. destruct (I3 x W) as [C|C]; [left|right; exact C].
             apply (Hcov x [Looping b'] C). cbn [covers]. intros Cx.
             exists (Looping b'). cbn [In covers]. split; [auto|]. rewrite G1, G2. exact Cx.
        * cbn [s_calls]. apply Hsz. cbn [sizes size]. rewrite G1, G2. lia.
      + split.
        * split; [|split; [exact I2|split; [|exact I4]]]; cbn [s_calls].
          -- apply Forall_app. split; [exact F1|]. exact F3.
          -- intros x W. destruct (Hin x W).
        * cbn [s_calls]. apply Hsz. cbn [sizes]. apply size_pos.
    - (* in the loop *)
      pose proof (iterate_good b Ft) as Hit.
      destruct (iterate count mid c b) as [|b'|r l]; cbn [fst snd].
      + pose proof (good_wanted b Ft Hit) as W0.
        rewrite (my_idx_good b Ft).
        assert (Hput : forall x, wanted x -> s_val s (idx x) = x ->
                       put (s_val s) (idx (b_lo b)) (b_lo b) (idx x) = x).
        { intros x W Hx. unfold put. destruct (Z.eqb_spec (idx x) (idx (b_lo b))) as [Ei|Ei]; auto.
          symmetry. apply (wanted_inj _ _ W W0 Ei). }
        split.
        * split; [|split; [|split; [|exact I4]]]; cbn [s_calls s_val s_mul s_outside].
          -- apply Forall_app. split.
             ++ revert F1. apply Forall_impl. intros t. apply good_call_ext. exact Hput.
             ++ apply Forall_app. split.
                ** constructor; [|constructor]. cbn [good_call s_val]. split; [exact Ft|]. split; [exact Hit|].
                   unfold put. rewrite Z.eqb_refl. reflexivity.
                ** revert F3. apply Forall_impl. intros t. apply good_call_ext. exact Hput.
          -- rewrite I2. cbn [orb]. apply wanted_inside. exact W0.
          -- intros x W. destruct (I3 x W) as [C|C].
             ++ left. apply (Hcov x [Closing b] C). cbn [covers]. intros Cx.
                exists (Closing b). cbn [In covers]. auto.
             ++ right. destruct C as (C1 & C2). split; [|exact C2]. apply Hput; assumption.
        * cbn [s_calls]. apply Hsz. cbn [sizes size]. nia.
      + destruct Hit as (G & G1 & G2 & G3 & G4). split.
        * split; [|split; [exact I2|split; [|exact I4]]]; cbn [s_calls].
          -- apply Forall_app. split; [exact F1|]. apply Forall_app. split; [|exact F3].
             constructor; [exact G|constructor].
          -- intros x W. destruct (I3 x W) as [C|C]; [left|right; exact C].
             apply (Hcov x [Looping b'] C). cbn [covers]. intros Cx.
             exists (Looping b'). cbn [In covers]. auto.
        * cbn [s_calls]. apply Hsz. cbn [sizes size]. destruct G as (G5 & _). nia.
      + destruct Hit as (Gr & Gl & G1 & G2 & G3). split.
        * split; [|split; [exact I2|split; [|exact I4]]]; cbn [s_calls].
          -- apply Forall_app. split; [exact F1|]. apply Forall_app. split; [|exact F3].
             constructor; [left; exact Gr|]. constructor; [exact Gl|constructor].
          -- intros x W. destruct (I3 x W) as [C|C]; [left|right; exact C].
             apply (Hcov x [Entering r; Looping l] C). cbn [covers]. intros Cx.
             destruct (Z_lt_le_dec x (b_hi l)) as [X|X].
             ++ exists (Looping l). cbn [In covers]. split; [auto|]. lia.
             ++ exists (Entering r). cbn [In covers]. split; [auto|]. lia.
        * cbn [s_calls]. apply Hsz. cbn [sizes size].
          destruct Gr as (Gr & _). destruct Gl as (Gl & _). rewrite <- G2, <- G3, G1 in *. nia.
    - (* storing the multiplicity *)
      destruct Ft as (Ft & Hw & Hv). pose proof (good_wanted b Ft Hw) as W0.
      rewrite (my_idx_good b Ft). cbn [fst snd].
      assert (Hmul : b_nev b = multiplicity count (b_lo b)).
      { destruct Ft as (_ & _ & H3 & H4 & _ & H6 & _). unfold multiplicity.
        rewrite H6, H3, H4, Hw. reflexivity. }
      split.
      + split; [|split; [|split]]; cbn [s_calls s_val s_mul s_outside].
        * apply Forall_app. split; [exact F1|exact F3].
        * rewrite I2. cbn [orb]. apply wanted_inside. exact W0.
        * intros x W. destruct (I3 x W) as [(t0 & Ht0 & Hcv)|(C1 & C2)].
          -- rewrite in_app_iff in Ht0. cbn [In] in Ht0. destruct Ht0 as [Ht0|[<-|Ht0]].
             ++ left. exists t0. rewrite in_app_iff. auto.
             ++ right. cbn [covers] in Hcv. assert (x = b_lo b) as -> by lia.
                unfold stored. cbn [s_val s_mul]. split; [exact Hv|].
                unfold put. rewrite Z.eqb_refl. exact Hmul.
             ++ left. exists t0. rewrite in_app_iff. auto.
          -- right. unfold stored. cbn [s_val s_mul]. split; [exact C1|].
             unfold put. destruct (Z.eqb_spec (idx x) (idx (b_lo b))) as [Ei|Ei]; [|exact C2].
             rewrite Hmul, (wanted_inj _ _ W W0 Ei). reflexivity.
        * intros i. unfold put. destruct (Z.eqb_spec i (idx (b_lo b))) as [Ei|Ei].
          -- right. exists (b_lo b). auto.
          -- apply I4.
      + cbn [s_calls]. apply Hsz. cbn [sizes size]. lia.
  Qed.

  Definition outcome (s : state) : Prop :=
    s_calls s = [] /\ s_outside s = false /\ (forall x, wanted x -> stored s x) /\
    (forall i, s_mul s i = mul0 i \/ exists x, wanted x /\ i = idx x).

  Lemma inv_ends : forall s, inv s -> always_ends (bstep count mid c k) outcome s.
  Proof.
    intros s. remember (sizes (s_calls s)) as z eqn:Ez.
    assert (Hz : 0 <= z) by (rewrite Ez; apply sizes_nonneg).
    revert s Ez. pattern z. apply Zlt_0_ind; [|exact Hz]. clear z Hz.
    intros z IH _ s Ez I. constructor.
    - intros Hn. destruct I as (I1 & I2 & I3 & I4).
      assert (E : s_calls s = []).
      { destruct (s_calls s) as [|t l] eqn:E; [reflexivity|]. exfalso.
        eapply Hn. apply (bs_call count mid c k [] t l s). exact E. }
      split; [exact E|]. split; [exact I2|]. split; [|exact I4].
      intros x W. destruct (I3 x W) as [(t & Ht & _)|H]; [|exact H]. rewrite E in Ht. destruct Ht.
    - intros t St. destruct (step_good s t I St) as (It & Hs).
      apply (IH (sizes (s_calls t))); auto.
      rewrite Ez. split; [apply sizes_nonneg | exact Hs].
  Qed.

  Lemma root_ends : forall b, root b ->
    always_ends (bstep count mid c k) outcome
      {| s_calls := [Entering b]; s_val := val0; s_mul := mul0; s_outside := false |}.
  Proof.
    intros b R. apply inv_ends. split; [|split; [reflexivity|split]]; cbn [s_calls].
    - constructor; [right; exact R | constructor].
    - intros x W. left. exists (Entering b). cbn [In covers]. split; [auto|].
      destruct R as (R1 & R2 & _). rewrite R1, R2. apply W.
    - intros i. left. reflexivity.
  Qed.
End Bis.

Lemma ends_mono : forall S (step : S -> S -> Prop) (P Q : S -> Prop),
  (forall s, P s -> Q s) -> forall s, always_ends step P s -> always_ends step Q s.
Proof.
  intros S step P Q H s E. induction E as [s H1 H2 IH]. constructor; auto.
Qed.
