(* The steps of the band LU factorization on matrices: what they leave is a factorization. *)
From Coq Require Import ZArith List Bool Lia Ring.
From Verif Require Import Base NumModel NumProofs FieldModel SwpSpec SwpProofs LuProofs GbtrsSpec GetrfSpec.
Import ListNotations.
Open Scope Z_scope.

Section Math.
  Context {F : fields}.
  Add Ring num_ring_gbm : (nring F).
  Variable bigger : F -> F -> bool.
  Variables (nb n kl ku klt kut : Z) (A0 : Z -> Z -> F).
  Hypothesis Hb : 0 < nb.
  Hypothesis Hkl : 0 <= kl.
  Hypothesis Hku : 0 <= ku.
  Hypothesis Hklt : nb + kl <= klt * nb.
  Hypothesis Hkut : nb + kl + ku <= kut * nb.
  Hypothesis HA0 : forall i j, 0 <= i < n -> 0 <= j < n -> j + kl < i \/ i + ku < j -> A0 i j = n0.

  (* columns and rows of panel k *)
  Definition pw (k : Z) : Z := Z.min nb (n - k * nb).
  Definition ph (k : Z) : Z := Z.min (n - k * nb) (pw k + kl).

  (* step k takes X to X' *)
  Record gstep (k : Z) (X X' : Z -> Z -> F) (ipiv : Z -> Z) : Prop := {
    gs_piv : forall t, k * nb <= t < k * nb + pw k -> t + 1 <= ipiv t <= k * nb + ph k;
    gs_panel : forall i j, 0 <= i < ph k -> 0 <= j < pw k ->
      X (source (block_swaps nb n ipiv k) (k * nb + i)) (k * nb + j) =
      nsum (fun l => nmul (factor_L (fun i j => X' (k * nb + i) (k * nb + j)) i l)
                          (factor_U (fun i j => X' (k * nb + i) (k * nb + j)) l j)) 0 (pw k);
    gs_nz : forall t, k * nb <= t < k * nb + pw k -> X' t t <> n0;
    gs_wp : comparison bigger -> forall i t, k * nb <= t < k * nb + pw k -> t < i < k * nb + ph k ->
      bigger (nmul (X' i t) (X' t t)) (X' t t) = false;
    gs_pout : forall i j, 0 <= i < n -> k * nb <= j < k * nb + pw k -> i < k * nb \/ k * nb + ph k <= i -> X' i j = X i j;
    gs_upd : forall i j, (k + 1) * nb <= j < Z.min n ((k + kut) * nb) -> k * nb <= i < Z.min n ((k + klt) * nb) ->
      X (source (block_swaps nb n ipiv k) i) j = lower_times nb n X' k (fun r => X' r j) i;
    gs_uout : forall i j, (k + 1) * nb <= j < Z.min n ((k + kut) * nb) -> 0 <= i < n ->
      i < k * nb \/ (k + klt) * nb <= i -> X' i j = X i j;
    gs_other : forall i j, 0 <= i < n -> 0 <= j < n -> j < k * nb \/ (k + kut) * nb <= j -> X' i j = X i j }.

  (* the matrix that is left to factor after k steps *)
  Definition rest (k : Z) (X : Z -> Z -> F) (i j : Z) : F := if (j <? k * nb) && (j <? i) then n0 else X i j.
  (* the factors of the first steps times what is left *)
  Definition prod (a : Z -> Z -> F) (ipiv : Z -> Z) (B : Z -> Z -> F) (l : list Z) : Z -> Z -> F :=
    fold_right (fun k C i j => lower_times nb n a k (fun r => C r j) (source (rev (block_swaps nb n ipiv k)) i)) B l.

  Record ginv (k : Z) (X : Z -> Z -> F) (ipiv : Z -> Z) : Prop := {
    gi_low : forall i j, 0 <= i < n -> 0 <= j < n -> k * nb + kl <= i -> X i j = A0 i j;
    gi_right : forall i j, 0 <= i < n -> 0 <= j < n -> k * nb <= i -> Z.max i (k * nb + kl - 1) + ku < j -> X i j = n0;
    gi_L : forall i j, 0 <= i < n -> 0 <= j < n -> j < k * nb -> (j / nb + 1) * nb + kl <= i -> X i j = n0;
    gi_U : forall i j, 0 <= i < n -> 0 <= j < n -> i < k * nb -> i + kl + ku < j -> X i j = n0;
    gi_nz : forall t, 0 <= t < n -> t < k * nb -> X t t <> n0;
    gi_wp : comparison bigger -> forall i t, 0 <= t < n -> t < k * nb -> t < i < n ->
      bigger (nmul (X i t) (X t t)) (X t t) = false;
    gi_piv : forall t, 0 <= t < n -> t < k * nb -> t + 1 <= ipiv t <= Z.min n ((t / nb + 1) * nb + kl);
    gi_prod : forall i j, 0 <= i < n -> 0 <= j < n -> A0 i j = prod X ipiv (rest k X) (zrange 0 k) i j }.

  Lemma ginv_start : forall ipiv, ginv 0 A0 ipiv.
  Proof.
    intros ipiv. constructor; intros; try lia; auto.
    - apply HA0; lia.
    - cbn [zrange]. unfold prod, rest. rewrite zrange_nil by lia. cbn [fold_right].
      replace (j <? 0 * nb) with false by (symmetry; apply Z.ltb_ge; lia). reflexivity.
  Qed.

  Lemma prod_ext : forall k (a a' B B' : Z -> Z -> F) ipiv l, (forall k', In k' l -> 0 <= k' < k) ->
    (forall t, 0 <= t < n -> t < k * nb -> t + 1 <= ipiv t <= n) ->
    (forall i j, 0 <= i < n -> 0 <= j < n -> j < k * nb -> a i j = a' i j) ->
    (forall i j, 0 <= i < n -> 0 <= j < n -> B i j = B' i j) ->
    forall i j, 0 <= i < n -> 0 <= j < n -> prod a ipiv B l i j = prod a' ipiv B' l i j.
  Proof.
    intros k a a' B B' piv l HL HP Ha HB. unfold prod. induction l as [|k' l IH]; intros i j Hi Hj; [apply HB; assumption|].
    cbn [fold_right]. specialize (HL k' ltac:(left; reflexivity)) as H'.
    assert (KK : (k' + 1) * nb <= k * nb) by nia. assert (K1 : 0 <= k' * nb) by nia.
    assert (RI : 0 <= source (rev (block_swaps nb n piv k')) i < n).
    { apply source_range; [|assumption]. unfold swaps_in. apply Forall_forall. intros p Hp. apply in_rev in Hp.
      unfold block_swaps in Hp. apply in_map_iff in Hp. destruct Hp as (t & <- & Ht). apply in_zrange in Ht. cbn [fst snd].
      pose proof (HP t ltac:(lia) ltac:(lia)). lia. }
    unfold lower_times. apply (f_equal2 nadd).
    - apply IH; auto. intros q Hq. apply HL. right. assumption.
    - apply nsum_ext. intros t Ht. destruct (_ <? _); [|reflexivity]. apply (f_equal2 nmul); [apply Ha; lia|].
      apply IH; auto; [|lia]. intros q Hq. apply HL. right. assumption.
  Qed.

  Section Step.
    Variables (k : Z) (X X' : Z -> Z -> F) (ipiv : Z -> Z).
    Hypothesis Hk : 0 <= k.
    Hypothesis HkN : k * nb < n.
    Hypothesis HI : ginv k X ipiv.
    Hypothesis HS : gstep k X X' ipiv.
    Let K := k * nb.
    Let w := pw k.
    Let h := ph k.

    Lemma st_K : 0 <= K /\ 0 < w <= nb /\ w <= h /\ K + h <= n /\ h <= w + kl /\
      Z.min ((k + 1) * nb) n = K + w /\ (k + 1) * nb = K + nb /\ (K + h < n -> w = nb /\ h = nb + kl) /\
      (w < nb -> K + w = n).
    Proof.
      unfold K, w, h, ph, pw. assert (E : (k + 1) * nb = k * nb + nb) by ring. assert (K0 : 0 <= k * nb) by nia.
      rewrite E. clear -E K0 HkN Hb Hkl. remember (k * nb) as q eqn:Eq in *. clear Eq E. repeat split; intros; lia.
    Qed.

    Definition pr (i : Z) : Z := source (block_swaps nb n ipiv k) i.

    Lemma pr_perm : forall i, pr i = perm (fun t => ipiv t - 1) K (K + w) i.
    Proof.
      intros i. unfold pr, block_swaps, perm. destruct st_K as (_ & _ & _ & _ & _ & E & _). fold K. rewrite E. reflexivity.
    Qed.

    Lemma pr_low : forall i, i < K -> pr i = i.
    Proof.
      intros i Hi. rewrite pr_perm. apply perm_low; [|assumption]. intros t Ht. pose proof (gs_piv _ _ _ _ HS t Ht). lia.
    Qed.
    Lemma pr_mid : forall i, K <= i < K + h -> K <= pr i < K + h.
    Proof.
      intros i Hi. rewrite pr_perm. apply perm_high; [|assumption]. intros t Ht. pose proof (gs_piv _ _ _ _ HS t Ht). fold h K in H. lia.
    Qed.
    Lemma pr_high : forall i, K + h <= i -> pr i = i.
    Proof.
      intros i Hi. rewrite pr_perm. unfold perm.
      assert (HT : forall t, In t (zrange K (K + w)) -> t < K + h /\ ipiv t - 1 < K + h).
      { intros t Ht. apply in_zrange in Ht. pose proof (gs_piv _ _ _ _ HS t Ht) as P. fold h K in P. destruct st_K as (_ & _ & ? & _). lia. }
      induction (zrange K (K + w)) as [|t l IH]; [reflexivity|]. cbn [map source fold_right fst snd].
      fold (source (map (fun t => (t, ipiv t - 1)) l) i). rewrite IH by (intros; apply HT; right; assumption).
      destruct (HT t ltac:(left; reflexivity)). unfold transposed. destruct (Z.eqb_spec i t); [lia|]. destruct (Z.eqb_spec i (ipiv t - 1)); [lia|reflexivity].
    Qed.
    Lemma pr_rest : forall i, K <= i -> K <= pr i.
    Proof.
      intros i Hi. destruct (Z_lt_le_dec i (K + h)); [apply pr_mid; lia|rewrite pr_high by assumption; assumption].
    Qed.

    (* the columns of L end with the panel *)
    Lemma L_zero : forall i j, 0 <= i < n -> K <= j < K + w -> K + h <= i -> X i j = n0 /\ X' i j = n0.
    Proof.
      intros i j Hi Hj Hh. destruct st_K as (K0 & W & WH & HN & HW & E & E2 & C & D). destruct (C ltac:(lia)) as [C1 C2].
      assert (E0 : X i j = n0).
      { rewrite (gi_low _ _ _ HI i j) by (fold K; lia). apply HA0; lia. }
      split; [assumption|]. rewrite (gs_pout _ _ _ _ HS i j Hi Hj); [assumption|]. right. exact Hh.
    Qed.

    Lemma lt_low : forall y i, i < K -> lower_times nb n X' k y i = y i.
    Proof.
      intros y i Hi. unfold lower_times. rewrite nsum_0; [ring|]. intros j Hj. fold K in Hj.
      destruct (Z.ltb_spec j i); [lia|reflexivity].
    Qed.
    Lemma lt_high : forall y i, K + h <= i < n -> lower_times nb n X' k y i = y i.
    Proof.
      intros y i Hi. destruct st_K as (K0 & W & WH & HN & HW & E & E2 & C & D). unfold lower_times. rewrite nsum_0; [ring|]. intros j Hj. fold K in Hj. rewrite E in Hj.
      destruct (L_zero i j ltac:(lia) Hj ltac:(lia)) as [_ Z0]. rewrite Z0. destruct (j <? i); ring.
    Qed.

    (* one step back *)
    Lemma step_link : forall i j, 0 <= i < n -> 0 <= j < n ->
      rest k X (pr i) j = lower_times nb n X' k (fun r => rest (k + 1) X' r j) i.
    Proof.
      intros i j Hi Hj. destruct st_K as (K0 & W & WH & HN & HW & E & E2 & C & D). unfold rest. fold K. rewrite E2.
      destruct (Z_lt_le_dec j K) as [J|J].
      - (* a finished column *)
        assert (X1 : forall r, 0 <= r < n -> X' r j = X r j) by (intros r Hr; apply (gs_other _ _ _ _ HS); auto).
        replace (j <? K) with true by (symmetry; apply Z.ltb_lt; lia).
        replace (j <? K + nb) with true by (symmetry; apply Z.ltb_lt; lia). cbn [andb].
        unfold lower_times. fold K. rewrite E. rewrite nsum_0.
        + destruct (Z_lt_le_dec i K) as [I|I].
          * rewrite pr_low by assumption. rewrite X1 by assumption. destruct (j <? i); ring.
          * pose proof (pr_rest i I). replace (j <? pr i) with true by (symmetry; apply Z.ltb_lt; lia).
            replace (j <? i) with true by (symmetry; apply Z.ltb_lt; lia). ring.
        + intros t Ht. replace (j <? t) with true by (symmetry; apply Z.ltb_lt; lia). destruct (t <? i); ring.
      - replace (j <? K) with false by (symmetry; apply Z.ltb_ge; lia). cbn [andb].
        destruct (Z_lt_le_dec j (K + w)) as [JW|JW].
        + (* a column of the panel *)
          replace (j <? K + nb) with true by (symmetry; apply Z.ltb_lt; lia). cbn [andb].
          destruct (Z_lt_le_dec i K) as [I|I]; [|destruct (Z_lt_le_dec i (K + h)) as [IH|IH]].
          * rewrite pr_low by assumption. rewrite lt_low by assumption.
            replace (j <? i) with false by (symmetry; apply Z.ltb_ge; lia). symmetry. apply (gs_pout _ _ _ _ HS); fold K w; lia.
          * pose proof (gs_panel _ _ _ _ HS (i - K) (j - K) ltac:(fold h; lia) ltac:(fold w; lia)) as P. fold K w in P.
            replace (K + (i - K)) with i in P by lia. replace (K + (j - K)) with j in P by lia. fold (pr i) in P. rewrite P. clear P.
            assert (SF : forall f : Z -> F, nsum f K (K + w) = nsum (fun i => f (i + K)) 0 w).
            { intros f. rewrite <- nsum_shift. replace (0 + K) with K by lia. replace (w + K) with (K + w) by lia. reflexivity. }
            unfold lower_times. fold K. rewrite E. rewrite SF. clear SF.
            rewrite (nsum_ext _ _ (fun l => nadd (if l =? i - K then (if j <? i then n0 else X' i j) else n0)
              (if l + K <? i then nmul (X' i (l + K)) (if j <? l + K then n0 else X' (l + K) j) else n0))).
            -- rewrite nsum_add. apply (f_equal2 nadd); [|reflexivity].
               destruct (Z_lt_le_dec (i - K) w) as [L|L].
               ++ rewrite (nsum_app _ _ 0 (i - K) w) by lia. rewrite (nsum_cons _ _ (i - K) w) by lia. rewrite Z.eqb_refl.
                  rewrite (nsum_0 _ _ 0 (i - K)), (nsum_0 _ _ (i - K + 1) w); [ring| |];
                    intros t Ht; destruct (Z.eqb_spec t (i - K)); try lia; reflexivity.
               ++ rewrite nsum_0; [destruct (Z.ltb_spec j i); [reflexivity|lia]|]. intros t Ht. destruct (Z.eqb_spec t (i - K)); [lia|reflexivity].
            -- intros l Hl. unfold factor_L, factor_U. replace (K + (i - K)) with i by lia. replace (K + (j - K)) with j by lia.
               replace (K + l) with (l + K) by lia.
               destruct (Z.eqb_spec (i - K) l), (Z.eqb_spec l (i - K)), (Z.ltb_spec l (i - K)), (Z.ltb_spec (l + K) i), (Z.leb_spec l (j - K)), (Z.ltb_spec j i),
                 (Z.ltb_spec j (l + K)); try lia; try ring.
               replace (l + K) with i by lia. ring.
          * rewrite pr_high by assumption. rewrite lt_high by lia. replace (j <? i) with true by (symmetry; apply Z.ltb_lt; lia).
            apply (L_zero i j); lia.
        + (* a column to the right *)
          assert (WN : w = nb) by lia. replace (j <? K + nb) with false by (symmetry; apply Z.ltb_ge; lia). cbn [andb].
          destruct (Z_lt_le_dec j ((k + kut) * nb)) as [JU|JU].
          * destruct (Z_lt_le_dec i K) as [I|I]; [|destruct (Z_lt_le_dec i ((k + klt) * nb)) as [IH|IH]].
            -- rewrite pr_low by assumption. rewrite lt_low by assumption. symmetry. apply (gs_uout _ _ _ _ HS); fold K; lia.
            -- apply (gs_upd _ _ _ _ HS); fold K; lia.
            -- assert (KH : K + h <= i) by (unfold K in *; lia). rewrite pr_high by assumption. rewrite lt_high by lia.
               symmetry. apply (gs_uout _ _ _ _ HS); fold K; lia.
          * assert (X1 : forall r, 0 <= r < n -> X' r j = X r j) by (intros r Hr; apply (gs_other _ _ _ _ HS); auto).
            assert (Z0 : forall r, K <= r < K + h -> X r j = n0).
            { intros r Hr. apply (gi_right _ _ _ HI); fold K; try lia. }
            destruct (Z_lt_le_dec i K) as [I|I]; [|destruct (Z_lt_le_dec i (K + h)) as [IH|IH]].
            -- rewrite pr_low by assumption. rewrite lt_low by assumption. symmetry. apply X1; lia.
            -- rewrite Z0 by (apply pr_mid; lia). unfold lower_times. fold K. rewrite E. rewrite nsum_0; [rewrite X1, Z0 by lia; ring|].
               intros t Ht. rewrite X1, Z0 by lia. destruct (t <? i); ring.
            -- rewrite pr_high by assumption. rewrite lt_high by lia. symmetry. apply X1; lia.
    Qed.

    Lemma step_far : forall i j, 0 <= i < n -> 0 <= j < n -> K + h <= i \/ i < K -> X' i j = X i j.
    Proof.
      intros i j Hi Hj Hf. destruct st_K as (K0 & W & WH & HN & HW & E & E2 & C & D).
      destruct (Z_lt_le_dec j K) as [J|J]; [apply (gs_other _ _ _ _ HS); auto|].
      destruct (Z_lt_le_dec j (K + w)) as [JW|JW]; [apply (gs_pout _ _ _ _ HS); fold K w h; lia|].
      assert (w = nb) by lia.
      pose proof (step_link i j Hi Hj) as S. unfold rest in S. fold K in S. rewrite E2 in S.
      replace (j <? K) with false in S by (symmetry; apply Z.ltb_ge; lia).
      replace (j <? K + nb) with false in S by (symmetry; apply Z.ltb_ge; lia). cbn [andb] in S.
      destruct Hf as [Hf|Hf].
      - rewrite pr_high, lt_high in S by lia. auto.
      - rewrite pr_low, lt_low in S by lia. auto.
    Qed.

    Lemma cancel : forall x y : F, nmul x y = n0 -> y <> n0 -> x = n0.
    Proof.
      intros x y E N. transitivity (nmul (nmul x y) (finv y)).
      - transitivity (nmul x (nmul (finv y) y)); [rewrite finv_l by assumption|]; ring.
      - rewrite E. ring.
    Qed.

    (* row i of U comes from a row that is at most kl below *)
    Lemma pr_near : forall i, K <= i < K + w -> pr i <= i + kl.
    Proof.
      intros i Hi. destruct st_K as (K0 & W & WH & HN & HW & E & E2 & C & D).
      destruct (Z_le_gt_dec (pr i) (i + kl)) as [|G]; [assumption|exfalso].
      pose proof (pr_mid i ltac:(lia)) as PM.
      assert (EQ : forall c, K <= c <= i -> lower_times nb n X' k (fun r => rest (k + 1) X' r c) i = n0).
      { intros c Hc. rewrite <- step_link by lia. unfold rest. fold K. replace (c <? K) with false by (symmetry; apply Z.ltb_ge; lia).
        cbn [andb]. rewrite (gi_low _ _ _ HI) by (fold K; lia). apply HA0; lia. }
      assert (RC : forall r c, K <= c <= i -> rest (k + 1) X' r c = if c <? r then n0 else X' r c).
      { intros r c Hc. unfold rest. rewrite E2. replace (c <? K + nb) with true by (symmetry; apply Z.ltb_lt; lia). reflexivity. }
      assert (LZ : forall c, K <= c <= i -> forall t, K <= t < c -> X' i t = n0).
      { intros c Hc. replace c with (K + Z.of_nat (Z.to_nat (c - K))) by lia.
        assert (Hd : K + Z.of_nat (Z.to_nat (c - K)) <= i) by lia. revert Hd. generalize (Z.to_nat (c - K)) as d. clear c Hc.
        induction d as [|d IH]; intros Hd t Ht; [lia|].
        remember (K + Z.of_nat d) as c eqn:Ec. assert (Hc : K <= c < i) by lia. specialize (IH ltac:(lia)).
        destruct (Z.eq_dec t c) as [->|NE]; [|apply IH; lia].
        pose proof (EQ c ltac:(lia)) as S. unfold lower_times in S. fold K in S. rewrite E in S.
        rewrite RC in S by lia. replace (c <? i) with true in S by (symmetry; apply Z.ltb_lt; lia).
        rewrite (nsum_app _ _ K c (K + w)) in S by lia. rewrite (nsum_cons _ _ c (K + w)) in S by lia.
        rewrite (nsum_0 _ _ K c), (nsum_0 _ _ (c + 1) (K + w)) in S.
        - rewrite RC in S by lia. rewrite Z.ltb_irrefl in S. replace (c <? i) with true in S by (symmetry; apply Z.ltb_lt; lia).
          apply (cancel _ (X' c c)); [|apply (gs_nz _ _ _ _ HS); fold K w; lia]. rewrite <- S. ring.
        - intros t Ht'. rewrite RC by lia. replace (c <? t) with true by (symmetry; apply Z.ltb_lt; lia). destruct (t <? i); ring.
        - intros t Ht'. rewrite (IH t) by lia. destruct (t <? i); ring. }
      pose proof (EQ i ltac:(lia)) as S. unfold lower_times in S. rewrite RC in S by lia. rewrite Z.ltb_irrefl in S.
      rewrite nsum_0 in S.
      - apply (gs_nz _ _ _ _ HS i ltac:(fold K w; lia)). rewrite <- S. ring.
      - intros t Ht. destruct (Z.ltb_spec t i); [|reflexivity]. rewrite (LZ i) by (fold K in Ht; lia). ring.
    Qed.

    Lemma ginv_step : ginv (k + 1) X' ipiv.
    Proof.
      destruct st_K as (K0 & W & WH & HN & HW & E & E2 & C & D).
      assert (HP : forall t, 0 <= t < n -> t < K + nb -> t + 1 <= ipiv t <= Z.min n ((t / nb + 1) * nb + kl)).
      { intros t Ht Hl. destruct (Z_lt_le_dec t K) as [L|L]; [apply (gi_piv _ _ _ HI); assumption|].
        assert (t < K + w) by lia. pose proof (gs_piv _ _ _ _ HS t ltac:(fold K w; lia)) as P. fold K h in P.
        assert (t / nb = k) as ->. { symmetry. apply (Z.div_unique t nb k (t - K)); unfold K in *; lia. }
        replace ((k + 1) * nb) with (K + nb). lia. }
      assert (LOW : forall i j, 0 <= i < n -> 0 <= j < n -> (k + 1) * nb + kl <= i -> X' i j = A0 i j).
      { intros i j Hi Hj Hl. rewrite step_far by lia. apply (gi_low _ _ _ HI); fold K; lia. }
      assert (UPD : forall i j, 0 <= i < n -> K + w <= j < n -> X (pr i) j =
        nadd (X' i j) (nsum (fun t => if t <? i then nmul (X' i t) (X' t j) else n0) K (K + w))).
      { intros i j Hi Hj. assert (w = nb) by lia. pose proof (step_link i j Hi ltac:(lia)) as S. unfold rest, lower_times in S. fold K in S. rewrite E, E2 in S.
        replace (j <? K) with false in S by (symmetry; apply Z.ltb_ge; lia).
        replace (j <? K + nb) with false in S by (symmetry; apply Z.ltb_ge; lia). exact S. }
      constructor; auto.
      - (* to the right of the band *)
        intros i j Hi Hj Hr Hm. assert (HJ : K + w <= j < n) by lia.
        assert (Z0 : forall r, K <= r < K + h -> X r j = n0) by (intros r Hr'; apply (gi_right _ _ _ HI); fold K; lia).
        assert (Z1 : forall d, forall r, K <= r < K + w -> r < K + Z.of_nat d -> X' r j = n0).
        { induction d as [|d IH]; intros r Hr' Hd; [lia|]. pose proof (UPD r j ltac:(lia) HJ) as S. rewrite Z0 in S by (apply pr_mid; lia).
          rewrite nsum_0 in S; [transitivity (nadd (X' r j) n0); [ring|auto]|]. intros t Ht. destruct (Z.ltb_spec t r); [|reflexivity]. rewrite IH by lia. ring. }
        assert (Z2 : forall t, K <= t < K + w -> X' t j = n0) by (intros t Ht; apply (Z1 (Z.to_nat (K + w)) t Ht); lia).
        pose proof (UPD i j Hi HJ) as S. rewrite nsum_0 in S.
        + transitivity (nadd (X' i j) n0); [ring|]. rewrite <- S. destruct (Z_lt_le_dec i (K + h)).
          * apply Z0. apply pr_mid. lia.
          * rewrite pr_high by lia. apply (gi_right _ _ _ HI); fold K; lia.
        + intros t Ht. rewrite Z2 by lia. destruct (t <? i); ring.
      - intros i j Hi Hj Hl Hm. destruct (Z_lt_le_dec j K) as [J|J].
        + rewrite (gs_other _ _ _ _ HS) by auto. apply (gi_L _ _ _ HI); auto.
        + assert (j / nb = k) as EJ. { symmetry. apply (Z.div_unique j nb k (j - K)); unfold K in *; lia. }
          rewrite EJ in Hm. rewrite LOW by lia. apply HA0; lia.
      - (* U *)
        assert (UZ : forall d i j, K <= i < K + w -> i < K + Z.of_nat d -> 0 <= j < n -> i + kl + ku < j -> X' i j = n0).
        { induction d as [|d IH]; intros i j Hi Hd Hj Hm; [lia|].
          pose proof (step_link i j ltac:(lia) Hj) as S. unfold rest, lower_times in S. fold K in S. rewrite E, E2 in S.
          replace (j <? K) with false in S by (symmetry; apply Z.ltb_ge; lia).
          replace (j <? i) with false in S by (symmetry; apply Z.ltb_ge; lia). rewrite andb_false_r in S. cbn [andb] in S.
          rewrite nsum_0 in S.
          - transitivity (nadd (X' i j) n0); [ring|]. rewrite <- S. pose proof (pr_near i Hi). pose proof (pr_mid i ltac:(lia)).
            apply (gi_right _ _ _ HI); fold K; lia.
          - intros t Ht. destruct (Z.ltb_spec t i); [|reflexivity]. replace (j <? t) with false by (symmetry; apply Z.ltb_ge; lia).
            rewrite andb_false_r. rewrite (IH t j) by lia. ring. }
        intros i j Hi Hj Hl Hm. destruct (Z_lt_le_dec i K) as [I|I].
        + rewrite step_far by lia. apply (gi_U _ _ _ HI); auto.
        + apply (UZ (Z.to_nat (i - K + 1)) i j); lia.
      - intros t Ht Hl. destruct (Z_lt_le_dec t K) as [L|L].
        + rewrite step_far by lia. apply (gi_nz _ _ _ HI); auto.
        + apply (gs_nz _ _ _ _ HS). fold K w. lia.
      - intros CO i t Ht Hl Hi. destruct (Z_lt_le_dec t K) as [L|L].
        + rewrite !(gs_other _ _ _ _ HS) by auto with zarith. apply (gi_wp _ _ _ HI); auto.
        + destruct (Z_lt_le_dec i (K + h)) as [I|I]; [apply (gs_wp _ _ _ _ HS); fold K w h; auto; lia|].
          destruct (L_zero i t ltac:(lia) ltac:(lia) I) as [_ ->]. replace (nmul n0 (X' t t)) with (n0 : F) by ring.
          destruct (bigger n0 (X' t t)) eqn:EB; [|reflexivity]. pose proof (gs_nz _ _ _ _ HS t ltac:(fold K w; lia)) as NZ.
          pose proof (cmp_trans _ CO _ _ _ EB (cmp_zero _ CO _ NZ)) as T. rewrite (cmp_irr _ CO) in T. discriminate.
      - intros t Ht Hl. apply HP; lia.
      - (* the product *)
        intros i j Hi Hj. rewrite (gi_prod _ _ _ HI i j Hi Hj). rewrite zrange_snoc by lia.
        assert (EP : prod X' ipiv (rest (k + 1) X') (zrange 0 k ++ [k]) =
          prod X' ipiv (fun i j => lower_times nb n X' k (fun r => rest (k + 1) X' r j) (source (rev (block_swaps nb n ipiv k)) i)) (zrange 0 k)).
        { unfold prod. rewrite fold_right_app. reflexivity. }
        rewrite EP. apply (prod_ext k); auto.
        + intros q Hq. apply in_zrange in Hq. lia.
        + intros t Ht Hl. pose proof (HP t Ht ltac:(lia)). lia.
        + intros r c Hr Hc L. symmetry. apply (gs_other _ _ _ _ HS); auto.
        + intros r c Hr Hc. rewrite <- step_link; [|apply source_range; [|assumption]|assumption].
          * unfold pr. rewrite source_rev. reflexivity.
          * unfold swaps_in. apply Forall_forall. intros p Hp. apply in_rev in Hp.
            unfold block_swaps in Hp. apply in_map_iff in Hp. destruct Hp as (t & <- & Ht). apply in_zrange in Ht. cbn [fst snd].
            fold K in Ht. rewrite E in Ht. pose proof (HP t ltac:(lia) ltac:(lia)). lia.
    Qed.
  End Step.

  Lemma ginv_ext : forall k X ipiv ipiv', 0 <= k -> (forall t, 0 <= t < n -> t < k * nb -> ipiv t = ipiv' t) -> ginv k X ipiv -> ginv k X ipiv'.
  Proof.
    intros k X ipiv ipiv' Hk E [H1 H2 H3 H4 H5 H6 H7 H8]. constructor; auto.
    - intros t Ht Hl. rewrite <- E by assumption. auto.
    - intros i j Hi Hj. rewrite H8 by assumption. unfold prod.
      assert (EB : forall q, In q (zrange 0 k) -> block_swaps nb n ipiv q = block_swaps nb n ipiv' q).
      { intros q Hq. apply in_zrange in Hq. unfold block_swaps. apply map_ext_in. intros t Ht. apply in_zrange in Ht.
        assert (0 <= q * nb) by nia. assert ((q + 1) * nb <= k * nb) by nia. rewrite E by lia. reflexivity. }
      clear H8. revert i j Hi Hj. induction (zrange 0 k) as [|q l IH]; intros i j Hi Hj; [reflexivity|]. cbn [fold_right].
      rewrite <- EB by (left; reflexivity).
      assert (EC : fold_right (fun k C i j => lower_times nb n X k (fun r => C r j) (source (rev (block_swaps nb n ipiv k)) i)) (rest k X) l
                 = fold_right (fun k C i j => lower_times nb n X k (fun r => C r j) (source (rev (block_swaps nb n ipiv' k)) i)) (rest k X) l).
      { assert (EB' : forall q, In q l -> block_swaps nb n ipiv q = block_swaps nb n ipiv' q) by (intros; apply EB; right; assumption).
        clear -EB'. induction l as [|q l IH]; [reflexivity|]. cbn [fold_right]. rewrite IH by (intros; apply EB'; right; assumption).
        rewrite EB' by (left; reflexivity). reflexivity. }
      rewrite EC. reflexivity.
  Qed.

  (* at the end *)
  Lemma ginv_factored : forall T X ipiv, n <= T * nb -> ginv T X ipiv ->
    forall i j, 0 <= i < n -> 0 <= j < n -> GbtrsSpec.factored nb n X ipiv (zrange 0 T) i j = A0 i j.
  Proof.
    intros T X ipiv HT HI i j Hi Hj. rewrite (gi_prod _ _ _ HI i j Hi Hj). unfold GbtrsSpec.factored. fold (prod X ipiv (fun i j => if i <=? j then X i j else n0) (zrange 0 T)).
    symmetry. apply (prod_ext T); auto.
    - intros q Hq. apply in_zrange in Hq. lia.
    - intros t Ht Hl. pose proof (gi_piv _ _ _ HI t Ht Hl). lia.
    - intros r c Hr Hc. unfold rest. replace (c <? T * nb) with true by (symmetry; apply Z.ltb_lt; lia). cbn [andb].
      destruct (Z.leb_spec r c), (Z.ltb_spec c r); try lia; reflexivity.
  Qed.

  (* column c of B is a combination of the columns before it *)
  Lemma prod_dep : forall (a : Z -> Z -> F) ipiv B l c x, (forall k, In k l -> 0 <= k) ->
    (forall k t, In k l -> 0 <= t < n -> k * nb <= t < (k + 1) * nb -> t + 1 <= ipiv t <= n) -> 0 <= c < n ->
    (forall i, 0 <= i < n -> B i c = nsum (fun j => nmul (B i j) (x j)) 0 c) ->
    forall i, 0 <= i < n -> prod a ipiv B l i c = nsum (fun j => nmul (prod a ipiv B l i j) (x j)) 0 c.
  Proof.
    intros a ipiv B l c x HL HP Hc HB. unfold prod. induction l as [|k l IH]; intros i Hi; [apply HB; assumption|].
    cbn [fold_right]. pose proof (HL k ltac:(left; reflexivity)) as K0. assert (K1 : 0 <= k * nb) by nia.
    assert (RI : 0 <= source (rev (block_swaps nb n ipiv k)) i < n).
    { apply source_range; [|assumption]. unfold swaps_in. apply Forall_forall. intros p Hp. apply in_rev in Hp.
      unfold block_swaps in Hp. apply in_map_iff in Hp. destruct Hp as (t & <- & Ht). apply in_zrange in Ht. cbn [fst snd].
      pose proof (HP k t ltac:(left; reflexivity) ltac:(lia) ltac:(lia)). lia. }
    specialize (IH ltac:(intros; apply HL; right; assumption) ltac:(intros q t Hq; apply HP; right; assumption)).
    remember (fold_right (fun k C i j => lower_times nb n a k (fun r => C r j) (source (rev (block_swaps nb n ipiv k)) i)) B l) as D eqn:ED. clear ED.
    remember (source (rev (block_swaps nb n ipiv k)) i) as r eqn:Er. clear Er. unfold lower_times. rewrite (IH r RI).
    rewrite (nsum_ext _ (fun j => nmul (nadd (D r j) (nsum (fun j0 => if j0 <? r then nmul (a r j0) (D j0 j) else n0) (k * nb) (Z.min ((k + 1) * nb) n))) (x j))
      (fun j => nadd (nmul (D r j) (x j)) (nmul (nsum (fun j0 => if j0 <? r then nmul (a r j0) (D j0 j) else n0) (k * nb) (Z.min ((k + 1) * nb) n)) (x j))))
      by (intros; ring).
    rewrite nsum_add. apply (f_equal2 nadd); [reflexivity|].
    rewrite (nsum_ext _ (fun j => nmul (nsum (fun j0 => if j0 <? r then nmul (a r j0) (D j0 j) else n0) (k * nb) (Z.min ((k + 1) * nb) n)) (x j))
      (fun j => nsum (fun j0 => nmul (if j0 <? r then nmul (a r j0) (D j0 j) else n0) (x j)) (k * nb) (Z.min ((k + 1) * nb) n)))
      by (intros j _; rewrite nsum_mul_r; reflexivity).
    rewrite nsum_swap. apply nsum_ext. intros t Ht. destruct (t <? r).
    - rewrite (IH t) by lia. rewrite <- nsum_mul_l. apply nsum_ext. intros; ring.
    - symmetry. apply nsum_0. intros; ring.
  Qed.

  (* upper triangular systems have solutions *)
  Lemma upper_solve : forall (U : Z -> Z -> F) K, 0 <= K -> (forall t, 0 <= t < K -> U t t <> n0) ->
    forall y : Z -> F, exists x, forall r, 0 <= r < K -> y r = nsum (fun j => nmul (if j <? r then n0 else U r j) (x j)) 0 K.
  Proof.
    intros U K HK. pattern K. apply natlike_ind; [intros _ y; exists y; lia| |assumption]. clear K HK. intros K HK IH HU y.
    destruct (IH ltac:(intros t Ht; apply HU; lia) (fun r => nadd (y r) (nopp (nmul (U r K) (nmul (finv (U K K)) (y K)))))) as [x Hx].
    exists (fun j => if j =? K then nmul (finv (U K K)) (y K) else x j). intros r Hr. replace (Z.succ K) with (K + 1) by lia.
    rewrite nsum_snoc by lia. rewrite Z.eqb_refl. destruct (Z.eq_dec r K) as [->|NE].
    - rewrite Z.ltb_irrefl. rewrite nsum_0.
      + transitivity (nmul (nmul (finv (U K K)) (U K K)) (y K)); [rewrite finv_l by (apply HU; lia)|]; ring.
      + intros j Hj. replace (j <? K) with true by (symmetry; apply Z.ltb_lt; lia). ring.
    - specialize (Hx r ltac:(lia)). replace (K <? r) with false by (symmetry; apply Z.ltb_ge; lia).
      rewrite (nsum_ext _ _ (fun j => nmul (if j <? r then n0 else U r j) (x j))).
      + rewrite <- Hx. ring.
      + intros j Hj. destruct (Z.eqb_spec j K); [lia|reflexivity].
  Qed.

  (* a dependent column of the panel is one of the matrix *)
  Lemma ginv_fail : forall k X ipiv s, 0 <= k -> k * nb < n -> ginv k X ipiv -> 0 <= s < pw k ->
    column_depends (ph k) (fun i j => X (k * nb + i) (k * nb + j)) s -> column_depends n A0 (k * nb + s).
  Proof.
    intros k X ipiv s Hk HkN HI Hs (x & Hx). assert (K0 : 0 <= k * nb) by nia. assert (HsN : k * nb + s < n) by (unfold pw in Hs; lia).
    destruct (upper_solve X (k * nb) K0 ltac:(intros t Ht; apply (gi_nz _ _ _ HI); lia)
      (fun r => nadd (X r (k * nb + s)) (nopp (nsum (fun j => nmul (X r j) (x (j - k * nb))) (k * nb) (k * nb + s))))) as [z Hz].
    exists (fun j => if j <? k * nb then z j else x (j - k * nb)). intros i Hi.
    rewrite (gi_prod _ _ _ HI i (k * nb + s)) by lia.
    rewrite (nsum_ext _ _ (fun j => nmul (prod X ipiv (rest k X) (zrange 0 k) i j) (if j <? k * nb then z j else x (j - k * nb))))
      by (intros j Hj; rewrite (gi_prod _ _ _ HI i j) by lia; reflexivity).
    apply prod_dep; try lia.
    - intros k' Hk'. apply in_zrange in Hk'. lia.
    - intros k' t Hk' Ht Ht'. apply in_zrange in Hk'. assert ((k' + 1) * nb <= k * nb) by nia. pose proof (gi_piv _ _ _ HI t Ht ltac:(lia)). lia.
    - clear i Hi. intros i Hi. rewrite (nsum_app _ _ 0 (k * nb)) by lia. unfold rest at 1.
      replace (k * nb + s <? k * nb) with false by (symmetry; apply Z.ltb_ge; lia). cbn [andb].
      rewrite (nsum_ext _ _ (fun j => nmul (if j <? i then n0 else X i j) (z j)) 0).
      2: { intros j Hj. unfold rest. replace (j <? k * nb) with true by (symmetry; apply Z.ltb_lt; lia). reflexivity. }
      rewrite (nsum_ext _ _ (fun j => nmul (X i j) (x (j - k * nb))) (k * nb)).
      2: { intros j Hj. unfold rest. replace (j <? k * nb) with false by (symmetry; apply Z.ltb_ge; lia). reflexivity. }
      destruct (Z_lt_le_dec i (k * nb)) as [L|L].
      + rewrite <- Hz by lia. ring.
      + rewrite (nsum_0 _ _ 0 (k * nb)).
        2: { intros j Hj. replace (j <? i) with true by (symmetry; apply Z.ltb_lt; lia). ring. }
        assert (SF : forall f : Z -> F, nsum f (k * nb) (k * nb + s) = nsum (fun i => f (i + k * nb)) 0 s).
        { intros f. rewrite <- nsum_shift. replace (0 + k * nb) with (k * nb) by lia. replace (s + k * nb) with (k * nb + s) by lia. reflexivity. }
        rewrite SF. clear SF. destruct (Z_lt_le_dec i (k * nb + ph k)) as [H|H].
        * specialize (Hx (i - k * nb) ltac:(lia)). cbn beta in Hx. replace (k * nb + (i - k * nb)) with i in Hx by lia. rewrite Hx.
          rewrite (nsum_ext _ (fun j => nmul (X i (k * nb + j)) (x j)) (fun j => nmul (X i (j + k * nb)) (x (j + k * nb - k * nb)))); [ring|].
          intros j Hj. replace (j + k * nb - k * nb) with j by lia. replace (j + k * nb) with (k * nb + j) by lia. reflexivity.
        * assert (Z0 : forall j, k * nb <= j < k * nb + pw k -> X i j = n0).
          { intros j Hj. unfold ph, pw in *. rewrite (gi_low _ _ _ HI) by lia. apply HA0; lia. }
          rewrite Z0 by lia. rewrite nsum_0; [ring|]. intros j Hj. rewrite Z0 by lia. ring.
  Qed.
End Math.
