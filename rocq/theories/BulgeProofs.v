(* The storage of the vectors of the bulge chasing. *)
From Coq Require Import ZArith List Bool Lia.
From Verif Require Import Base BulgeModel BulgeSpec.
Import ListNotations.
Open Scope Z_scope.

Lemma ceildiv_spec : forall a b k, 0 < b -> (k < ceildiv a b <-> k * b < a).
Proof.
  intros a b k Hb. unfold ceildiv. destruct (div_mod_pos (a + b - 1) b Hb) as [E R].
  generalize dependent ((a + b - 1) / b). intros q E. generalize dependent ((a + b - 1) mod b). intros r E R.
  split; intros H; nia.
Qed.

Lemma ceildiv_step : forall k b, 0 < b -> ceildiv (k * b + 1) b = k + 1.
Proof. intros k b Hb. unfold ceildiv. apply (div_eq _ _ _ 0); lia. Qed.

Lemma before_step : forall N NB V c, 0 <= c -> blocks_before N NB V (c + 1) = blocks_before N NB V c + col_blocks N NB V c.
Proof. intros N NB V c Hc. unfold blocks_before. rewrite zrange_snoc by exact Hc. rewrite fold_left_app. reflexivity. Qed.

Lemma before_mono : forall N NB V c d, 0 < NB -> 0 < V -> 0 <= c <= d -> (d - 1) * V <= N - 2 ->
  blocks_before N NB V c <= blocks_before N NB V d.
Proof.
  intros N NB V c d HB HV Hcd HD. revert HD. pattern d. replace d with (c + Z.of_nat (Z.to_nat (d - c))) by lia.
  induction (Z.to_nat (d - c)) as [|n IH]; intros HD.
  - replace (c + Z.of_nat 0) with c by lia. lia.
  - replace (c + Z.of_nat (S n)) with (c + Z.of_nat n + 1) in * by lia. rewrite before_step by lia.
    assert (-1 < col_blocks N NB V (c + Z.of_nat n)) by (unfold col_blocks; apply ceildiv_spec; nia).
    assert (blocks_before N NB V c <= blocks_before N NB V (c + Z.of_nat n)) by (apply IH; nia). lia.
Qed.

(* the vectors start every nb rows; all but the first end before the last row *)
Lemma vector_rows : forall N nb sw st len, 0 < nb -> uses_vector N nb sw st len ->
  0 <= sw <= N - 2 /\ len <= nb /\ st + len <= N /\ exists k, 0 <= k /\ st = sw + 1 + k * nb /\ (k = 0 \/ st <= N - 2).
Proof.
  intros N nb sw st len Hb (Hs & myid & [H1 HR] & HI). split; [lia|]. unfold chase_vectors, chase_step in HI.
  destruct (Z.even myid) eqn:EV.
  - apply Z.even_spec in EV. destruct EV as [k Ek]. subst myid.
    assert (Q : Z.quot (2 * k) 2 = k) by (rewrite Z.quot_div_nonneg by lia; apply (div_eq _ _ _ 0); lia).
    rewrite Q in HI.
    assert (HP : k = 1 \/ (k - 1) * nb + sw + 1 < N - 1).
    { destruct (Z.eq_dec k 1) as [|K1]; [left; assumption|right].
      specialize (HR (2 * (k - 1)) ltac:(lia)). unfold chase_step in HR.
      assert (E2 : Z.even (2 * (k - 1)) = true) by (apply Z.even_spec; exists (k - 1); reflexivity).
      rewrite E2 in HR. assert (Q2 : Z.quot (2 * (k - 1)) 2 = k - 1) by (rewrite Z.quot_div_nonneg by lia; apply (div_eq _ _ _ 0); lia).
      rewrite Q2 in HR. cbn [snd] in HR. lia. }
    apply in_app_or in HI. destruct HI as [HI|HI].
    + destruct (_ <? _) in HI; [|destruct HI]. destruct HI as [E|[]]. injection E as E1 E2.
      split; [lia|]. split; [lia|]. exists (k - 1). split; [lia|]. split; [lia|]. lia.
    + destruct (Z.ltb_spec 1 (Z.min (Z.min (k * nb + 1 + (sw + 1) - 1) N - 1 + nb) (N - 1) - (Z.min (k * nb + 1 + (sw + 1) - 1) N - 1 + 1) + 1)) as [L|L];
        [|destruct HI]. destruct HI as [E|[]]. injection E as E1 E2.
      split; [lia|]. split; [lia|]. exists k. split; [lia|]. split; lia.
  - assert (OD : Z.odd myid = true) by (rewrite <- Z.negb_even, EV; reflexivity). apply Z.odd_spec in OD.
    destruct OD as [k Ek]. subst myid.
    assert (Q : Z.quot (2 * k + 1 + 1) 2 = k + 1) by (rewrite Z.quot_div_nonneg by lia; apply (div_eq _ _ _ 0); lia).
    rewrite Q in HI.
    assert (HP : k = 0 \/ k * nb + sw + 1 < N - 1).
    { destruct (Z.eq_dec k 0) as [|K1]; [left; assumption|right].
      specialize (HR (2 * k) ltac:(lia)). unfold chase_step in HR.
      assert (E2 : Z.even (2 * k) = true) by (apply Z.even_spec; exists k; reflexivity).
      rewrite E2 in HR. assert (Q2 : Z.quot (2 * k) 2 = k) by (rewrite Z.quot_div_nonneg by lia; apply (div_eq _ _ _ 0); lia).
      rewrite Q2 in HR. cbn [snd] in HR. lia. }
    destruct HI as [E|[]]. injection E as E1 E2.
    split; [lia|]. split; [lia|]. exists k. split; [lia|]. split; lia.
Qed.

Section Blocks.
  Variables (N nb V : Z).
  Hypothesis Hb : 0 < nb.
  Hypothesis HV : 0 < V.

  Definition block (sw k : Z) : Z := blocks_before N nb V (sw / V) + k.

  Lemma block_range : forall sw k, 0 <= sw <= N - 2 -> 0 <= k -> (k = 0 \/ sw + 1 + k * nb <= N - 2) ->
    (k < col_blocks N nb V (sw / V)) \/ (k = 0 /\ col_blocks N nb V (sw / V) = 0 /\ sw / V * V = N - 2).
  Proof.
    intros sw k Hs Hk HK. destruct (div_mod_pos sw V HV) as [E R]. assert (C0 : 0 <= sw / V) by (apply div_range; lia).
    generalize dependent (sw / V). intros c E C0. generalize dependent (sw mod V). intros r E R.
    assert (LE : c * V <= sw) by nia. unfold col_blocks.
    destruct HK as [->|HK].
    - destruct (Z.eq_dec (c * V) (N - 2)) as [EQ|NE].
      + right. split; [reflexivity|]. split; [|exact EQ]. unfold ceildiv. apply (div_eq _ _ _ (nb - 1)); lia.
      + left. apply ceildiv_spec; lia.
    - left. apply ceildiv_spec; lia.
  Qed.

  Lemma block_bounds : forall sw k, 0 <= sw <= N - 2 -> 0 <= k -> (k = 0 \/ sw + 1 + k * nb <= N - 2) ->
    0 <= block sw k <= blocks_before N nb V (ceildiv (N - 1) V).
  Proof.
    intros sw k Hs Hk HK. assert (C0 : 0 <= sw / V) by (apply div_range; lia).
    assert (CV : sw / V * V <= sw) by (rewrite Z.mul_comm; apply Z.mul_div_le; lia).
    assert (Z0 : blocks_before N nb V 0 = 0) by reflexivity.
    assert (LO : blocks_before N nb V 0 <= blocks_before N nb V (sw / V)) by (apply before_mono; nia).
    assert (CL : sw / V < ceildiv (N - 1) V) by (apply ceildiv_spec; lia).
    assert (TOP : (ceildiv (N - 1) V - 1) * V <= N - 2).
    { assert (ceildiv (N - 1) V - 1 < ceildiv (N - 1) V) as H by lia. apply ceildiv_spec in H; lia. }
    assert (UP : blocks_before N nb V (sw / V + 1) <= blocks_before N nb V (ceildiv (N - 1) V)) by (apply before_mono; lia).
    rewrite before_step in UP by exact C0. unfold block.
    destruct (block_range sw k Hs Hk HK) as [L|[-> [L _]]]; lia.
  Qed.

  Lemma block_inj : forall sw k sw' k', 0 <= sw <= N - 2 -> 0 <= k -> (k = 0 \/ sw + 1 + k * nb <= N - 2) ->
    0 <= sw' <= N - 2 -> 0 <= k' -> sw / V < sw' / V -> block sw k < block sw' k'.
  Proof.
    intros sw k sw' k' Hs Hk HK Hs' Hk' HC. assert (C0 : 0 <= sw / V) by (apply div_range; lia).
    assert (CV' : sw' / V * V <= sw') by (rewrite Z.mul_comm; apply Z.mul_div_le; lia).
    destruct (block_range sw k Hs Hk HK) as [L|[-> [L EQ]]].
    - assert (UP : blocks_before N nb V (sw / V + 1) <= blocks_before N nb V (sw' / V)) by (apply before_mono; nia).
      rewrite before_step in UP by exact C0. unfold block. lia.
    - exfalso. nia.
  Qed.

  Lemma find_eq : forall sw k, 0 <= sw -> findVTpos N nb V sw (sw + 1 + k * nb)
    = Some {| p_v := (block sw k * V + sw mod V) * (nb + V - 1) + sw mod V;
              p_tau := block sw k * V + sw mod V;
              p_t := (block sw k * V + sw mod V) * V + sw mod V |}.
  Proof.
    intros sw k Hs. unfold findVTpos. destruct (Z.eqb_spec V 0) as [|_]; [lia|].
    rewrite Z.quot_div_nonneg, Z.rem_mod_nonneg by lia.
    replace (sw + 1 + k * nb - sw) with (k * nb + 1) by lia. rewrite ceildiv_step by exact Hb.
    replace (blocks_before N nb V (sw / V) + (k + 1) - 1) with (block sw k) by (unfold block; lia).
    generalize (block sw k) (sw mod V). intros B r. f_equal. f_equal; ring.
  Qed.

  Lemma inside : forall sw st len, uses_vector N nb sw st len ->
    exists p cnt ld, findVTpos N nb V sw st = Some p /\ findVTsiz N nb V = Some (cnt, ld) /\
      0 <= p_tau p < cnt * V /\ 0 <= p_v p /\ p_v p + len <= ld * cnt * V /\ 0 <= p_t p < V * cnt * V.
  Proof.
    intros sw st len HU. destruct (vector_rows N nb sw st len Hb HU) as (Hs & HL & HN & k & Hk & -> & HK).
    rewrite find_eq by lia. unfold findVTsiz. destruct (Z.eqb_spec V 0) as [|_]; [lia|].
    do 3 eexists. split; [reflexivity|]. split; [reflexivity|]. cbn [p_v p_tau p_t].
    destruct (block_bounds sw k Hs Hk HK) as [B1 B2]. pose proof (Z.mod_pos_bound sw V HV) as R.
    generalize dependent (block sw k). intros B B1 B2. generalize dependent (blocks_before N nb V (ceildiv (N - 1) V)). intros T B2.
    generalize dependent (sw mod V). intros r R. clear -Hb HV HL B1 B2 R.
    assert (E : 0 <= B * V + r < (T + 1) * V) by nia.
    split; [exact E|]. generalize dependent (B * V + r). intros t E.
    replace ((nb + V - 1) * (T + 1) * V) with ((T + 1) * V * (nb + V - 1)) by ring.
    replace (V * (T + 1) * V) with ((T + 1) * V * V) by ring. generalize dependent ((T + 1) * V). intros w E.
    assert (t * (nb + V - 1) + (nb + V - 1) <= w * (nb + V - 1)) by nia. assert (t * V + V <= w * V) by nia.
    assert (0 <= t * (nb + V - 1)) by nia. assert (0 <= t * V) by nia. lia.
  Qed.

  Lemma distinct : forall sw st len sw' st' len' p p', uses_vector N nb sw st len -> uses_vector N nb sw' st' len' ->
    findVTpos N nb V sw st = Some p -> findVTpos N nb V sw' st' = Some p' -> (sw, st) <> (sw', st') ->
    p_tau p <> p_tau p' /\ (p_v p + len <= p_v p' \/ p_v p' + len' <= p_v p).
  Proof.
    intros sw st len sw' st' len' p p' HU HU' EP EP' NE.
    destruct (vector_rows N nb sw st len Hb HU) as (Hs & HL & HN & k & Hk & -> & HK).
    destruct (vector_rows N nb sw' st' len' Hb HU') as (Hs' & HL' & HN' & k' & Hk' & -> & HK').
    rewrite find_eq in EP, EP' by lia. injection EP as <-. injection EP' as <-. cbn [p_v p_tau].
    assert (D : block sw k * V + sw mod V <> block sw' k' * V + sw' mod V).
    { intros E. pose proof (Z.mod_pos_bound sw V HV) as R. pose proof (Z.mod_pos_bound sw' V HV) as R'.
      assert (EB : block sw k = block sw' k') by nia. assert (ER : sw mod V = sw' mod V) by nia.
      assert (EC : sw / V = sw' / V).
      { destruct (Z.lt_trichotomy (sw / V) (sw' / V)) as [L|[L|L]]; [|exact L|].
        - pose proof (block_inj sw k sw' k' Hs Hk HK Hs' Hk' L). lia.
        - pose proof (block_inj sw' k' sw k Hs' Hk' HK' Hs Hk L). lia. }
      assert (ES : sw = sw') by (rewrite (Z.div_mod sw V), (Z.div_mod sw' V) by lia; rewrite EC, ER; reflexivity).
      subst sw'. unfold block in EB. assert (k = k') by lia. subst k'. apply NE. reflexivity. }
    split; [exact D|]. pose proof (Z.mod_pos_bound sw V HV) as R. pose proof (Z.mod_pos_bound sw' V HV) as R'.
    generalize dependent (block sw k * V + sw mod V). intros t D. generalize dependent (block sw' k' * V + sw' mod V). intros t' D.
    generalize dependent (sw mod V). intros r R. generalize dependent (sw' mod V). intros r' R'. clear -Hb HV HL HL' D R R'.
    destruct (Z.lt_trichotomy t t') as [L|[L|L]]; [left|contradiction|right]; nia.
  Qed.
End Blocks.

Lemma novec_inside : forall N nb sw st len, 0 < nb -> uses_vector N nb sw st len ->
  0 <= novec_pos N sw st /\ novec_pos N sw st + Z.max 1 len <= 2 * N.
Proof.
  intros N nb sw st len Hb HU. destruct (vector_rows N nb sw st len Hb HU) as (Hs & HL & HN & k & Hk & E & HK).
  assert (st < N) by lia.
  unfold novec_pos. rewrite Z.rem_mod_nonneg by lia. pose proof (Z.mod_pos_bound (sw + 1) 2 ltac:(lia)) as R.
  assert (0 <= st) by nia. generalize dependent ((sw + 1) mod 2). intros q R. nia.
Qed.

Lemma small_tiles : exists nb, 0 < nb /\ forall N sw st,
  findVTsiz N nb (zgesdd_vblksiz nb) = None /\ findVTpos N nb (zgesdd_vblksiz nb) sw st = None.
Proof. exists 3. split; [lia|]. intros N sw st. split; reflexivity. Qed.
