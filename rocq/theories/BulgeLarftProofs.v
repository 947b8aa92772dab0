(* The calls of zlarft cover the vectors of the bulge chasing. *)
From Coq Require Import ZArith List Bool Lia.
From Verif Require Import Base BulgeModel BulgeSpec BulgeProofs.
Import ListNotations.
Open Scope Z_scope.

Section Larft.
  Variables (N nb V : Z).
  Hypothesis Hb : 1 < nb.
  Hypothesis HV : 0 < V.

  Lemma in_calls : N <> 0 -> forall c, In c (larft_calls N nb V) <-> exists j i, 0 <= j < ceildiv (N - 1) V /\
    0 <= i < larft_mt N nb V (ceildiv (N - 1) V) j /\ c = larft_at N nb V (ceildiv (N - 1) V) j i.
  Proof.
    intros HN c. unfold larft_calls. destruct (Z.eqb_spec N 0); [lia|]. destruct (Z.eqb_spec nb 0); [lia|]. destruct (Z.eqb_spec nb 1); [lia|]. cbn [orb].
    rewrite in_flat_map. split.
    - intros (j & Hj & Hi). apply in_zrange in Hj. apply in_map_iff in Hi. destruct Hi as (i & <- & Hi). apply in_zrange in Hi.
      exists j, i. auto.
    - intros (j & i & Hj & Hi & ->). exists j. split; [apply in_zrange; exact Hj|]. apply in_map_iff. exists i.
      split; [reflexivity|apply in_zrange; exact Hi].
  Qed.

  Lemma at_eq : forall nt j i, 0 <= j -> larft_at N nb V nt j i
    = Some {| l_pos := {| p_v := (blocks_before N nb V j + i) * V * (nb + V - 1);
                          p_tau := (blocks_before N nb V j + i) * V;
                          p_t := (blocks_before N nb V j + i) * V * V |};
              l_m := Z.min (nb + V - 1) (N - (j * V + 1 + i * nb));
              l_n := if (j =? nt - 1) && (i =? 0) then Z.min V (Z.min (nb + V - 1) (N - (j * V + 1 + i * nb)))
                     else Z.min V (Z.min (nb + V - 1) (N - (j * V + 1 + i * nb)) - 1) |}.
  Proof.
    intros nt j i Hj. unfold larft_at. rewrite (find_eq N nb V ltac:(lia) HV (j * V) i) by nia.
    unfold block. rewrite Z.div_mul, Z.mod_mul by lia. rewrite !Z.add_0_r. reflexivity.
  Qed.

  Lemma larft_inside : forall c, In c (larft_calls N nb V) -> exists l cnt ld, c = Some l /\ findVTsiz N nb V = Some (cnt, ld) /\
    (0 < l_m l -> 0 < l_n l ->
     l_m l <= ld /\ l_n l <= V /\
     0 <= p_v (l_pos l) /\ p_v (l_pos l) + (l_n l - 1) * ld + l_m l <= ld * cnt * V /\
     0 <= p_tau (l_pos l) /\ p_tau (l_pos l) + l_n l <= cnt * V /\
     0 <= p_t (l_pos l) /\ p_t (l_pos l) + (l_n l - 1) * V + l_n l <= V * cnt * V).
  Proof.
    intros c Hc. assert (HN : N <> 0) by (intros E; rewrite E in Hc; destruct Hc).
    apply (in_calls HN) in Hc. destruct Hc as (j & i & Hj & Hi & ->). rewrite at_eq by lia.
    unfold findVTsiz. destruct (Z.eqb_spec V 0) as [|_]; [lia|]. do 3 eexists. split; [reflexivity|]. split; [reflexivity|].
    cbn [l_pos l_m l_n p_v p_tau p_t].
    assert (TOP : (ceildiv (N - 1) V - 1) * V <= N - 2).
    { assert (ceildiv (N - 1) V - 1 < ceildiv (N - 1) V) as H by lia. apply ceildiv_spec in H; lia. }
    assert (JV : j * V <= N - 2) by nia.
    assert (LO : blocks_before N nb V 0 <= blocks_before N nb V j) by (apply before_mono; nia).
    assert (UP : blocks_before N nb V (j + 1) <= blocks_before N nb V (ceildiv (N - 1) V)) by (apply before_mono; lia).
    rewrite before_step in UP by lia. change (blocks_before N nb V 0) with 0 in LO.
    assert (IB : i <= col_blocks N nb V j).
    { unfold larft_mt in Hi. unfold col_blocks. destruct (j =? _).
      - assert (I1 : i < ceildiv (N - (j * V + 1)) nb) by lia. apply ceildiv_spec in I1; [|lia].
        assert (i - 1 < ceildiv (N - (j * V + 2)) nb) by (apply ceildiv_spec; lia). lia.
      - replace (N - (j * V + 1 + 1)) with (N - (j * V + 2)) in Hi by lia. lia. }
    assert (B : 0 <= blocks_before N nb V j + i <= blocks_before N nb V (ceildiv (N - 1) V)) by lia.
    generalize dependent (blocks_before N nb V j + i). intros B B1. 
    remember (Z.min (nb + V - 1) (N - (j * V + 1 + i * nb))) as Vm eqn:EM.
    assert (M1 : Vm <= nb + V - 1) by lia.
    assert (N1 : (if (j =? ceildiv (N - 1) V - 1) && (i =? 0) then Z.min V Vm else Z.min V (Vm - 1)) <= V) by (destruct (_ && _); lia).
    generalize dependent (if (j =? ceildiv (N - 1) V - 1) && (i =? 0) then Z.min V Vm else Z.min V (Vm - 1)). intros Vn N1.
    generalize dependent (blocks_before N nb V (ceildiv (N - 1) V)). intros T UP B1.
    clear -Hb HV B1 M1 N1. intros P1 P2.
    assert (E : 0 <= B * V /\ B * V + V <= (T + 1) * V) by nia. destruct E as [E0 E1].
    replace ((nb + V - 1) * (T + 1) * V) with ((T + 1) * V * (nb + V - 1)) by ring.
    replace (V * (T + 1) * V) with ((T + 1) * V * V) by ring.
    generalize dependent ((T + 1) * V). intros w E1. generalize dependent (B * V). intros t E0 E1.
    assert (F1 : t * (nb + V - 1) + V * (nb + V - 1) <= w * (nb + V - 1)) by nia.
    assert (F2 : t * V + V * V <= w * V) by nia.
    assert (F3 : (Vn - 1) * (nb + V - 1) + (nb + V - 1) <= V * (nb + V - 1)) by nia.
    assert (F4 : (Vn - 1) * V + V <= V * V) by nia.
    assert (0 <= t * (nb + V - 1)) by nia. assert (0 <= t * V) by nia. lia.
  Qed.

  Lemma larft_covers : forall sw st len p, uses_vector N nb sw st len -> findVTpos N nb V sw st = Some p ->
    exists l j, In (Some l) (larft_calls N nb V) /\ 0 < l_m l /\ 0 <= j < l_n l /\ j + len <= l_m l /\
      p_tau p = p_tau (l_pos l) + j /\ p_v p = p_v (l_pos l) + j * (nb + V - 1) + j.
  Proof.
    intros sw st len p HU EP. destruct (vector_rows N nb sw st len ltac:(lia) HU) as (Hs & HL & HN & k & Hk & -> & HK).
    rewrite (find_eq N nb V ltac:(lia) HV) in EP by lia. injection EP as <-. cbn [p_v p_tau].
    pose proof (Z.mod_pos_bound sw V HV) as R. assert (C0 : 0 <= sw / V) by (apply div_range; lia).
    assert (CL : sw / V < ceildiv (N - 1) V).
    { apply ceildiv_spec; [exact HV|]. assert (sw / V * V <= sw) by (rewrite Z.mul_comm; apply Z.mul_div_le; lia). lia. }
    assert (ES : sw = sw / V * V + sw mod V) by (rewrite Z.mul_comm; apply Z.div_mod; lia).
    assert (TOP : (ceildiv (N - 1) V - 1) * V <= N - 2).
    { assert (ceildiv (N - 1) V - 1 < ceildiv (N - 1) V) as H by lia. apply ceildiv_spec in H; lia. }
    assert (LAST : N - 1 <= ceildiv (N - 1) V * V).
    { assert (~ ceildiv (N - 1) V < ceildiv (N - 1) V) as H by lia. rewrite (ceildiv_spec (N - 1) V) in H by exact HV. lia. }
    assert (HI : 0 <= k < larft_mt N nb V (ceildiv (N - 1) V) (sw / V)).
    { split; [exact Hk|]. unfold larft_mt. destruct (Z.eqb_spec (sw / V) (ceildiv (N - 1) V - 1)) as [EQ|NE].
      - apply ceildiv_spec; [lia|]. destruct HK as [->|HK]; lia.
      - apply ceildiv_spec; [lia|]. destruct HK as [->|HK]; [|lia].
        assert (sw / V * V + V <= (ceildiv (N - 1) V - 1) * V) by nia. lia. }
    exists {| l_pos := {| p_v := (blocks_before N nb V (sw / V) + k) * V * (nb + V - 1);
                          p_tau := (blocks_before N nb V (sw / V) + k) * V;
                          p_t := (blocks_before N nb V (sw / V) + k) * V * V |};
              l_m := Z.min (nb + V - 1) (N - (sw / V * V + 1 + k * nb));
              l_n := if (sw / V =? ceildiv (N - 1) V - 1) && (k =? 0) then Z.min V (Z.min (nb + V - 1) (N - (sw / V * V + 1 + k * nb)))
                     else Z.min V (Z.min (nb + V - 1) (N - (sw / V * V + 1 + k * nb)) - 1) |}, (sw mod V).
    split.
    { apply in_calls; [lia|]. exists (sw / V), k. split; [lia|]. split; [exact HI|]. rewrite at_eq by lia. reflexivity. }
    cbn [l_pos l_m l_n p_v p_tau]. unfold block. split; [destruct HK as [->|HK]; lia|]. split; [|split; [lia|split; [lia|ring]]].
    split; [lia|].
    destruct HK as [->|HK].
    - destruct (Z.eqb_spec (sw / V) (ceildiv (N - 1) V - 1)) as [EQ|NE]; cbn [andb Z.eqb].
      + lia.
      + assert (sw / V * V + V <= (ceildiv (N - 1) V - 1) * V) by nia. lia.
    - destruct (_ && _); lia.
  Qed.

  Lemma larft_distinct : forall j i j' i' l l', let nt := ceildiv (N - 1) V in
    0 <= j < nt -> 0 <= i < larft_mt N nb V nt j -> 0 <= j' < nt -> 0 <= i' < larft_mt N nb V nt j' ->
    larft_at N nb V nt j i = Some l -> larft_at N nb V nt j' i' = Some l' -> (j, i) <> (j', i') ->
    p_t (l_pos l) + V * V <= p_t (l_pos l') \/ p_t (l_pos l') + V * V <= p_t (l_pos l).
  Proof.
    intros j i j' i' l l' nt Hj Hi Hj' Hi' E E' NE. rewrite at_eq in E, E' by lia. injection E as <-. injection E' as <-.
    cbn [l_pos p_t].
    assert (TOP : (nt - 1) * V <= N - 2).
    { assert (nt - 1 < ceildiv (N - 1) V) as H by (unfold nt; lia). apply ceildiv_spec in H; lia. }
    assert (LT : forall a b c d, 0 <= a < nt -> 0 <= b < larft_mt N nb V nt a -> 0 <= c < nt -> 0 <= d -> a < c ->
      blocks_before N nb V a + b < blocks_before N nb V c + d).
    { intros a b c d Ha Hb' Hc Hd HL. unfold larft_mt in Hb'. destruct (Z.eqb_spec a (nt - 1)) as [|_]; [lia|].
      replace (N - (a * V + 1 + 1)) with (N - (a * V + 2)) in Hb' by lia.
      assert (UP : blocks_before N nb V (a + 1) <= blocks_before N nb V c) by (apply before_mono; nia).
      rewrite before_step in UP by lia. unfold col_blocks in UP. lia. }
    assert (D : blocks_before N nb V j + i < blocks_before N nb V j' + i' \/ blocks_before N nb V j' + i' < blocks_before N nb V j + i).
    { destruct (Z.lt_trichotomy j j') as [L|[EQ|L]].
      - left. apply LT; lia.
      - subst j'. assert (i <> i') by (intros ->; apply NE; reflexivity). lia.
      - right. apply LT; lia. }
    clear -HV D. revert D. generalize (blocks_before N nb V j + i) (blocks_before N nb V j' + i'). intros a b D.
    destruct D; [left|right]; nia.
  Qed.
End Larft.
